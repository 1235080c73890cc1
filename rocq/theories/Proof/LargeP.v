(** fft::Large over the integers modulo any [m] (Model/Large.v). *)
Set Warnings "-notation-overridden,-ambiguous-paths".
From Coq Require Import NArith ZArith.
From Coq Require List.
From mathcomp Require Import all_ssreflect ssralg zmodp.
From mathcomp Require Import zify.
From Verif.Model Require Import Common Arith Ring Large.
From Verif.Spec Require Import Modular.
From Verif.Proof Require Import ArithP EgcdP ListP FieldP LargeB.
Import GRing.Theory.
Local Open Scope ring_scope.

Notation lnth := List.nth.

(** ** Sums of powers in a commutative ring *)
Section Ring.
Variables (R : comRingType) (w : R) (l : nat).

Lemma sum_halves (f : nat -> R) m : \sum_(t < 2 * m) f t = \sum_(t < m) (f t.*2 + f t.*2.+1).
Proof.
elim: m => [|m IH]; first by rewrite muln0 !big_ord0.
rewrite (_ : (2 * m.+1 = (2 * m).+2)%N); last by lia.
by rewrite !big_ord_recr /= IH addrA -!mul2n.
Qed.

Definition rdft (x : nat -> R) (n j : nat) : R := \sum_(i < n) x i * w ^+ (i * j).

Lemma row_step (x : nat -> R) k d r r' b jm : w ^+ (2 ^ l) = 1 -> (k.+1 + d = l)%N -> (r = r' + b * 2 ^ k)%N ->
  \sum_(t < 2 ^ k.+1) x (t * 2 ^ d + jm)%N * w ^+ (2 ^ d * t * r) =
  w ^+ (r * 2 ^ d) * (\sum_(t < 2 ^ k) x (t * 2 ^ d.+1 + (2 ^ d + jm))%N * w ^+ (2 ^ d.+1 * t * r'))
  + \sum_(t < 2 ^ k) x (t * 2 ^ d.+1 + jm)%N * w ^+ (2 ^ d.+1 * t * r').
Proof.
move=> w1 Ek Er; have El : (2 ^ l = 2 * 2 ^ k * 2 ^ d)%N by rewrite -Ek addSn expnS expnD mulnA.
rewrite expnS (sum_halves (fun t => x (t * 2 ^ d + jm)%N * w ^+ (2 ^ d * t * r))).
rewrite big_split /= addrC mulr_sumr; congr (_ + _); apply: eq_bigr => t _.
- rewrite mulrCA -exprD; congr (x _ * _); first by rewrite !expnS; lia.
  have -> : (2 ^ d * t.*2.+1 * r = (r * 2 ^ d + 2 ^ d.+1 * t * r') + 2 ^ l * (t * b))%N.
    by rewrite El expnS Er -mul2n; lia.
  by rewrite [in LHS]exprD (exprM w (2 ^ l)) w1 expr1n mulr1.
- congr (x _ * _); first by rewrite !expnS; lia.
  have -> : (2 ^ d * t.*2 * r = 2 ^ d.+1 * t * r' + 2 ^ l * (t * b))%N.
    by rewrite El expnS Er -mul2n; lia.
  by rewrite [in LHS]exprD (exprM w (2 ^ l)) w1 expr1n mulr1.
Qed.

Lemma sum_pow_double (z : R) k : \sum_(j < 2 ^ k.+1) z ^+ j = (\sum_(j < 2 ^ k) z ^+ j) * (1 + z ^+ (2 ^ k)).
Proof.
rewrite expnS mul2n -addnn big_split_ord /= mulrDr mulr1; congr (_ + _).
by rewrite mulr_suml; apply: eq_bigr => j _; rewrite addnC exprD.
Qed.

Lemma sum_pow0 (z : R) i : forall k, (i < k)%N -> z ^+ (2 ^ i) = -1 -> \sum_(j < 2 ^ k) z ^+ j = 0.
Proof.
elim=> [//|k IH] Hi E; rewrite sum_pow_double.
case: (ltngtP i k) => H; [by rewrite IH // mul0r|lia|by rewrite -H E subrr mulr0].
Qed.

Hypothesis l0 : (0 < l)%N.
Hypothesis wh : w ^+ (2 ^ l.-1) = -1.

Lemma wn1 : w ^+ (2 ^ l) = 1.
Proof. by rewrite -(prednK l0) expnS mulnC exprM wh sqrrN expr1n. Qed.

Lemma sum_root d : \sum_(j < 2 ^ l) w ^+ (d * j) = if (2 ^ l %| d)%N then (2 ^ l)%:R else 0.
Proof.
case: ifPn => [/dvdnP [c ->]|N].
  rewrite (eq_bigr (fun=> 1)); last by move=> j _; rewrite (mulnC c) -mulnA exprM wn1 expr1n.
  by rewrite sumr_const card_ord.
have d0 : (0 < d)%N by case: d N; rewrite ?dvdn0.
rewrite (eq_bigr (fun j : 'I_(2 ^ l) => (w ^+ d) ^+ j)); last by move=> j _; rewrite exprM.
have [q Hq Ed] := pfactor_coprime (isT : prime 2) d0.
set v := logn 2 d in Ed.
have vl : (v < l)%N.
  rewrite ltnNge; apply: contra N => H; rewrite Ed; apply: dvdn_mull; exact: dvdn_exp2l.
apply: (sum_pow0 _ (l.-1 - v)); first by lia.
rewrite -exprM Ed -mulnA -expnD (_ : (v + (l.-1 - v) = l.-1)%N); last by lia.
rewrite mulnC exprM wh; have Oq : odd q by rewrite -coprime2n.
by rewrite -signr_odd Oq expr1.
Qed.

(** The transform by the inverse root undoes the transform, up to the factor [n]. *)
Lemma root_mod n a i : (0 < n)%N -> (n %| a + n.-1 * i)%N = (a == i %[mod n]).
Proof.
move=> n0; have -> : (n %| a + n.-1 * i)%N = (a + n.-1 * i == 0 %[mod n]) by rewrite mod0n.
rewrite -(eqn_modDr i) add0n -addnA -mulSnr prednK // (mulnC n) addnC modnMDl //.
Qed.

Lemma conv_mod n s t i : (s < n)%N -> (t < n)%N -> (i < n)%N -> (s + t == i %[mod n]) = (t == (i + n - s) %% n)%N.
Proof.
move=> Hs Ht Hi; have -> : (t == (i + n - s) %% n)%N = (t == i + n - s %[mod n]) by rewrite (modn_small Ht).
rewrite -[in RHS](eqn_modDl s) (_ : (s + (i + n - s) = i + n)%N); last by lia.
by rewrite modnDr.
Qed.

Notation n := (2 ^ l)%N.

Lemma inv_dft x i : (i < n)%N -> \sum_(j < n) rdft x n j * (w ^+ n.-1) ^+ (j * i) = n%:R * x i.
Proof.
move=> Hi; have n0 : (0 < n)%N by rewrite expn_gt0.
transitivity (\sum_(t < n) x t * (\sum_(j < n) w ^+ ((t + n.-1 * i) * j))).
  rewrite (eq_bigr (fun j : 'I_n => \sum_(t < n) x t * w ^+ ((t + n.-1 * i) * j))); last first.
    move=> j _; rewrite /rdft mulr_suml; apply: eq_bigr => t _.
    by rewrite -mulrA -exprM -exprD; congr (_ * _ ^+ _); lia.
  by rewrite exchange_big /=; apply: eq_bigr => t _; rewrite mulr_sumr.
rewrite (bigD1 (Ordinal Hi)) //= sum_root root_mod // eqxx big1 ?addr0 1?mulrC // => t Ht.
rewrite sum_root root_mod // !modn_small // ifN ?mulr0 //.
Qed.

Lemma inv_conv x y i : (i < n)%N ->
  \sum_(j < n) (rdft x n j * rdft y n j) * (w ^+ n.-1) ^+ (j * i) = n%:R * \sum_(s < n) x s * y ((i + n - s) %% n)%N.
Proof.
move=> Hi; have n0 : (0 < n)%N by rewrite expn_gt0.
transitivity (\sum_(s < n) \sum_(t < n) x s * y t * (\sum_(j < n) w ^+ ((s + t + n.-1 * i) * j))).
  rewrite (eq_bigr (fun j : 'I_n => \sum_(s < n) \sum_(t < n) x s * y t * w ^+ ((s + t + n.-1 * i) * j))); last first.
    move=> j _; rewrite /rdft -mulrA mulr_suml; apply: eq_bigr => s _.
    rewrite mulr_suml mulr_sumr; apply: eq_bigr => t _.
    by rewrite -exprM !mulrA (mulrAC (x s)) -!mulrA -!exprD; congr (_ * (_ * _ ^+ _)); lia.
  rewrite exchange_big /=; apply: eq_bigr => s _; rewrite exchange_big /=; apply: eq_bigr => t _.
  by rewrite mulr_sumr.
rewrite mulr_sumr; apply: eq_bigr => s _.
have Hu : ((i + n - s) %% n < n)%N by rewrite ltn_mod.
rewrite (bigD1 (Ordinal Hu)) //= sum_root root_mod // conv_mod // eqxx big1 ?addr0 1?mulrC // => t Ht.
rewrite sum_root root_mod // conv_mod // ifN ?mulr0 //.
Qed.
End Ring.

(** ** The integers modulo [m] *)
Section Mod.
Variable m : N.
Hypothesis m1 : (1 < m)%num.

Definition Zm := [comRingType of 'Z_(N.to_nat m)].
Definition zphi (a : N) : Zm := (N.to_nat a)%:R.

Let m1' : (1 < N.to_nat m)%N.
Proof. lia. Qed.

Lemma zphi_add a b : zphi (a + b) = zphi a + zphi b.
Proof. by rewrite /zphi N2Nat.inj_add natrD. Qed.
Lemma zphi_mul a b : zphi (a * b) = zphi a * zphi b.
Proof. by rewrite /zphi N2Nat.inj_mul natrM. Qed.
Lemma zphi_m : zphi m = 0.
Proof. by rewrite /zphi char_Zp. Qed.
Lemma zphi_mod a : zphi (a mod m) = zphi a.
Proof.
have E : a = (m * (a / m) + a mod m)%num by apply: N.div_mod; lia.
by rewrite [in RHS]E zphi_add zphi_mul zphi_m mul0r add0r.
Qed.
Lemma zphi_inj a b : (a < m)%num -> (b < m)%num -> zphi a = zphi b -> a = b.
Proof.
move=> Ha Hb E; have := congr1 (@nat_of_ord _) E.
rewrite /zphi /= !val_Zp_nat // !modn_small; lia.
Qed.
Lemma zphi_eq a b : zphi a = zphi b <-> (a mod m = b mod m)%num.
Proof.
split=> [E|E]; last by rewrite -zphi_mod E zphi_mod.
by apply: zphi_inj; rewrite ?zphi_mod //; apply: N.mod_upper_bound; lia.
Qed.
Lemma zphi_pow a e : zphi (a ^ e) = zphi a ^+ N.to_nat e.
Proof.
elim/N.peano_ind: e => [|e IH]; first by rewrite N.pow_0_r expr0.
by rewrite N.pow_succ_r' zphi_mul IH N2Nat.inj_succ exprS.
Qed.
Lemma zphi_sum f n : zphi (sumN f n) = \sum_(i < n) zphi (f i).
Proof.
elim: n => [|n IH]; first by rewrite big_ord0.
by rewrite big_ord_recr /= zphi_add IH.
Qed.
Lemma zphi_dft w n x j : zphi (dft_mod m w n x j) = rdft Zm (zphi w) (fun i => zphi (lnth i x 0%num)) n j.
Proof.
rewrite /dft_mod zphi_mod zphi_sum /rdft; apply: eq_bigr => i _.
by rewrite zphi_mul zphi_pow Nat2N.id.
Qed.

Variable tw : N.
Hypothesis mw : (m < 2 ^ tw)%num.

Lemma zmul a b : (a < m)%num -> (b < m)%num -> ring_mul tw m a b = ((a * b) mod m)%num.
Proof.
move=> Ha Hb; rewrite /ring_mul.
have M : (a * b < 2 ^ (2 * tw))%num.
  rewrite (_ : 2 * tw = tw + tw)%num; last lia.
  rewrite N.pow_add_r; move: (2 ^ tw)%num mw => q Hq; nia.
rewrite (wrap_small (2 * tw)) // wrap_small //.
have := N.mod_upper_bound (a * b) m; lia.
Qed.

Lemma zexp a e : (a < m)%num -> ring_exp tw m a e = (a ^ e mod m)%num.
Proof.
move=> Ha; have L : forall x, (x mod m < m)%num by move=> x; apply: N.mod_upper_bound; lia.
have [H1 H2] : (ring_exp tw m a e < m)%num /\ zphi (ring_exp tw m a e) = zphi a ^+ N.to_nat e.
  apply: (exp_quick_pres Zm (fun x => x < m)%num zphi) => //.
  by move=> x y Hx Hy; rewrite zmul //; split=> //; rewrite zphi_mod zphi_mul.
by apply: zphi_inj => //; rewrite H2 zphi_mod zphi_pow.
Qed.

Lemma zinv a : N.gcd a m = 1%num -> (inv_bezout tw m a < m)%num /\ ((a * inv_bezout tw m a) mod m = 1)%num.
Proof.
move=> G; rewrite /inv_bezout.
have [st [-> [Hi [Hr Hg]]]] := extended_gcd_ok (Z.of_N a) (Z.of_N m) ltac:(lia) ltac:(lia).
have G1 : Z.gcd (Z.of_N a) (Z.of_N m) = 1%Z.
  by move: G; have := Z.gcd_nonneg (Z.of_N a) (Z.of_N m); case: (a) (m) => [|x] [|y] //= _; [case|case|move=> E]; lia.
rewrite G1 in Hg.
have B := ei_bez1 _ _ _ Hi; rewrite Hg in B.
have [_ [Bos _]] := ei_bnd _ _ _ Hi.
set os := e_os st in B Bos *; set ot := e_ot st in B *.
have Pz : (1 < Z.of_N m)%Z by lia.
have Neq : (os <> Z.of_N m /\ os <> - Z.of_N m)%Z.
  split=> E; rewrite E in B.
  - have : (Z.of_N m * (Z.of_N a + ot) = 1)%Z by rewrite -B; ring.
    by case/Z.eq_mul_1 => ?; lia.
  - have : (Z.of_N m * (ot - Z.of_N a) = 1)%Z by rewrite -B; ring.
    by case/Z.eq_mul_1 => ?; lia.
set b' := (if Z.ltb _ _ then _ else _).
have Hb : (0 <= b' < Z.of_N m)%Z by rewrite /b'; case: Z.ltb_spec; lia.
have Hw2 : (Z.of_N m < 2 ^ Z.of_N tw)%Z.
  have -> : (2 ^ Z.of_N tw = Z.of_N (2 ^ tw))%Z by rewrite N2Z.inj_pow.
  lia.
rewrite Z.mod_small; last lia.
split; first lia.
have [c Hc] : exists c, (Z.of_N a * b' = 1 + Z.of_N m * c)%Z.
  rewrite /b'; case: Z.ltb_spec => _; last by exists (- ot)%Z; rewrite -B; ring.
  by exists (Z.of_N a - ot)%Z; rewrite -B; ring.
have C0 : (0 <= c)%Z.
  have : (0 <= Z.of_N a * b')%Z by apply: Z.mul_nonneg_nonneg; lia.
  by rewrite Hc; move: Pz; clear; move: (Z.of_N m) => x; nia.
symmetry; apply: (N.mod_unique _ _ (Z.to_N c)); first lia.
apply: N2Z.inj; rewrite N2Z.inj_add !N2Z.inj_mul !Z2N.id; lia.
Qed.
End Mod.
