(** The modelled integers modulo [p] present the mathcomp field 'F_p (gf_ring.h, gf_prime.h). *)
Set Warnings "-notation-overridden,-ambiguous-paths".
From Coq Require Import NArith ZArith.
From Verif.Proof Require Import FinF.
From mathcomp Require Import all_ssreflect fingroup ssralg zmodp finalg.
From mathcomp Require Import zify.
From Verif.Model Require Import Common Arith Ring Fft2n.
From Verif.Spec Require Import Primes.
From Verif.Proof Require Import ArithP EgcdP PrimeP Pres.
Import GRing.Theory.
Local Open Scope ring_scope.

(** Primality of [N] numbers and of [nat] numbers. *)
Lemma primeN_prime p : primeN p <-> prime (N.to_nat p).
Proof.
split.
- move=> [H1 H]; apply/primeP; split; first lia.
  move=> d /dvdnP[q Hq]; have Hd : N.divide (N.of_nat d) p by exists (N.of_nat q); lia.
  by case: (H _ Hd) => E; apply/orP; [left|right]; apply/eqP; lia.
- move/primeP => [H1 H]; split; first lia.
  move=> d [q Hq]; have Hd : (N.to_nat d %| N.to_nat p)%N by apply/dvdnP; exists (N.to_nat q); lia.
  by case/orP: (H _ Hd) => /eqP E; [left|right]; lia.
Qed.

(** Quick exponentiation with any multiplication that presents one. *)
Lemma exp_quick_pres (R : ringType) (v : N -> Prop) (phi : N -> R) (mul : N -> N -> N) :
  v 1%num -> phi 1%num = 1 ->
  (forall a b, v a -> v b -> v (mul a b) /\ phi (mul a b) = phi a * phi b) ->
  forall a e, v a -> v (exp_quick mul a e) /\ phi (exp_quick mul a e) = phi a ^+ N.to_nat e.
Proof.
move=> v1 p1 Hm a [|e] Ha /=; first by rewrite expr0.
elim: e => [e [IH1 IH2]|e [IH1 IH2]|] /=.
- have [M1 E1] := Hm _ _ IH1 IH1; have [M2 E2] := Hm _ _ M1 Ha; split=> //.
  rewrite E2 E1 IH2 -exprD -exprSr; congr (_ ^+ _); lia.
- have [M1 E1] := Hm _ _ IH1 IH1; split=> //; rewrite E1 IH2 -exprD; congr (_ ^+ _); lia.
- by rewrite Pos2Nat.inj_1 expr1.
Qed.

Section Prime.
Variables (w p : N).
Hypothesis pp : primeN p.

Definition Fpp := [fieldType of 'F_(N.to_nat p)].
Definition phi (a : N) : Fpp := (N.to_nat a)%:R.

Let pr : prime (N.to_nat p).
Proof. exact/primeN_prime. Qed.
Let p2 : (1 < p)%num.
Proof. by case: pp. Qed.

Lemma phi_add a b : phi (a + b) = phi a + phi b.
Proof. by rewrite /phi N2Nat.inj_add natrD. Qed.
Lemma phi_mul a b : phi (a * b) = phi a * phi b.
Proof. by rewrite /phi N2Nat.inj_mul natrM. Qed.
Lemma phi_p : phi p = 0.
Proof. by rewrite /phi; apply/eqP; rewrite -(dvdn_charf (char_Fp pr)). Qed.
Lemma phi_0 : phi 0 = 0. Proof. by []. Qed.
Lemma phi_1 : phi 1 = 1. Proof. by []. Qed.
Lemma phi_mod a : phi (a mod p) = phi a.
Proof.
have E : a = (p * (a / p) + a mod p)%num by apply: N.div_mod; lia.
by rewrite [in RHS]E phi_add phi_mul phi_p mul0r add0r.
Qed.
Lemma phi_inj a b : (a < p)%num -> (b < p)%num -> phi a = phi b -> a = b.
Proof.
move=> Ha Hb E; have := congr1 (@nat_of_ord _) E.
rewrite /phi /= !val_Fp_nat // !modn_small; lia.
Qed.
Lemma phi_neq0 a : (a < p)%num -> a <> 0%num -> phi a != 0.
Proof. by move=> Ha H; apply/eqP => E; apply: H; apply: phi_inj => //; lia. Qed.
Lemma phi_surj (x : Fpp) : exists a, (a < p)%num /\ phi a = x.
Proof.
exists (N.of_nat x); split; first by have := ltn_ord x; rewrite [X in (_ < X)%N]Fp_cast //; lia.
rewrite /phi Nat2N.id; apply: val_inj; rewrite /= val_Fp_nat // modn_small //.
by have := ltn_ord x; rewrite [X in (_ < X)%N -> _]Fp_cast.
Qed.

Hypothesis pw : (2 * p <= 2 ^ w)%num.

Lemma ring_addE a b : (a < p)%num -> (b < p)%num -> ring_add w p a b = ((a + b) mod p)%num.
Proof.
move=> Ha Hb; rewrite /ring_add wrap_small; last lia.
case: N.leb_spec => H; last by rewrite N.mod_small.
by apply: (N.mod_unique _ _ 1); lia.
Qed.
Lemma ring_subE a b : (a < p)%num -> (b < p)%num -> ring_sub w p a b = ((a + p - b) mod p)%num.
Proof.
move=> Ha Hb; rewrite /ring_sub; case: N.leb_spec => H.
  by apply: (N.mod_unique _ _ 1); lia.
by rewrite N.mod_small; lia.
Qed.
Lemma ring_mulE a b : (a < p)%num -> (b < p)%num -> ring_mul w p a b = ((a * b) mod p)%num.
Proof.
move=> Ha Hb; rewrite /ring_mul.
have M : (a * b < 2 ^ (2 * w))%num.
  rewrite (_ : 2 * w = w + w)%num; last lia.
  rewrite N.pow_add_r; move: (2 ^ w)%num pw => q Hq; nia.
rewrite (wrap_small (2 * w)) // wrap_small //.
have := N.mod_upper_bound (a * b) p; lia.
Qed.
Lemma ring_negE a : (a < p)%num -> ring_neg w p a = ((p - a) mod p)%num.
Proof. by move=> Ha; rewrite /ring_neg ring_subE ?N.add_0_l //; lia. Qed.

Lemma modp_lt a : (a mod p < p)%num.
Proof. by apply: N.mod_upper_bound; lia. Qed.

Lemma ring_expE a e : (a < p)%num -> (ring_exp w p a e < p)%num /\ phi (ring_exp w p a e) = phi a ^+ N.to_nat e.
Proof.
move=> Ha; apply: (exp_quick_pres Fpp (fun x => x < p)%num phi) => //.
by move=> x y Hx Hy; rewrite ring_mulE //; split; [exact: modp_lt|rewrite phi_mod phi_mul].
Qed.

Lemma ring_exp_pow a e : (a < p)%num -> ring_exp w p a e = (a ^ e mod p)%num.
Proof.
move=> Ha; have [H1 H2] := ring_expE a e Ha.
apply: phi_inj => //; first exact: modp_lt.
rewrite H2 phi_mod; elim/N.peano_ind: e {H1 H2} => [|e IH]; first by rewrite N.pow_0_r expr0.
by rewrite N.pow_succ_r' phi_mul -IH N2Nat.inj_succ exprS.
Qed.

(** The inverse through the extended Euclid algorithm. *)
Lemma inv_bezoutE a : (a < p)%num -> a <> 0%num ->
  (inv_bezout w p a < p)%num /\ ((a * inv_bezout w p a) mod p = 1)%num.
Proof.
move=> Ha Ha0; rewrite /inv_bezout.
have [st [-> [Hi [Hr Hg]]]] := extended_gcd_ok (Z.of_N a) (Z.of_N p) ltac:(lia) ltac:(lia).
have G1 : Z.gcd (Z.of_N a) (Z.of_N p) = 1%Z.
  have E : N.gcd a p = 1%num.
    have [_ /(_ _ (N.gcd_divide_r a p))[//|E]] := pp.
    have := N.divide_pos_le (N.gcd a p) a ltac:(lia) (N.gcd_divide_l a p); lia.
  by rewrite -(N2Z.id a) -(N2Z.id p) in E; move: E; rewrite !N2Z.id; have := Z.gcd_nonneg (Z.of_N a) (Z.of_N p); case: (a) (p) => [|x] [|y] //= _; [case|case|move=> E]; lia.
rewrite G1 in Hg.
have B := ei_bez1 _ _ _ Hi; rewrite Hg in B.
have [_ [Bos _]] := ei_bnd _ _ _ Hi.
set os := e_os st in B Bos *; set ot := e_ot st in B *.
have Pz : (1 < Z.of_N p)%Z by lia.
have Neq : (os <> Z.of_N p /\ os <> - Z.of_N p)%Z.
  split=> E; rewrite E in B.
  - have : (Z.of_N p * (Z.of_N a + ot) = 1)%Z by rewrite -B; ring.
    by case/Z.eq_mul_1 => ?; lia.
  - have : (Z.of_N p * (ot - Z.of_N a) = 1)%Z by rewrite -B; ring.
    by case/Z.eq_mul_1 => ?; lia.
set b' := (if Z.ltb _ _ then _ else _).
have Hb : (0 <= b' < Z.of_N p)%Z by rewrite /b'; case: Z.ltb_spec; lia.
have Hw2 : (Z.of_N p < 2 ^ Z.of_N w)%Z.
  have -> : (2 ^ Z.of_N w = Z.of_N (2 ^ w))%Z by rewrite N2Z.inj_pow.
  lia.
rewrite Z.mod_small; last lia.
split; first lia.
have [c Hc] : exists c, (Z.of_N a * b' = 1 + Z.of_N p * c)%Z.
  rewrite /b'; case: Z.ltb_spec => _; last by exists (- ot)%Z; rewrite -B; ring.
  by exists (Z.of_N a - ot)%Z; rewrite -B; ring.
have C0 : (0 <= c)%Z by move: Hb Hc Ha Ha0 Pz; clear; move: (Z.of_N p) => x; nia.
symmetry; apply: (N.mod_unique _ _ (Z.to_N c)); first lia.
apply: N2Z.inj; rewrite N2Z.inj_add !N2Z.inj_mul !Z2N.id; lia.
Qed.

Lemma inv_bezout_phi a : (a < p)%num -> a <> 0%num ->
  (inv_bezout w p a < p)%num /\ phi (inv_bezout w p a) = (phi a)^-1.
Proof.
move=> Ha H0; have [H1 H2] := inv_bezoutE a Ha H0; split=> //.
apply: (mulfI (phi_neq0 a Ha H0)); rewrite divff ?phi_neq0 //.
by rewrite -phi_mul -phi_mod H2.
Qed.

Theorem prime_pres : gf_pres Fpp (prime_ops w p) phi.
Proof.
split; rewrite /gvalid /=.
- exact: p2.
- exact: phi_inj.
- exact: phi_0.
- exact: phi_1.
- by move=> a b Ha Hb; rewrite ring_addE //; split; [exact: modp_lt|rewrite phi_mod phi_add].
- move=> a b Ha Hb; rewrite ring_subE //; split; first exact: modp_lt.
  rewrite phi_mod; apply: (addIr (phi b)); rewrite -phi_add subrK.
  by rewrite (_ : a + p - b + b = a + p)%num; [rewrite phi_add phi_p addr0|lia].
- by move=> a b Ha Hb; rewrite ring_mulE //; split; [exact: modp_lt|rewrite phi_mod phi_mul].
- move=> a Ha; rewrite ring_negE //; split; first exact: modp_lt.
  rewrite phi_mod; apply: (addIr (phi a)); rewrite -phi_add addNr.
  by rewrite (_ : p - a + a = p)%num; [exact: phi_p|lia].
- exact: inv_bezout_phi.
- by move=> a e Ha _; apply: ring_expE.
Qed.

(** gf_prime.h:63-68 gives the same inverse (Fermat). *)
Lemma inv_expE a : (a < p)%num -> a <> 0%num -> inv_exp w p a = inv_bezout w p a.
Proof.
move=> Ha H0; have [B1 B2] := inv_bezout_phi a Ha H0.
have [E1 E2] := ring_expE a (p - 2) Ha.
apply: phi_inj => //; rewrite /inv_exp E2 B2.
apply: (mulfI (phi_neq0 a Ha H0)); rewrite divff ?phi_neq0 //.
rewrite -exprS.
have U : phi a \is a GRing.unit by rewrite unitfE phi_neq0.
have := @expf_card _ (phi a : 'F_(N.to_nat p)); rewrite card_Fp // => E.
apply: (mulfI (phi_neq0 a Ha H0)); rewrite -exprS mulr1.
by rewrite [RHS](esym E); congr (_ ^+ _); lia.
Qed.

Lemma ring_divE a b : (a < p)%num -> (b < p)%num -> b <> 0%num ->
  (ring_div w p a b < p)%num /\ phi (ring_div w p a b) = phi a / phi b.
Proof.
move=> Ha Hb H0; rewrite /ring_div; have [H1 H2] := inv_bezout_phi b Hb H0.
by rewrite ring_mulE //; split; [exact: modp_lt|rewrite phi_mod phi_mul H2].
Qed.

End Prime.
