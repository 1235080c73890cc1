(** The Legendre symbol of Spec/Legendre.v. *)
Set Warnings "-notation-overridden,-ambiguous-paths".
From Coq Require Import NArith ZArith.
From Coq Require List.
From mathcomp Require Import all_ssreflect fingroup ssralg poly cyclic zmodp finalg.
From mathcomp Require Import zify.
From Verif.Spec Require Import Primes Legendre.
From Verif.Proof Require Import PrimeP FieldP Recip.
Import GRing.Theory.

Lemma nres_mod p a : nres p (a %% p) = nres p a.
Proof. by rewrite /nres; congr odd; apply: eq_bigr => x _; rewrite /r modnMml. Qed.
Lemma nat_eqF p m n : prime p -> ((m%:R : 'F_p) == n%:R)%R = (m == n %[mod p]).
Proof. by move=> Pp; rewrite -val_eqE /= !val_Fp_nat. Qed.

Lemma odd_to_nat p : N.odd p = true -> odd (N.to_nat p).
Proof. by case/N.odd_spec => q ->; lia. Qed.

Lemma modn_Z X p : (0 < p)%num -> Z.of_nat (X %% N.to_nat p) = (Z.of_nat X mod Z.of_N p)%Z.
Proof.
move=> p0; apply: (Z.mod_unique _ _ (Z.of_nat (X %/ N.to_nat p))).
  by left; have := ltn_pmod X (d := N.to_nat p); lia.
by have := divn_eq X (N.to_nat p); move: (X %/ _) (X %% _) => a b ->; nia.
Qed.

Lemma dvdn_modr d m : (d %| m %% d) = (d %| m).
Proof. by rewrite /dvdn modn_mod. Qed.

Lemma pow_Z m k : Z.of_nat (m ^ k) = (Z.of_nat m ^ Z.of_nat k)%Z.
Proof. by elim: k => [|k IH]; [rewrite expn0|rewrite expnS Nat2Z.inj_mul IH Nat2Z.inj_succ Z.pow_succ_r //; lia]. Qed.

Section P.
Variable p : N.
Hypothesis Pp : primeN p.
Hypothesis Op : N.odd p = true.
Notation n := (N.to_nat p).
Notation z := (Z.of_N p).
Let pn : prime n.
Proof. by apply/primeN_prime. Qed.
Let on : odd n.
Proof. exact: odd_to_nat. Qed.
Let p1 : (1 < p)%num.
Proof. by case: Pp. Qed.
Definition na (a : Z) : nat := Z.to_nat (a mod z).

Lemma na_0 a : (n %| na a) = (a mod z =? 0)%Z.
Proof.
have H := Z.mod_pos_bound a z ltac:(lia); rewrite /na.
apply/idP/idP; last by move/Z.eqb_spec => ->; rewrite dvdn0.
case: (posnP (Z.to_nat (a mod z))) => [E _|H0 /(dvdn_leq H0)]; [apply/Z.eqb_spec|]; lia.
Qed.

Lemma legendre_nres a : legendre a z = if n %| na a then 0%Z else if nres n (na a) then (-1)%Z else 1%Z.
Proof.
rewrite /legendre -na_0; case: ifP => // /negbT Ha; rewrite (euler n pn on _ Ha).
have H := Z.mod_pos_bound a z ltac:(lia).
suff -> : residueb a z = [exists y : 'F_n, (y ^+ 2 == (na a)%:R)%R] by case: [exists y, _].
have key : forall x : nat, ((Z.of_nat x * Z.of_nat x - a) mod z =? 0)%Z = (((x%:R : 'F_n) ^+ 2)%R == (na a)%:R%R).
  move=> x; rewrite -natrX nat_eqF // /na.
  have E : (Z.of_nat x * Z.of_nat x - a = Z.of_nat (x ^ 2) - a mod z - z * (a / z))%Z.
    by have := Z.div_mod a z ltac:(lia); rewrite -mulnn Nat2Z.inj_mul; move: (a / z)%Z (a mod z)%Z => u v ->; ring.
  have -> : ((Z.of_nat x * Z.of_nat x - a) mod z = (Z.of_nat (x ^ 2) - a mod z) mod z)%Z.
    rewrite E; move: (Z.of_nat (x ^ 2) - a mod z)%Z (a / z)%Z => u v.
    have -> : (u - z * v = u + (- v) * z)%Z by ring.
    by apply: Z.mod_add; lia.
  move: (x ^ 2)%N (a mod z)%Z H => X A H {E}.
  apply/idP/idP.
  - move/Z.eqb_spec/Z.mod_divide => /(_ ltac:(lia)) [c Hc].
    apply/eqP; rewrite -[Z.to_nat A]addn0.
    have EX : (Z.of_nat X = c * z + A)%Z by lia.
    have c0 : (0 <= c)%Z by nia.
    have -> : X = (Z.to_nat c * n + Z.to_nat A)%N by nia.
    by rewrite modnMDl addn0.
  - move/eqP => M; apply/Z.eqb_spec.
    rewrite [Z.to_nat A %% n]modn_small in M; last lia.
    have := divn_eq X n; rewrite M => EX.
    have -> : (Z.of_nat X - A = Z.of_nat (X %/ n) * z)%Z by lia.
    by apply: Z.mod_mul; lia.
rewrite /residueb; apply/idP/existsP.
- by case/List.existsb_exists => x [_]; rewrite key => E; exists (x%:R)%R.
- case=> y Hy; apply/List.existsb_exists; exists (nat_of_ord y); split.
    apply/List.in_seq; have := ltn_ord y; rewrite [X in (_ < X)%N]Fp_cast //; lia.
  by rewrite key natr_Zp.
Qed.

Lemma na_mul a b : na (a * b) = ((na a * na b) %% n)%N.
Proof.
have Ha := Z.mod_pos_bound a z ltac:(lia); have Hb := Z.mod_pos_bound b z ltac:(lia).
rewrite /na Z.mul_mod; last lia.
move: (a mod z)%Z (b mod z)%Z Ha Hb => A B' Ha Hb.
rewrite -{1}(Z2Nat.id A); last lia; rewrite -{1}(Z2Nat.id B'); last lia.
by rewrite -Nat2Z.inj_mul -modn_Z ?Nat2Z.id //; lia.
Qed.

Lemma legendre_mul a b : legendre (a * b) z = (legendre a z * legendre b z)%Z.
Proof.
rewrite !legendre_nres na_mul nres_mod dvdn_modr Euclid_dvdM //.
case: ifP => /=; first by case/orP => ->; [|rewrite Z.mul_0_r].
move/negbT; rewrite negb_or => /andP[Ha Hb]; rewrite (negbTE Ha) (negbTE Hb) nres_mul //.
by case: (nres n (na a)); case: (nres n (na b)).
Qed.
Lemma legendre_mod a b : (a mod z = b mod z)%Z -> legendre a z = legendre b z.
Proof. by move=> E; rewrite !legendre_nres /na E. Qed.
Lemma legendre_1 : legendre 1 z = 1%Z.
Proof.
have := legendre_mul 1 1; rewrite Z.mul_1_l => E.
have : legendre 1 z <> 0%Z by rewrite /legendre Z.mod_small; [case: residueb | lia].
by nia.
Qed.
Lemma nonresidue : exists g, legendre g z = (-1)%Z.
Proof.
have [a /andP[Ha Na]] := nres_exists n pn on; exists (Z.of_nat a).
have E : na (Z.of_nat a) = (a %% n)%N by rewrite /na -modn_Z ?Nat2Z.id //; lia.
by rewrite legendre_nres E dvdn_modr (negbTE Ha) nres_mod Na.
Qed.
Lemma euler_nat a : (((na a) ^ n./2)%:R : 'F_n)%R = (if n %| na a then 0 else if nres n (na a) then (n.-1)%:R else 1)%R.
Proof.
have h0 : (0 < n./2)%N by lia.
case: ifP => [D|/negbT Ha].
  by apply/eqP; rewrite -[0%R]/(0%:R)%R nat_eqF // mod0n -/(dvdn _ _) Euclid_dvdX // D h0.
rewrite natrX (gauss n pn on _ Ha); case: nres; last by rewrite expr0.
rewrite expr1; apply/eqP; rewrite eq_sym -subr_eq0 opprK -[X in (_ + X)%R]/(1%:R)%R -natrD addn1 prednK; last lia.
by rewrite -[0%R]/(0%:R)%R nat_eqF // modnn mod0n.
Qed.
Lemma euler_Z a : (0 <= a < z)%Z -> ((a ^ ((z - 1) / 2)) mod z = (legendre a z) mod z)%Z.
Proof.
move=> H; have Eh : ((z - 1) / 2 = Z.of_nat n./2)%Z by lia.
have Ek : (a ^ Z.of_nat n./2 = Z.of_nat (na a ^ n./2))%Z by rewrite pow_Z /na Z.mod_small // Z2Nat.id //; lia.
have p0 : (0 < p)%num by lia.
rewrite Eh Ek -modn_Z // legendre_nres; have := euler_nat a; case: ifP => _.
  by move/eqP; rewrite -[0%R]/(0%:R)%R nat_eqF // mod0n => /eqP ->; rewrite Z.mod_0_l //; lia.
case: ifP => _ /eqP; last first.
  by rewrite -[1%R]/(1%:R)%R nat_eqF // [X in _ == X]modn_small; [move=> /eqP ->; rewrite Z.mod_small //|]; lia.
rewrite nat_eqF // [X in _ == X]modn_small; last lia.
move=> /eqP ->; rewrite -(Z.mod_add (-1) 1); last lia.
by rewrite Z.mod_small; lia.
Qed.
Lemma legendre_N1 : legendre (-1) z = (if z mod 4 =? 3 then -1 else 1)%Z.
Proof.
have E : na (-1) = n.-1.
  by rewrite /na -(Z.mod_add (-1) 1 z); [rewrite Z.mod_small; lia | lia].
rewrite legendre_nres E (nres_pred n pn on).
have -> : (n %| n.-1) = false by apply/negP => /dvdn_leq; lia.
have -> : odd n./2 = (z mod 4 =? 3)%Z by lia.
by [].
Qed.
Lemma legendre_2 : legendre 2 z = (if (z mod 8 =? 3) || (z mod 8 =? 5) then -1 else 1)%Z.
Proof.
have p2 : (2 < p)%num by lia.
have E : na 2 = 2%N by rewrite /na Z.mod_small; lia.
rewrite legendre_nres E (nres_2 n pn on).
have -> : (n %| 2) = false by apply/negP => /dvdn_leq; lia.
suff -> : odd (n./2 * (n./2).+1)./2 = ((z mod 8 =? 3) || (z mod 8 =? 5))%Z by [].
have := divn_eq n./2 4; have := @ltn_pmod n./2 4 isT.
have : n = (n./2).*2.+1 by lia.
move: (n./2) => h En; move: (h %/ 4) (h %% 4) => k j Hj Eh.
have -> : (z = 8 * Z.of_nat k + 2 * Z.of_nat j + 1)%Z by lia.
have -> : (h * h.+1)./2 = (2 * (4 * (k * k) + k * (2 * j + 1)) + (j * j.+1)./2)%N.
  rewrite -[RHS]doubleK; congr half; rewrite Eh.
  have : (j * j.+1 = ((j * j.+1)./2).*2)%N by case: j Hj {Eh} => [|[|[|[|j]]]].
  by move: (half _) => t Ej; nia.
have -> : ((8 * Z.of_nat k + 2 * Z.of_nat j + 1) mod 8 = 2 * Z.of_nat j + 1)%Z.
  by apply/esym/(Z.mod_unique _ _ (Z.of_nat k)); [left|]; lia.
by rewrite oddD oddM; case: j Hj {Eh} => [|[|[|[|j]]]].
Qed.
End P.

Lemma legendre_recip p q : primeN p -> primeN q -> N.odd p = true -> N.odd q = true ->
  legendre (Z.of_N q) (Z.of_N p) = ((if (Z.of_N p mod 4 =? 3) && (Z.of_N q mod 4 =? 3) then -1 else 1) * legendre (Z.of_N p) (Z.of_N q))%Z.
Proof.
move=> Pp Pq Op Oq; have p1 := proj1 Pp; have q1 := proj1 Pq.
case: (N.eqb_spec p q) => [->|ne].
  by rewrite /legendre Z_mod_same_full /= Z.mul_0_r.
have Pp' : prime (N.to_nat p) by apply/primeN_prime.
have Pq' : prime (N.to_nat q) by apply/primeN_prime.
have Op' := odd_to_nat p Op.
have Oq' := odd_to_nat q Oq.
have ne' : N.to_nat p != N.to_nat q by apply/eqP; lia.
have na_nat : forall a b, (0 < b)%num -> na b (Z.of_N a) = (N.to_nat a %% N.to_nat b)%N.
  by move=> a b Hb; rewrite /na -[Z.of_N a]N_nat_Z -modn_Z // Nat2Z.id.
rewrite !legendre_nres // !na_nat; try lia.
rewrite !nres_mod !dvdn_modr !dvdn_prime2 // (negbTE ne') eq_sym (negbTE ne').
have R := reciprocity _ _ Pp' Pq' Op' Oq' ne'.
have E : odd ((N.to_nat p)./2 * (N.to_nat q)./2) = ((Z.of_N p mod 4 =? 3) && (Z.of_N q mod 4 =? 3))%Z.
  by rewrite oddM; congr andb; lia.
by rewrite -E -R; case: nres; case: nres.
Qed.
