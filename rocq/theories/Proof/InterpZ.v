(** Algebra of the decoder when one of the points is zero. *)
Set Warnings "-notation-overridden,-ambiguous-paths".
From Coq Require Import NArith.
From mathcomp Require Import all_ssreflect ssralg poly polydiv.
From mathcomp Require Import zify.
From Verif.Proof Require Import DftInv Interp.
Import GRing.Theory.
Local Open Scope ring_scope.

Lemma ser_mul_pt (F : fieldType) k (x : nat -> F) i : (0 < k)%N -> x i != 0 ->
  ('X - (x i)%:P) * ser F k x i = (x i)^-1 ^+ k *: 'X^k - 1.
Proof.
move=> k0 x0; apply/polyP => j.
rewrite mulrBl coefB coefXM coefCM coefB coefZ coefXn coef1 /ser !coef_poly.
case: j => [|j].
  rewrite k0 /= expr1 mulfV // sub0r.
  by case: k k0 => // k' _; rewrite mulr0 sub0r.
rewrite /= subr0.
case: (ltngtP j.+1 k) => Hj.
- by rewrite mulr0 [in X in _ - X]exprS mulrA mulfV // mul1r subrr.
- by rewrite !mulr0 subr0.
- by rewrite mulr0 subr0 mulr1 -Hj.
Qed.

Section InterpZ.
Variables (F : fieldType) (k : nat) (x : nat -> F).
Hypothesis k0 : (0 < k)%N.
Hypothesis xinj : forall i j, (i < k)%N -> (j < k)%N -> x i = x j -> i = j.
Notation A := (Apoly F x k).

(** The series of the points that are not zero. *)
Definition Qz (v : nat -> F) : {poly F} :=
  \poly_(j < k) \sum_(i < k | x i != 0) (v i / ((deriv A).[x i] * x i)) * ((x i) ^+ j)^-1.

Lemma Qz_ser v : Qz v = \sum_(i < k | x i != 0) (v i / (deriv A).[x i]) *: ser F k x i.
Proof.
apply/polyP => j; rewrite coef_sum /Qz coef_poly.
case: ifP => Hj; last by rewrite big1 // => i _; rewrite coefZ coef_poly Hj mulr0.
apply: eq_bigr => i _; rewrite coefZ coef_poly Hj exprS exprVn.
by rewrite invfM !mulrA.
Qed.

Theorem decode_identity_zero (P : {poly F}) j : (size P <= k)%N -> (j < k)%N ->
  - (Qz (fun i => P.[x i]) * A)`_j + \sum_(i < k | x i == 0) (P.[x i] / (deriv A).[x i]) * A`_j.+1 = P`_j.
Proof.
move=> HP Hj; rewrite {3}(lagrange F k x xinj P HP) coef_sum [in RHS](bigID (fun i : 'I_k => x i != 0)) /=.
congr (_ + _); last first.
  apply: eq_big => [i|i /eqP xi]; first by rewrite negbK.
  by rewrite coefZ (Apoly_cof F k x i) xi subr0 coefXM.
rewrite Qz_ser mulr_suml coef_sum -sumrN.
apply: eq_bigr => i xi; rewrite -scalerAl !coefZ -mulrN; congr (_ * _).
rewrite mulrC (Apoly_cof F k x i) mulrAC ser_mul_pt //.
by rewrite mulrBl mul1r coefB -scalerAl coefZ coefXnM Hj mulr0 sub0r opprK.
Qed.
End InterpZ.
