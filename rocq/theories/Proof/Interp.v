(** Algebra of the decoder: Lagrange interpolation through truncated power series. *)
Set Warnings "-notation-overridden,-ambiguous-paths".
From Coq Require Import NArith.
From mathcomp Require Import all_ssreflect ssralg poly polydiv.
From mathcomp Require Import zify.
From Verif.Spec Require Import Dft.
From Verif.Proof Require Import DftInv.
Import GRing.Theory.
Local Open Scope ring_scope.

Section Interp.
Variables (F : fieldType) (k : nat) (x : nat -> F).
Hypothesis xinj : forall i j, (i < k)%N -> (j < k)%N -> x i = x j -> i = j.
Hypothesis xn0 : forall i, (i < k)%N -> x i != 0.

(** [A = prod (X - x_i)] and the cofactors. *)
Definition Apoly (m : nat) : {poly F} := \prod_(i < m) ('X - (x i)%:P).
Definition Acof (i : 'I_k) : {poly F} := \prod_(j < k | j != i) ('X - (x j)%:P).

Lemma Apoly_cof (i : 'I_k) : Apoly k = ('X - (x i)%:P) * Acof i.
Proof. by rewrite /Apoly (bigD1 i). Qed.

Lemma size_Apoly m : size (Apoly m) = m.+1.
Proof. by rewrite /Apoly size_prod_XsubC /index_enum -enumT size_enum_ord. Qed.

Lemma monic_Apoly m : Apoly m \is monic.
Proof. exact: monic_prod_XsubC. Qed.

Lemma size_Acof (i : 'I_k) : size (Acof i) = k.
Proof.
have := size_Apoly k; rewrite (Apoly_cof i) size_Mmonic ?polyXsubC_eq0 //.
- by rewrite size_XsubC => -[].
- by apply: monic_prod => j _; apply: monicXsubC.
Qed.

Lemma Acof_val (i : 'I_k) : (Acof i).[x i] = (deriv (Apoly k)).[x i].
Proof.
rewrite (Apoly_cof i) derivM derivXsubC mul1r hornerD hornerM hornerXsubC subrr mul0r addr0 //.
Qed.

Lemma Acof_other (i j : 'I_k) : j != i -> (Acof i).[x j] = 0.
Proof.
move=> H; rewrite /Acof horner_prod (bigD1 j) //= hornerXsubC subrr mul0r //.
Qed.

Lemma Acof_neq0 (i : 'I_k) : (Acof i).[x i] != 0.
Proof.
rewrite /Acof horner_prod; apply/prodf_neq0 => j Hj.
rewrite hornerXsubC subr_eq0; apply: contra Hj => /eqP E.
by apply/eqP; apply: val_inj; apply: xinj (ltn_ord j) (ltn_ord i) (esym E).
Qed.

(** Lagrange interpolation. *)
Lemma lagrange (P : {poly F}) : (size P <= k)%N ->
  P = \sum_(i < k) (P.[x i] / (deriv (Apoly k)).[x i]) *: Acof i.
Proof.
move=> HP; apply/eqP; rewrite -subr_eq0; apply/eqP.
set R := _ - _.
have Hs : (size R <= k)%N.
  rewrite /R (leq_trans (size_add _ _)) // geq_max HP size_opp.
  apply: (leq_trans (size_sum _ _ _)); apply/bigmax_leqP => i _.
  by apply: (leq_trans (size_scale_leq _ _)); rewrite size_Acof.
apply: (@roots_geq_poly_eq0 _ _ [seq x (val i) | i <- enum 'I_k]).
- apply/allP => y /mapP [i _ ->]; rewrite rootE /R hornerD hornerN horner_sum (bigD1 i) //= big1 ?addr0.
    by rewrite hornerZ Acof_val divfK ?subrr // -Acof_val Acof_neq0.
  by move=> j Hj; rewrite hornerZ Acof_other ?mulr0 // eq_sym.
- rewrite map_inj_in_uniq ?enum_uniq // => i j _ _ E.
  by apply: val_inj; apply: xinj (ltn_ord i) (ltn_ord j) E.
- by rewrite size_map size_enum_ord.
Qed.

(** Truncated series of [-1 / (X - x_i)]. *)
Definition ser (i : nat) : {poly F} := \poly_(j < k) (x i)^-1 ^+ j.+1.

Lemma ser_mul i : (i < k)%N -> ('X - (x i)%:P) * ser i = (x i)^-1 ^+ k *: 'X^k - 1.
Proof.
move=> Hi; have x0 := xn0 _ Hi; apply/polyP => j.
rewrite mulrBl coefB coefXM coefCM coefB coefZ coefXn coef1 /ser !coef_poly.
case: j => [|j].
  have k0 : (0 < k)%N by lia.
  rewrite k0 /= expr1 mulfV // sub0r.
  by case: k k0 => // k' _; rewrite mulr0 sub0r.
rewrite /= subr0.
case: (ltngtP j.+1 k) => Hj.
- by rewrite mulr0 [in X in _ - X]exprS mulrA mulfV // mul1r subrr.
- by rewrite !mulr0 subr0.
- by rewrite mulr0 subr0 mulr1 -Hj.
Qed.

(** The polynomial the decoder multiplies by [A]. *)
Definition Qpoly (v : nat -> F) : {poly F} :=
  \poly_(j < k) \sum_(i < k) (v i / ((deriv (Apoly k)).[x i] * x i)) * (x i)^-1 ^+ j.

Lemma Qpoly_ser v : Qpoly v = \sum_(i < k) (v i / (deriv (Apoly k)).[x i]) *: ser i.
Proof.
apply/polyP => j; rewrite coef_sum /Qpoly coef_poly.
case: ifP => Hj; last by rewrite big1 // => i _; rewrite coefZ coef_poly Hj mulr0.
apply: eq_bigr => i _; rewrite coefZ coef_poly Hj exprS.
by rewrite invfM !mulrA.
Qed.

Theorem decode_identity (P : {poly F}) j : (size P <= k)%N -> (j < k)%N ->
  - (Apoly k * Qpoly (fun i => P.[x i]))`_j = P`_j.
Proof.
move=> HP Hj; rewrite Qpoly_ser mulr_sumr coef_sum -sumrN {2}(lagrange P HP) coef_sum.
apply: eq_bigr => i _; rewrite -scalerAr !coefZ.
have -> : Apoly k * ser i = ((x i)^-1 ^+ k *: 'X^k - 1) * Acof i by rewrite (Apoly_cof i) mulrAC ser_mul.
rewrite -mulrN; congr (_ * _).
by rewrite mulrBl mul1r coefB -scalerAl coefZ coefXnM Hj mulr0 sub0r opprK.
Qed.

Lemma size_Qpoly v : (size (Qpoly v) <= k)%N.
Proof. exact: size_poly. Qed.

(** Product by transforms of length [n2 >= 2k]. *)
Theorem conv_identity (P : {poly F}) (n2 : nat) (w2 : F) j :
  (size P <= k)%N -> (2 * k <= n2)%N -> n2.-primitive_root w2 -> (j < k)%N ->
  - ((n2%:R)^-1 * dft F w2^-1 n2 (fun i =>
       dft F w2 n2 (fun l => (Apoly k)`_l) i * dft F w2 n2 (fun l => (Qpoly (fun i => P.[x i]))`_l) i) j) = P`_j.
Proof.
move=> HP Hn Pw Hj; rewrite -(decode_identity P j HP Hj); congr (- _).
set Q := Qpoly _.
have sAQ : (size (Apoly k * Q)%R <= n2)%N.
  apply: (leq_trans (size_mul_leq _ _)); rewrite size_Apoly.
  by have := size_Qpoly (fun i => P.[x i]); rewrite -/Q; move: (size Q) => s; lia.
have n0 : n2%:R != 0 :> F by apply: prim_natr Pw.
rewrite (dft_ext _ _ _ _ (dft F w2 n2 (fun l => (Apoly k * Q)`_l))).
  by rewrite dft_inverse // ?mulKf //; lia.
move=> i Hi; rewrite !dft_horner.
have E (R : {poly F}) : (size R <= n2)%N -> \poly_(l < n2) R`_l = R :> {poly F}.
  by move=> HR; apply/polyP => l; rewrite coef_poly; case: ltnP => // Hl; rewrite nth_default //; apply: leq_trans Hl.
rewrite !E ?hornerM //.
- apply: (leq_trans (size_Qpoly _)); lia.
- rewrite size_Apoly; lia.
Qed.
End Interp.
