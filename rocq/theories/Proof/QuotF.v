(** The quotient of F2[X] by an irreducible polynomial is a finite field. *)
Set Warnings "-notation-overridden,-ambiguous-paths".
From mathcomp Require Import all_ssreflect ssralg poly polydiv zmodp matrix mxalgebra mxpoly finalg.
Import GRing.Theory.
Local Open Scope ring_scope.

Record irr := Irr { irr_poly :> {poly 'F_2}; irr_ok : irreducible_poly irr_poly }.

Definition qf (g : irr) : Type := 'rV['F_2]_((size (irr_poly g)).-1).

Section Quot.
Variable g : irr.
Notation d := (size (irr_poly g)).-1.

Lemma irr_size : (1 < size g)%N. Proof. by case: (irr_ok g). Qed.
Lemma irr_sizeE : size g = d.+1. Proof. by rewrite prednK //; apply: ltnW irr_size. Qed.
Lemma irr_neq0 : irr_poly g != 0. Proof. exact: irredp_neq0 (irr_ok g). Qed.

Canonical qf_eqType := [eqType of qf g].
Canonical qf_choiceType := [choiceType of qf g].
Canonical qf_countType := [countType of qf g].
Canonical qf_finType := [finType of qf g].
Canonical qf_zmodType := [zmodType of qf g].
Canonical qf_finZmodType := [finZmodType of qf g].

Definition pi (p : {poly 'F_2}) : qf g := poly_rV (p %% g).
Definition lift (u : qf g) : {poly 'F_2} := rVpoly u.

Lemma liftK u : pi (lift u) = u.
Proof.
  rewrite /pi /lift modp_small; first exact: rVpolyK.
  have := size_poly d (fun k => if insub k is Some i then u 0 i else 0); rewrite -ltnS -irr_sizeE; apply.
Qed.
Lemma lift_pi p : lift (pi p) = p %% g.
Proof. by rewrite /lift /pi poly_rV_K // -ltnS -irr_sizeE ltn_modp irr_neq0. Qed.

Definition qmul (u v : qf g) : qf g := pi (lift u * lift v).
Definition qone : qf g := pi 1.

Lemma piM p q : qmul (pi p) (pi q) = pi (p * q).
Proof. by rewrite /qmul !lift_pi /pi modp_mul mulrC modp_mul mulrC. Qed.
Lemma piD p q : pi (p + q) = pi p + pi q.
Proof. by rewrite /pi modpD linearD. Qed.
Lemma pi0 : pi 0 = 0.
Proof. by rewrite /pi mod0p linear0. Qed.

Lemma qmulA : associative qmul.
Proof. by move=> u v w; rewrite -(liftK u) -(liftK v) -(liftK w) !piM mulrA. Qed.
Lemma qmulC : commutative qmul.
Proof. by move=> u v; rewrite /qmul mulrC. Qed.
Lemma qmul1 : left_id qone qmul.
Proof. by move=> u; rewrite -(liftK u) /qone piM mul1r. Qed.
Lemma qmulDl : left_distributive qmul +%R.
Proof. by move=> u v w; rewrite -(liftK u) -(liftK v) -(liftK w) -piD !piM -piD mulrDl. Qed.
Lemma pi_eq0 p : (pi p == 0) = (irr_poly g %| p).
Proof.
  apply/eqP/idP => [E|/eqP E]; last by rewrite /pi E linear0.
  by apply/eqP; rewrite -lift_pi E /lift linear0.
Qed.
Lemma qone_neq0 : qone != 0.
Proof.
  rewrite /qone pi_eq0; apply/negP => /dvdp_leq; rewrite oner_eq0 size_poly1 => /(_ isT).
  by rewrite leqNgt irr_size.
Qed.

Definition qf_ringMixin := ComRingMixin qmulA qmulC qmul1 qmulDl qone_neq0.
Canonical qf_ringType := Eval hnf in RingType (qf g) qf_ringMixin.
Canonical qf_comRingType := Eval hnf in ComRingType (qf g) qmulC.

Lemma pi_rmorphism : rmorphism pi.
Proof.
  split; last by split => [p q|]; first exact/esym/piM.
  by move=> p q; apply/eqP; rewrite eq_sym subr_eq -piD subrK.
Qed.
Canonical pi_additive := Additive pi_rmorphism.
Canonical pi_is_rmorphism := RMorphism pi_rmorphism.

Definition qinv (u : qf g) : qf g := odflt 0 [pick v : qf g | qmul v u == qone].
Lemma qmulV (u : qf g) : u != 0 -> qinv u * u = 1.
Proof.
  move=> u0; rewrite /qinv; case: pickP => [v /eqP //|no]; exfalso.
  have cop : coprimep (lift u) g.
    rewrite coprimep_sym coprimep_def; case: (altP (size (gcdp g (lift u)) =P 1%N)) => // n1.
    have := irr_ok g; case=> _ /(_ _ n1 (dvdp_gcdl _ _)) E.
    case/negP: u0; rewrite -(liftK u) pi_eq0 -(eqp_dvdl _ E); exact: dvdp_gcdr.
  case/Bezout_eq1_coprimepP: cop => -[a b] /= E.
  move: (no (pi a)) => /eqP; apply.
  have -> : qmul (pi a) u = pi (a * lift u) by rewrite -{1}(liftK u) piM.
  have -> : a * lift u = 1 - b * irr_poly g by rewrite -E addrK.
  rewrite rmorphB rmorphM rmorph1 /=; have -> : pi g = 0 by apply/eqP; rewrite pi_eq0 dvdpp.
  by rewrite mulr0 subr0.
Qed.
Lemma qinv0 : qinv 0 = 0.
Proof.
  rewrite /qinv; case: pickP => [v /eqP|//]. rewrite -[qmul _ _]/(v * 0) mulr0 => E.
  by move: qone_neq0; rewrite -E eqxx.
Qed.
Definition qf_unitMixin := FieldUnitMixin qmulV qinv0.
Canonical qf_unitRingType := Eval hnf in UnitRingType (qf g) qf_unitMixin.
Canonical qf_comUnitRingType := Eval hnf in [comUnitRingType of qf g].
Lemma qf_field : GRing.Field.mixin_of qf_unitRingType.
Proof. by []. Qed.
Canonical qf_idomainType := Eval hnf in IdomainType (qf g) (FieldIdomainMixin qf_field).
Canonical qf_fieldType := Eval hnf in FieldType (qf g) qf_field.
Canonical qf_finRingType := Eval hnf in [finRingType of qf g].
Canonical qf_finFieldType := Eval hnf in [finFieldType of qf g].

Lemma card_qf : #|{: qf g}| = (2 ^ d)%N.
Proof. by rewrite card_mx card_Fp // mul1n. Qed.
End Quot.
