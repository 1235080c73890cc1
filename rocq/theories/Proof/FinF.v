(** Finite fields: x^|F| = x. *)
From mathcomp Require Import all_ssreflect fingroup ssralg finalg cyclic.
Set Implicit Arguments. Unset Strict Implicit. Unset Printing Implicit Defensive.
Import GRing.Theory FinRing.Theory.
Local Open Scope ring_scope.

Section F.
Variable F : finFieldType.

Lemma card_unit_finF : #|[set: {unit F}]| = #|F|.-1.
Proof. by rewrite -(cardC1 0) cardsT card_sub; apply: eq_card => x; rewrite GRing.unitfE. Qed.

Lemma expf_card (x : F) : x ^+ #|F| = x.
Proof.
have c0 : (0 < #|F|)%N by apply/card_gt0P; exists 0.
rewrite -[RHS]mulr1 -(prednK c0) exprS.
apply/eqP; rewrite -subr_eq0 -mulrBr mulf_eq0 subr_eq0 -implyNb -unitfE.
apply/implyP=> Ux; rewrite -(val_unitX _ (Sub x _)) -val_unit1 val_eqE.
by rewrite -order_dvdn -card_unit_finF order_dvdG ?inE.
Qed.
End F.
