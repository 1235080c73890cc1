(** In-place loops over coefficient buffers (plain lists). *)
From Coq Require Import List NArith Arith Bool Lia.
From Verif.Model Require Import Common.
From Verif.Proof Require Import ListP.
Import ListNotations.

Section Loops.
Variables (A : Type) (d : A).

(** Descending loop whose turn [i] stores a value computed from entries at most [i]. *)
Section Desc.
Variable f : list A -> nat -> A.

Lemma desc_length is : forall b, length (fold_left (fun b i => set b i (f b i)) is b) = length b.
Proof. induction is as [|i is IH]; intros b; simpl; auto. now rewrite IH, set_length. Qed.

Lemma desc_spec n0 n : forall b,
  n0 + n <= length b ->
  (forall b b' i, n0 <= i < n0 + n -> length b = length b' -> (forall j, j <= i -> nth j b d = nth j b' d) -> f b i = f b' i) ->
  forall k, nth k (fold_left (fun b i => set b i (f b i)) (rev (seq n0 n)) b) d =
    if (n0 <=? k) && (k <? n0 + n) then f b k else nth k b d.
Proof.
  induction n as [|n IH]; intros b Hn Hf k.
  - simpl. destruct (Nat.leb_spec n0 k), (Nat.ltb_spec k (n0 + 0)); simpl; auto; lia.
  - rewrite seq_S, rev_app_distr; simpl. rewrite IH.
    + destruct (Nat.leb_spec n0 k), (Nat.ltb_spec k (n0 + n)), (Nat.ltb_spec k (n0 + S n)); simpl; try lia.
      all: try (apply nth_set_neq; lia).
      * apply Hf; [lia|now rewrite set_length|]. intros j Hj. apply nth_set_neq; lia.
      * replace k with (n0 + n) by lia. apply nth_set_eq; lia.
    + rewrite set_length; lia.
    + intros b1 b2 i Hi; apply Hf; lia.
Qed.
End Desc.

(** Ascending loop whose turn [i] stores at [i - 1] a value computed from entry [i]. *)
Lemma shift_length (f : nat -> A -> A) is : forall b,
  length (fold_left (fun b i => set b (i - 1) (f i (nth i b d))) is b) = length b.
Proof. induction is as [|i is IH]; intros b; simpl; auto. now rewrite IH, set_length. Qed.

Lemma shift_spec (f : nat -> A -> A) n : forall n0 b, 0 < n0 -> n0 + n <= length b ->
  forall k, nth k (fold_left (fun b i => set b (i - 1) (f i (nth i b d))) (seq n0 n) b) d =
    if (n0 <=? k + 1) && (k + 1 <? n0 + n) then f (k + 1) (nth (k + 1) b d) else nth k b d.
Proof.
  induction n as [|n IH]; intros n0 b H0 Hn k.
  - simpl. destruct (Nat.leb_spec n0 (k + 1)), (Nat.ltb_spec (k + 1) (n0 + 0)); simpl; auto; lia.
  - simpl. rewrite IH; [|lia|rewrite set_length; lia].
    destruct (Nat.leb_spec (S n0) (k + 1)), (Nat.ltb_spec (k + 1) (S n0 + n)), (Nat.leb_spec n0 (k + 1)),
      (Nat.ltb_spec (k + 1) (n0 + S n)); simpl; try lia.
    all: try (rewrite nth_set_neq by lia; auto; fail).
    replace (k + 1) with n0 by lia. replace k with (n0 - 1) by lia. apply nth_set_eq; lia.
Qed.

(** Ascending loop whose turn [i] replaces entry [i] by a function of it. *)
Lemma each_spec (f : A -> A) n : forall n0 b, n0 + n <= length b ->
  forall k, nth k (fold_left (fun b i => set b i (f (nth i b d))) (seq n0 n) b) d =
    if (n0 <=? k) && (k <? n0 + n) then f (nth k b d) else nth k b d.
Proof.
  induction n as [|n IH]; intros n0 b Hn k.
  - simpl. destruct (Nat.leb_spec n0 k), (Nat.ltb_spec k (n0 + 0)); simpl; auto; lia.
  - simpl. rewrite IH; [|rewrite set_length; lia].
    destruct (Nat.leb_spec (S n0) k), (Nat.ltb_spec k (S n0 + n)), (Nat.leb_spec n0 k),
      (Nat.ltb_spec k (n0 + S n)); simpl; try lia.
    all: try (rewrite nth_set_neq by lia; auto; fail).
    replace k with n0 by lia. rewrite nth_set_eq by lia; auto.
Qed.

Lemma each_length (f : A -> A) is : forall b,
  length (fold_left (fun b i => set b i (f (nth i b d))) is b) = length b.
Proof. induction is as [|i is IH]; intros b; simpl; auto. now rewrite IH, set_length. Qed.
End Loops.
