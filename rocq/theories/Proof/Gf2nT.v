(** The split tables of gf_bin_ext.h:298-347 as tables of a relation. *)
From Coq Require Import List NArith Arith Bool Lia.
From Verif.Model Require Import Common Gf2n.
From Verif.Proof Require Import ListP.
Import ListNotations.
Open Scope nat_scope.

Definition wf (t : list (list N)) : Prop := length t = 256 /\ forall i, i < 256 -> length (get [] t i) = 256.

Lemma wf_set2 t i j x : wf t -> i < 256 -> wf (set2 t i j x).
Proof.
  intros [L R] Hi. unfold set2. split; [now rewrite set_length|]. unfold get in *. intros k Hk. destruct (Nat.eq_dec k i) as [->|ne].
  - rewrite nth_set_eq by lia. rewrite set_length. now apply R.
  - rewrite nth_set_neq by exact ne. now apply R.
Qed.
Lemma get2_set2 t i j x i' j' : wf t -> i < 256 -> j < 256 ->
  get2 (set2 t i j x) i' j' = if (i' =? i) && (j' =? j) then x else get2 t i' j'.
Proof.
  intros [L R] Hi Hj. unfold get2, set2, get in *. destruct (Nat.eqb_spec i' i) as [->|ne]; cbn [andb].
  - rewrite nth_set_eq by lia. destruct (Nat.eqb_spec j' j) as [->|ne].
    + apply nth_set_eq. now rewrite R.
    + now apply nth_set_neq.
  - now rewrite nth_set_neq.
Qed.

Section T.
Variables (two : N -> N) (base : N) (ok : nat -> nat -> N -> Prop).
Hypothesis ok0 : forall j, ok 0 j 0%N /\ ok j 0 0%N.
Hypothesis ok1 : ok 1 1 base.
Hypothesis ok_col_odd : forall i x, Nat.odd i = true -> 2 <= i -> ok (i - 1) 1 x -> ok i 1 (N.lxor x base).
Hypothesis ok_col_even : forall i x, Nat.odd i = false -> 2 <= i -> ok (i / 2) 1 x -> ok i 1 (two x).
Hypothesis ok_row_odd : forall i j x y, Nat.odd j = true -> 2 <= j -> ok i (j - 1) y -> ok i 1 x -> ok i j (N.lxor y x).
Hypothesis ok_row_even : forall i j x, Nat.odd j = false -> 2 <= j -> ok i (j / 2) x -> ok i j (two x).

Lemma fold_seq_inv {A} (f : A -> nat -> A) (I : nat -> A -> Prop) a k : forall s,
  (forall i s, a <= i < a + k -> I i s -> I (S i) (f s i)) -> I a s -> I (a + k) (fold_left f (seq a k) s).
Proof.
  revert a. induction k as [|k IH]; intros a s Hs H0; cbn [seq fold_left].
  - now rewrite Nat.add_0_r.
  - replace (a + S k) with (S a + k) by lia. apply IH.
    + intros i u Hi. apply Hs. lia.
    + apply Hs; [lia|exact H0].
Qed.

Lemma zeros_spec t : wf t -> wf (split_zeros t) /\ forall j, j < 256 -> get2 (split_zeros t) 0 j = 0%N /\ get2 (split_zeros t) j 0 = 0%N.
Proof.
  intros W. unfold split_zeros.
  apply (fold_seq_inv _ (fun k t => wf t /\ forall j, j < k -> get2 t 0 j = 0%N /\ get2 t j 0 = 0%N) 0 256 t); [|split; [exact W|lia]].
  intros i s Hi [Ws Hs]. split; [repeat (apply wf_set2; [|lia]); exact Ws|].
  assert (W1 : wf (set2 s 0 i 0%N)) by (apply wf_set2; [exact Ws|lia]).
  intros j Hj. rewrite !(get2_set2 (set2 s 0 i 0%N)), !get2_set2 by (assumption || lia).
  assert (Hj' : j = i \/ j < i) by lia.
  destruct Hj' as [->|Hj']; [|specialize (Hs j Hj'); destruct Hs as [Hs1 Hs2]; rewrite ?Hs1, ?Hs2];
    repeat match goal with |- context [Nat.eqb ?a ?b] => destruct (Nat.eqb_spec a b); try lia end; cbn; auto.
Qed.

Definition edge (t : list (list N)) := forall j, j < 256 -> ok 0 j (get2 t 0 j) /\ ok j 0 (get2 t j 0).

Lemma column_spec t : wf t -> edge t -> wf (split_column two base t) /\ edge (split_column two base t) /\
  forall i, 1 <= i < 256 -> ok i 1 (get2 (split_column two base t) i 1).
Proof.
  intros W E. unfold split_column.
  assert (keep : forall s i x, wf s -> edge s -> 1 <= i < 256 -> edge (set2 s i 1 x)).
  { intros s i x Ws Es Hi j Hj. rewrite !get2_set2 by (assumption || lia). destruct (Nat.eqb_spec 0 i); [lia|].
    destruct (Nat.eqb_spec 0 1); [lia|]. rewrite andb_false_r. cbn [andb]. now apply Es. }
  apply (fold_seq_inv _ (fun k t => wf t /\ edge t /\ forall i, 1 <= i < k -> ok i 1 (get2 t i 1)) 2 254 (set2 t 1 1 base)).
  - intros i s Hi (Ws & Es & Hs). destruct (Nat.odd i) eqn:Ho.
    + split; [apply wf_set2; [exact Ws|lia]|]. split; [apply keep; auto; lia|]. intros k Hk. rewrite get2_set2 by (assumption || lia).
      destruct (Nat.eqb_spec k i) as [->|]; cbn [andb Nat.eqb]; [apply ok_col_odd; auto; try lia; apply Hs; lia|apply Hs; lia].
    + split; [apply wf_set2; [exact Ws|lia]|]. split; [apply keep; auto; lia|]. intros k Hk. rewrite get2_set2 by (assumption || lia).
      assert (1 <= i / 2 < i). { split; [apply Nat.div_le_lower_bound; lia|apply Nat.div_lt_upper_bound; lia]. }
      destruct (Nat.eqb_spec k i) as [->|]; cbn [andb Nat.eqb]; [apply ok_col_even; auto; try lia; apply Hs; lia|apply Hs; lia].
  - split; [apply wf_set2; [exact W|lia]|]. split; [apply keep; auto; lia|]. intros i Hi. replace i with 1 by lia.
    rewrite get2_set2 by (assumption || lia). exact ok1.
Qed.

Lemma row_spec i0 t : 1 <= i0 < 256 -> wf t -> ok i0 0 (get2 t i0 0) -> ok i0 1 (get2 t i0 1) -> wf (split_row two t i0) /\
  (forall j, j < 256 -> ok i0 j (get2 (split_row two t i0) i0 j)) /\ (forall i j, i <> i0 -> get2 (split_row two t i0) i j = get2 t i j).
Proof.
  intros Hi W E0 E1. unfold split_row. set (x := get2 t i0 1).
  apply (fold_seq_inv _ (fun k s => wf s /\ (forall j, j < k -> ok i0 j (get2 s i0 j)) /\ (forall i j, i <> i0 -> get2 s i j = get2 t i j)) 2 254 t).
  - intros j s Hj (Ws & Hs & Hk).
    assert (D : 1 <= j / 2 < j). { split; [apply Nat.div_le_lower_bound; lia|apply Nat.div_lt_upper_bound; lia]. }
    destruct (Nat.odd j) eqn:Ho; (split; [apply wf_set2; [exact Ws|lia]|]); split.
    + intros k Hk'. rewrite get2_set2, Nat.eqb_refl by (assumption || lia). cbn [andb]. destruct (Nat.eqb_spec k j) as [->|].
      * apply ok_row_odd; auto; try lia. apply Hs. lia.
      * apply Hs. lia.
    + intros i k ne. rewrite get2_set2 by (assumption || lia). destruct (Nat.eqb_spec i i0); [lia|]. now apply Hk.
    + intros k Hk'. rewrite get2_set2, Nat.eqb_refl by (assumption || lia). cbn [andb]. destruct (Nat.eqb_spec k j) as [->|].
      * apply ok_row_even; auto; try lia. apply Hs. lia.
      * apply Hs. lia.
    + intros i k ne. rewrite get2_set2 by (assumption || lia). destruct (Nat.eqb_spec i i0); [lia|]. now apply Hk.
  - split; [exact W|]. split; [|reflexivity]. intros j Hj. destruct j as [|[|]]; [exact E0|exact E1|lia].
Qed.

Theorem table_spec junk : wf (split_table junk two base) /\
  forall i j, i < 256 -> j < 256 -> ok i j (get2 (split_table junk two base) i j).
Proof.
  unfold split_table. set (t0 := repeat (repeat junk 256) 256).
  assert (W0 : wf t0).
  { split; [reflexivity|]. intros i Hi. unfold get, t0. rewrite nth_indep with (d' := repeat junk 256) by (rewrite repeat_length; lia).
    rewrite nth_repeat. reflexivity. }
  clearbody t0. destruct (zeros_spec t0 W0) as [W1 Z]. destruct (column_spec (split_zeros t0) W1) as (W2 & E2 & C2).
  { intros j Hj. destruct (Z j Hj) as [-> ->]. apply ok0. }
  set (t2 := split_column two base (split_zeros t0)) in *. clearbody t2.
  enough (A : wf (fold_left (split_row two) (seq 1 255) t2) /\ (forall i j, i < 256 -> j < 256 -> ok i j (get2 (fold_left (split_row two) (seq 1 255) t2) i j)) /\
     (forall i j, 256 <= i -> get2 (fold_left (split_row two) (seq 1 255) t2) i j = get2 t2 i j))
    by (destruct A as (A1 & A2 & _); split; [exact A1|exact A2]).
  apply (fold_seq_inv _ (fun k s => wf s /\ (forall i j, i < k -> j < 256 -> ok i j (get2 s i j)) /\ (forall i j, k <= i -> get2 s i j = get2 t2 i j)) 1 255 t2).
  - intros i s Hi (Ws & Hs & Hk). destruct (row_spec i s ltac:(lia) Ws) as (Ws' & R & K).
    { rewrite Hk by lia. apply E2. lia. } { rewrite Hk by lia. apply C2. lia. }
    split; [exact Ws'|]. split.
    + intros k j Hk' Hj. destruct (Nat.eq_dec k i) as [->|ne]; [now apply R|]. rewrite K by exact ne. apply Hs; lia.
    + intros k j Hk'. rewrite K by lia. apply Hk. lia.
  - split; [exact W2|]. split; [|reflexivity]. intros i j Hi Hj. replace i with 0 by lia. now apply E2.
Qed.
End T.

Lemma tables_nth junk two k : forall base t, t < k ->
  nth_error (split_tables junk two base k) t = Some (split_table junk two (shift_left two base (8 * t))).
Proof.
  induction k as [|k IH]; intros base t Ht; [lia|]. cbn [split_tables]. destruct t as [|t]; [reflexivity|]. cbn [nth_error].
  rewrite IH by lia.
  assert (G : forall a b x, shift_left two x (a + b) = shift_left two (shift_left two x a) b).
  { induction a as [|a IHa]; intros b x; cbn [shift_left Nat.add]; [reflexivity|apply IHa]. }
  replace (8 * S t) with (8 + 8 * t) by lia. rewrite G. exact eq_refl.
Qed.

Lemma get2_nth_error t i j : wf t -> i < 256 -> j < 256 ->
  exists row, nth_error t i = Some row /\ nth_error row j = Some (get2 t i j).
Proof.
  intros [L R] Hi Hj. exists (get [] t i). unfold get2, get in *. split; apply nth_error_nth'; [lia|]. rewrite R; lia.
Qed.
