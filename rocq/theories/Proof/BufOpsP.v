(** Lemmas for C72. *)
From Coq Require Import List NArith Arith Bool Lia.
From Verif.Model Require Import Common Buffers BufOps.
From Verif.Proof Require Import ListP ViewsP.
From Verif.Thm Require Import BuffersThm.
Import ListNotations.
Open Scope nat_scope.

(** A loop that writes [w i] at the pointer [p i], where [old i] was. *)
Lemma writes_spec h k (f : heap -> nat -> option heap) (p : nat -> nat) (w old : nat -> list N) :
  (forall i g, i < k -> (forall q, (forall j, j < i -> p j <> q) -> nth_error g q = nth_error h q) -> f g i = write_to g (p i) (w i)) ->
  (forall i, i < k -> nth_error h (p i) = Some (old i) /\ length (w i) <= length (old i)) ->
  (forall i j, i < k -> j < k -> p i = p j -> i = j \/ (w i = w j /\ length (w i) = length (old i))) ->
  exists h', loop f 0 k h = Some h' /\ length h' = length h /\
    (forall i, i < k -> nth_error h' (p i) = Some (w i ++ skipn (length (w i)) (old i))) /\
    forall q, (forall j, j < k -> p j <> q) -> nth_error h' q = nth_error h q.
Proof.
  intros Hf Ho Hc.
  pose (I n (g : heap) := length g = length h /\ (forall q, (forall j, j < k -> j < n -> p j <> q) -> nth_error g q = nth_error h q) /\
    (forall j, j < k -> j < n -> nth_error g (p j) = Some (w j ++ skipn (length (w j)) (old j))) /\
    (forall j, j < k -> n <= j -> exists x, nth_error g (p j) = Some x /\ length x = length (old j) /\
       skipn (length (w j)) x = skipn (length (w j)) (old j))).
  destruct (loop_inv heap f I k 0 h) as (h' & E & L & B & A & _).
  - intros i g Hi (L & B & A & C). rewrite (Hf i g ltac:(lia) (fun q Hq => B q (fun j _ Hj => Hq j Hj))). destruct (C i ltac:(lia) (Nat.le_refl i)) as (x & Ex & Lx & Sx).
    destruct (Ho i ltac:(lia)) as [Hi1 Hi2]. unfold write_to. rewrite Ex. destruct (Nat.leb_spec (length (w i)) (length x)); [|lia].
    eexists. split; [reflexivity|].
    assert (P : p i < length g) by (apply nth_error_Some; congruence).
    assert (G : forall q, nth_error (set g (p i) (w i ++ skipn (length (w i)) x)) q = if p i =? q then Some (w i ++ skipn (length (w i)) (old i)) else nth_error g q).
    { intros q. rewrite nth_error_set. destruct (Nat.ltb_spec (p i) (length g)); [|lia]. rewrite andb_true_r, Sx. reflexivity. }
    split; [now rewrite set_length|]. split; [|split].
    + intros q Hq. rewrite G. destruct (Nat.eqb_spec (p i) q) as [Eq|]; [exfalso; apply (Hq i); [lia|lia|exact Eq]|]. apply B. intros j Hj Hn. apply Hq; lia.
    + intros j Hj Hn. rewrite G. destruct (Nat.eqb_spec (p i) (p j)) as [Eq|Ne].
      * destruct (Hc i j ltac:(lia) Hj Eq) as [->|[Ew El]]; [reflexivity|]. f_equal.
        assert (Eo : old i = old j) by (destruct (Ho j Hj) as [Q _]; rewrite <- Eq in Q; congruence). now rewrite Ew, Eo.
      * apply A; [exact Hj|]. assert (j <> i) by congruence. lia.
    + intros j Hj Hn. rewrite G. destruct (Nat.eqb_spec (p i) (p j)) as [Eq|Ne]; [|apply C; lia].
      assert (Eo : old i = old j) by (destruct (Ho j Hj) as [Q _]; rewrite <- Eq in Q; congruence).
      destruct (Hc i j ltac:(lia) Hj Eq) as [|[Ew El]]; [lia|]. eexists. split; [reflexivity|]. rewrite app_length, skipn_length.
      split; [rewrite <- Eo; lia|]. rewrite <- Ew, skipn_app, Nat.sub_diag, skipn_all, Eo. reflexivity.
  - split; [reflexivity|]. split; [reflexivity|]. split; [intros j _ Hj; lia|]. intros j Hj _. exists (old j). split; [now apply Ho|auto].
  - exists h'. split; [exact E|]. split; [exact L|]. split; [intros i Hi; apply A; lia|].
    intros q Hq. apply B. intros j Hj _. now apply Hq.
Qed.

Lemma eq_elements_spec k : forall x y, length x = k -> length y = k -> exists r, eq_elements k x y = Some r /\ (r = true <-> x = y).
Proof.
  induction k as [|k IH]; intros x y Lx Ly; cbn [eq_elements].
  - exists true. split; [reflexivity|]. destruct x, y; try discriminate. tauto.
  - destruct x as [|a x], y as [|c y]; try discriminate. injection Lx as Lx. injection Ly as Ly. destruct (N.eqb_spec a c) as [->|Hne].
    + destruct (IH x y Lx Ly) as (r & E & R). exists r. split; [exact E|]. rewrite R. split; [now intros ->|intros H; now injection H].
    + exists false. split; [reflexivity|]. split; [discriminate|]. intros H. injection H. intros. contradiction.
Qed.
Lemma eq_buffers_spec h a b : b_size a = b_size b -> forall k i,
  (forall j, i <= j < i + k -> exists x y, buf_at h a j = Some x /\ buf_at h b j = Some y /\ length x = b_size a /\ length y = b_size a) ->
  exists r, eq_buffers h a b i k = Some r /\ (r = true <-> forall j, i <= j < i + k -> buf_at h a j = buf_at h b j).
Proof.
  intros Es. induction k as [|k IH]; intros i H; cbn [eq_buffers].
  - exists true. split; [reflexivity|]. split; [|reflexivity]. intros _ j Hj. lia.
  - destruct (H i ltac:(lia)) as (x & y & Ex & Ey & Lx & Ly). rewrite Ex, Ey.
    destruct (eq_elements_spec (b_size a) x y Lx Ly) as (r & E & R). rewrite E. destruct r.
    + destruct (IH (S i)) as (r & E' & R'); [intros j Hj; apply H; lia|]. exists r. split; [exact E'|]. rewrite R'.
      assert (x = y) as -> by tauto. split.
      * intros Q j Hj. destruct (Nat.eq_dec j i) as [->|]; [congruence|]. apply Q. lia.
      * intros Q j Hj. apply Q. lia.
    + exists false. split; [reflexivity|]. split; [discriminate|]. intros Q. specialize (Q i ltac:(lia)). rewrite Ex, Ey in Q. injection Q as Q.
      apply R in Q. discriminate.
Qed.
