(** Facts about list updates and folds of disjoint updates. *)
From Coq Require Import List NArith Arith Bool Lia.
From Verif.Model Require Import Common.
Import ListNotations.
Open Scope nat_scope.

Lemma set_length A (l : list A) i x : length (set l i x) = length l.
Proof. revert i; induction l as [|a l IH]; intros [|i]; simpl; auto. Qed.

Lemma nth_set_eq A (l : list A) i x d : i < length l -> nth i (set l i x) d = x.
Proof. revert i; induction l as [|a l IH]; intros [|i] H; simpl in *; try lia; auto. apply IH; lia. Qed.

Lemma nth_set_neq A (l : list A) i j x d : i <> j -> nth i (set l j x) d = nth i l d.
Proof. revert i j; induction l as [|a l IH]; intros [|i] [|j] H; simpl; auto; try lia. Qed.

Lemma set_nth A (l : list A) i d : set l i (nth i l d) = l.
Proof. revert i; induction l as [|a l IH]; intros [|i]; simpl; auto. f_equal; auto. Qed.

Lemma set_oob A (l : list A) i x : length l <= i -> set l i x = l.
Proof. revert i; induction l as [|a l IH]; intros [|i] H; simpl in *; auto; try lia. f_equal; apply IH; lia. Qed.

Lemma swap_length A (d : A) l i j : length (swap d l i j) = length l.
Proof. unfold swap; now rewrite !set_length. Qed.

Lemma nth_swap A (d : A) l i j k : i < length l -> j < length l ->
  nth k (swap d l i j) d = nth (if k =? j then i else if k =? i then j else k) l d.
Proof.
  intros Hi Hj; unfold swap, get.
  destruct (Nat.eqb_spec k j) as [->|Hkj].
  - rewrite nth_set_eq; auto; now rewrite set_length.
  - rewrite nth_set_neq by auto. destruct (Nat.eqb_spec k i) as [->|Hki].
    + now rewrite nth_set_eq.
    + now rewrite nth_set_neq.
Qed.

Lemma list_ext A (d : A) (l1 l2 : list A) :
  length l1 = length l2 -> (forall i, i < length l1 -> nth i l1 d = nth i l2 d) -> l1 = l2.
Proof. intros Hl H. apply nth_ext with (d := d) (d' := d); auto. Qed.

(** ** Loop indices *)
Lemma steps_spec fuel : forall start stop step k, 0 < step -> stop <= start + fuel * step ->
  (In k (steps fuel start stop step) <-> k < stop /\ exists t, k = start + t * step).
Proof.
  induction fuel as [|f IH]; intros start stop step k Hs Hf; simpl.
  - split; [tauto|]. intros [H [t ->]]. lia.
  - destruct (Nat.ltb_spec start stop) as [H|H]; simpl.
    + rewrite IH by lia. split.
      * intros [->|[Hk [t ->]]]; [split; [auto|exists 0; lia]|split; [auto|exists (S t); lia]].
      * intros [Hk [[|t] ->]]; [left; lia|right; split; [auto|exists t; lia]].
    + split; [tauto|]. intros [Hk [t ->]]. lia.
Qed.

Lemma steps_ge fuel : forall start stop step k, In k (steps fuel start stop step) -> start <= k.
Proof.
  induction fuel as [|f IH]; intros start stop step k; simpl; [tauto|].
  destruct (start <? stop); simpl; [|tauto]. intros [->|H]; [lia|]. apply IH in H; lia.
Qed.

Lemma steps_NoDup fuel : forall start stop step, 0 < step -> NoDup (steps fuel start stop step).
Proof.
  induction fuel as [|f IH]; intros start stop step Hs; simpl; [constructor|].
  destruct (start <? stop); [|constructor]. constructor; auto.
  intros H. apply steps_ge in H. lia.
Qed.

Lemma steps_mod n start step k : start < step ->
  (In k (steps n start n step) <-> k < n /\ k mod step = start).
Proof.
  intros Hs. rewrite steps_spec by nia. split; intros [Hk H]; split; auto.
  - destruct H as [t ->]. rewrite Nat.mod_add by lia. now apply Nat.mod_small.
  - exists (k / step). pose proof (Nat.div_mod k step). lia.
Qed.

(** ** Folds of updates of disjoint pairs *)
Section Pairs.
Context {T : Type} (d : T) (f1 f2 : nat -> T -> T -> T) (m : nat).

Definition pair_upd (v : list T) (i : nat) : list T :=
  set (set v i (f1 i (nth i v d) (nth (i + m) v d))) (i + m) (f2 i (nth i v d) (nth (i + m) v d)).

Lemma pair_upd_length v i : length (pair_upd v i) = length v.
Proof. unfold pair_upd; now rewrite !set_length. Qed.

Lemma pair_fold_length is : forall v, length (fold_left pair_upd is v) = length v.
Proof. induction is as [|i is IH]; intros v; simpl; auto. rewrite IH; apply pair_upd_length. Qed.

Lemma pair_fold_other is : forall v k, ~ In k is -> (forall i, In i is -> k <> i + m) ->
  nth k (fold_left pair_upd is v) d = nth k v d.
Proof.
  induction is as [|i is IH]; intros v k H1 H2; simpl; auto.
  rewrite IH; [|simpl in H1; tauto|intros; apply H2; simpl; auto].
  unfold pair_upd. rewrite !nth_set_neq; auto; [simpl in H1; intuition|apply H2; simpl; auto].
Qed.

Lemma pair_fold_pair is : forall v i, 0 < m -> NoDup is ->
  (forall i, In i is -> i + m < length v) -> (forall i j, In i is -> In j is -> i <> j + m) -> In i is ->
  nth i (fold_left pair_upd is v) d = f1 i (nth i v d) (nth (i + m) v d) /\
  nth (i + m) (fold_left pair_upd is v) d = f2 i (nth i v d) (nth (i + m) v d).
Proof.
  induction is as [|a is IH]; intros v i Hm ND Hb Hd Hi; simpl in *; [tauto|].
  inversion_clear ND as [|? ? Ha ND'].
  destruct (Nat.eq_dec i a) as [->|Hne].
  - assert (Hb' : a + m < length v) by auto.
    rewrite !pair_fold_other; auto.
    + unfold pair_upd. rewrite nth_set_neq by lia. rewrite nth_set_eq by lia.
      rewrite nth_set_eq by (rewrite set_length; lia). auto.
    + intros H. apply (Hd (a + m) a); auto.
    + intros j Hj. intros E. assert (a = j) by lia. subst; auto.
  - destruct Hi as [->|Hi]; [lia|].
    assert (Hu : forall k, k = i \/ k = i + m -> nth k (pair_upd v a) d = nth k v d).
    { intros k Hk. unfold pair_upd. rewrite !nth_set_neq; auto.
      - destruct Hk as [->| ->]; auto. intro E. apply (Hd a i); auto.
      - destruct Hk as [->| ->]; [|lia]. apply Hd; auto. }
    destruct (IH (pair_upd v a) i Hm ND') as [E1 E2]; auto.
    + intros j Hj. rewrite pair_upd_length; auto.
    + rewrite E1, E2. rewrite !Hu; auto.
Qed.

(** Pairs [(i, i + m)] for all [i < n] with [i mod step = start]. *)
Lemma pair_steps n start step v :
  0 < m -> start + m < step -> Nat.divide step n -> length v = n ->
  let v' := fold_left pair_upd (steps n start n step) v in
  length v' = n /\
  (forall k, k < n -> k mod step = start -> nth k v' d = f1 k (nth k v d) (nth (k + m) v d)) /\
  (forall k, k < n -> k mod step = start + m -> m <= k /\ nth k v' d = f2 (k - m) (nth (k - m) v d) (nth k v d)) /\
  (forall k, k < n -> k mod step <> start -> k mod step <> start + m -> nth k v' d = nth k v d).
Proof.
  intros Hm Hs [c Hc] Hl v'. assert (Hin := steps_mod n start step).
  assert (Hpos : 0 < step) by lia.
  assert (Hadd : forall i, i mod step = start -> (i + m) mod step = start + m).
  { intros i Hi. rewrite Nat.add_mod, Hi by lia. rewrite (Nat.mod_small m) by lia. apply Nat.mod_small; lia. }
  assert (Hb : forall i, In i (steps n start n step) -> i + m < length v).
  { intros i Hi. apply Hin in Hi; [|lia]. destruct Hi as [Hi Hi']. rewrite Hl.
    pose proof (Nat.div_mod i step). assert (i / step < c) by (apply Nat.div_lt_upper_bound; lia). nia. }
  assert (Hd : forall i j, In i (steps n start n step) -> In j (steps n start n step) -> i <> j + m).
  { intros i j Hi Hj E. apply Hin in Hi; [|lia]. apply Hin in Hj; [|lia].
    destruct Hi as [_ Hi], Hj as [_ Hj]. subst i. rewrite (Hadd j Hj) in Hi. lia. }
  assert (ND := steps_NoDup n start n step Hpos).
  unfold v'. rewrite pair_fold_length. split; [auto|]. split; [|split].
  - intros k Hk Hk'. refine (proj1 (pair_fold_pair _ _ _ Hm ND Hb Hd _)). apply Hin; lia.
  - intros k Hk Hk'.
    assert (m <= k). { pose proof (Nat.mod_le k step). lia. }
    split; auto.
    assert (Hk2 : In (k - m) (steps n start n step)).
    { apply Hin; [lia|]. split; [lia|].
      pose proof (Nat.div_mod k step). replace (k - m) with (start + (k / step) * step) by lia.
      rewrite Nat.mod_add by lia. apply Nat.mod_small; lia. }
    pose proof (proj2 (pair_fold_pair _ _ (k - m) Hm ND Hb Hd Hk2)) as E.
    now replace (k - m + m) with k in E by lia.
  - intros k Hk H1 H2. apply pair_fold_other.
    + intros Hi. apply Hin in Hi; [|lia]. lia.
    + intros i Hi ->. apply Hin in Hi; [|lia]. apply H2. apply Hadd. lia.
Qed.

End Pairs.

(** ** Folds of updates that act on disjoint classes of cells *)
Section Classes.
Context {T : Type} (d : T) (n : nat) (c : nat -> nat) (G : nat -> list T -> list T).

Hypothesis G_length : forall j v, length v = n -> length (G j v) = n.
Hypothesis G_other : forall j v k, length v = n -> k < n -> c k <> j -> nth k (G j v) d = nth k v d.
Hypothesis G_local : forall j v v', length v = n -> length v' = n ->
  (forall k, k < n -> c k = j -> nth k v d = nth k v' d) ->
  forall k, k < n -> c k = j -> nth k (G j v) d = nth k (G j v') d.

Lemma fold_class_length js : forall v, length v = n -> length (fold_left (fun v j => G j v) js v) = n.
Proof. induction js; simpl; auto. Qed.

Lemma fold_class_other js : forall v k, length v = n -> k < n -> ~ In (c k) js ->
  nth k (fold_left (fun v j => G j v) js v) d = nth k v d.
Proof.
  induction js as [|j js IH]; intros v k Hl Hk Hn; simpl in *; auto.
  rewrite IH by auto; apply G_other; auto.
Qed.

Lemma fold_class_in js : forall v k, length v = n -> k < n -> NoDup js -> In (c k) js ->
  nth k (fold_left (fun v j => G j v) js v) d = nth k (G (c k) v) d.
Proof.
  induction js as [|j js IH]; intros v k Hl Hk ND Hi; simpl in *; [tauto|].
  inversion_clear ND as [|? ? Hj ND'].
  destruct (Nat.eq_dec (c k) j) as [E|Hne].
  - rewrite fold_class_other; auto; rewrite E; auto.
  - destruct Hi as [->|Hi]; [lia|]. rewrite IH; auto.
    apply G_local; auto. intros k' Hk' Ek'. apply G_other; auto. lia.
Qed.
End Classes.

Lemma fold_left_ext_in A B (f g : A -> B -> A) l : forall a,
  (forall a b, In b l -> f a b = g a b) -> fold_left f l a = fold_left g l a.
Proof.
  induction l as [|b l IH]; intros a H; simpl; auto.
  rewrite H by (simpl; auto). apply IH. intros; apply H; simpl; auto.
Qed.

Lemma fold_set_fill A (d : A) (f : nat -> A) is : forall v,
  length (fold_left (fun v i => set v i (f i)) is v) = length v /\
  forall k, (In k is -> k < length v -> nth k (fold_left (fun v i => set v i (f i)) is v) d = f k) /\
            (~ In k is -> nth k (fold_left (fun v i => set v i (f i)) is v) d = nth k v d).
Proof.
  induction is as [|i is IH]; intros v; simpl.
  - split; auto. intros k; split; [tauto|auto].
  - destruct (IH (set v i (f i))) as [Hl Hk]. rewrite set_length in Hl. split; auto.
    intros k. destruct (Hk k) as [H1 H2]. rewrite set_length in H1. split.
    + intros Hin Hlt. destruct (in_dec Nat.eq_dec k is) as [H|H]; auto.
      rewrite H2 by auto. destruct Hin as [->|?]; [|tauto]. now apply nth_set_eq.
    + intros Hn. rewrite H2 by tauto. apply nth_set_neq. intuition.
Qed.

(** A list of length [n] given by a function. *)
Lemma nth_map_seq A (d : A) (f : nat -> A) n i : i < n -> nth i (map f (seq 0 n)) d = f i.
Proof.
  intros H. rewrite nth_indep with (d' := f 0) by now rewrite map_length, seq_length.
  rewrite map_nth. now rewrite seq_nth.
Qed.

Lemma nth_firstn A (d : A) m : forall (l : list A) i, nth i (firstn m l) d = if i <? m then nth i l d else d.
Proof.
  induction m as [|m IH]; intros l i; simpl.
  - destruct i; auto.
  - destruct l as [|a l]; simpl.
    + destruct i; simpl; auto. destruct (S i <? S m); auto.
    + destruct i as [|i]; simpl; auto. apply IH.
Qed.

Lemma nth_skipn A (d : A) m : forall (l : list A) i, nth i (skipn m l) d = nth (m + i) l d.
Proof. induction m as [|m IH]; intros [|a l] i; simpl; auto. destruct i; auto. Qed.

Lemma firstn_last A (d : A) m : forall l, length l = S m -> l = firstn m l ++ [nth m l d].
Proof.
  induction m as [|m IH]; intros [|a l] H; simpl in *; try lia.
  - destruct l; simpl in *; auto; lia.
  - f_equal. apply IH. lia.
Qed.
