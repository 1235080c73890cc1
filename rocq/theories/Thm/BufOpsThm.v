(** Property C72: operations on whole buffers. *)
From Coq Require Import List NArith Arith Bool Lia.
From Verif.Model Require Import Common Buffers BufOps.
From Verif.Proof Require Import ListP ViewsP BufOpsP.
From Verif.Thm Require Import BuffersThm.
Import ListNotations.
Open Scope nat_scope.

Lemma sound_ptr h b i : sound h b -> i < b_n b -> exists p x, nth_error (b_mem b) i = Some p /\ nth_error h p = Some x /\ length x = b_size b /\
  forall h', buf_at h' b i = nth_error h' p.
Proof.
  intros [L H] Hi. destruct (H i Hi) as (x & E & Lx). destruct (at_ptr _ _ _ _ E) as (p & G & M & X & _). exists p, x.
  split; [exact M|]. split; [exact X|]. split; [exact Lx|]. intros h'. unfold buf_at. now rewrite G.
Qed.
Definition ptr (b : buffers) (i : nat) : nat := nth i (b_mem b) 0.
Definition held (h : heap) (b : buffers) (i : nat) : list N := nth (ptr b i) h [].
Lemma ptr_held h b i : sound h b -> i < b_n b -> nth_error (b_mem b) i = Some (ptr b i) /\ nth_error h (ptr b i) = Some (held h b i) /\
  length (held h b i) = b_size b /\ In (ptr b i) (b_mem b) /\ forall h', buf_at h' b i = nth_error h' (ptr b i).
Proof.
  intros S Hi. destruct (sound_ptr h b i S Hi) as (p & x & M & X & L & A). unfold held, ptr.
  rewrite (nth_error_nth _ _ 0 M), (nth_error_nth _ _ [] X). split; [exact M|]. split; [exact X|]. split; [exact L|]. split; [|exact A].
  eapply nth_error_In; exact M.
Qed.
Lemma not_in_ptr h b q : sound h b -> ~ In q (b_mem b) -> forall j, j < b_n b -> ptr b j <> q.
Proof. intros S H j Hj E. apply H. rewrite <- E. now apply (ptr_held h b j S Hj). Qed.
Lemma nodup_ptr h b i j : sound h b -> NoDup (b_mem b) -> i < b_n b -> j < b_n b -> ptr b i = ptr b j -> i = j.
Proof. intros [L _] N Hi Hj E. apply (proj1 (NoDup_nth (b_mem b) 0) N); [lia|lia|exact E]. Qed.
Lemma keeps_sound h h' b : sound h b -> (forall i, i < b_n b -> exists x, buf_at h' b i = Some x /\ length x = b_size b) -> sound h' b.
Proof. intros [L _] H. split; [exact L|exact H]. Qed.

(** Zeros in all the buffers, also when several indices have the same one; no other buffer is changed. *)
Theorem C72_zero h b : sound h b -> exists h', buf_zero_fill h b = Some h' /\ sound h' b /\
  (forall i, i < b_n b -> buf_at h' b i = Some (repeat 0%N (b_size b))) /\
  forall q, ~ In q (b_mem b) -> nth_error h' q = nth_error h q.
Proof.
  intros S. destruct (writes_spec h (b_n b)
    (fun h i => match nth_error (b_mem b) i with Some p => write_to h p (repeat 0%N (b_size b)) | None => None end)
    (ptr b) (fun _ => repeat 0%N (b_size b)) (held h b)) as (h' & E & L & A & B).
  - intros i g Hi _. now rewrite (proj1 (ptr_held h b i S Hi)).
  - intros i Hi. destruct (ptr_held h b i S Hi) as (_ & X & Lx & _). rewrite repeat_length. split; [exact X|lia].
  - intros i j Hi Hj _. right. rewrite repeat_length. split; [reflexivity|]. symmetry. now apply ptr_held.
  - assert (R : forall i, i < b_n b -> buf_at h' b i = Some (repeat 0%N (b_size b))).
    { intros i Hi. destruct (ptr_held h b i S Hi) as (_ & _ & Lx & _ & At). rewrite At, A, repeat_length by exact Hi.
      rewrite skipn_all2 by lia. now rewrite app_nil_r. }
    exists h'. split; [exact E|]. split.
    + apply (keeps_sound h); [exact S|]. intros i Hi. rewrite R by exact Hi. eexists. split; [reflexivity|apply repeat_length].
    + split; [exact R|]. intros q Hq. apply B. now apply (not_in_ptr h).
Qed.
Lemma one_write h b i x : sound h b -> i < b_n b -> length x = b_size b ->
  exists h', write_to h (ptr b i) x = Some h' /\ buf_at h' b i = Some x /\ sound h' b /\
    (forall q, nth_error (b_mem b) i <> Some q -> nth_error h' q = nth_error h q) /\
    (NoDup (b_mem b) -> forall j, j <> i -> buf_at h' b j = buf_at h b j).
Proof.
  intros S Hi Lx. destruct (ptr_held h b i S Hi) as (M & X & Lo & _ & At). unfold write_to. rewrite X.
  destruct (Nat.leb_spec (length x) (length (held h b i))); [|lia]. rewrite skipn_all2 by lia. rewrite app_nil_r.
  eexists. split; [reflexivity|]. assert (P : ptr b i < length h) by (apply nth_error_Some; congruence).
  assert (G : forall q, nth_error (set h (ptr b i) x) q = if ptr b i =? q then Some x else nth_error h q).
  { intros q. rewrite nth_error_set. destruct (Nat.ltb_spec (ptr b i) (length h)); [|lia]. now rewrite andb_true_r. }
  split; [rewrite At, G, Nat.eqb_refl; reflexivity|]. split; [|split].
  - apply (keeps_sound h); [exact S|]. intros j Hj. destruct (ptr_held h b j S Hj) as (_ & Xj & Lj & _ & Aj). rewrite Aj, G.
    destruct (ptr b i =? ptr b j); eauto.
  - intros q Hq. rewrite G. destruct (Nat.eqb_spec (ptr b i) q) as [E|]; [|reflexivity]. exfalso. apply Hq. now rewrite <- E.
  - intros N j Hj. destruct (Nat.lt_ge_cases j (b_n b)) as [Hb|Hb].
    + destruct (ptr_held h b j S Hb) as (_ & Xj & Lj & _ & Aj). rewrite !Aj, G. destruct (Nat.eqb_spec (ptr b i) (ptr b j)) as [E|]; [|reflexivity].
      exfalso. apply Hj. symmetry. now apply (nodup_ptr h b i j).
    + unfold buf_at, buf_get. destruct (Nat.ltb_spec j (b_n b)); [lia|reflexivity].
Qed.
(** A value in all the elements of one buffer: no other buffer is changed; if no two indices have the same buffer no other index is. *)
Theorem C72_fill h b i value : sound h b -> i < b_n b -> exists h', buf_fill h b i value = Some h' /\
  buf_at h' b i = Some (repeat value (b_size b)) /\ sound h' b /\
  (forall q, nth_error (b_mem b) i <> Some q -> nth_error h' q = nth_error h q) /\
  (NoDup (b_mem b) -> forall j, j <> i -> buf_at h' b j = buf_at h b j).
Proof.
  intros S Hi. destruct (one_write h b i (repeat value (b_size b)) S Hi (repeat_length _ _)) as (h' & E & R). exists h'. split; [|exact R].
  unfold buf_fill. rewrite (proj1 (ptr_held h b i S Hi)). exact E.
Qed.
(** A copy to one buffer, from any place that has enough elements, also the same one. *)
Theorem C72_copy_one h b i q x : sound h b -> i < b_n b -> nth_error h q = Some x -> b_size b <= length x ->
  exists h', buf_copy_one h b i q = Some h' /\ buf_at h' b i = Some (firstn (b_size b) x) /\ sound h' b /\
  (forall r, nth_error (b_mem b) i <> Some r -> nth_error h' r = nth_error h r) /\
  (NoDup (b_mem b) -> forall j, j <> i -> buf_at h' b j = buf_at h b j).
Proof.
  intros S Hi Hx Hl. destruct (one_write h b i (firstn (b_size b) x) S Hi) as (h' & E & R); [rewrite firstn_length; lia|].
  exists h'. split; [|exact R]. unfold buf_copy_one. rewrite (proj1 (ptr_held h b i S Hi)), Hx.
  destruct (Nat.leb_spec (b_size b) (length x)); [exact E|lia].
Qed.
(** A copy of all the buffers: the beginnings are those of [v] before the copy, the rest is kept, if no buffer of [b] is one of [v] at a later
    index: the copy may be to other buffers, to the same ones, or to earlier ones. *)
Theorem C72_copy_down h b v : sound h b -> sound h v -> b_n v = b_n b -> b_size v <= b_size b -> NoDup (b_mem b) ->
  (forall i j q, i < j -> j < b_n b -> nth_error (b_mem b) i = Some q -> nth_error (b_mem v) j <> Some q) ->
  exists h', buf_copy h b v = Some h' /\ sound h' b /\
  (forall i, i < b_n b -> exists x y, buf_at h v i = Some x /\ buf_at h b i = Some y /\ buf_at h' b i = Some (x ++ skipn (b_size v) y)) /\
  forall q, ~ In q (b_mem b) -> nth_error h' q = nth_error h q.
Proof.
  intros S Sv En Es N D.
  assert (Vi : forall i, i < b_n b -> i < b_n v) by lia.
  destruct (writes_spec h (b_n b)
    (fun h i => match buf_at h v i, nth_error (b_mem b) i with Some x, Some p => write_to h p (firstn (b_size v) x) | _, _ => None end)
    (ptr b) (held h v) (held h b)) as (h' & E & L & A & B).
  - intros i g Hi Hg. destruct (ptr_held h v i Sv (Vi i Hi)) as (Mv & X & Lx & I & At).
    assert (G : nth_error g (ptr v i) = Some (held h v i)).
    { rewrite Hg; [exact X|]. intros j Hj Ej. apply (D j i (ptr v i) Hj Hi); [|exact Mv]. rewrite <- Ej. apply (ptr_held h b j S). lia. }
    rewrite At, G, (proj1 (ptr_held h b i S Hi)). now rewrite firstn_all2 by lia.
  - intros i Hi. destruct (ptr_held h b i S Hi) as (_ & X & Lx & _). destruct (ptr_held h v i Sv (Vi i Hi)) as (_ & _ & Lv & _). split; [exact X|lia].
  - intros i j Hi Hj Ep. left. now apply (nodup_ptr h b i j).
  - assert (R : forall i, i < b_n b -> exists x y, buf_at h v i = Some x /\ buf_at h b i = Some y /\
       buf_at h' b i = Some (x ++ skipn (b_size v) y) /\ length x = b_size v /\ length y = b_size b).
    { intros i Hi. destruct (ptr_held h b i S Hi) as (_ & X & Lx & _ & At). destruct (ptr_held h v i Sv (Vi i Hi)) as (_ & Xv & Lv & _ & Av).
      exists (held h v i), (held h b i). rewrite Av, !At, (A i Hi), Lv. auto 6. }
    exists h'. split; [|split; [|split]].
    + unfold buf_copy. rewrite En, Nat.eqb_refl. destruct (Nat.leb_spec (b_size v) (b_size b)); [exact E|lia].
    + apply (keeps_sound h); [exact S|]. intros i Hi. destruct (R i Hi) as (x & y & _ & _ & Q & Lx & Ly). exists (x ++ skipn (b_size v) y).
      split; [exact Q|]. rewrite app_length, skipn_length. lia.
    + intros i Hi. destruct (R i Hi) as (x & y & R1 & R2 & R3 & _). exists x, y. auto.
    + intros q Hq. apply B. now apply (not_in_ptr h).
Qed.
(** A copy to other buffers: the source is kept too. *)
Theorem C72_copy h b v : sound h b -> sound h v -> b_n v = b_n b -> b_size v <= b_size b -> NoDup (b_mem b) ->
  (forall q, In q (b_mem b) -> ~ In q (b_mem v)) ->
  exists h', buf_copy h b v = Some h' /\ sound h' b /\ sound h' v /\
  (forall i, i < b_n b -> exists x y, buf_at h v i = Some x /\ buf_at h b i = Some y /\ buf_at h' v i = Some x /\
     buf_at h' b i = Some (x ++ skipn (b_size v) y)) /\
  forall q, ~ In q (b_mem b) -> nth_error h' q = nth_error h q.
Proof.
  intros S Sv En Es N D. destruct (C72_copy_down h b v S Sv En Es N) as (h' & E & Sb & R & B).
  { intros i j q _ _ Hi Hj. apply (D q); eapply nth_error_In; eassumption. }
  assert (V : forall i, i < b_n v -> buf_at h' v i = buf_at h v i).
  { intros i Hi. destruct (ptr_held h v i Sv Hi) as (_ & _ & _ & I & At). rewrite !At. apply B. intros H. exact (D _ H I). }
  exists h'. split; [exact E|]. split; [exact Sb|]. split; [|split; [|exact B]].
  - apply (keeps_sound h); [exact Sv|]. intros i Hi. rewrite V by exact Hi. now apply Sv.
  - intros i Hi. destruct (R i Hi) as (x & y & R1 & R2 & R3). exists x, y. rewrite V by lia. auto.
Qed.
(** Equality: the same number and size, and the same contents. *)
Theorem C72_equal h a b : sound h a -> sound h b -> exists r, buf_eq h a b = Some r /\
  (r = true <-> b_n a = b_n b /\ b_size a = b_size b /\ forall i, buf_at h a i = buf_at h b i).
Proof.
  intros Sa Sb. unfold buf_eq. destruct (Nat.eqb_spec (b_n a) (b_n b)) as [En|En], (Nat.eqb_spec (b_size a) (b_size b)) as [Es|Es]; cbn [andb];
    try (exists false; split; [reflexivity|]; split; [discriminate|intros (? & ? & _); contradiction]).
  destruct (eq_buffers_spec h a b Es (b_n a) 0) as (r & E & R).
  - intros j Hj. destruct (proj2 Sa j ltac:(lia)) as (x & Ex & Lx). destruct (proj2 Sb j ltac:(lia)) as (y & Ey & Ly).
    exists x, y. split; [exact Ex|]. split; [exact Ey|]. lia.
  - exists r. split; [exact E|]. rewrite R. split; [intros Q|intros (_ & _ & Q) j _; apply Q]. split; [exact En|]. split; [exact Es|].
    intros i. destruct (Nat.lt_ge_cases i (b_n a)) as [Hi|Hi]; [apply Q; lia|]. unfold buf_at, buf_get.
    destruct (Nat.ltb_spec i (b_n a)); [lia|]. destruct (Nat.ltb_spec i (b_n b)); [lia|reflexivity].
Qed.
(** Exchange of two buffers: the contents stay where they are. *)
Theorem C72_swap h b i j : sound h b -> i < b_n b -> j < b_n b -> exists b', buf_swap b i j = Some b' /\ sound h b' /\ b_n b' = b_n b /\
  b_size b' = b_size b /\ forall k, buf_at h b' k = buf_at h b (if k =? i then j else if k =? j then i else k).
Proof.
  intros S Hi Hj. destruct (ptr_held h b i S Hi) as (Mi & _). destruct (ptr_held h b j S Hj) as (Mj & _). unfold buf_swap. rewrite Mi, Mj.
  eexists. split; [reflexivity|]. cbn [b_n b_size]. destruct S as [L S].
  assert (G : forall k, buf_at h (mkBuffers (set (set (b_mem b) i (ptr b j)) j (ptr b i)) (b_mem_len b) (b_size b) (b_n b)) k =
                        buf_at h b (if k =? i then j else if k =? j then i else k)).
  { intros k. unfold buf_at, buf_get. cbn [b_n b_mem]. rewrite !nth_error_set, !set_length. destruct (Nat.ltb_spec j (length (b_mem b))); [|lia].
    destruct (Nat.ltb_spec i (length (b_mem b))); [|lia]. rewrite !andb_true_r.
    destruct (Nat.eqb_spec k i) as [->|Hki].
    - rewrite Nat.eqb_refl. destruct (Nat.ltb_spec i (b_n b)), (Nat.ltb_spec j (b_n b)); try lia. rewrite Mj.
      destruct (Nat.eqb_spec j i) as [->|]; [congruence|reflexivity].
    - destruct (Nat.eqb_spec k j) as [->|Hkj].
      + rewrite Nat.eqb_refl. destruct (Nat.ltb_spec i (b_n b)), (Nat.ltb_spec j (b_n b)); try lia. now rewrite Mi.
      + destruct (Nat.eqb_spec j k), (Nat.eqb_spec i k); try congruence. }
  split; [|auto]. split; [cbn [b_mem b_n]; now rewrite !set_length|]. cbn [b_n b_size]. intros k Hk. rewrite G. apply S.
  destruct (k =? i), (k =? j); assumption.
Qed.

(** ** What does not hold *)
Definition heap3 : heap := [[1; 2]; [3; 4]; [5; 6]]%N.
Definition three : buffers := new_wrap 3 2 [0; 1; 2].
Lemma three_sound : sound heap3 three.
Proof. split; [reflexivity|]. intros i Hi. cbn in Hi. destruct i as [|[|[|i]]]; try lia; eexists; split; reflexivity. Qed.
(** The zeros after the end of a slice are one buffer: to write one of them is to write all of them. *)
Theorem C72_shared_refuted : exists h v h' s h'', sound h v /\ new_range h v 1 5 = Some (h', s) /\ buf_fill h' s 2 9%N = Some h'' /\
  buf_at h' s 3 = Some [0; 0]%N /\ buf_at h'' s 3 = Some [9; 9]%N.
Proof.
  exists heap3, three. do 3 eexists. split; [exact three_sound|]. split; [reflexivity|]. split; [reflexivity|]. split; reflexivity.
Qed.
(** A copy from a slice to another of the same buffers, one further: the first buffer is in all of them. *)
Theorem C72_copy_overlap_refuted : exists h v s d h', sound h v /\ new_range h v 0 2 = Some (h, s) /\ new_range h v 1 3 = Some (h, d) /\
  buf_copy h d s = Some h' /\ buf_at h s 1 = Some [3; 4]%N /\ buf_at h' d 1 = Some [1; 2]%N.
Proof.
  exists heap3, three. do 3 eexists. split; [exact three_sound|]. split; [reflexivity|]. split; [reflexivity|]. split; [reflexivity|]. split; reflexivity.
Qed.

(** Concrete cases. *)
Definition heap5 : heap := (heap3 ++ [[7]; [8]])%N.
Definition two : buffers := new_wrap 2 1 [3; 4].
Definition first_two : buffers := new_wrap 2 2 [0; 1].
Example C72_case : sound heap5 two /\ sound heap5 first_two /\ NoDup (b_mem first_two) /\
  buf_copy heap5 first_two two = Some [[7; 2]; [8; 4]; [5; 6]; [7]; [8]]%N /\ buf_zero_fill heap3 three = Some [[0; 0]; [0; 0]; [0; 0]]%N /\
  buf_fill heap3 three 1 9%N = Some [[1; 2]; [9; 9]; [5; 6]]%N /\ buf_copy_one heap3 three 0 2 = Some [[5; 6]; [3; 4]; [5; 6]]%N /\
  buf_eq heap3 three three = Some true /\ buf_eq heap5 first_two two = Some false.
Proof.
  split; [split; [reflexivity|]; intros i Hi; cbn in Hi; destruct i as [|[|i]]; try lia; eexists; split; reflexivity|].
  split; [split; [reflexivity|]; intros i Hi; cbn in Hi; destruct i as [|[|i]]; try lia; eexists; split; reflexivity|].
  split; [repeat constructor; cbn; intuition discriminate|]. repeat split.
Qed.

(** A copy to the slice before, which overlaps: the hypotheses of C72_copy_down hold. *)
Example C72_case_down : let d := new_wrap 2 2 [0; 1] in let s := new_wrap 2 2 [1; 2] in
  sound heap3 d /\ sound heap3 s /\ NoDup (b_mem d) /\
  (forall i j q, i < j -> j < 2 -> nth_error (b_mem d) i = Some q -> nth_error (b_mem s) j <> Some q) /\
  buf_copy heap3 d s = Some [[3; 4]; [5; 6]; [5; 6]]%N.
Proof.
  split; [split; [reflexivity|]; intros i Hi; cbn in Hi; destruct i as [|[|i]]; try lia; eexists; split; reflexivity|].
  split; [split; [reflexivity|]; intros i Hi; cbn in Hi; destruct i as [|[|i]]; try lia; eexists; split; reflexivity|].
  split; [repeat constructor; cbn; intuition discriminate|]. split; [|reflexivity].
  intros i j q Hij Hj. destruct j as [|[|j]]; [lia| |lia]. destruct i as [|i]; [|lia]. cbn. congruence.
Qed.

Print Assumptions C72_zero.
Print Assumptions C72_copy_down.
Print Assumptions C72_fill.
Print Assumptions C72_copy_one.
Print Assumptions C72_copy.
Print Assumptions C72_equal.
Print Assumptions C72_swap.
Print Assumptions C72_shared_refuted.
Print Assumptions C72_copy_overlap_refuted.
