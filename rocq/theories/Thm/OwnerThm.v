(** Property C57: Vector and Buffers free what they allocate, once. *)
From Coq Require Import List Arith Bool Lia Permutation.
From Verif.Model Require Import Common Owner.
From Verif.Spec Require Import Owner.
From Verif.Proof Require Import ListP.
Import ListNotations.

(** ** Proof: the blocks in use are those of the program and those that the objects have to free. *)
Definition somes (l : list pointer) : list nat := flat_map (fun p => match p with Some b => [b] | None => [] end) l.
Definition owned (o : option object) : list nat :=
  match o with
  | Some (OVector v) => if v_new_mem v then somes [v_mem v] else []
  | Some (OBufs v) => match f_case v with AFull => somes (f_mem v) | AZeroExtend => somes [f_zeros v] | _ => [] end
  | None => []
  end.
Definition well (o : option object) : Prop :=
  match o with Some (OBufs v) => length (f_mem v) = f_n v /\ (f_case v = AZeroExtend -> 0 < f_n v) | _ => True end.
(** [rest]: the other blocks in use. *)
Definition holds (h : blocks) (l : list nat) : Prop := Permutation (b_live h) l /\ NoDup (b_live h) /\ Forall (fun b => b < b_next h) (b_live h).
Definition inv (w : world) (mine : list nat) : Prop :=
  holds (w_blocks w) (mine ++ flat_map owned (w_objs w)) /\ Forall well (w_objs w).

Lemma holds_perm h l l' : holds h l -> Permutation l l' -> holds h l'.
Proof. intros (H1 & H2 & H3) P. split; [|auto]. now transitivity l. Qed.
Lemma get_holds h l : holds h l -> forall h' p, get_block h = (h', p) -> holds h' (p :: l) /\ p = b_next h /\ incl (b_live h) (b_live h').
Proof.
  intros (H1 & H2 & H3) h' p E. injection E as <- <-. cbn. split; [|split; [reflexivity|intros x; now right]]. split; [now apply perm_skip|]. cbn. split.
  - constructor; [|exact H2]. intros I. rewrite Forall_forall in H3. apply H3 in I. lia.
  - constructor; [lia|]. eapply Forall_impl; [|exact H3]. cbn. lia.
Qed.
Lemma gets_holds k : forall h l, holds h l -> forall h' ps, get_blocks h k = (h', ps) -> holds h' (ps ++ l) /\ length ps = k /\ incl (b_live h) (b_live h').
Proof.
  induction k as [|k IH]; intros h l H h' ps E; cbn [get_blocks] in E.
  - injection E as <- <-. auto using incl_refl.
  - destruct (get_block h) as [h1 p] eqn:E1. destruct (get_blocks h1 k) as [h2 ps2] eqn:E2. injection E as <- <-.
    destruct (get_holds h l H h1 p E1) as (H1 & _ & I1). destruct (IH h1 _ H1 h2 ps2 E2) as (H2 & L & I2).
    split; [|split; [cbn; lia|eapply incl_tran; eauto]]. eapply holds_perm; [exact H2|]. cbn. symmetry. apply Permutation_middle.
Qed.
Lemma is_live_In h b : is_live h b = true <-> In b (b_live h).
Proof.
  unfold is_live. rewrite existsb_exists. split.
  - intros (x & Hx & E). apply Nat.eqb_eq in E. now subst.
  - intros H. exists b. split; [exact H|apply Nat.eqb_refl].
Qed.
Lemma filter_notin b (l : list nat) : ~ In b l -> filter (fun x => negb (x =? b)) l = l.
Proof.
  induction l as [|x l IH]; intros H; [reflexivity|]. cbn. destruct (Nat.eqb_spec x b); [exfalso; apply H; now left|].
  cbn. f_equal. apply IH. intros I. apply H. now right.
Qed.
Lemma Permutation_filter {A} (f : A -> bool) l l' : Permutation l l' -> Permutation (filter f l) (filter f l').
Proof.
  induction 1 as [|x l l' _ IH|x y l|]; cbn; auto.
  - destruct (f x); auto.
  - destruct (f x), (f y); auto. apply perm_swap.
  - etransitivity; eauto.
Qed.
Lemma free_holds h p l : holds h (somes [p] ++ l) -> exists h', free_block h p = Some h' /\ holds h' l.
Proof.
  intros (H1 & H2 & H3). destruct p as [b|]; cbn [somes flat_map app] in H1; [|exists h; repeat split; auto].
  assert (I : In b (b_live h)) by (eapply Permutation_in; [symmetry; exact H1|now left]).
  assert (N : ~ In b l) by (pose proof (Permutation_NoDup H1 H2) as N; now inversion N).
  cbn [free_block]. rewrite (proj2 (is_live_In h b) I). eexists. split; [reflexivity|]. cbn. split; [|split].
  - cbn [b_live]. apply (Permutation_filter (fun x => negb (x =? b))) in H1. cbn [filter] in H1. rewrite Nat.eqb_refl in H1. cbn [negb] in H1.
    rewrite (filter_notin b l N) in H1. exact H1.
  - now apply NoDup_filter.
  - cbn. apply Forall_forall. intros x Hx. apply filter_In in Hx. rewrite Forall_forall in H3. now apply H3.
Qed.
Lemma frees_holds ps : forall h l, holds h (somes ps ++ l) -> exists h', free_blocks h ps = Some h' /\ holds h' l.
Proof.
  induction ps as [|p ps IH]; intros h l H; [exists h; auto|]. cbn [free_blocks].
  destruct (free_holds h p (somes ps ++ l)) as (h1 & -> & H1).
  { eapply holds_perm; [exact H|]. unfold somes. cbn [flat_map]. now rewrite app_nil_r, app_assoc. }
  exact (IH h1 l H1).
Qed.
Lemma somes_map l : somes (map Some l) = l.
Proof. induction l as [|x l IH]; [reflexivity|]. unfold somes in *. cbn. now rewrite IH. Qed.
Lemma somes_perm l l' : Permutation l l' -> Permutation (somes l) (somes l').
Proof. intros H. unfold somes. now apply Permutation_flat_map. Qed.

(** Changing one object. *)
Lemma flat_set l i : i < length l -> exists rest, Permutation (flat_map owned l) (owned (nth i l None) ++ rest) /\
  forall o, Permutation (flat_map owned (set l i o)) (owned o ++ rest).
Proof.
  revert i. induction l as [|x l IH]; intros i Hi; [cbn in Hi; lia|]. destruct i as [|i].
  - exists (flat_map owned l). split; [reflexivity|]. intros o. reflexivity.
  - destruct (IH i) as (rest & P1 & P2); [cbn in Hi; lia|]. exists (owned x ++ rest). cbn [nth flat_map]. split.
    + rewrite P1. rewrite !app_assoc. apply Permutation_app_tail, Permutation_app_comm.
    + intros o. change (set (x :: l) (S i) o) with (x :: set l i o). cbn [flat_map]. rewrite P2, !app_assoc.
      apply Permutation_app_tail, Permutation_app_comm.
Qed.
Lemma Forall_set {A} (P : A -> Prop) l i o : Forall P l -> P o -> Forall P (set l i o).
Proof.
  intros H Ho. revert i. induction H as [|x l Hx H IH]; intros i.
  - destruct i; constructor.
  - destruct i as [|i]; [constructor; auto|]. change (set (x :: l) (S i) o) with (x :: set l i o). constructor; auto.
Qed.
Lemma obj_lt w i o : obj w i = Some o -> i < length (w_objs w).
Proof. unfold obj. intros E. destruct (Nat.lt_ge_cases i (length (w_objs w))); [auto|]. rewrite nth_overflow in E by lia. discriminate. Qed.
Lemma obj_well w i o mine : inv w mine -> obj w i = Some o -> well (Some o).
Proof. intros [_ H] E. rewrite Forall_forall in H. rewrite <- E. apply H. apply nth_In. eapply obj_lt; eauto. Qed.

(** A new object that has to free [new]. *)
Lemma inv_add w mine h o new : inv w mine -> holds h (new ++ mine ++ flat_map owned (w_objs w)) -> owned (Some o) = new -> well (Some o) ->
  inv (add_obj h w o) mine.
Proof.
  intros [_ W] H E Wo. split; cbn [w_blocks w_objs add_obj].
  - eapply holds_perm; [exact H|]. rewrite flat_map_app. cbn [flat_map]. rewrite E, app_nil_r, (app_assoc mine). apply Permutation_app_comm.
  - apply Forall_app. split; [exact W|]. constructor; auto.
Qed.
(** An object replaced by another. *)
Lemma inv_put w mine i o : inv w mine -> obj w i = Some o -> exists rest,
  holds (w_blocks w) (owned (Some o) ++ rest) /\
  forall h o', holds h (owned o' ++ rest) -> well o' -> inv (put_obj h w i o') mine.
Proof.
  intros [H W] E. destruct (flat_set (w_objs w) i (obj_lt _ _ _ E)) as (r & P1 & P2). exists (mine ++ r). split.
  - eapply holds_perm; [exact H|]. rewrite P1. unfold obj in E. rewrite E, !app_assoc. apply Permutation_app_tail, Permutation_app_comm.
  - intros h o' H' W'. split; cbn [w_blocks w_objs put_obj]; [|now apply Forall_set].
    eapply holds_perm; [exact H'|]. rewrite P2, !app_assoc. apply Permutation_app_tail, Permutation_app_comm.
Qed.
(** The same with the blocks unchanged. *)
Lemma inv_same w mine i o o' : inv w mine -> obj w i = Some o -> Permutation (owned (Some o)) (owned o') -> well o' ->
  inv (put_obj (w_blocks w) w i o') mine.
Proof.
  intros H E P W. destruct (inv_put w mine i o H E) as (rest & H1 & H2). apply H2; [|exact W].
  eapply holds_perm; [exact H1|]. now apply Permutation_app_tail.
Qed.

Lemma get_vector_obj w i v : get_vector w i = Some v -> obj w i = Some (OVector v).
Proof. unfold get_vector. destruct (obj w i) as [[]|]; congruence. Qed.
Lemma get_bufs_obj w i v : get_bufs w i = Some v -> obj w i = Some (OBufs v).
Proof. unfold get_bufs. destruct (obj w i) as [[]|]; congruence. Qed.

Lemma vector_destroy_holds h v l : holds h (owned (Some (OVector v)) ++ l) -> exists h', vector_destroy h v = Some h' /\ holds h' l.
Proof. cbn [owned]. unfold vector_destroy. destruct (v_new_mem v); [apply free_holds|eauto]. Qed.
Lemma bufs_destroy_holds h v l : well (Some (OBufs v)) -> holds h (owned (Some (OBufs v)) ++ l) -> exists h', bufs_destroy h v = Some h' /\ holds h' l.
Proof.
  intros [L Z] H. cbn [owned] in H. unfold bufs_destroy. destruct (f_case v); eauto; destruct (Nat.ltb_spec 0 (length (f_mem v))); eauto.
  - now apply free_holds.
  - specialize (Z eq_refl). lia.
  - rewrite <- L, Nat.leb_refl, firstn_all. now apply frees_holds.
  - destruct (f_mem v); [eauto|cbn in *; lia].
Qed.

(** Copies. *)
Lemma vector_copy_holds h v l : holds h l -> whole v -> (forall b, v_new_mem v = true -> v_mem v = Some b -> In b (b_live h)) ->
  exists h' v', vector_copy h v = Some (h', v') /\ holds h' (owned (Some (OVector v')) ++ l).
Proof.
  intros H Wv Hb. unfold vector_copy. destruct (v_new_mem v) eqn:E.
  - destruct (get_block h) as [h' p] eqn:Eg. destruct (get_holds h l H h' p Eg) as (H' & _ & I).
    destruct (v_mem v) as [b|] eqn:Em; [|now elim (Wv E)]. cbn [readable].
    rewrite (proj2 (is_live_In h' b)) by (apply I, Hb; auto). rewrite orb_true_r. eexists. eexists. split; [reflexivity|]. exact H'.
  - eexists. eexists. split; [reflexivity|]. exact H.
Qed.
Lemma owner_live w mine i v b : inv w mine -> obj w i = Some (OVector v) -> v_new_mem v = true -> v_mem v = Some b -> In b (b_live (w_blocks w)).
Proof.
  intros H E E1 E2. destruct (inv_put w mine i _ H E) as (rest & (P & _) & _). cbn [owned] in P. rewrite E1, E2 in P.
  eapply Permutation_in; [symmetry; exact P|]. now left.
Qed.

(** Permutations of the pointers. *)
Lemma separate_perm h : forall (l : list pointer), length l = 2 * h ->
  Permutation (map (fun i => nth (2 * i) l None) (seq 0 h) ++ map (fun i => nth (2 * i + 1) l None) (seq 0 h)) l.
Proof.
  induction h as [|h IH]; intros l Hl.
  - destruct l; [reflexivity|discriminate].
  - destruct l as [|x [|y l]]; [discriminate|cbn in Hl; lia|]. cbn [seq map]. rewrite <- seq_shift, !map_map.
    assert (E1 : map (fun i => nth (2 * S i) (x :: y :: l) None) (seq 0 h) = map (fun i => nth (2 * i) l None) (seq 0 h)).
    { apply map_ext. intros i. replace (2 * S i) with (S (S (2 * i))) by lia. reflexivity. }
    assert (E2 : map (fun i => nth (2 * S i + 1) (x :: y :: l) None) (seq 0 h) = map (fun i => nth (2 * i + 1) l None) (seq 0 h)).
    { apply map_ext. intros i. replace (2 * S i + 1) with (S (S (2 * i + 1))) by lia. reflexivity. }
    rewrite E1, E2. cbn [Nat.mul Nat.add nth app]. apply perm_skip. rewrite <- Permutation_middle. apply perm_skip. apply IH. cbn in Hl. lia.
Qed.
Lemma set_split {A} (l : list A) i x : i < length l -> set l i x = firstn i l ++ x :: skipn (S i) l.
Proof.
  revert i. induction l as [|y l IH]; intros i Hi; [cbn in Hi; lia|]. destruct i as [|i]; [reflexivity|].
  change (set (y :: l) (S i) x) with (y :: set l i x). rewrite IH by (cbn in Hi; lia). reflexivity.
Qed.
Lemma set_perm {A} (l : list A) i x d : i < length l -> Permutation (nth i l d :: set l i x) (x :: l).
Proof.
  revert i. induction l as [|y l IH]; intros i Hi; [cbn in Hi; lia|]. destruct i as [|i].
  - change (set (y :: l) 0 x) with (x :: l). cbn [nth]. apply perm_swap.
  - change (set (y :: l) (S i) x) with (y :: set l i x). cbn [nth]. rewrite perm_swap, (IH i) by (cbn in Hi; lia). apply perm_swap.
Qed.
Lemma swap_perm (l : list pointer) i j : i < length l -> j < length l ->
  Permutation (set (set l i (nth j l None)) j (nth i l None)) l.
Proof.
  intros Hi Hj. set (l1 := set l i (nth j l None)). assert (L1 : length l1 = length l) by apply set_length.
  pose proof (set_perm l1 j (nth i l None) None ltac:(lia)) as P1. pose proof (set_perm l i (nth j l None) None Hi) as P2. fold l1 in P2.
  assert (E : nth j l1 None = nth j l None).
  { unfold l1. destruct (Nat.eq_dec j i) as [->|N]; [now apply nth_set_eq|now apply nth_set_neq]. }
  rewrite E in P1. rewrite P2 in P1. now apply Permutation_cons_inv in P1.
Qed.
Lemma shuffle_some map : forall mem src, length map <= length src -> (forall j, In j map -> j < length mem) ->
  exists mem', shuffle_loop mem map src = Some mem' /\ length mem' = length mem.
Proof.
  induction map as [|j map IH]; intros mem src L H; [exists mem; now destruct src|]. destruct src as [|p src]; [cbn in L; lia|]. cbn [shuffle_loop].
  destruct (Nat.ltb_spec j (length mem)) as [|B]; [|specialize (H j (or_introl eq_refl)); lia].
  destruct (IH (set mem j p) src) as (mem' & E & L'); [cbn in L; lia|intros; rewrite set_length; apply H; now right|].
  rewrite set_length in L'. eauto.
Qed.

(** ** Events *)
Lemma inv_event w mine e : inv w mine -> allowed w mine e -> exists w', run_event w e = Some w' /\ inv w' (own_after w mine e).
Proof.
  intros H HA. pose proof H as [Hh W].
  destruct HA as [|b Hb|n mem len|i v Ev Wv|i v Ev|i j v v' Ev Ev' Wv|i j v v' Ev Ev'|i v mem len Ev|n|n mem Ln|i v n Ev Hp|i v b e Ev Hbe Hb
    |i j v v' Ev Ev'|i v map n Ev Hn Hm Hj|i v k buf Ev Hk Hc Hz|i v Ev He|i v k l Ev Hk Hl|i o Eo]; cbn [run_event own_after]; cbv zeta.
  - destruct (get_block (w_blocks w)) as [h p] eqn:E. destruct (get_holds _ _ Hh _ _ E) as (H1 & -> & _). eexists. split; [reflexivity|].
    split; [exact H1|exact W].
  - destruct (free_holds (w_blocks w) (Some b) (remove Nat.eq_dec b mine ++ flat_map owned (w_objs w))) as (h & -> & H1).
    { eapply holds_perm; [exact Hh|]. cbn [somes flat_map app]. change (b :: remove Nat.eq_dec b mine ++ flat_map owned (w_objs w)) with ((b :: remove Nat.eq_dec b mine) ++ flat_map owned (w_objs w)).
      apply Permutation_app_tail. assert (N : NoDup mine).
      { destruct Hh as (P & N & _). apply (Permutation_NoDup P) in N. clear - N. induction mine as [|x l IH]; [constructor|]. inversion N. constructor; auto.
        intros I. apply H1. apply in_or_app. now left. }
      clear - N Hb. induction mine as [|x l IH]; [destruct Hb|]. inversion_clear N as [|? ? N1 N2]. cbn [remove]. destruct (Nat.eq_dec b x) as [->|D].
      - now rewrite notin_remove.
      - destruct Hb as [->|Hb]; [congruence|]. rewrite (IH Hb N2) at 1. apply perm_swap. }
    eexists. split; [reflexivity|]. split; [exact H1|exact W].
  - unfold vector_new. destruct mem as [p|].
    + eexists. split; [reflexivity|]. eapply inv_add; eauto; [exact Hh|exact I].
    + destruct (get_block (w_blocks w)) as [h p] eqn:E. destruct (get_holds _ _ Hh _ _ E) as (H1 & _ & _). eexists. split; [reflexivity|].
      eapply inv_add; eauto; [exact H1|exact I].
  - rewrite Ev. apply get_vector_obj in Ev. destruct (vector_copy_holds (w_blocks w) v _ Hh Wv) as (h & v' & -> & H1).
    { intros. eapply owner_live; eauto. }
    eexists. split; [reflexivity|]. eapply inv_add; eauto. exact I.
  - rewrite Ev. apply get_vector_obj in Ev. unfold vector_move. eexists. split; [reflexivity|].
    set (rest := mkVector (v_n v) None (v_mem_len v) (v_new_mem v)).
    destruct (inv_put w mine i _ H Ev) as (r & H1 & H2).
    assert (R0 : owned (Some (OVector rest)) = []) by (cbn; destruct (v_new_mem v); reflexivity).
    (* the blocks in use do not change: count the moved block in the new object *)
    split; cbn [w_blocks w_objs add_obj put_obj].
    + destruct (flat_set (w_objs w) i (obj_lt _ _ _ Ev)) as (q & P1 & P2). eapply holds_perm; [exact Hh|]. rewrite flat_map_app, P1, P2. unfold obj in Ev. rewrite Ev, R0.
      cbn [flat_map app]. rewrite app_nil_r. apply Permutation_app_head, Permutation_app_comm.
    + apply Forall_app. split; [|constructor; [exact I|constructor]]. apply Forall_set; [exact W|exact I].
  - rewrite Ev, Ev'. apply get_vector_obj in Ev, Ev'. unfold vector_assign.
    destruct (inv_put w mine i _ H Ev) as (r & H1 & H2).
    destruct (vector_copy_holds (w_blocks w) v' _ H1 Wv) as (h & t & -> & H3).
    { intros. eapply owner_live; eauto. }
    destruct (vector_destroy_holds h v (owned (Some (OVector t)) ++ r)) as (h' & -> & H4).
    { eapply holds_perm; [exact H3|]. rewrite !app_assoc. apply Permutation_app_tail, Permutation_app_comm. }
    eexists. split; [reflexivity|]. apply H2; [exact H4|exact I].
  - rewrite Ev, Ev'. apply get_vector_obj in Ev, Ev'. eexists. split; [reflexivity|]. split; cbn [w_blocks w_objs put_obj].
    + eapply holds_perm; [exact Hh|]. apply Permutation_app_head. pose proof (obj_lt _ _ _ Ev) as Li. pose proof (obj_lt _ _ _ Ev') as Lj.
      assert (P : Permutation (w_objs w) (set (set (w_objs w) i (nth j (w_objs w) None)) j (nth i (w_objs w) None))).
      { set (l1 := set (w_objs w) i (nth j (w_objs w) None)). assert (L1 : length l1 = length (w_objs w)) by apply set_length.
        pose proof (set_perm l1 j (nth i (w_objs w) None) None ltac:(lia)) as P1. pose proof (set_perm (w_objs w) i (nth j (w_objs w) None) None Li) as P2. fold l1 in P2.
        assert (E : nth j l1 None = nth j (w_objs w) None).
        { unfold l1. destruct (Nat.eq_dec j i) as [->|N]; [now apply nth_set_eq|now apply nth_set_neq]. }
        rewrite E, P2 in P1. symmetry. now apply Permutation_cons_inv in P1. }
      unfold obj in Ev, Ev'. rewrite Ev, Ev' in P. now apply Permutation_flat_map.
    + apply Forall_set; [|exact I]. apply Forall_set; [exact W|exact I].
  - rewrite Ev. apply get_vector_obj in Ev. unfold vector_set_mem. destruct (inv_put w mine i _ H Ev) as (r & H1 & H2).
    destruct (vector_destroy_holds _ v r H1) as (h & -> & H3). eexists. split; [reflexivity|]. apply H2; [exact H3|exact I].
  - unfold bufs_new. destruct (get_blocks (w_blocks w) n) as [h ps] eqn:E. destruct (gets_holds n _ _ Hh _ _ E) as (H1 & L & _).
    eexists. split; [reflexivity|]. apply (inv_add _ _ _ _ ps); [exact H|exact H1|apply somes_map|]. split; [cbn; now rewrite map_length|discriminate].
  - eexists. split; [reflexivity|]. apply (inv_add _ _ _ _ []); [exact H|exact Hh|reflexivity|]. split; [exact Ln|discriminate].
  - rewrite Ev. apply get_bufs_obj in Ev. pose proof (obj_well _ _ _ _ H Ev) as [Lv _]. unfold bufs_clone. set (n' := if n =? 0 then f_n v else n).
    destruct (get_blocks (w_blocks w) n') as [h ps] eqn:E. destruct (gets_holds n' _ _ Hh _ _ E) as (H1 & L & I).
    assert (F : forallb (fun i => (i <? f_n v) && readable h (nth i (f_mem v) None)) (seq 0 (if n' <=? f_n v then n' else f_n v)) = true).
    { apply forallb_forall. intros k Hk. apply in_seq in Hk. assert (B : k < f_n v) by (destruct (Nat.leb_spec n' (f_n v)); lia).
      destruct (Nat.ltb_spec k (f_n v)) as [?Q|?Q]; [|lia]. cbn [andb]. destruct (Hp (nth k (f_mem v) None)) as (b & -> & Ib); [apply nth_In; lia|].
      cbn [readable]. apply is_live_In. now apply I. }
    rewrite F. eexists. split; [reflexivity|]. apply (inv_add _ _ _ _ ps); [exact H|exact H1|apply somes_map|]. split; [cbn; now rewrite map_length|discriminate].
  - rewrite Ev. apply get_bufs_obj in Ev. pose proof (obj_well _ _ _ _ H Ev) as [Lv _]. unfold bufs_range. destruct (Nat.ltb_spec b e) as [?Q|?Q]; [|lia].
    destruct (Nat.leb_spec e (f_n v)) as [?Q|?Q].
    + rewrite Lv. destruct (Nat.leb_spec e (f_n v)) as [?Q|?Q]; [|lia]. eexists. split; [reflexivity|]. apply (inv_add _ _ _ _ []); [exact H|exact Hh|reflexivity|].
      split; [|discriminate]. cbn [f_mem f_n]. rewrite firstn_length, skipn_length. lia.
    + rewrite Lv. destruct (Nat.leb_spec b (f_n v)) as [?Q|?Q]; [|lia]. destruct (get_block (w_blocks w)) as [h z] eqn:E. destruct (get_holds _ _ Hh _ _ E) as (H1 & _ & _).
      eexists. split; [reflexivity|]. apply (inv_add _ _ _ _ [z]); [exact H|exact H1|reflexivity|]. split; cbn [f_mem f_n]; [|lia].
      rewrite app_length, skipn_length, repeat_length. lia.
  - rewrite Ev, Ev'. apply get_bufs_obj in Ev, Ev'. pose proof (obj_well _ _ _ _ H Ev) as [Lv _]. pose proof (obj_well _ _ _ _ H Ev') as [Lv' _].
    eexists. split; [reflexivity|]. apply (inv_add _ _ _ _ []); [exact H|exact Hh|reflexivity|]. split; [|discriminate]. cbn. rewrite app_length. lia.
  - rewrite Ev. apply get_bufs_obj in Ev. pose proof (obj_well _ _ _ _ H Ev) as [Lv _]. unfold bufs_shuffle. destruct (Nat.leb_spec (length map) n) as [?Q|?Q]; [|lia].
    destruct (Nat.leb_spec n (f_n v)) as [?Q|?Q]; [lia|]. destruct (get_block (w_blocks w)) as [h z] eqn:E. destruct (get_holds _ _ Hh _ _ E) as (H1 & _ & _).
    destruct (shuffle_some map (repeat (Some z) n) (f_mem v)) as (mem & -> & L); [lia|now rewrite repeat_length|]. rewrite repeat_length in L.
    eexists. split; [reflexivity|]. apply (inv_add _ _ _ _ [z]); [exact H|exact H1|reflexivity|]. split; cbn [f_mem f_n]; lia.
  - rewrite Ev. apply get_bufs_obj in Ev. pose proof (obj_well _ _ _ _ H Ev) as [Lv Zv]. unfold bufs_set. rewrite Lv. destruct (Nat.ltb_spec k (f_n v)) as [?Q|?Q]; [|lia]. cbn [andb].
    assert (X : match f_case v with ANone => free_block (w_blocks w) (nth k (f_mem v) None) | _ => Some (w_blocks w) end = Some (w_blocks w)).
    { destruct (f_case v); try reflexivity. now rewrite Hz. }
    rewrite X. eexists. split; [reflexivity|]. eapply inv_same; [exact H|exact Ev| |].
    + cbn [owned f_case f_mem f_zeros]. destruct (f_case v); try reflexivity. congruence.
    + split; cbn; [now rewrite set_length|exact Zv].
  - rewrite Ev. apply get_bufs_obj in Ev. pose proof (obj_well _ _ _ _ H Ev) as [Lv Zv]. unfold bufs_separate. rewrite He, Lv, Nat.eqb_refl. cbn [andb].
    eexists. split; [reflexivity|]. apply Nat.even_spec in He. destruct He as [c Hc].
    assert (Ec : f_n v / 2 = c) by (rewrite Hc; symmetry; apply (Nat.div_unique _ _ _ 0); lia). rewrite Ec.
    eapply inv_same; [exact H|exact Ev| |].
    + cbn [owned f_case f_mem f_zeros]. destruct (f_case v); try reflexivity. apply somes_perm. symmetry. apply separate_perm. lia.
    + split; cbn [f_mem f_n f_case]; [|exact Zv]. rewrite app_length, !map_length, seq_length. lia.
  - rewrite Ev. apply get_bufs_obj in Ev. pose proof (obj_well _ _ _ _ H Ev) as [Lv Zv]. unfold bufs_swap. rewrite Lv.
    destruct (Nat.ltb_spec k (f_n v)) as [?Q|?Q]; [|lia]. destruct (Nat.ltb_spec l (f_n v)) as [?Q|?Q]; [|lia]. cbn [andb]. eexists. split; [reflexivity|].
    eapply inv_same; [exact H|exact Ev| |].
    + cbn [owned f_case f_mem f_zeros]. destruct (f_case v); try reflexivity. apply somes_perm. symmetry. apply swap_perm; lia.
    + split; cbn [f_mem f_n f_case]; [|exact Zv]. now rewrite !set_length.
  - rewrite Eo. destruct (inv_put w mine i _ H Eo) as (r & H1 & H2). destruct o as [v|v].
    + destruct (vector_destroy_holds _ v r H1) as (h & -> & H3). eexists. split; [reflexivity|]. apply H2; [exact H3|exact I].
    + destruct (bufs_destroy_holds _ v r (obj_well _ _ _ _ H Eo) H1) as (h & -> & H3). eexists. split; [reflexivity|]. apply H2; [exact H3|exact I].
Qed.

Lemma program_inv w mine : program w mine -> inv w mine.
Proof.
  induction 1 as [|w mine e w' _ IH HA E].
  - split; [|constructor]. split; [reflexivity|]. split; constructor.
  - destruct (inv_event w mine e IH HA) as (w2 & E2 & H). congruence.
Qed.

Lemma obj_put h w i o j : i < length (w_objs w) -> obj (put_obj h w i o) j = if j =? i then o else obj w j.
Proof.
  intros Hi. unfold obj, put_obj. cbn [w_objs]. destruct (Nat.eqb_spec j i) as [->|D]; [now apply nth_set_eq|now apply nth_set_neq].
Qed.
Lemma destroy_all order : forall w mine, inv w mine -> NoDup order -> (forall i, In i order <-> obj w i <> None) ->
  exists w', run_events w (map Destroy order) = Some w' /\ Permutation (b_live (w_blocks w')) mine.
Proof.
  induction order as [|i order IH]; intros w mine H N O.
  - exists w. split; [reflexivity|]. destruct H as [(P & _) _]. rewrite P. assert (E : flat_map owned (w_objs w) = []).
    { assert (A : forall o, In o (w_objs w) -> o = None).
      { intros o Ho. apply In_nth with (d := None) in Ho. destruct Ho as (k & _ & E). destruct o as [o|]; [|reflexivity].
        exfalso. apply (proj2 (O k)). unfold obj. rewrite E. discriminate. }
      clear - A. induction (w_objs w) as [|o l IHl]; [reflexivity|]. cbn. rewrite (A o (or_introl eq_refl)). cbn. apply IHl. intros o' Ho. apply A. now right. }
    now rewrite E, app_nil_r.
  - inversion_clear N as [|? ? N1 N2]. destruct (obj w i) as [o|] eqn:Eo; [|exfalso; apply (proj1 (O i)); [now left|exact Eo]].
    destruct (inv_event w mine (Destroy i) H (ADestroy w mine i o Eo)) as (w1 & E1 & H1). cbn [map run_events]. rewrite E1. cbn [own_after] in H1.
    apply IH; auto.
    assert (S : forall j, obj w1 j = if j =? i then None else obj w j).
    { intros j. cbn [run_event] in E1. cbv zeta in E1. rewrite Eo in E1. pose proof (obj_lt _ _ _ Eo).
      destruct o as [v|v]; [destruct (vector_destroy _ v) in E1|destruct (bufs_destroy _ v) in E1]; try discriminate; injection E1 as <-; now apply obj_put. }
    intros j. rewrite S. destruct (Nat.eqb_spec j i) as [->|D]; [tauto|]. rewrite <- O. cbn. split; [auto|intros [E|E]; [congruence|exact E]].
Qed.

(** ** C57 *)

(** Whatever a program has done within [allowed]: what it may do next is defined (nothing is freed twice, nothing is read after
    it was freed), no block is in use twice, and destroying the objects that are left, in any order, leaves in use the
    program's own blocks and no other. *)
Theorem C57_ownership_partial w mine : program w mine ->
  (forall e, allowed w mine e -> run_event w e <> None) /\ NoDup (b_live (w_blocks w)) /\
  forall order, NoDup order -> (forall i, In i order <-> obj w i <> None) ->
    exists w', run_events w (map Destroy order) = Some w' /\ Permutation (b_live (w_blocks w')) mine.
Proof.
  intros H. apply program_inv in H. split; [|split].
  - intros e HA. destruct (inv_event w mine e H HA) as (w' & -> & _). discriminate.
  - now destruct H as [(_ & N & _) _].
  - intros order N O. now apply destroy_all.
Qed.

(** Missing: assigning [Buffers] (the compiler's assignment copies the pointers): a double free, and the old buffers are lost. *)
Theorem C57_assign_refuted w mine i j v v' : program w mine -> i <> j -> get_bufs w i = Some v -> get_bufs w j = Some v' ->
  f_case v' = AFull -> 0 < f_n v' -> (forall p, In p (f_mem v') -> p <> None) -> run_events w [AssignBufs i j; Destroy i; Destroy j] = None.
Proof.
  intros H D Ev Ev' Ec Hn Hp. apply program_inv in H. cbn [run_events run_event]. cbv zeta. rewrite Ev, Ev'. unfold bufs_assign.
  apply get_bufs_obj in Ev, Ev'. pose proof (obj_lt _ _ _ Ev) as Li. pose proof (obj_lt _ _ _ Ev') as Lj. pose proof (obj_well _ _ _ _ H Ev') as Wv. pose proof Wv as [Lv _].
  rewrite (obj_put (w_blocks w) w i _ i) by exact Li. rewrite Nat.eqb_refl.
  change (w_blocks (put_obj (w_blocks w) w i (Some (OBufs v')))) with (w_blocks w).
  destruct (inv_put w mine j _ H Ev') as (r & H1 & _). destruct (bufs_destroy_holds _ v' r Wv H1) as (h & E1 & H2). rewrite E1.
  assert (Oj : obj (put_obj h (put_obj (w_blocks w) w i (Some (OBufs v'))) i None) j = Some (OBufs v')).
  { destruct (Nat.eqb_spec j i) as [->|J]; [congruence|]. rewrite obj_put by (cbn [put_obj w_objs]; now rewrite set_length). rewrite (proj2 (Nat.eqb_neq j i) J).
    rewrite obj_put by exact Li. now rewrite (proj2 (Nat.eqb_neq j i) J). }
  rewrite Oj. cbn [w_blocks put_obj].
  assert (E2 : bufs_destroy h v' = None); [|now rewrite E2].
  unfold bufs_destroy. rewrite Ec. destruct (Nat.ltb_spec 0 (length (f_mem v'))); [|lia]. rewrite <- Lv, Nat.leb_refl, firstn_all.
  destruct (f_mem v') as [|p t] eqn:Em; [cbn in *; lia|]. destruct p as [b|]; [|exfalso; now apply (Hp None); [left|]].
  cbn [free_blocks free_block]. assert (NL : is_live h b = false); [|now rewrite NL].
  destruct (is_live h b) eqn:L; [|reflexivity]. exfalso. apply is_live_In in L. destruct H2 as (P2 & N2 & _). destruct H1 as (P1 & N1 & _).
  cbn [owned] in P1. rewrite Ec, Em in P1. cbn [somes flat_map app] in P1. apply (Permutation_NoDup P1) in N1. inversion_clear N1 as [|? ? N3 _].
  apply N3. apply in_or_app. right. eapply Permutation_in; [exact P2|exact L].
Qed.
Lemma step w mine e w' mine' : program w mine -> allowed w mine e -> run_event w e = Some w' -> own_after w mine e = mine' -> program w' mine'.
Proof. intros H1 H2 H3 <-. exact (PEvent w mine e w' H1 H2 H3). Qed.
(** Missing: [set] on fully allocated buffers: the old buffer is lost, and the new one freed though it belongs to somebody else. *)
Theorem C57_set_full_refuted : exists w mine, program w mine /\ mine = [0] /\ exists w', run_events w [SetBuf 0 0 (Some 0); Destroy 0] = Some w' /\
  b_live (w_blocks w') = [1] /\ (forall i, obj w' i = None) /\ run_event w' (Release 0) = None.
Proof.
  eexists. eexists. split; [|split; [reflexivity|]].
  - eapply (step _ [0] (NewBufs 1)); [|constructor|reflexivity|reflexivity]. eapply (step _ [] Own); [apply PStart|constructor|reflexivity|reflexivity].
  - eexists. split; [reflexivity|]. split; [reflexivity|]. split; [|reflexivity]. intros [|[|i]]; reflexivity.
Qed.
(** Missing: [set] on buffers made from a vector of pointers frees the old buffer, which they do not own. *)
Theorem C57_set_wrap_refuted : exists w, program w [] /\ run_events w [SetBuf 1 0 None; Destroy 0] = None /\
  exists w', run_event w (Destroy 0) = Some w'.
Proof.
  eexists. split; [|split].
  - eapply (step _ [] (WrapBufs 2 [Some 0; Some 1])); [|now constructor|reflexivity|reflexivity]. eapply (step _ [] (NewBufs 2)); [apply PStart|constructor|reflexivity|reflexivity].
  - reflexivity.
  - eexists. reflexivity.
Qed.
(** Missing: a vector that was moved from is not empty: it is copied from the null pointer. *)
Theorem C57_copy_moved_refuted w mine i v : program w mine -> get_vector w i = Some v -> v_new_mem v = true -> 0 < v_mem_len v ->
  run_events w [MoveVector i; CopyVector i] = None.
Proof.
  intros _ Ev En Hl. cbn [run_events run_event]. cbv zeta. rewrite Ev. unfold vector_move.
  assert (G : get_vector (add_obj (w_blocks w) (put_obj (w_blocks w) w i (Some (OVector (mkVector (v_n v) None (v_mem_len v) (v_new_mem v)))))
    (OVector (mkVector (v_n v) (v_mem v) (v_mem_len v) (v_new_mem v)))) i = Some (mkVector (v_n v) None (v_mem_len v) (v_new_mem v))).
  { apply get_vector_obj in Ev. pose proof (obj_lt _ _ _ Ev) as Li. unfold get_vector, obj, add_obj, put_obj. cbn [w_objs].
    rewrite app_nth1 by now rewrite set_length. now rewrite nth_set_eq. }
  rewrite G. unfold vector_copy. cbn [v_new_mem v_mem_len v_mem]. rewrite En. cbn [get_block readable]. destruct (Nat.eqb_spec (v_mem_len v) 0); [lia|]. reflexivity.
Qed.

(** Example: a program with all kinds of objects; the objects are destroyed in the order of their construction. *)
Definition demo_program : list event :=
  [Own; NewBufs 4; RangeBufs 0 1 6; CloneBufs 1 3; ConcatBufs 0 1; ShuffleBufs 0 [3; 6; 1; 5] 7; SeparateBufs 0; SwapBufs 2 0 2; WrapBufs 2 [None; Some 0];
   SetBuf 5 0 (Some 0); NewVector 5 None 0; NewVector 3 (Some 0) 3; CopyVector 6; MoveVector 6; AssignVector 6 8; SwapVectors 7 9; SetMem 8 (Some 0) 2].
Example C57_case : exists w, run_events (mkWorld (mkBlocks [] 0) []) demo_program = Some w /\ length (w_objs w) = 10 /\ length (b_live (w_blocks w)) = 12 /\
  exists w', run_events w (map Destroy (seq 0 10)) = Some w' /\ b_live (w_blocks w') = [0].
Proof. eexists. split; [vm_compute; reflexivity|]. vm_compute. repeat split. eexists. split; reflexivity. Qed.
Example C57_program_case : exists w mine, program w mine /\ length (w_objs w) = 3 /\ mine = [0].
Proof.
  eexists. eexists. split; [|split].
  - eapply (step _ [0] (CloneBufs 0 3)).
    + eapply (step _ [0] (RangeBufs 0 1 4)).
      * eapply (step _ [0] (NewBufs 2)); [|constructor|reflexivity|reflexivity]. eapply (step _ [] Own); [apply PStart|constructor|reflexivity|reflexivity].
      * eapply ARangeBufs; [reflexivity|lia|cbn; lia].
      * reflexivity.
      * reflexivity.
    + eapply ACloneBufs; [reflexivity|]. cbn. intros p [<-|[<-|[]]]; eexists; (split; [reflexivity|cbn; auto]).
    + reflexivity.
    + reflexivity.
  - reflexivity.
  - reflexivity.
Qed.

Print Assumptions C57_ownership_partial.
Print Assumptions C57_assign_refuted.
Print Assumptions C57_set_full_refuted.
Print Assumptions C57_set_wrap_refuted.
Print Assumptions C57_copy_moved_refuted.
