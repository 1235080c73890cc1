(** Property C46: the views of vectors. *)
From Coq Require Import List NArith Arith Bool Lia.
From Verif.Model Require Import Common Arith Ring Views.
From Verif.Proof Require Import ListP ViewsP.
Import ListNotations.
Open Scope nat_scope.

(** Vectors whose elements are consecutive cells of the memory, from [get_mem]. *)
Definition flat (v : vect) : Prop := match v with Plain _ | Slice _ _ _ => True | _ => False end.

Lemma flat_get w m v i : flat v -> vget w m v i = if i <? get_n v then peek m (get_mem v + i) else None.
Proof. destruct v; cbn [flat]; intros H; try contradiction; reflexivity. Qed.
Lemma flat_set w m v i x : flat v -> vset w m v i x = if i <? get_n v then poke m (get_mem v + i) x else None.
Proof. destruct v; cbn [flat]; intros H; try contradiction; reflexivity. Qed.
Lemma slice_len_min n offset b : slice_len n offset b = Nat.min n (b - offset).
Proof. unfold slice_len. destruct (Nat.ltb_spec (n + offset) b), (Nat.ltb_spec offset b); lia. Qed.

(** A slice has the elements of its vector from [offset] on, at most [n]; reads and writes go to that vector. *)
Theorem C46_slice w m v n offset : flat v ->
  let s := new_slice v n offset in
  get_n s = Nat.min n (get_n v - offset) /\
  forall i, i < get_n s -> vget w m s i = vget w m v (offset + i) /\ forall x, vset w m s i x = vset w m v (offset + i) x.
Proof.
  intros Hf. cbn zeta. split; [apply slice_len_min|]. intros i Hi.
  assert (Hi' : i < Nat.min n (get_n v - offset)) by (rewrite <- slice_len_min; exact Hi).
  rewrite !flat_get by (exact I || exact Hf). split; [|intros x; rewrite !flat_set by (exact I || exact Hf)].
  all: destruct (Nat.ltb_spec i (get_n (new_slice v n offset))); [|lia]; destruct (Nat.ltb_spec (offset + i) (get_n v)); [|lia];
    cbn [get_mem head new_slice h_mem]; f_equal; lia.
Qed.

(** Moving a slice: it keeps its length unless the end of the vector is nearer. *)
Theorem C46_set_map w m v n offset offset' : flat v ->
  let s := new_slice v n offset in let s' := set_map s offset' in
  get_n s' = Nat.min (get_n s) (get_n v - offset') /\ get_mem_len s' = get_n s' /\
  forall i, i < get_n s' -> vget w m s' i = vget w m v (offset' + i) /\ forall x, vset w m s' i x = vset w m v (offset' + i) x.
Proof.
  intros Hf. cbn zeta. split; [apply slice_len_min|]. split; [reflexivity|]. intros i Hi.
  assert (Hi' : i < Nat.min (get_n (new_slice v n offset)) (get_n v - offset')) by (rewrite <- slice_len_min; exact Hi).
  rewrite !flat_get by (exact I || exact Hf). split; [|intros x; rewrite !flat_set by (exact I || exact Hf)].
  all: destruct (Nat.ltb_spec i (get_n (set_map (new_slice v n offset) offset'))); [|lia]; destruct (Nat.ltb_spec (offset' + i) (get_n v)); [|lia];
    cbn [get_mem head new_slice set_map h_mem]; f_equal; unfold get_mem; cbn [head h_mem]; lia.
Qed.

(** A view has the elements of any vector at [offset], [offset + step], ... modulo its length. *)
Theorem C46_view w m v n offset step u : new_view v n offset step = Some u -> (N.of_nat (get_n v) <= 2 ^ w)%N ->
  get_n u = n /\
  forall i, i < n -> let j := (offset + step * i) mod get_n v in
    vget w m u i = vget w m v j /\ forall x, vset w m u i x = vset w m v j x.
Proof.
  unfold new_view. destruct (Nat.leb_spec n (get_n v)) as [Hn|]; [|discriminate]. intros E Hw. injection E. intros <-.
  split; [reflexivity|]. intros i Hi. cbn zeta.
  assert (J : N.to_nat (wrap w (N.of_nat ((offset + step * i) mod get_n v))) = (offset + step * i) mod get_n v).
  { pose proof (Nat.mod_upper_bound (offset + step * i) (get_n v) ltac:(lia)). unfold wrap. rewrite N.mod_small by lia. apply Nat2N.id. }
  assert (L : (i <? n) = true) by now apply Nat.ltb_lt.
  assert (Z : (get_n v =? 0) = false) by (apply Nat.eqb_neq; lia).
  split; [|intros x]; cbn [vget vset get_n head h_n]; rewrite L; fold (get_n v); rewrite Z, J; reflexivity.
Qed.

(** Zero extension of any vector. *)
Theorem C46_zero_extended w m v n : get_n (new_zero_ext v n) = n /\
  forall i, i < n -> vget w m (new_zero_ext v n) i = if i <? get_n v then vget w m v i else Some 0%N.
Proof.
  split; [reflexivity|]. intros i Hi. cbn [new_zero_ext vget get_n head h_n]. fold (get_n v).
  destruct (Nat.ltb_spec i n); [reflexivity|lia].
Qed.

(** A write to a vector changes one element: of a view the places that the map sends there. *)
Theorem C46_view_write w m v n offset step u i x : flat v -> get_mem v + get_n v <= length m ->
  new_view v n offset step = Some u -> (N.of_nat (get_n v) <= 2 ^ w)%N -> i < n ->
  exists m', vset w m u i x = Some m' /\
    forall j, j < n -> vget w m' u j = if (offset + step * i) mod get_n v =? (offset + step * j) mod get_n v then Some x else vget w m u j.
Proof.
  intros Hf Hm Hu Hw Hi. pose proof Hu as Hu'. unfold new_view in Hu'. destruct (Nat.leb_spec n (get_n v)); [|discriminate]. clear Hu'.
  destruct (C46_view w m v n offset step u Hu Hw) as [_ H0]. destruct (H0 i Hi) as [_ Hs]. rewrite Hs, flat_set by exact Hf.
  pose proof (fun k => Nat.mod_upper_bound (offset + step * k) (get_n v) ltac:(lia)) as B.
  pose proof (B i). destruct (Nat.ltb_spec ((offset + step * i) mod get_n v) (get_n v)); [|lia].
  rewrite poke_in by lia. eexists. split; [reflexivity|]. intros j Hj.
  set (m' := set m (get_mem v + (offset + step * i) mod get_n v) x).
  destruct (C46_view w m' v n offset step u Hu Hw) as [_ HH]. rewrite (proj1 (HH j Hj)), (proj1 (H0 j Hj)).
  rewrite !flat_get by exact Hf. pose proof (B j). destruct (Nat.ltb_spec ((offset + step * j) mod get_n v) (get_n v)); [|lia].
  unfold peek, m'. rewrite nth_error_set. destruct (Nat.ltb_spec (get_mem v + (offset + step * i) mod get_n v) (length m)); [|lia].
  rewrite andb_true_r. destruct (Nat.eqb_spec (get_mem v + (offset + step * i) mod get_n v) (get_mem v + (offset + step * j) mod get_n v)),
    (Nat.eqb_spec ((offset + step * i) mod get_n v) ((offset + step * j) mod get_n v)); auto; lia.
Qed.

(** Copies between vectors that own their memory, whose memories do not overlap: zeros after the end of the source, and
    nothing else changes. *)
Definition owned (m : memory) (v : vect) : Prop := flat v /\ get_mem_len v = get_n v /\ get_mem v + get_n v <= length m.
Theorem C46_copy w m dst src n dest_offset src_offset : owned m dst -> owned m src ->
  get_mem src + get_n src <= get_mem dst \/ get_mem dst + get_n dst <= get_mem src ->
  n + dest_offset <= get_n dst -> src_offset <= get_n src ->
  exists m', copy_from m dst src n dest_offset src_offset = Some m' /\ length m' = length m /\
    (forall i, i < n -> vget w m' dst (dest_offset + i) =
                        if src_offset + i <? get_n src then vget w m src (src_offset + i) else Some 0%N) /\
    (forall a, a < get_mem dst + dest_offset \/ get_mem dst + dest_offset + n <= a -> peek m' a = peek m a).
Proof.
  intros (Fd & Ld & Md) (Fs & Ls & Ms) Hx Hn Hs. unfold copy_from. rewrite Ld, Ls.
  destruct (Nat.leb_spec (n + dest_offset) (get_n dst)); [|lia]. destruct (Nat.leb_spec src_offset (get_n src)); [|lia].
  assert (G : exists m', (if n <=? get_n src - src_offset
      then copy_cells m (get_mem src + src_offset) (get_mem dst + dest_offset) n
      else match copy_cells m (get_mem src + src_offset) (get_mem dst + dest_offset) (get_n src - src_offset) with
           | Some m' => zero_cells m' (get_mem dst + dest_offset + (get_n src - src_offset)) (n - (get_n src - src_offset))
           | None => None end) = Some m' /\ length m' = length m /\
      forall b, peek m' b = if (get_mem dst + dest_offset <=? b) && (b <? get_mem dst + dest_offset + n)
        then (if src_offset + (b - (get_mem dst + dest_offset)) <? get_n src then peek m (get_mem src + src_offset + (b - (get_mem dst + dest_offset))) else Some 0%N)
        else peek m b).
  { destruct (Nat.leb_spec n (get_n src - src_offset)) as [Hl|Hl].
    - destruct (copy_spec n m (get_mem src + src_offset) (get_mem dst + dest_offset)) as (m' & E & L & B); [lia..|].
      exists m'. split; [exact E|]. split; [exact L|]. intros b. rewrite B.
      destruct (_ && _) eqn:C; [|reflexivity]. apply andb_prop in C. destruct C as [C1 C2]. apply Nat.leb_le in C1. apply Nat.ltb_lt in C2.
      destruct (Nat.ltb_spec (src_offset + (b - (get_mem dst + dest_offset))) (get_n src)); [reflexivity|lia].
    - destruct (copy_spec (get_n src - src_offset) m (get_mem src + src_offset) (get_mem dst + dest_offset)) as (m1 & E & L & B); [lia..|].
      rewrite E. destruct (zero_spec (n - (get_n src - src_offset)) m1 (get_mem dst + dest_offset + (get_n src - src_offset))) as (m' & E' & L' & B'); [lia|].
      exists m'. split; [exact E'|]. split; [lia|]. intros b. rewrite B', B.
      destruct (Nat.leb_spec (get_mem dst + dest_offset) b), (Nat.ltb_spec b (get_mem dst + dest_offset + n)),
       (Nat.leb_spec (get_mem dst + dest_offset + (get_n src - src_offset)) b),
       (Nat.ltb_spec b (get_mem dst + dest_offset + (get_n src - src_offset) + (n - (get_n src - src_offset)))),
       (Nat.ltb_spec b (get_mem dst + dest_offset + (get_n src - src_offset))),
       (Nat.ltb_spec (src_offset + (b - (get_mem dst + dest_offset))) (get_n src)); cbn [andb]; try lia; reflexivity. }
  destruct G as (m' & E & L & B). exists m'. split; [exact E|]. split; [exact L|]. split.
  - intros i Hi. rewrite flat_get by exact Fd. destruct (Nat.ltb_spec (dest_offset + i) (get_n dst)); [|lia]. rewrite B.
    destruct (Nat.leb_spec (get_mem dst + dest_offset) (get_mem dst + (dest_offset + i))); [|lia].
    destruct (Nat.ltb_spec (get_mem dst + (dest_offset + i)) (get_mem dst + dest_offset + n)); [|lia]. cbn [andb].
    replace (get_mem dst + (dest_offset + i) - (get_mem dst + dest_offset)) with i by lia.
    destruct (Nat.ltb_spec (src_offset + i) (get_n src)); [|reflexivity]. rewrite flat_get by exact Fs.
    destruct (Nat.ltb_spec (src_offset + i) (get_n src)); [|lia]. f_equal. lia.
  - intros a Ha. rewrite B. destruct (Nat.leb_spec (get_mem dst + dest_offset) a), (Nat.ltb_spec a (get_mem dst + dest_offset + n)); cbn [andb]; auto; lia.
Qed.

(** Exchange and fill, on vectors with consecutive elements. *)
Theorem C46_swap w m v i j : flat v -> get_mem v + get_n v <= length m -> i < get_n v -> j < get_n v ->
  exists m', vswap m v i j = Some m' /\
    forall k, k < get_n v -> vget w m' v k = vget w m v (if k =? i then j else if k =? j then i else k).
Proof.
  intros Hf Hm Hi Hj. unfold vswap. destruct (peek_in m (get_mem v + i)) as [x Ex]; [lia|]. destruct (peek_in m (get_mem v + j)) as [y Ey]; [lia|].
  rewrite Ex, Ey, poke_in, poke_in by (rewrite ?set_length; lia). eexists. split; [reflexivity|]. intros k Hk.
  rewrite !flat_get by exact Hf. destruct (Nat.ltb_spec k (get_n v)); [|lia].
  assert ((if k =? i then j else if k =? j then i else k) < get_n v) by (destruct (k =? i), (k =? j); lia).
  destruct (Nat.ltb_spec (if k =? i then j else if k =? j then i else k) (get_n v)); [|lia].
  unfold peek in *. rewrite !nth_error_set, !set_length.
  destruct (Nat.ltb_spec (get_mem v + j) (length m)); [|lia]. destruct (Nat.ltb_spec (get_mem v + i) (length m)); [|lia]. rewrite !andb_true_r.
  destruct (Nat.eqb_spec k i), (Nat.eqb_spec k j), (Nat.eqb_spec (get_mem v + j) (get_mem v + k)), (Nat.eqb_spec (get_mem v + i) (get_mem v + k));
    subst; try lia; congruence.
Qed.
Theorem C46_fill w m v x : flat v -> get_mem v + get_n v <= length m ->
  exists m', vfill m v x = Some m' /\ (forall k, k < get_n v -> vget w m' v k = Some x) /\
    forall a, a < get_mem v \/ get_mem v + get_n v <= a -> peek m' a = peek m a.
Proof.
  intros Hf Hm. destruct (fill_spec' (get_n v) x m (get_mem v) Hm) as (m' & E & L & B). exists m'. split; [exact E|]. split.
  - intros k Hk. rewrite flat_get by exact Hf. destruct (Nat.ltb_spec k (get_n v)); [|lia]. rewrite B.
    destruct (Nat.leb_spec (get_mem v) (get_mem v + k)), (Nat.ltb_spec (get_mem v + k) (get_mem v + get_n v)); cbn [andb]; auto; lia.
  - intros a Ha. rewrite B. destruct (Nat.leb_spec (get_mem v) a), (Nat.ltb_spec a (get_mem v + get_n v)); cbn [andb]; auto; lia.
Qed.

(** ** What does not hold *)
Definition demo : memory := [10; 11; 12; 13; 14; 15; 20; 21; 22; 23]%N.
Definition six : vect := new_plain 0 6.
Definition four : vect := new_plain 6 4.
(** A slice of a view has the elements of the memory behind the view. *)
Theorem C46_slice_of_view_refuted : exists m v u n offset i, new_view v 3 1 2 = Some u /\ i < get_n (new_slice u n offset) /\
  vget 32 m (new_slice u n offset) i <> vget 32 m u (offset + i).
Proof. exists demo, six. eexists. exists 2, 1, 0. split; [reflexivity|]. split; [cbn; lia|]. vm_compute. discriminate. Qed.
(** Copying from a slice takes what follows the slice in place of zeros. *)
Theorem C46_copy_slice_refuted : exists m dst src n m' i, owned m dst /\ flat src /\ get_mem src + get_n src <= get_mem dst /\
  copy_from_n m dst src n = Some m' /\ get_n src <= i < n /\ vget 32 m' dst i <> Some 0%N.
Proof.
  exists demo, four, (new_slice six 2 1), 3. eexists. exists 2. split; [repeat split; cbn; lia|]. split; [exact I|]. split; [cbn; lia|].
  split; [vm_compute; reflexivity|]. split; [cbn; lia|]. vm_compute. discriminate.
Qed.
(** Exchanging two elements of a view exchanges others. *)
Theorem C46_swap_view_refuted : exists m v u i j m', new_view v 3 1 2 = Some u /\ i < get_n u /\ j < get_n u /\
  vswap m u i j = Some m' /\ vget 32 m' u i <> vget 32 m u j.
Proof. exists demo, six. eexists. exists 0, 1. eexists. split; [reflexivity|]. split; [cbn; lia|]. split; [cbn; lia|]. split; [reflexivity|]. vm_compute. discriminate. Qed.
(** Writing past the end of a zero-extended vector changes another vector. *)
Theorem C46_zero_extended_write_refuted : exists m v other n i m' k, get_mem v + get_n v <= get_mem other /\ get_n v <= i < n /\
  vset 32 m (new_zero_ext v n) i 99%N = Some m' /\ vget 32 m' other k <> vget 32 m other k.
Proof. exists demo, six, four, 8, 6. eexists. exists 0. split; [cbn; lia|]. split; [cbn; lia|]. split; [reflexivity|]. vm_compute. discriminate. Qed.
(** Copying from a place after the end of the source clears memory before the destination. *)
Theorem C46_copy_offset_refuted : exists m dst src n dest_offset src_offset m' a, owned m dst /\ owned m src /\
  get_mem src + get_n src <= get_mem dst /\ n + dest_offset <= get_n dst /\
  copy_from m dst src n dest_offset src_offset = Some m' /\ a < get_mem dst + dest_offset /\ peek m' a <> peek m a.
Proof.
  exists demo, four, six, 1, 0, 8. eexists. exists 5. split; [repeat split; cbn; lia|]. split; [repeat split; cbn; lia|].
  split; [cbn; lia|]. split; [cbn; lia|]. split; [reflexivity|]. split; [cbn; lia|]. vm_compute. discriminate.
Qed.

(** Concrete cases, from the comments of the sources. *)
Example C46_case_slice : let s := new_slice six 3 2 in flat six /\ map (vget 32 demo s) [0; 1; 2; 3] = [Some 12; Some 13; Some 14; None]%N /\
  get_n (new_slice six 3 4) = 2.
Proof. repeat split. Qed.
Example C46_case_view : exists u, new_view six 6 1 2 = Some u /\ (N.of_nat (get_n six) <= 2 ^ 32)%N /\
  map (vget 32 demo u) [0; 1; 2; 3; 4; 5] = [Some 11; Some 13; Some 15; Some 11; Some 13; Some 15]%N.
Proof. eexists. split; [reflexivity|]. split; [vm_compute; discriminate|]. vm_compute. reflexivity. Qed.
Example C46_case_copy : owned demo four /\ owned demo (new_plain 0 2) /\
  copy_from demo four (new_plain 0 2) 3 1 0 = Some [10; 11; 12; 13; 14; 15; 20; 10; 11; 0]%N.
Proof. repeat split; cbn; lia. Qed.

Print Assumptions C46_slice.
Print Assumptions C46_set_map.
Print Assumptions C46_view.
Print Assumptions C46_zero_extended.
Print Assumptions C46_view_write.
Print Assumptions C46_copy.
Print Assumptions C46_swap.
Print Assumptions C46_fill.
Print Assumptions C46_slice_of_view_refuted.
Print Assumptions C46_copy_slice_refuted.
Print Assumptions C46_swap_view_refuted.
Print Assumptions C46_zero_extended_write_refuted.
Print Assumptions C46_copy_offset_refuted.
