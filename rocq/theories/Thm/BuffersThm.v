(** Property C47: the vectors of buffers. *)
From Coq Require Import List NArith Arith Bool Lia.
From Verif.Model Require Import Common Buffers.
From Verif.Proof Require Import ListP ViewsP.
Import ListNotations.
Open Scope nat_scope.

(** Every index below [b_n] refers to an existing buffer of [b_size] elements. *)
Definition sound (h : heap) (b : buffers) : Prop :=
  length (b_mem b) = b_n b /\ forall i, i < b_n b -> exists x, buf_at h b i = Some x /\ length x = b_size b.

Lemma loop_inv A (f : A -> nat -> option A) (I : nat -> A -> Prop) k : forall first s,
  (forall i s, first <= i < first + k -> I i s -> exists s', f s i = Some s' /\ I (S i) s') ->
  I first s -> exists s', loop f first k s = Some s' /\ I (first + k) s'.
Proof.
  induction k as [|k IH]; intros first s H H0; cbn [loop].
  - exists s. rewrite Nat.add_0_r. auto.
  - destruct (H first s ltac:(lia) H0) as (s1 & E & H1). rewrite E. destruct (IH (S first) s1) as (s2 & E2 & H2); [|exact H1|].
    + intros i t Hi. apply H. lia.
    + exists s2. split; [exact E2|]. now replace (first + S k) with (S first + k) by lia.
Qed.

Lemma at_ptr h b i x : buf_at h b i = Some x -> exists p, buf_get b i = Some p /\ nth_error (b_mem b) i = Some p /\ nth_error h p = Some x /\ i < b_n b.
Proof.
  unfold buf_at. destruct (buf_get b i) as [p|] eqn:E; [|discriminate]. intros H. exists p. split; [reflexivity|].
  unfold buf_get in E. destruct (Nat.ltb_spec i (b_n b)); [auto|discriminate].
Qed.
Lemma nth_error_old A (h l : list A) p x : nth_error h p = Some x -> nth_error (h ++ l) p = Some x.
Proof. intros H. rewrite nth_error_app1; [exact H|]. apply nth_error_Some. congruence. Qed.
Lemma nth_error_repeat_in A (x : A) k i : i < k -> nth_error (repeat x k) i = Some x.
Proof. revert i. induction k as [|k IH]; intros [|i] H; cbn; try lia; [reflexivity|]. apply IH. lia. Qed.
Lemma nth_error_seq a k i : i < k -> nth_error (seq a k) i = Some (a + i).
Proof. revert a i. induction k as [|k IH]; intros a [|i] H; cbn; try lia; [f_equal; lia|]. rewrite IH by lia. f_equal. lia. Qed.

(** Allocation. *)
Theorem C47_full h junk n size : length junk = size -> let '(h', b) := new_full h junk n size in
  sound h' b /\ b_n b = n /\ b_size b = size /\ b_mem_len b = n * size /\ NoDup (b_mem b) /\
  forall p, In p (b_mem b) -> length h <= p.
Proof.
  intros Hj. cbn. split; [|repeat split; [apply seq_NoDup|intros p Hp; apply in_seq in Hp; lia]]. split; [cbn; apply seq_length|].
  cbn. intros i Hi. exists junk. split; [|exact Hj]. unfold buf_at, buf_get. cbn [b_n b_mem]. destruct (Nat.ltb_spec i n); [|lia].
  rewrite nth_error_seq by lia. cbv beta iota. rewrite nth_error_app2 by lia. replace (length h + i - length h) with i by lia. now apply nth_error_repeat_in.
Qed.

(** Clones: own buffers with the contents of [v], then zeros. *)
Theorem C47_clone h junk v n : sound h v -> length junk = b_size v ->
  exists h' b, new_clone h junk v n = Some (h', b) /\ sound h' b /\ b_n b = (if n =? 0 then b_n v else n) /\
    (forall i, i < b_n b -> buf_at h' b i = if i <? b_n v then buf_at h v i else Some (repeat 0%N (b_size v))) /\
    (forall p, p < length h -> nth_error h' p = nth_error h p) /\ NoDup (b_mem b) /\ forall p, In p (b_mem b) -> length h <= p.
Proof.
  intros [Lv Hv] Hj. unfold new_clone. set (n' := if n =? 0 then b_n v else n). cbn [allocate].
  set (ps := seq (length h) n'). set (h1 := h ++ repeat junk n'). set (c := if n' <=? b_n v then n' else b_n v).
  assert (Hc : c <= n' /\ c <= b_n v /\ (c < n' -> c = b_n v)) by (unfold c; destruct (Nat.leb_spec n' (b_n v)); lia).
  assert (Hps : forall i, i < n' -> nth_error ps i = Some (length h + i)) by (intros; now apply nth_error_seq).
  pose (val i := match buf_at h v i with Some x => x | None => [] end).
  assert (Hval : forall i, i < b_n v -> buf_at h v i = Some (val i) /\ length (val i) = b_size v).
  { intros i Hi. destruct (Hv i Hi) as (x & E & Lx). unfold val. rewrite E. auto. }
  (* the heap after the buffers below [k] have been written with [w] *)
  pose (I (w : nat -> list N) (k : nat) (g : heap) := length g = length h + n' /\ (forall p, p < length h -> nth_error g p = nth_error h p) /\
    (forall i, i < n' -> nth_error g (length h + i) = Some (if i <? k then w i else junk))).
  assert (Step : forall w k g, k < n' -> length (w k) = b_size v -> I w k g -> exists g', write_to g (length h + k) (w k) = Some g' /\ I w (S k) g').
  { intros w k g Hk Lw (L & Old & New). unfold write_to. rewrite (New k Hk), Nat.ltb_irrefl.
    destruct (Nat.leb_spec (length (w k)) (length junk)); [|lia]. rewrite skipn_all2 by lia. rewrite app_nil_r.
    eexists. split; [reflexivity|]. split; [now rewrite set_length|]. split.
    - intros p Hp. rewrite nth_error_set. destruct (Nat.eqb_spec (length h + k) p); [lia|]. cbn [andb]. auto.
    - intros i Hi. rewrite nth_error_set. destruct (Nat.ltb_spec (length h + k) (length g)); [|lia]. rewrite andb_true_r.
      destruct (Nat.eqb_spec (length h + k) (length h + i)).
      + replace i with k by lia. destruct (Nat.ltb_spec k (S k)); [reflexivity|lia].
      + rewrite New by exact Hi. destruct (Nat.ltb_spec i k), (Nat.ltb_spec i (S k)); try reflexivity; lia. }
  pose (w i := if i <? b_n v then val i else repeat 0%N (b_size v)).
  assert (Lw : forall i, length (w i) = b_size v).
  { intros i. unfold w. destruct (Nat.ltb_spec i (b_n v)); [apply Hval; assumption|apply repeat_length]. }
  assert (I0 : I w 0 h1).
  { unfold I, h1. split; [now rewrite app_length, repeat_length|]. split.
    - intros p Hp. now apply nth_error_app1.
    - intros i Hi. rewrite nth_error_app2 by lia. replace (length h + i - length h) with i by lia. now apply nth_error_repeat_in. }
  destruct (loop_inv heap (fun g i => match buf_at g v i, nth_error ps i with Some x, Some p => write_to g p (firstn (b_size v) x) | _, _ => None end)
    (I w) c 0 h1) as (h2 & E2 & I2).
  { intros i g Hi Hg. destruct (Hval i ltac:(lia)) as [Ev Lx]. destruct (at_ptr _ _ _ _ Ev) as (p & Gp & _ & Hp & _).
    assert (Pl : p < length h) by (apply nth_error_Some; congruence).
    assert (Ag : buf_at g v i = Some (val i)) by (unfold buf_at; rewrite Gp; destruct Hg as (_ & Old & _); rewrite Old by exact Pl; exact Hp).
    rewrite Ag, Hps, firstn_all2 by lia. assert (Wi : w i = val i) by (unfold w; destruct (Nat.ltb_spec i (b_n v)); [reflexivity|lia]).
    rewrite <- Wi. apply Step; [lia|apply Lw|exact Hg]. }
  { exact I0. }
  rewrite E2. cbn [Nat.add] in I2.
  assert (F : exists h3, (if b_n v <? n' then
        match loop (fun h i => match nth_error ps i with Some p => write_to h p (repeat 0%N (b_size v)) | None => None end) (b_n v) (n' - b_n v) h2 with
        | Some h3 => Some (h3, mkBuffers ps (n * b_size v) (b_size v) n') | None => None end
      else Some (h2, mkBuffers ps (n * b_size v) (b_size v) n')) = Some (h3, mkBuffers ps (n * b_size v) (b_size v) n') /\ I w n' h3).
  { destruct (Nat.ltb_spec (b_n v) n') as [Hn|Hn].
    - assert (Ec : c = b_n v) by (unfold c; destruct (Nat.leb_spec n' (b_n v)); lia). rewrite Ec in I2.
      destruct (loop_inv heap (fun g i => match nth_error ps i with Some p => write_to g p (repeat 0%N (b_size v)) | None => None end)
        (I w) (n' - b_n v) (b_n v) h2) as (h3 & E3 & I3).
      + intros i g Hi Hg. rewrite Hps by lia. assert (Wi : w i = repeat 0%N (b_size v)) by (unfold w; destruct (Nat.ltb_spec i (b_n v)); [lia|reflexivity]).
        rewrite <- Wi. apply Step; [lia|apply Lw|exact Hg].
      + exact I2.
      + rewrite E3. exists h3. split; [reflexivity|]. now replace n' with (b_n v + (n' - b_n v)) by lia.
    - exists h2. split; [reflexivity|]. replace n' with c; [exact I2|]. unfold c. destruct (Nat.leb_spec n' (b_n v)); lia. }
  destruct F as (h3 & E3 & (L3 & Old3 & New3)). exists h3, (mkBuffers ps (n * b_size v) (b_size v) n'). split; [exact E3|]. cbn [b_n b_mem b_size].
  assert (At : forall i, i < n' -> buf_at h3 (mkBuffers ps (n * b_size v) (b_size v) n') i = Some (w i)).
  { intros i Hi. unfold buf_at, buf_get. cbn [b_n b_mem]. destruct (Nat.ltb_spec i n'); [|lia]. rewrite Hps, New3 by exact Hi.
    destruct (Nat.ltb_spec i n'); [reflexivity|lia]. }
  split; [split; [apply seq_length|]|].
  { cbn [b_n b_size]. intros i Hi. exists (w i). split; [now apply At|apply Lw]. }
  split; [reflexivity|]. split.
  { intros i Hi. rewrite At by exact Hi. unfold w. destruct (Nat.ltb_spec i (b_n v)) as [H|H]; [|reflexivity]. now rewrite (proj1 (Hval i H)). }
  split; [exact Old3|]. split; [apply seq_NoDup|]. intros p Hp. apply in_seq in Hp. lia.
Qed.

(** Slices share the buffers of [v]; zeros after its end. *)
Theorem C47_slice h v b e : sound h v -> b < e -> b <= b_n v ->
  exists h' s, new_range h v b e = Some (h', s) /\ sound h' s /\ b_n s = e - b /\ b_size s = b_size v /\ b_mem_len s = (e - b) * b_size v /\
    (forall i, i < e - b -> buf_at h' s i = if b + i <? b_n v then buf_at h v (b + i) else Some (repeat 0%N (b_size v))) /\
    (forall i, b + i < Nat.min e (b_n v) -> buf_get s i = buf_get v (b + i)) /\
    (forall p, p < length h -> nth_error h' p = nth_error h p).
Proof.
  intros [Lv Hv] Hbe Hbn. unfold new_range. destruct (Nat.ltb_spec b e); [|lia].
  assert (Skip : forall i, nth_error (skipn b (b_mem v)) i = nth_error (b_mem v) (b + i)).
  { intros i. rewrite <- (firstn_skipn b (b_mem v)) at 2. rewrite nth_error_app2; rewrite firstn_length; [|lia]. f_equal. lia. }
  assert (First : forall A (l : list A) k i, i < k -> nth_error (firstn k l) i = nth_error l i).
  { intros A l. induction l as [|x l IH]; intros [|k] [|i] Hi; cbn; try lia; auto. apply IH. lia. }
  destruct (Nat.leb_spec e (b_n v)) as [He|He].
  - destruct (Nat.leb_spec e (length (b_mem v))); [|lia]. eexists. eexists. split; [reflexivity|]. cbn [b_n b_size b_mem_len b_mem].
    assert (G : forall i, b + i < e -> buf_get (mkBuffers (firstn (e - b) (skipn b (b_mem v))) ((e - b) * b_size v) (b_size v) (e - b)) i = buf_get v (b + i)).
    { intros i Hi. unfold buf_get. cbn [b_n b_mem]. destruct (Nat.ltb_spec i (e - b)); [|lia]. destruct (Nat.ltb_spec (b + i) (b_n v)); [|lia].
      rewrite First by lia. apply Skip. }
    repeat split.
    + cbn [b_mem b_n]. rewrite firstn_length, skipn_length. lia.
    + cbn [b_n b_size]. intros i Hi. unfold buf_at. rewrite G by lia. apply Hv. lia.
    + intros i Hi. destruct (Nat.ltb_spec (b + i) (b_n v)); [|lia]. unfold buf_at. rewrite G by lia. reflexivity.
    + intros i Hi. apply G. lia.
  - destruct (Nat.leb_spec b (length (b_mem v))); [|lia]. cbn [new_zeros]. eexists. eexists. split; [reflexivity|]. cbn [b_n b_size b_mem_len b_mem].
    set (s := mkBuffers _ _ _ _). set (h' := h ++ [repeat 0%N (b_size v)]).
    assert (G : forall i, b + i < b_n v -> buf_get s i = buf_get v (b + i)).
    { intros i Hi. unfold buf_get, s. cbn [b_n b_mem]. destruct (Nat.ltb_spec i (e - b)); [|lia]. destruct (Nat.ltb_spec (b + i) (b_n v)); [|lia].
      rewrite nth_error_app1 by (rewrite skipn_length; lia). apply Skip. }
    assert (At : forall i, i < e - b -> buf_at h' s i = if b + i <? b_n v then buf_at h v (b + i) else Some (repeat 0%N (b_size v))).
    { intros i Hi. destruct (Nat.ltb_spec (b + i) (b_n v)) as [H1|H1].
      - destruct (Hv (b + i) H1) as (x & E & _). rewrite E. destruct (at_ptr _ _ _ _ E) as (p & Gp & _ & Hp & _).
        unfold buf_at. rewrite G, Gp by lia. now apply nth_error_old.
      - unfold buf_at, buf_get, s. cbn [b_n b_mem]. destruct (Nat.ltb_spec i (e - b)); [|lia].
        rewrite nth_error_app2 by (rewrite skipn_length; lia). rewrite skipn_length, nth_error_repeat_in by lia.
        unfold h'. rewrite nth_error_app2, Nat.sub_diag by lia. reflexivity. }
    repeat split.
    + unfold s. cbn [b_mem b_n]. rewrite app_length, skipn_length, repeat_length. lia.
    + intros i Hi. cbn [b_n s] in Hi. rewrite At by exact Hi. cbn [b_size s]. destruct (Nat.ltb_spec (b + i) (b_n v)) as [H1|H1]; [now apply Hv|].
      eexists. split; [reflexivity|]. apply repeat_length.
    + exact At.
    + intros i Hi. apply G. lia.
    + intros p Hp. unfold h'. now apply nth_error_app1.
Qed.

(** Concatenation. *)
Theorem C47_concat h v1 v2 : sound h v1 -> sound h v2 -> b_size v1 = b_size v2 ->
  exists s, new_concat v1 v2 = Some s /\ sound h s /\ b_n s = b_n v1 + b_n v2 /\
    forall i, i < b_n s -> buf_get s i = if i <? b_n v1 then buf_get v1 i else buf_get v2 (i - b_n v1).
Proof.
  intros [L1 H1] [L2 H2] Es. unfold new_concat. rewrite Es, Nat.eqb_refl. eexists. split; [reflexivity|]. cbn [b_n].
  assert (G : forall i, i < b_n v1 + b_n v2 -> buf_get (mkBuffers (b_mem v1 ++ b_mem v2) ((b_n v1 + b_n v2) * b_size v2) (b_size v2) (b_n v1 + b_n v2)) i =
    if i <? b_n v1 then buf_get v1 i else buf_get v2 (i - b_n v1)).
  { intros i Hi. unfold buf_get. cbn [b_n b_mem]. destruct (Nat.ltb_spec i (b_n v1 + b_n v2)); [|lia]. destruct (Nat.ltb_spec i (b_n v1)).
    - apply nth_error_app1. lia.
    - destruct (Nat.ltb_spec (i - b_n v1) (b_n v2)); [|lia]. rewrite nth_error_app2 by lia. now rewrite L1. }
  split; [split|].
  - cbn [b_mem b_n]. rewrite app_length. lia.
  - cbn [b_n b_size]. intros i Hi. unfold buf_at. rewrite G by exact Hi. destruct (Nat.ltb_spec i (b_n v1)) as [H|H].
    + destruct (H1 i H) as (x & E & Lx). exists x. split; [exact E|]. now rewrite <- Es.
    + apply H2. lia.
  - split; [reflexivity|]. exact G.
Qed.

(** Shuffling to more places than there are buffers: the buffers of [v] at the places of the map, zeros elsewhere. *)
Theorem C47_shuffle h v map n : sound h v -> b_n v < n -> length map <= b_n v -> NoDup map -> (forall j, In j map -> j < n) ->
  exists h' s, new_shuffled h v map n = Some (h', s) /\ sound h' s /\ b_n s = n /\
    (forall i j, nth_error map i = Some j -> buf_get s j = buf_get v i) /\
    (forall j, j < n -> ~ In j map -> buf_at h' s j = Some (repeat 0%N (b_size v))) /\
    (forall p, p < length h -> nth_error h' p = nth_error h p).
Proof.
  intros [Lv Hv] Hn Hm Hd Hr. unfold new_shuffled. destruct (Nat.leb_spec (length map) n); [|lia].
  destruct (Nat.leb_spec n (b_n v)); [lia|]. cbn [new_zeros]. set (z := length h). set (h' := h ++ [repeat 0%N (b_size v)]).
  pose (I (k : nat) (mem : list nat) := length mem = n /\ (forall i j, i < k -> nth_error map i = Some j -> nth_error mem j = nth_error (b_mem v) i) /\
    (forall j, j < n -> ~ In j (firstn k map) -> nth_error mem j = Some z)).
  destruct (loop_inv _ (fun mem i => match nth_error map i, nth_error (b_mem v) i with Some j, Some p => set_opt mem j p | _, _ => None end) I (length map) 0 (repeat z n))
    as (mem & E & (Lm & Im & Iz)).
  - intros i mem Hi (Lm & Im & Iz). destruct (nth_error map i) as [j|] eqn:Ej; [|apply nth_error_None in Ej; lia].
    destruct (nth_error (b_mem v) i) as [p|] eqn:Ep; [|apply nth_error_None in Ep; lia].
    assert (Hj : j < n) by (apply Hr; eapply nth_error_In; eauto). unfold set_opt. destruct (Nat.ltb_spec j (length mem)); [|lia].
    eexists. split; [reflexivity|]. split; [now rewrite set_length|]. split.
    + intros i' j' Hi' Ej'. rewrite nth_error_set. destruct (Nat.ltb_spec j (length mem)); [|lia]. rewrite andb_true_r.
      destruct (Nat.eqb_spec j j') as [->|ne].
      * assert (i = i') as <-; [|now rewrite Ep].
        apply (proj1 (NoDup_nth_error map) Hd); [lia|congruence].
      * apply Im; [|exact Ej']. destruct (Nat.eq_dec i' i) as [->|]; [congruence|lia].
    + intros j' Hj' Nj. rewrite nth_error_set. destruct (Nat.eqb_spec j j') as [->|ne].
      * exfalso. apply Nj. apply nth_error_In with (n := i). rewrite <- Ej. clear -Hi. revert i Hi. induction map as [|a l IH]; intros [|i] Hi; cbn in *; auto; try lia.
        apply IH. lia.
      * cbn [andb]. apply Iz; [exact Hj'|]. intros C. apply Nj. clear -C. revert i C. induction map as [|a l IH]; intros [|i]; cbn; try tauto.
        intros [C|C]; [now left|]. right. now apply IH.
  - split; [apply repeat_length|]. split; [intros; lia|]. intros j Hj _. now apply nth_error_repeat_in.
  - cbn beta in E. rewrite E. cbn [Nat.add] in Im, Iz. rewrite firstn_all in Iz. eexists. eexists. split; [reflexivity|]. cbn [b_n].
    set (s := mkBuffers mem _ _ _).
    assert (Ga : forall i j, nth_error map i = Some j -> buf_get s j = buf_get v i).
    { intros i j Ej. assert (i < length map) by (apply nth_error_Some; congruence). assert (j < n) by (apply Hr; eapply nth_error_In; eauto).
      unfold buf_get, s. cbn [b_n b_mem]. destruct (Nat.ltb_spec j n); [|lia]. destruct (Nat.ltb_spec i (b_n v)); [|lia]. now apply Im. }
    assert (Gz : forall j, j < n -> ~ In j map -> buf_at h' s j = Some (repeat 0%N (b_size v))).
    { intros j Hj Nj. unfold buf_at, buf_get, s. cbn [b_n b_mem]. destruct (Nat.ltb_spec j n); [|lia]. rewrite Iz by assumption.
      unfold h', z. rewrite nth_error_app2, Nat.sub_diag by lia. reflexivity. }
    split; [split|].
    + exact Lm.
    + cbn [s b_n b_size]. intros j Hj. destruct (in_dec Nat.eq_dec j map) as [Hin|Hin].
      * apply In_nth_error in Hin. destruct Hin as [i Ei]. assert (Hi : i < length map) by (apply nth_error_Some; congruence).
        destruct (Hv i ltac:(lia)) as (x & Ex & Lx). exists x. split; [|exact Lx]. destruct (at_ptr _ _ _ _ Ex) as (p & Gp & _ & Hp & _).
        unfold buf_at. rewrite (Ga i j Ei), Gp. now apply nth_error_old.
      * exists (repeat 0%N (b_size v)). split; [now apply Gz|apply repeat_length].
    + split; [reflexivity|]. split; [exact Ga|]. split; [exact Gz|]. intros p Hp. now apply nth_error_app1.
Qed.

(** Even places first, then odd ones. *)
Theorem C47_even_odd h b : sound h b -> Nat.even (b_n b) = true ->
  exists b', separate_even_odd b = Some b' /\ b_n b' = b_n b /\ sound h b' /\
    forall j, j < b_n b / 2 -> buf_get b' j = buf_get b (2 * j) /\ buf_get b' (b_n b / 2 + j) = buf_get b (2 * j + 1).
Proof.
  intros [Lb Hb] He. apply Nat.even_spec in He. destruct He as [c Hc]. unfold separate_even_odd.
  replace ((b_n b + 1) / 2) with c by (rewrite Hc; apply (Nat.div_unique _ _ _ 1); lia).
  replace (b_n b / 2) with c by (rewrite Hc; apply (Nat.div_unique _ _ _ 0); lia).
  pose (I (k : nat) (t : list nat) := length t = b_n b /\ forall j, j < k -> nth_error t j = buf_get b (2 * j) /\ nth_error t (j + c) = buf_get b (2 * j + 1)).
  assert (P : forall i, i < b_n b -> exists p, buf_get b i = Some p /\ nth_error (b_mem b) i = Some p).
  { intros i Hi. destruct (Hb i Hi) as (x & Ex & _). destruct (at_ptr _ _ _ _ Ex) as (p & A & B & _). eauto. }
  destruct (loop_inv _ (fun t j => match buf_get b (2 * j), buf_get b (2 * j + 1) with
     | Some p, Some q => match set_opt t j p with Some t' => set_opt t' (j + c) q | None => None end | _, _ => None end) I c 0 (repeat 0 (b_n b))) as (t & E & (Lt & It)).
  - intros j t Hj (Lt & It). destruct (P (2 * j) ltac:(lia)) as (p & Ep & _). destruct (P (2 * j + 1) ltac:(lia)) as (q & Eq & _). rewrite Ep, Eq.
    unfold set_opt. destruct (Nat.ltb_spec j (length t)); [|lia]. rewrite set_length. destruct (Nat.ltb_spec (j + c) (length t)); [|lia].
    eexists. split; [reflexivity|]. split; [now rewrite !set_length|]. intros i Hi. rewrite !nth_error_set, !set_length.
    destruct (Nat.ltb_spec (j + c) (length t)); [|lia]. destruct (Nat.ltb_spec j (length t)); [|lia]. rewrite !andb_true_r.
    destruct (Nat.eqb_spec (j + c) i); [lia|]. destruct (Nat.eqb_spec j (i + c)); [lia|].
    destruct (Nat.eqb_spec j i) as [<-|]; [rewrite Nat.eqb_refl; auto|]. destruct (Nat.eqb_spec (j + c) (i + c)); [lia|]. apply It. lia.
  - split; [apply repeat_length|]. intros; lia.
  - cbn beta in E. rewrite E. destruct (Nat.leb_spec (b_n b) (length (b_mem b))); [|lia]. eexists. split; [reflexivity|]. split; [reflexivity|].
    set (b' := mkBuffers _ _ _ _). cbn [Nat.add] in It.
    assert (G : forall j, j < c -> buf_get b' j = buf_get b (2 * j) /\ buf_get b' (c + j) = buf_get b (2 * j + 1)).
    { intros j Hj. unfold buf_get at 1 3. cbn [b' b_n b_mem]. destruct (Nat.ltb_spec j (b_n b)); [|lia]. destruct (Nat.ltb_spec (c + j) (b_n b)); [|lia].
      rewrite !nth_error_app1 by lia. rewrite (Nat.add_comm c j). apply It. exact Hj. }
    split; [|exact G]. split.
    + cbn [b' b_mem b_n]. rewrite app_length, skipn_length. lia.
    + cbn [b' b_n b_size]. intros i Hi. unfold buf_at. fold b'. destruct (Nat.lt_ge_cases i c) as [Hi'|Hi'].
      * rewrite (proj1 (G i Hi')). apply Hb. lia.
      * replace i with (c + (i - c)) by lia. rewrite (proj2 (G (i - c) ltac:(lia))). apply Hb. lia.
Qed.

(** ** What does not hold *)
(** Shuffling to at most as many places as there are buffers always indexes an empty vector: the first example of the
    comment, vec_buffers.h:284-285. *)
Theorem C47_shuffle_shrink_undefined h v map n : n <= b_n v -> map <> [] -> new_shuffled h v map n = None.
Proof.
  intros Hn Hm. unfold new_shuffled. destruct (length map <=? n); [|reflexivity]. destruct (Nat.leb_spec n (b_n v)); [|lia].
  destruct map as [|j map]; [congruence|]. cbn [length loop nth_error]. destruct (b_mem v); reflexivity.
Qed.
Definition demo_heap : heap := [[1; 2]; [3; 4]; [5; 6]; [7; 8]; [9; 10]]%N.
Definition demo_buffers : buffers := new_wrap 5 2 [0; 1; 2; 3; 4].
Theorem C47_shuffle_shrink_refuted : exists h v map n, sound h v /\ length map <= n /\ length map <= b_n v /\ NoDup map /\ (forall j, In j map -> j < n) /\
  new_shuffled h v map n = None.
Proof.
  exists demo_heap, demo_buffers, [3; 2; 0; 1], 4. split.
  { split; [reflexivity|]. cbn [demo_buffers new_wrap b_n]. intros i Hi. do 5 (destruct i as [|i]; [eexists; split; reflexivity|]). lia. }
  split; [cbn; lia|]. split; [cbn; lia|]. split; [repeat constructor; cbn; lia|]. split; [cbn; lia|]. reflexivity.
Qed.
(** With an empty map the indices below [get_n()] refer to nothing. *)
Theorem C47_shuffle_empty_refuted : exists h v n h' s, sound h v /\ 0 < n /\ new_shuffled h v [] n = Some (h', s) /\ ~ sound h' s.
Proof.
  exists demo_heap, demo_buffers, 4. eexists. eexists. split.
  { split; [reflexivity|]. cbn [demo_buffers new_wrap b_n]. intros i Hi. do 5 (destruct i as [|i]; [eexists; split; reflexivity|]). lia. }
  split; [lia|]. split; [reflexivity|]. intros [H _]. cbn in H. discriminate.
Qed.
(** Slices that begin after the end are undefined. *)
Theorem C47_slice_after_end h v b e : sound h v -> b_n v < b -> new_range h v b e = None.
Proof.
  intros [Lv _] Hb. unfold new_range. destruct (Nat.ltb_spec b e); [|reflexivity]. destruct (Nat.leb_spec e (b_n v)); [lia|].
  destruct (Nat.leb_spec b (length (b_mem v))); [lia|reflexivity].
Qed.
(** A full clone reports a memory length of zero. *)
Theorem C47_clone_mem_len_refuted h junk v : sound h v -> length junk = b_size v -> 0 < b_n v * b_size v ->
  exists h' b, new_clone h junk v 0 = Some (h', b) /\ b_mem_len b <> b_n b * b_size b.
Proof.
  intros Hs Hj H0. destruct (C47_clone h junk v 0 Hs Hj) as (h' & b & E & _ & En & _). exists h', b. split; [exact E|].
  unfold new_clone in E. cbn [Nat.eqb allocate] in E. destruct (loop _ 0 _ _) in E; [|discriminate]. destruct (b_n v <? b_n v).
  - destruct (loop _ _ _ _) in E; [|discriminate]. injection E. intros <- _. cbn. lia.
  - injection E. intros <- _. cbn. lia.
Qed.
(** An odd number of buffers cannot be separated. *)
Theorem C47_odd_undefined b : Nat.odd (b_n b) = true -> separate_even_odd b = None.
Proof.
  intros Ho. apply Nat.odd_spec in Ho. destruct Ho as [c Hc]. unfold separate_even_odd.
  replace ((b_n b + 1) / 2) with (c + 1) by (rewrite Hc; apply (Nat.div_unique _ _ _ 0); lia).
  assert (G : forall f k first (t : list nat), (forall t, f t (first + k) = None) -> loop f first (k + 1) t = None).
  { intros f k. induction k as [|k IH]; intros first t H; cbn [loop Nat.add].
    - rewrite Nat.add_0_r in H. now rewrite H.
    - destruct (f t first); [|reflexivity]. apply IH. intros u. replace (S first + k) with (first + S k) by lia. apply H. }
  rewrite G; [reflexivity|]. intros t. cbn [Nat.add]. destruct (buf_get b (2 * c)); [|reflexivity].
  unfold buf_get. destruct (Nat.ltb_spec (2 * c + 1) (b_n b)); [lia|reflexivity].
Qed.

(** Concrete cases; the shuffle is the second example of the comment. *)
Example C47_case_shuffle : exists h s, new_shuffled demo_heap demo_buffers [3; 6; 1; 5; 4] 7 = Some (h, s) /\
  map (buf_at h s) (seq 0 7) = [Some [0; 0]; Some [5; 6]; Some [0; 0]; Some [1; 2]; Some [9; 10]; Some [7; 8]; Some [3; 4]]%N.
Proof. eexists. eexists. split; reflexivity. Qed.
Example C47_case_slice : exists h s, new_range demo_heap demo_buffers 3 7 = Some (h, s) /\
  map (buf_at h s) (seq 0 4) = [Some [7; 8]; Some [9; 10]; Some [0; 0]; Some [0; 0]]%N.
Proof. eexists. eexists. split; reflexivity. Qed.
Example C47_case_clone : exists h s, new_clone demo_heap [99; 99]%N demo_buffers 6 = Some (h, s) /\
  map (buf_at h s) (seq 0 6) = [Some [1; 2]; Some [3; 4]; Some [5; 6]; Some [7; 8]; Some [9; 10]; Some [0; 0]]%N.
Proof. eexists. eexists. split; reflexivity. Qed.

Print Assumptions C47_full.
Print Assumptions C47_clone.
Print Assumptions C47_slice.
Print Assumptions C47_concat.
Print Assumptions C47_shuffle.
Print Assumptions C47_even_odd.
Print Assumptions C47_shuffle_shrink_undefined.
Print Assumptions C47_shuffle_shrink_refuted.
Print Assumptions C47_shuffle_empty_refuted.
Print Assumptions C47_slice_after_end.
Print Assumptions C47_clone_mem_len_refuted.
Print Assumptions C47_odd_undefined.
