(** Bytes and words. *)
From Coq Require Import List NArith Arith Bool Lia.
From Verif.Model Require Import Common Bytes.
From Verif.Spec Require Import Modular Blocks.
From Verif.Proof Require Import ListP.
Import ListNotations.
Open Scope nat_scope.

Lemma pow_S b n : (b ^ N.of_nat (S n) = b * b ^ N.of_nat n)%N.
Proof. rewrite Nat2N.inj_succ, N.pow_succ_r'. reflexivity. Qed.

Lemma pow256_pos n : (0 < 256 ^ N.of_nat n)%N.
Proof. apply N.neq_0_lt_0, N.pow_nonzero. discriminate. Qed.

Lemma bytes_of_word_length ws : forall v, length (bytes_of_word ws v) = ws.
Proof. induction ws; intros v; cbn; auto. Qed.

Lemma bytes_of_word_bytes ws : forall v, all_bytes (bytes_of_word ws v).
Proof. induction ws; intros v; cbn; constructor; [apply N.mod_upper_bound; discriminate|apply IHws]. Qed.

Lemma word_of_bytes_lt l : all_bytes l -> (word_of_bytes l < 256 ^ N.of_nat (length l))%N.
Proof.
  induction 1 as [|b l Hb _ IH]; [reflexivity|]. cbn [word_of_bytes length]. rewrite pow_S. lia.
Qed.

Lemma word_bytes ws : forall v, (word_of_bytes (bytes_of_word ws v) = v mod 256 ^ N.of_nat ws)%N.
Proof.
  induction ws; intros v; cbn [word_of_bytes bytes_of_word].
  - rewrite N.mod_1_r. reflexivity.
  - rewrite IHws, pow_S, N.mod_mul_r by (try discriminate; pose proof (pow256_pos ws); lia). reflexivity.
Qed.

Lemma bytes_word l : all_bytes l -> bytes_of_word (length l) (word_of_bytes l) = l.
Proof.
  induction 1 as [|b l Hb _ IH]; [reflexivity|]. cbn [length bytes_of_word word_of_bytes].
  rewrite (N.mul_comm 256), N.mod_add, N.mod_small, N.div_add, N.div_small, N.add_0_l by lia. now rewrite IH.
Qed.

Lemma bytes_of_word_nth ws : forall v b, b < ws -> nth b (bytes_of_word ws v) 0%N = (v / 256 ^ N.of_nat b mod 256)%N.
Proof.
  induction ws; intros v b Hb; [lia|]. cbn [bytes_of_word]. destruct b; cbn [nth].
  - now rewrite N.div_1_r.
  - rewrite IHws, pow_S, N.div_div by (try discriminate; pose proof (pow256_pos b); lia). reflexivity.
Qed.

Lemma word_of_bytes_sum l : word_of_bytes l = sumN (fun b => nth b l 0 * 256 ^ N.of_nat b)%N (length l).
Proof.
  assert (S0 : forall f n, sumN f (S n) = (f 0%nat + sumN (fun i => f (S i)) n)%N).
  { intros f n. induction n; [cbn; lia|]. change (sumN f (S (S n))) with (sumN f (S n) + f (S n))%N. rewrite IHn. cbn. lia. }
  assert (SM : forall c f n, (sumN (fun i => c * f i) n = c * sumN f n)%N).
  { intros c f n. induction n; cbn; [lia|]. rewrite IHn. lia. }
  induction l as [|b l IH]; [reflexivity|]. cbn [length word_of_bytes]. rewrite S0, IH, <- SM. cbn [nth].
  rewrite N.pow_0_r, N.mul_1_r. f_equal.
  assert (E : forall f g n, (forall i, f i = g i) -> sumN f n = sumN g n).
  { intros f g n H. induction n; cbn; [auto|]. now rewrite IHn, H. }
  apply E. intros i. rewrite pow_S. lia.
Qed.

Lemma slice_length A (l : list A) pos len : pos + len <= length l -> length (slice l pos len) = len.
Proof. intros H. unfold slice. rewrite firstn_length, skipn_length. lia. Qed.

Lemma slice_nth A (d : A) l pos len i : i < len -> nth i (slice l pos len) d = nth (pos + i) l d.
Proof. intros H. unfold slice. rewrite nth_firstn, nth_skipn. destruct (Nat.ltb_spec i len); [auto|lia]. Qed.

Lemma Forall_slice A (P : A -> Prop) l pos len : Forall P l -> Forall P (slice l pos len).
Proof.
  intros H. unfold slice. apply Forall_forall. intros x Hx.
  assert (In x l); [|now apply (proj1 (Forall_forall P l) H)].
  rewrite <- (firstn_skipn pos l). apply in_or_app; right.
  rewrite <- (firstn_skipn len (skipn pos l)). apply in_or_app; now left.
Qed.

Lemma blit_length A (dst : list A) pos src : pos + length src <= length dst -> length (blit dst pos src) = length dst.
Proof. intros H. unfold blit. rewrite !app_length, firstn_length, skipn_length. lia. Qed.

Lemma blit_nth A (d : A) dst pos src i : pos + length src <= length dst ->
  nth i (blit dst pos src) d = if (pos <=? i) && (i <? pos + length src) then nth (i - pos) src d else nth i dst d.
Proof.
  intros H. unfold blit. assert (E : length (firstn pos dst) = pos) by (rewrite firstn_length; lia).
  destruct (Nat.leb_spec pos i).
  - rewrite app_nth2 by lia. rewrite E. destruct (Nat.ltb_spec i (pos + length src)); cbn.
    + rewrite app_nth1 by lia. reflexivity.
    + rewrite app_nth2 by lia. rewrite nth_skipn. f_equal. lia.
  - cbn. rewrite app_nth1 by lia. rewrite nth_firstn. destruct (Nat.ltb_spec i pos); [auto|lia].
Qed.

(** Word [t] of a block. *)
Definition word_at (ws : nat) (blk : list N) (t : nat) : N := word_of_bytes (slice blk (t * ws) ws).

Lemma word_at_lt ws blk t : all_bytes blk -> (word_at ws blk t < 256 ^ N.of_nat ws)%N.
Proof.
  intros H. eapply N.lt_le_trans; [apply word_of_bytes_lt, Forall_slice, H|].
  apply N.pow_le_mono_r; [discriminate|]. unfold slice. rewrite firstn_length. lia.
Qed.

Lemma word_at_symbol ws blk t : (t + 1) * ws <= length blk -> word_at ws blk t = symbol ws blk t.
Proof.
  intros H. unfold word_at, symbol. rewrite word_of_bytes_sum, slice_length by lia.
  assert (E : forall f g n, (forall i, i < n -> f i = g i) -> sumN f n = sumN g n).
  { intros f g n. induction n; intros X; cbn; [auto|]. rewrite IHn, X; auto. }
  apply E. intros b Hb. now rewrite slice_nth.
Qed.

Lemma word_at_ext ws a b t : (forall i, i < ws -> nth (t * ws + i) a 0%N = nth (t * ws + i) b 0%N) ->
  (t + 1) * ws <= length a -> (t + 1) * ws <= length b -> word_at ws a t = word_at ws b t.
Proof.
  intros H La Lb. unfold word_at. f_equal. apply (list_ext _ 0%N); [rewrite !slice_length; lia|].
  rewrite slice_length by lia. intros i Hi. rewrite !slice_nth by auto. auto.
Qed.

(** Loading a packet. *)
Lemma load_pkt_words ws pkt offset bs blk wc : length wc = pkt * ws -> offset <= bs -> bs * ws <= length blk ->
  map (fun t => word_of_bytes (slice (let copy := Nat.min pkt (bs - offset) in
      let wc1 := blit wc 0 (slice blk (offset * ws) (copy * ws)) in
      if copy <? pkt then blit wc1 (copy * ws) (repeat 0%N (pkt * ws - copy * ws)) else wc1) (t * ws) ws)) (seq 0 pkt) =
  map (fun t => if offset + t <? bs then word_at ws blk (offset + t) else 0%N) (seq 0 pkt).
Proof.
  intros Lw Ho Hb. cbv zeta. set (copy := Nat.min pkt (bs - offset)).
  assert (Hc : copy * ws <= pkt * ws) by (apply Nat.mul_le_mono_r; unfold copy; lia).
  assert (Hc2 : (offset + copy) * ws <= length blk) by (transitivity (bs * ws); [apply Nat.mul_le_mono_r; unfold copy; lia|lia]).
  assert (Ls : length (slice blk (offset * ws) (copy * ws)) = copy * ws) by (apply slice_length; lia).
  set (wc1 := blit wc 0 _).
  assert (L1 : length wc1 = pkt * ws) by (unfold wc1; rewrite blit_length; lia).
  set (wc2 := if copy <? pkt then _ else _).
  assert (L2 : length wc2 = pkt * ws).
  { unfold wc2. destruct (copy <? pkt); [|auto]. rewrite blit_length; rewrite ?repeat_length; lia. }
  assert (N2 : forall i, i < pkt * ws -> nth i wc2 0%N = if i <? copy * ws then nth (offset * ws + i) blk 0%N else 0%N).
  { intros i Hi. assert (N1 : i < copy * ws -> nth i wc1 0%N = nth (offset * ws + i) blk 0%N).
    { intros Hi2. unfold wc1. rewrite blit_nth by lia. rewrite Ls. cbn [Nat.leb andb Nat.add].
      destruct (Nat.ltb_spec i (copy * ws)); [|lia]. rewrite slice_nth by lia. f_equal. lia. }
    unfold wc2. destruct (Nat.ltb_spec copy pkt) as [Hcp|Hcp].
    - rewrite blit_nth by (rewrite repeat_length; lia). rewrite repeat_length.
      destruct (Nat.leb_spec (copy * ws) i); cbn [andb].
      + destruct (Nat.ltb_spec i (copy * ws + (pkt * ws - copy * ws))); [|lia].
        destruct (Nat.ltb_spec i (copy * ws)); [lia|]. apply nth_repeat.
      + destruct (Nat.ltb_spec i (copy * ws)); [|lia]. auto.
    - assert (copy = pkt) by (unfold copy in *; lia). replace (copy * ws) with (pkt * ws) in * by congruence.
      destruct (Nat.ltb_spec i (pkt * ws)); [|lia]. apply N1. lia. }
  apply map_ext_in. intros t Ht. apply in_seq in Ht.
  assert (T1 : (t + 1) * ws <= pkt * ws) by (apply Nat.mul_le_mono_r; lia).
  destruct (Nat.ltb_spec (offset + t) bs) as [Htb|Htb].
  - unfold word_at. f_equal. assert (Htc : t + 1 <= copy) by (unfold copy; lia).
    assert (T2 : (t + 1) * ws <= copy * ws) by (apply Nat.mul_le_mono_r; lia).
    apply (list_ext _ 0%N); [rewrite !slice_length; lia|].
    rewrite slice_length by lia. intros i Hi. rewrite !slice_nth by auto. rewrite N2 by lia.
    destruct (Nat.ltb_spec (t * ws + i) (copy * ws)); [|lia]. f_equal. lia.
  - assert (Htc : copy <= t) by (unfold copy; lia).
    assert (T2 : copy * ws <= t * ws) by (apply Nat.mul_le_mono_r; lia).
    assert (E : slice wc2 (t * ws) ws = repeat 0%N ws).
    { apply (list_ext _ 0%N); [rewrite slice_length, repeat_length; lia|].
      rewrite slice_length by lia. intros i Hi. rewrite slice_nth, N2, nth_repeat by lia.
      destruct (Nat.ltb_spec (t * ws + i) (copy * ws)); [lia|auto]. }
    rewrite E. clear. induction ws; cbn [repeat word_of_bytes]; lia.
Qed.

(** Lists of items of constant length. *)
Section Flat.
Context {A B : Type}.
Variables (g : A -> list B) (ws : nat).
Hypothesis Hg : forall x, length (g x) = ws.

Lemma flat_length l : length (flat_map g l) = length l * ws.
Proof. induction l; cbn; auto. rewrite app_length, Hg, IHl. auto. Qed.

Lemma firstn_flat n : forall l, firstn (n * ws) (flat_map g l) = flat_map g (firstn n l).
Proof.
  induction n; intros l; [reflexivity|]. destruct l as [|x l]; [now rewrite firstn_nil|].
  cbn [flat_map firstn Nat.mul]. rewrite firstn_app, Hg.
  rewrite firstn_all2 by (rewrite Hg; lia). replace (ws + n * ws - ws) with (n * ws) by lia. now rewrite IHn.
Qed.

Lemma skipn_flat n : forall l, skipn (n * ws) (flat_map g l) = flat_map g (skipn n l).
Proof.
  induction n; intros l; [reflexivity|]. destruct l as [|x l]; [now rewrite skipn_nil|].
  cbn [flat_map skipn Nat.mul]. rewrite skipn_app, Hg.
  rewrite skipn_all2 by (rewrite Hg; lia). replace (ws + n * ws - ws) with (n * ws) by lia. now rewrite IHn.
Qed.

Lemma slice_flat d n l : n < length l -> slice (flat_map g l) (n * ws) ws = g (nth n l d).
Proof.
  intros H. unfold slice. rewrite skipn_flat.
  assert (E : skipn n l = nth n l d :: skipn (S n) l).
  { clear -H. revert n H. induction l as [|a l IH]; intros n H; [cbn in H; lia|]. destruct n; [reflexivity|].
    cbn [skipn nth]. rewrite IH by (cbn in H; lia). reflexivity. }
  rewrite E. cbn [flat_map]. rewrite firstn_app, Hg, Nat.sub_diag, firstn_O, app_nil_r. apply firstn_all2. rewrite Hg. lia.
Qed.
End Flat.

(** [blk] with its first [n] words replaced. *)
Definition words_then (ws : nat) (f : nat -> N) (n : nat) (blk : list N) : list N :=
  flat_map (fun t => bytes_of_word ws (f t)) (seq 0 n) ++ skipn (n * ws) blk.

Lemma words_then_0 ws f blk : words_then ws f 0 blk = blk.
Proof. reflexivity. Qed.

Lemma words_then_length ws f n blk : n * ws <= length blk -> length (words_then ws f n blk) = length blk.
Proof.
  intros H. unfold words_then. rewrite app_length, skipn_length, (flat_length _ ws), seq_length; [lia|].
  intros; apply bytes_of_word_length.
Qed.

Lemma words_then_ext ws f g n blk : (forall t, t < n -> f t = g t) -> words_then ws f n blk = words_then ws g n blk.
Proof.
  intros H. unfold words_then. f_equal. rewrite !flat_map_concat_map. f_equal. apply map_ext_in.
  intros t Ht. apply in_seq in Ht. rewrite H by lia. reflexivity.
Qed.

Lemma words_then_overwrite ws f n blk : 0 < ws -> words_then ws f n blk = overwrite ws n f blk.
Proof.
  intros H. unfold words_then, overwrite. f_equal.
  assert (Hl : forall t, length (bytes_of_word ws (f t)) = ws) by (intros; apply bytes_of_word_length).
  apply (list_ext _ 0%N); [rewrite (flat_length _ ws Hl), map_length, !seq_length; auto|].
  rewrite (flat_length _ ws Hl), seq_length. intros b Hb.
  rewrite nth_map_seq by auto.
  assert (Hq : b / ws < n) by (apply Nat.div_lt_upper_bound; lia).
  pose proof (Nat.div_mod b ws ltac:(lia)) as E. pose proof (Nat.mod_upper_bound b ws ltac:(lia)) as Hr.
  rewrite <- (bytes_of_word_nth ws) by auto.
  replace (f (b / ws)) with (f (nth (b / ws) (seq 0 n) 0)) by (rewrite seq_nth by auto; reflexivity).
  rewrite <- (slice_flat (fun t => bytes_of_word ws (f t)) ws Hl 0 (b / ws) (seq 0 n)) by (rewrite seq_length; auto).
  rewrite slice_nth by auto. f_equal. lia.
Qed.

Lemma words_then_word_at ws f n blk t : n * ws <= length blk -> t < n ->
  word_at ws (words_then ws f n blk) t = (f t mod 256 ^ N.of_nat ws)%N.
Proof.
  intros Hn Ht. unfold word_at, words_then.
  assert (Hl : forall t, length (bytes_of_word ws (f t)) = ws) by (intros; apply bytes_of_word_length).
  assert (T1 : (t + 1) * ws <= n * ws) by (apply Nat.mul_le_mono_r; lia).
  replace (slice _ (t * ws) ws) with (slice (flat_map (fun t => bytes_of_word ws (f t)) (seq 0 n)) (t * ws) ws).
  - rewrite (slice_flat _ ws Hl 0), seq_nth by (rewrite ?seq_length; lia). apply word_bytes.
  - apply (list_ext _ 0%N).
    + rewrite !slice_length; rewrite ?app_length, ?(flat_length _ ws Hl), ?seq_length; lia.
    + rewrite slice_length by (rewrite (flat_length _ ws Hl), seq_length; lia). intros i Hi. rewrite !slice_nth by auto.
      rewrite app_nth1; [auto|]. rewrite (flat_length _ ws Hl), seq_length. lia.
Qed.

(** Words of a block written back are its bytes. *)
Lemma words_then_self ws D n blk : all_bytes D -> n * ws <= length D ->
  words_then ws (word_at ws D) n blk = firstn (n * ws) D ++ skipn (n * ws) blk.
Proof.
  intros Hb Hn. unfold words_then. f_equal.
  clear blk. induction n; [reflexivity|].
  rewrite seq_S, flat_map_app. cbn [flat_map Nat.add]. rewrite app_nil_r, IHn by lia.
  replace (S n * ws) with (n * ws + ws) by lia.
  assert (Ls : length (slice D (n * ws) ws) = ws) by (apply slice_length; lia).
  unfold word_at. rewrite <- Ls at 2. rewrite bytes_word by (apply Forall_slice; auto).
  unfold slice. rewrite <- (firstn_skipn (n * ws) D) at 3. rewrite firstn_app.
  rewrite firstn_length, firstn_firstn. replace (Nat.min (n * ws + ws) (n * ws)) with (n * ws) by lia.
  f_equal. f_equal. lia.
Qed.

Lemma map_add_seq o n : forall a, map (fun t => o + t) (seq a n) = seq (o + a) n.
Proof. induction n; intros a; cbn; [auto|]. rewrite IHn. f_equal. f_equal. lia. Qed.

Lemma skipn_skipn A a : forall b (l : list A), skipn a (skipn b l) = skipn (b + a) l.
Proof. induction b; intros l; [reflexivity|]. destruct l; [now rewrite !skipn_nil|]. cbn. apply IHb. Qed.

(** Storing a packet. *)
Lemma store_step ws pkt bs offset f blk : offset <= bs -> bs * ws <= length blk ->
  let copy := Nat.min pkt (bs - offset) in
  blit (words_then ws f offset blk) (offset * ws)
    (firstn (copy * ws) (unpack_buf ws (map (fun t => f (offset + t)) (seq 0 pkt)))) = words_then ws f (offset + copy) blk.
Proof.
  intros Ho Hb copy. unfold unpack_buf.
  assert (Hc : copy <= pkt) by (unfold copy; lia). assert (Hc2 : offset + copy <= bs) by (unfold copy; lia).
  rewrite (firstn_flat _ ws) by (intros; apply bytes_of_word_length).
  assert (E : flat_map (bytes_of_word ws) (firstn copy (map (fun t => f (offset + t)) (seq 0 pkt))) =
              flat_map (fun t => bytes_of_word ws (f t)) (seq offset copy)).
  { rewrite firstn_map. rewrite !flat_map_concat_map, map_map.
    replace (firstn copy (seq 0 pkt)) with (seq 0 copy).
    - f_equal. replace (seq offset copy) with (map (fun t => offset + t) (seq 0 copy)).
      + rewrite map_map. reflexivity.
      + pose proof (map_add_seq offset copy 0) as X. rewrite Nat.add_0_r in X. exact X.
    - clear - Hc. replace pkt with (copy + (pkt - copy)) by lia. rewrite seq_app, firstn_app, seq_length, Nat.sub_diag.
      cbn [firstn]. rewrite app_nil_r, firstn_all2; [auto|]. rewrite seq_length. lia. }
  rewrite E. unfold blit, words_then.
  assert (Hl : forall t, length (bytes_of_word ws (f t)) = ws) by (intros; apply bytes_of_word_length).
  assert (L1 : length (flat_map (fun t => bytes_of_word ws (f t)) (seq 0 offset)) = offset * ws)
    by (rewrite (flat_length _ ws Hl), seq_length; auto).
  assert (L2 : length (flat_map (fun t => bytes_of_word ws (f t)) (seq offset copy)) = copy * ws)
    by (rewrite (flat_length _ ws Hl), seq_length; auto).
  rewrite L2. rewrite firstn_app, L1, Nat.sub_diag, firstn_O, app_nil_r, firstn_all2 by lia.
  rewrite skipn_app, L1. rewrite skipn_all2 by lia. cbn [app].
  replace (offset * ws + copy * ws - offset * ws) with (copy * ws) by lia.
  rewrite skipn_skipn. rewrite seq_app, flat_map_app, <- app_assoc. cbn [Nat.add]. f_equal. f_equal. f_equal. lia.
Qed.
