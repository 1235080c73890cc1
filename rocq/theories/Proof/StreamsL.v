(** Reading and writing packets of streams. *)
From Coq Require Import List NArith ZArith Arith Bool Lia.
From Verif.Model Require Import Common Ring Fft2n Radix2 Poly Props Bytes Fnt Blocks Streams.
From Verif.Spec Require Import Code Blocks.
From Verif.Proof Require Import ListP BytesP.
Import ListNotations.
Open Scope nat_scope.

(** What a packet buffer holds after reading from a stream with [rest] left: zeros after the end. *)
Definition pkt_of (size : nat) (rest : list N) : list N := firstn size (rest ++ repeat 0%N size).

Lemma pkt_of_length size rest : length (pkt_of size rest) = size.
Proof. unfold pkt_of. rewrite firstn_length, app_length, repeat_length. lia. Qed.

Lemma word_of_bytes_zeros l n : word_of_bytes (l ++ repeat 0%N n) = word_of_bytes l.
Proof.
  induction l as [|b l IH]; cbn [app word_of_bytes]; [|now rewrite IH].
  induction n; [reflexivity|]. cbn [repeat word_of_bytes]. rewrite IHn. reflexivity.
Qed.

Lemma firstn_zeros n m : firstn n (repeat 0%N m) = repeat 0%N (Nat.min n m).
Proof. revert m; induction n; intros [|m]; cbn; auto. now rewrite IHn. Qed.

Lemma skipn_zeros n m : skipn n (repeat 0%N m) = repeat 0%N (m - n).
Proof. revert m; induction n; intros [|m]; cbn; auto. Qed.

Lemma slice_pkt_of size rest pos len : pos + len <= size ->
  word_of_bytes (slice (pkt_of size rest) pos len) = word_of_bytes (slice rest pos len).
Proof.
  intros H. unfold slice, pkt_of. rewrite skipn_firstn_comm, firstn_firstn. replace (Nat.min len (size - pos)) with len by lia.
  rewrite skipn_app, skipn_zeros, firstn_app, firstn_zeros. apply word_of_bytes_zeros.
Qed.

Lemma pack_pkt_of ws pkt o b : pack_buf ws pkt (pkt_of (pkt * ws) (skipn (o * ws) b)) =
  map (fun t => word_at ws b (o + t)) (seq 0 pkt).
Proof.
  unfold pack_buf. apply map_ext_in. intros t Ht. apply in_seq in Ht.
  rewrite slice_pkt_of by nia. unfold word_at, slice. rewrite skipn_skipn. do 2 f_equal. f_equal. lia.
Qed.

(** Reading one packet from each stream. *)
Notation no_stream := (mkIs [] true).

Lemma read_turn_spec k size R ins wc rb : 0 < k -> length ins = k -> length wc = k ->
  (forall i, i < k -> length (nth i wc []) = size) ->
  (forall i, i < k -> is_fail (nth i ins no_stream) = false /\ length (is_rest (nth i ins no_stream)) = R) ->
  read_turn k size (mkRs ins wc rb true) =
  mkRs (map (fun s => mkIs (skipn size (is_rest s)) (R <? size)) ins) (map (fun s => pkt_of size (is_rest s)) ins)
       (if size <=? R then rb else R) (size <=? R).
Proof.
  intros Hk Li Lw Hw Hi. unfold read_turn.
  assert (X : forall m, m <= k -> exists ins' wc', fold_left (read_one size) (seq 0 m) (mkRs ins wc rb true) =
     mkRs ins' wc' (if size <=? R then rb else if m =? 0 then rb else R) (if size <=? R then true else m =? 0) /\
     length ins' = k /\ length wc' = k /\
     (forall i, i < k -> nth i ins' no_stream = if i <? m then mkIs (skipn size (is_rest (nth i ins no_stream))) (R <? size)
                                                else nth i ins no_stream) /\
     (forall i, i < k -> nth i wc' [] = if i <? m then pkt_of size (is_rest (nth i ins no_stream)) else nth i wc [])).
  { induction m; intros Hm.
    - exists ins, wc. cbn [seq fold_left Nat.eqb]. destruct (size <=? R); auto.
    - destruct IHm as (i1 & w1 & E & L1 & L2 & I & W); [lia|]. rewrite seq_S, fold_left_app, E. cbn [fold_left Nat.add].
      destruct (Hi m ltac:(lia)) as [F1 F2].
      assert (Im : nth m i1 no_stream = nth m ins no_stream) by (rewrite I by lia; destruct (Nat.ltb_spec m m); [lia|auto]).
      assert (Wm : length (nth m w1 []) = size) by (rewrite W by lia; destruct (Nat.ltb_spec m m); [lia|auto]; apply Hw; lia).
      unfold read_one. cbn [rs_in rs_wc rs_bytes rs_cont]. unfold get. rewrite Im. unfold stream_read. rewrite F1, F2.
      set (rest := is_rest (nth m ins no_stream)) in *.
      destruct (Nat.leb_spec size R) as [Hs|Hs].
      + eexists _, _. split; [reflexivity|]. rewrite !set_length. split; [auto|]. split; [auto|].
        destruct (Nat.ltb_spec R size); [lia|]. split; intros i Hik; (destruct (Nat.eq_dec i m) as [->|Hne];
          [rewrite nth_set_eq by lia; destruct (Nat.ltb_spec m (S m)); [|lia]|
           rewrite nth_set_neq by auto; rewrite ?I, ?W by auto; destruct (Nat.ltb_spec i m), (Nat.ltb_spec i (S m)); auto; lia]).
        * reflexivity.
        * unfold pkt_of, blit. cbn [firstn app Nat.add]. rewrite firstn_length. rewrite skipn_all2 by lia. rewrite app_nil_r.
          rewrite firstn_app. fold rest. replace (size - length rest) with 0 by lia. cbn [firstn]. now rewrite app_nil_r.
      + rewrite (firstn_all2 rest) by lia. rewrite F2. eexists _, _. split; [reflexivity|]. rewrite !set_length. split; [auto|]. split; [auto|].
        destruct (Nat.ltb_spec R size); [|lia]. split; intros i Hik; (destruct (Nat.eq_dec i m) as [->|Hne];
          [rewrite nth_set_eq by lia; destruct (Nat.ltb_spec m (S m)); [|lia]|
           rewrite nth_set_neq by auto; rewrite ?I, ?W by auto; destruct (Nat.ltb_spec i m), (Nat.ltb_spec i (S m)); auto; lia]).
        * fold rest. rewrite skipn_all2 by lia. reflexivity.
        * fold rest. unfold pkt_of, blit. cbn [firstn app Nat.add].
          assert (Lb : length (rest ++ skipn (length rest) (nth m w1 [])) = size) by (rewrite app_length, skipn_length; lia).
          rewrite firstn_app. replace (R - length rest) with 0 by lia. cbn [firstn]. rewrite app_nil_r, (firstn_all2 rest) by lia.
          rewrite repeat_length. rewrite (skipn_all2 (n := R + (size - R))) by lia. rewrite app_nil_r.
          rewrite firstn_app, (firstn_all2 rest) by lia. rewrite firstn_zeros. f_equal. f_equal. lia. }
  destruct (X k ltac:(lia)) as (i1 & w1 & E & L1 & L2 & I & W). rewrite E. destruct (Nat.eqb_spec k 0); [lia|].
  f_equal.
  - apply (list_ext _ no_stream); [rewrite map_length; lia|]. rewrite L1. intros i Hik. rewrite I by auto.
    destruct (Nat.ltb_spec i k); [|lia].
    rewrite (nth_indep (map _ ins) _ (mkIs (skipn size (is_rest no_stream)) (R <? size))) by (rewrite map_length; lia).
    now rewrite (map_nth (fun s => mkIs (skipn size (is_rest s)) (R <? size))).
  - apply (list_ext _ []); [rewrite map_length; lia|]. rewrite L2. intros i Hik. rewrite W by auto.
    destruct (Nat.ltb_spec i k); [|lia].
    rewrite (nth_indep (map _ ins) _ (pkt_of size (is_rest no_stream))) by (rewrite map_length; lia).
    now rewrite (map_nth (fun s => pkt_of size (is_rest s))).
  - destruct (size <=? R); reflexivity.
Qed.

(** Bytes of the first [n] words. *)
Definition word_bytes_upto (ws : nat) (f : nat -> N) (n : nat) : list N := flat_map (fun t => bytes_of_word ws (f t)) (seq 0 n).

Lemma upto_length ws f n : length (word_bytes_upto ws f n) = n * ws.
Proof.
  unfold word_bytes_upto. rewrite (flat_length (fun t => bytes_of_word ws (f t)) ws), seq_length; [reflexivity|].
  intros. apply bytes_of_word_length.
Qed.

Lemma upto_step ws f o pkt : word_bytes_upto ws f o ++ unpack_buf ws (map (fun t => f (o + t)) (seq 0 pkt)) =
  word_bytes_upto ws f (o + pkt).
Proof.
  unfold word_bytes_upto, unpack_buf. rewrite seq_app, flat_map_app. f_equal. cbn [Nat.add].
  pose proof (map_add_seq o pkt 0) as X. rewrite Nat.add_0_r in X. rewrite <- X.
  rewrite !flat_map_concat_map, !map_map. reflexivity.
Qed.

Lemma upto_full ws f o pkt : word_bytes_upto ws f o ++ firstn (pkt * ws) (unpack_buf ws (map (fun t => f (o + t)) (seq 0 pkt))) =
  word_bytes_upto ws f (o + pkt).
Proof.
  rewrite firstn_all2; [apply upto_step|]. assert (L := upto_length ws f (o + pkt)). rewrite <- upto_step, app_length, upto_length in L. nia.
Qed.

Lemma upto_prefix ws f n m : n <= m -> firstn (n * ws) (word_bytes_upto ws f m) = word_bytes_upto ws f n.
Proof.
  intros H. replace m with (n + (m - n)) by lia. rewrite <- upto_step.
  rewrite firstn_app, upto_length, Nat.sub_diag. cbn [firstn]. rewrite app_nil_r. apply firstn_all2. rewrite upto_length. lia.
Qed.

Lemma upto_last ws f o pkt bs L : o * ws <= L -> bs <= o + pkt -> L <= bs * ws ->
  word_bytes_upto ws f o ++ firstn (L - o * ws) (unpack_buf ws (map (fun t => f (o + t)) (seq 0 pkt))) =
  firstn L (word_bytes_upto ws f bs).
Proof.
  intros H1 H2 H3. rewrite <- (upto_prefix ws f bs (o + pkt)) by lia. rewrite firstn_firstn. replace (Nat.min L (bs * ws)) with L by lia.
  rewrite <- upto_step. rewrite firstn_app, upto_length. f_equal. symmetry. apply firstn_all2. rewrite upto_length. lia.
Qed.

Lemma upto_words_then ws f n blk : length blk = n * ws -> words_then ws f n blk = word_bytes_upto ws f n.
Proof. intros H. unfold words_then. rewrite skipn_all2 by lia. apply app_nil_r. Qed.
