(** Encoding and decoding of blocks: loops over packets. *)
From Coq Require Import List NArith ZArith Arith Bool Lia Permutation.
From Verif.Model Require Import Common Ring Fft2n Radix2 Poly Props Bytes Fnt Blocks Streams.
From Verif.Spec Require Import Code Blocks.
From Verif.Proof Require Import ListP BytesP PropsP StreamsL.
Import ListNotations.
Open Scope nat_scope.

Lemma get_map_seq A (d : A) f n i : i < n -> get d (map f (seq 0 n)) i = f i.
Proof. intros H. unfold get. now rewrite nth_map_seq. Qed.

Lemma filter_map A B (f : A -> B) p l : filter p (map f l) = map f (filter (fun x => p (f x)) l).
Proof. induction l as [|x l IH]; cbn; [auto|]. destruct (p (f x)); cbn; now rewrite IH. Qed.

Lemma filter_length_le A (p : A -> bool) l : length (filter p l) <= length l.
Proof. induction l as [|x l IH]; cbn; [auto|]. destruct (p x); cbn; lia. Qed.

Lemma NoDup_firstn A n : forall l : list A, NoDup l -> NoDup (firstn n l).
Proof.
  induction n; intros l H; [constructor|]. destruct l as [|x l]; [constructor|]. inversion_clear H. cbn. constructor; [|auto].
  intros X. apply H0. rewrite <- (firstn_skipn n l). apply in_or_app. now left.
Qed.

(** The list of indices is already in order. *)
Lemma sort_sublist P n : forall a, nat_sort (filter P (seq a n)) = filter P (seq a n).
Proof.
  induction n; intros a; [reflexivity|]. cbn [seq filter]. destruct (P a); [|apply IHn]. cbn [nat_sort]. rewrite IHn.
  assert (H : forall x, In x (filter P (seq (S a) n)) -> a <= x).
  { intros x Hx. apply filter_In in Hx. destruct Hx as [Hx _]. apply in_seq in Hx. lia. }
  destruct (filter P (seq (S a) n)) as [|y l]; [reflexivity|]. cbn. destruct (Nat.leb_spec a y); [auto|].
  specialize (H y (or_introl eq_refl)). lia.
Qed.

Lemma sort_firstn m : forall l, nat_sort l = l -> (forall n, nat_sort (skipn n l) = skipn n l) -> nat_sort (firstn m l) = firstn m l.
Proof.
  induction m; intros l H Hs; [reflexivity|]. destruct l as [|x l]; [reflexivity|]. cbn [firstn nat_sort].
  rewrite IHm; [|apply (Hs 1)|intros n; apply (Hs (S n))].
  destruct (firstn m l) as [|y l'] eqn:E; [reflexivity|]. cbn.
  destruct m; [discriminate|]. destruct l as [|z l]; [discriminate|]. cbn in E. injection E as -> _.
  assert (H1 := Hs 1). cbn [skipn] in H1. cbn [nat_sort] in H. change (nat_insert y (nat_sort l)) with (nat_sort (y :: l)) in H.
  rewrite H1 in H. cbn in H. destruct (x <=? y) eqn:Ex; [auto|]. injection H as -> _. rewrite Nat.leb_refl in Ex. discriminate.
Qed.

Lemma skipn_filter_seq P n : forall m a, exists a' n', skipn m (filter P (seq a n)) = filter P (seq a' n').
Proof.
  induction n; intros m a.
  - exists 0, 0. now rewrite skipn_nil.
  - cbn [seq filter]. destruct (P a) eqn:Ea; [|apply IHn]. destruct m; [|apply IHn].
    exists a, (S n). cbn. now rewrite Ea.
Qed.

Lemma map_nth_seq A (d : A) l n : length l = n -> map (fun i => nth i l d) (seq 0 n) = l.
Proof.
  intros <-. apply (list_ext _ d); [rewrite map_length, seq_length; auto|]. intros i Hi.
  rewrite map_length, seq_length in Hi. now rewrite nth_map_seq.
Qed.

Section Code.
Variables (c : fnt) (cw : (nat -> N) -> nat -> N).
Hypothesis CS : code_spec c cw.
Hypothesis Hws : 0 < c_ws c.
Hypothesis Hpkt : 0 < c_pkt c.
Hypothesis Hcard : g_card (c_G c) = (256 ^ N.of_nat (c_ws c) + 1)%N.
Notation ws := (c_ws c).
Notation k := (c_k c).
Notation pkt := (c_pkt c).
Notation h := (256 ^ N.of_nat ws)%N.
Notation h2 := (2 ^ (8 * N.of_nat ws))%N.

Lemma h_pow2 : h = h2.
Proof. rewrite N.pow_mul_r. reflexivity. Qed.

Lemma c_hE : c_h c = h.
Proof. unfold c_h. rewrite Hcard. lia. Qed.

Lemma h_pos : (0 < h)%N.
Proof. apply pow256_pos. Qed.

Lemma nout_outlen : c_nout c <= c_outlen c.
Proof. unfold c_nout, c_outlen. pose proof (cs_n _ _ CS). destruct (c_sys c); lia. Qed.

(** State an encoder may be in. *)
Definition enc_ready (xe : ctx) (es : escratch (list N)) : Prop :=
  c_sys c = true -> es_ok c es /\ exists junk1 junk2,
    ctx_new c (seq 0 k) junk1 junk2 = Some xe /\ length junk1 = c_n c /\ length junk2 = c_l2 c.

Lemma frags_seq : frags c (seq 0 k).
Proof.
  split; [apply seq_length|]. split; [apply seq_NoDup|]. intros i Hi. apply in_seq in Hi. pose proof (cs_n _ _ CS). lia.
Qed.

Lemma enc_words xe es out f : enc_ready xe es -> length out = c_outlen c ->
  (forall j t, j < k -> t < pkt -> (f j t < g_card (c_G c))%N) ->
  exists es', enc_ready xe es' /\ encode_words (c_K c) c xe es out (pkts k pkt f) =
    (es', pkts (c_outlen c) pkt (fun i t => cw (fun j => f j t) (out_pos c i)), pkts k pkt f).
Proof.
  intros He Ho Hf. destruct (c_sys c) eqn:Es.
  - destruct (He Es) as (He1 & j1 & j2 & Hx & H1 & H2).
    destruct (cs_enc _ _ CS xe j1 j2 es out f Hx H1 H2 He1 Ho Hf) as (es' & A & B). exists es'. split; [|auto].
    intros _. split; [auto|]. eauto.
  - exists es. split; [intros X; congruence|].
    destruct (cs_ctx _ _ CS (seq 0 k) (repeat 0%N (c_n c)) (repeat 0%N (c_l2 c))) as [x Hx];
      [apply frags_seq|apply repeat_length|apply repeat_length|].
    set (es0 := mkEscratch (repeat (@nil N) (c_l2 c)) (repeat [] (c_max c)) (repeat [] (c_n c - k - c_m c))).
    assert (He0 : es_ok c es0) by (repeat split; apply repeat_length).
    destruct (cs_enc _ _ CS x _ _ es0 out f Hx (repeat_length _ _) (repeat_length _ _) He0 Ho Hf) as (es' & A & B).
    unfold encode_words in B |- *. rewrite Es in *. congruence.
Qed.

Lemma post_plain o g ps : (forall i t, (g i t <= h)%N) -> c_post c (c_nout c) (c_h c) o (pkts (c_outlen c) pkt g) ps =
  plain_post (c_nout c) (c_h c) o (pkts (c_outlen c) pkt g) ps.
Proof.
  intros Hg. apply (cs_post _ _ CS). intros i Hi. unfold pkts. rewrite nth_map_seq by (pose proof nout_outlen; lia).
  split; [rewrite map_length, seq_length; reflexivity|]. apply Forall_forall. intros x Hx. apply in_map_iff in Hx.
  destruct Hx as (t & <- & _). rewrite Hcard. specialize (Hg i t). lia.
Qed.

Section Blocks.
(** Columns of data symbols: [sym j t] is symbol [t] of fragment [j], zero from [bs] on. *)
Variables (sym : nat -> nat -> N) (bs : nat).
Hypothesis sym_le : forall j t, j < k -> (sym j t <= h)%N.
Hypothesis sym_0 : forall j t, bs <= t -> sym j t = 0%N.

(** Symbol [t] of codeword position [i]. *)
Definition cws (i t : nat) : N := cw (fun j => sym j t) i.

Lemma cws_le i t : (cws i t <= h)%N.
Proof. pose proof (cs_lt _ _ CS (fun j => sym j t) i) as H. rewrite Hcard in H. unfold cws. lia. Qed.

Lemma cws_out i t : bs <= t -> cws i t = 0%N.
Proof.
  intros Ht. unfold cws. rewrite <- (cs_zero _ _ CS i). apply (cs_ext _ _ CS). intros j _. now apply sym_0.
Qed.

Lemma cws_data i t : c_sys c = true -> i < k -> cws i t = sym i t.
Proof.
  intros Hs Hi. unfold cws. apply (cs_sys _ _ CS Hs (fun j => sym j t) i); auto.
  intros j Hj. rewrite Hcard. pose proof (sym_le j t Hj). lia.
Qed.

(** Records of output [i]. *)
Definition outs (i t : nat) : N := cws (out_pos c i) t.

Lemma load_words offset blk wc : length wc = pkt * ws -> offset <= bs -> bs * ws <= length blk ->
  pack_buf ws pkt (load_pkt ws pkt offset (Nat.min pkt (bs - offset)) blk wc) =
  map (fun t => if offset + t <? bs then word_at ws blk (offset + t) else 0%N) (seq 0 pkt).
Proof. intros. apply load_pkt_words; auto. Qed.

Lemma load_length offset blk wc : length wc = pkt * ws -> offset <= bs -> bs * ws <= length blk ->
  length (load_pkt ws pkt offset (Nat.min pkt (bs - offset)) blk wc) = pkt * ws.
Proof.
  intros Lw Ho Hb. unfold load_pkt. set (copy := Nat.min pkt (bs - offset)).
  assert (Hc : copy * ws <= pkt * ws) by (apply Nat.mul_le_mono_r; unfold copy; lia).
  assert (Hc2 : (offset + copy) * ws <= length blk) by (transitivity (bs * ws); [apply Nat.mul_le_mono_r; unfold copy; lia|lia]).
  assert (L1 : length (blit wc 0 (slice blk (offset * ws) (copy * ws))) = pkt * ws).
  { rewrite blit_length; [auto|]. rewrite slice_length by lia. lia. }
  destruct (copy <? pkt); [|auto]. rewrite blit_length; [auto|]. rewrite repeat_length. lia.
Qed.

(** ** Encoding *)
Section Enc.
Variables (data : list (list N)).
Hypothesis Hdata : forall j, j < k -> bs * ws <= length (nth j data []) /\
  forall t, t < bs -> word_at ws (nth j data []) t = sym j t.
Variables (xe : ctx) (wanted : list bool) (par : list (list N)).
Hypothesis Hpar : forall i, i < c_nout c -> get false wanted i = true -> bs * ws <= length (nth i par []).

Record enc_inv (o : nat) (st : ebstate) : Prop := EncInv {
  ei_wc : forall i, i < k -> length (nth i (eb_wc st) []) = pkt * ws;
  ei_es : enc_ready xe (eb_es st);
  ei_out : length (eb_out st) = c_outlen c;
  ei_par : eb_par st = map (fun i => if get false wanted i then words_then ws (outs i) o (nth i par []) else nth i par [])
                         (seq 0 (c_nout c));
  ei_ps : eb_ps st = map (fun i => recs h (outs i) (seq 0 o)) (seq 0 (c_nout c))
}.

Lemma encode_turn_inv o st : enc_inv o st -> o < bs ->
  enc_inv (o + Nat.min pkt (bs - o)) (encode_turn c xe data wanted bs o st).
Proof.
  intros I Ho. unfold encode_turn, encode_pkt. set (copy := Nat.min pkt (bs - o)). cbv zeta.
  set (wc := map _ (seq 0 k)).
  assert (Ew : map (pack_buf ws pkt) wc = pkts k pkt (fun j t => sym j (o + t))).
  { unfold wc, pkts. rewrite map_map. apply map_ext_in. intros j Hj. apply in_seq in Hj.
    assert (Hjk : j < k) by lia. unfold copy. unfold get. rewrite load_words; auto using (ei_wc _ _ I); [|lia|now apply Hdata].
    apply map_ext. intros t. destruct (Nat.ltb_spec (o + t) bs); [now apply Hdata|]. symmetry. now apply sym_0. }
  rewrite Ew.
  destruct (enc_words xe (eb_es st) (eb_out st) (fun j t => sym j (o + t)) (ei_es _ _ I) (ei_out _ _ I)) as (es' & He & E).
  { intros j t Hj _. rewrite Hcard. pose proof (sym_le j (o + t) Hj). lia. }
  rewrite E. clear E.
  set (out := pkts _ _ _). cbn [fst snd].
  assert (Eo : forall i, i < c_nout c -> nth i out [] = map (fun t => outs i (o + t)) (seq 0 pkt)).
  { intros i Hi. unfold out, pkts. rewrite nth_map_seq by (pose proof nout_outlen; lia). reflexivity. }
  constructor; cbn [eb_wc eb_es eb_out eb_par eb_ps].
  - intros i Hi. unfold wc. rewrite nth_map_seq by auto. apply load_length; [now apply (ei_wc _ _ I)|lia|now apply Hdata].
  - auto.
  - unfold out, pkts. rewrite map_length, seq_length. auto.
  - apply map_ext_in. intros i Hi. apply in_seq in Hi. assert (Hin : i < c_nout c) by lia.
    rewrite (ei_par _ _ I), get_map_seq by auto. destruct (get false wanted i) eqn:Ei; [|auto].
    assert (Eu : get [] (map (unpack_buf ws) out) i = unpack_buf ws (map (fun t => outs i (o + t)) (seq 0 pkt))).
    { unfold get. change (@nil N) with (unpack_buf ws []). rewrite map_nth. f_equal. now apply Eo. }
    rewrite Eu. unfold store_pkt. apply (store_step ws pkt bs o (outs i)); [lia|auto].
  - unfold out. rewrite post_plain by (intros i t; apply cws_le). fold out. unfold plain_post. rewrite (ei_ps _ _ I). apply map_ext_in. intros i Hi. apply in_seq in Hi. assert (Hin : i < c_nout c) by lia.
    rewrite get_map_seq by auto. unfold get. rewrite Eo by auto. rewrite seq_app, recs_app. f_equal. rewrite c_hE, h_pow2.
    assert (X := scan_recs (8 * N.of_nat ws) (outs i) pkt). rewrite <- h_pow2 in X |- *.
    specialize (X (fun t => cws_le _ _) o 0). rewrite Nat.add_0_r in X. rewrite X. cbn [Nat.add].
    apply recs_cut; [unfold copy; lia|]. intros t Ht. unfold outs. rewrite cws_out by (unfold copy in Ht; lia).
    pose proof h_pos. lia.
Qed.

Lemma encode_loop_inv fuel : forall offset st, bs - offset <= fuel -> enc_inv (Nat.min offset bs) st ->
  enc_inv bs (encode_loop fuel c xe data wanted bs offset st).
Proof.
  induction fuel; intros offset st Hf I; cbn [encode_loop].
  - replace (Nat.min offset bs) with bs in I by lia. auto.
  - destruct (Nat.ltb_spec offset bs) as [Ho|Ho].
    + apply IHfuel; [lia|]. replace (Nat.min offset bs) with offset in I by lia.
      replace (Nat.min (offset + pkt) bs) with (offset + Nat.min pkt (bs - offset)) by lia.
      apply encode_turn_inv; auto.
    + replace (Nat.min offset bs) with bs in I by lia. auto.
Qed.
End Enc.

Theorem encode_blocks_any data xe es wc out par ps wanted bytes : bs = bytes / ws ->
  (forall j, j < k -> bs * ws <= length (nth j data []) /\ forall t, t < bs -> word_at ws (nth j data []) t = sym j t) ->
  enc_ready xe es ->
  (forall i, i < k -> length (nth i wc []) = pkt * ws) -> length out = c_outlen c ->
  length data = k -> length par = c_nout c -> length ps = c_nout c ->
  (forall i, i < c_nout c -> get false wanted i = true -> bs * ws <= length (nth i par [])) ->
  exists es', enc_ready xe es' /\ encode_blocks c xe es wc out data par ps wanted bytes =
    Some (es', map (fun i => if get false wanted i then words_then ws (outs i) bs (nth i par []) else nth i par []) (seq 0 (c_nout c)),
          map (fun i => recs h (outs i) (seq 0 bs)) (seq 0 (c_nout c))).
Proof.
  intros Eb Hdata He Hw Ho Hd Hp Hps Hpar. unfold encode_blocks. rewrite Hd, Hp, Hps, !Nat.eqb_refl. cbn [andb]. rewrite <- Eb.
  set (st0 := mkEb wc es out par (map (fun _ => []) ps)).
  assert (I0 : enc_inv xe wanted par 0 st0).
  { constructor; cbn; auto.
    - rewrite <- Hp. clear. assert (X : par = map (fun i => nth i par []) (seq 0 (length par))).
      { apply (list_ext _ []); [rewrite map_length, seq_length; auto|]. intros i Hi. now rewrite nth_map_seq. }
      rewrite X at 1. apply map_ext. intros i. destruct (get false wanted i); reflexivity.
    - rewrite <- Hps. clear. apply (list_ext _ []); [rewrite !map_length, seq_length; auto|].
      rewrite map_length. intros i Hi. rewrite nth_map_seq by auto.
      assert (X : forall (l : list props) i, nth i (map (fun _ => @nil (N * N)) l) [] = []).
      { clear. induction l; intros [|i]; cbn; auto. }
      now rewrite X. }
  assert (I := encode_loop_inv data Hdata xe wanted par Hpar bs 0 st0 ltac:(lia)). replace (Nat.min 0 bs) with 0 in I by lia.
  specialize (I I0). exists (eb_es (encode_loop bs c xe data wanted bs 0 st0)).
  split; [apply (ei_es _ _ _ _ _ I)|]. rewrite (ei_par _ _ _ _ _ I), (ei_ps _ _ _ _ _ I). reflexivity.
Qed.

(** *** Streams *)
Section EncS.
Variables (data : list (list N)) (L : nat).
Hypothesis HL : L <= bs * ws /\ bs * ws < L + ws.
Hypothesis Ldata : length data = k.
Hypothesis HdataS : forall j, j < k -> length (nth j data []) = L /\ forall t, t < bs -> word_at ws (nth j data []) t = sym j t.
Variables (xe : ctx) (old : list (list N)).

Lemma word_at_sym j t : j < k -> word_at ws (nth j data []) t = sym j t.
Proof.
  intros Hj. destruct (HdataS j Hj) as [Lj Wj]. destruct (Nat.lt_ge_cases t bs) as [H|H]; [auto|]. rewrite sym_0 by auto.
  unfold word_at, slice. rewrite skipn_all2 by (rewrite Lj; nia). rewrite firstn_nil. reflexivity.
Qed.

Lemma stream_words o : map (pack_buf ws pkt)
    (map (fun s => pkt_of (pkt * ws) (is_rest s)) (map (fun b => mkIs (skipn (o * ws) b) false) data)) =
  pkts k pkt (fun j t => sym j (o + t)).
Proof.
  rewrite !map_map. cbn [is_rest]. unfold pkts. rewrite <- (map_nth_seq _ [] data k Ldata) at 1. rewrite map_map.
  apply map_ext_in. intros j Hj. apply in_seq in Hj. rewrite pack_pkt_of. apply map_ext. intros t. apply word_at_sym. lia.
Qed.

Lemma post_recs o : o <= bs -> c_post c (c_nout c) (c_h c) (N.of_nat o) (pkts (c_outlen c) pkt (fun i t => outs i (o + t)))
    (map (fun i => recs h (outs i) (seq 0 o)) (seq 0 (c_nout c))) =
  map (fun i => recs h (outs i) (seq 0 (o + Nat.min pkt (bs - o)))) (seq 0 (c_nout c)).
Proof.
  intros Ho. set (copy := Nat.min pkt (bs - o)). rewrite post_plain by (intros i t; apply cws_le). unfold plain_post. apply map_ext_in. intros i Hi. apply in_seq in Hi.
  assert (Hin : i < c_nout c) by lia. rewrite get_map_seq by auto. unfold get, pkts.
  rewrite nth_map_seq by (pose proof nout_outlen; lia). rewrite seq_app, recs_app. f_equal. rewrite c_hE, h_pow2.
  assert (X := scan_recs (8 * N.of_nat ws) (outs i) pkt). rewrite <- h_pow2 in X |- *.
  specialize (X (fun t => cws_le _ _) o 0). rewrite Nat.add_0_r in X. rewrite X. cbn [Nat.add].
  apply recs_cut; [unfold copy; lia|]. intros t Ht. unfold outs. rewrite cws_out by (unfold copy in Ht; lia).
  pose proof h_pos. lia.
Qed.

Lemma encode_streams_loop_spec fuel : forall o wc es out outs0 ps0, L - o * ws < fuel -> o * ws <= L ->
  length wc = k -> (forall i, i < k -> length (nth i wc []) = pkt * ws) -> enc_ready xe es -> length out = c_outlen c ->
  outs0 = map (fun i => nth i old [] ++ word_bytes_upto ws (outs i) o) (seq 0 (c_nout c)) ->
  ps0 = map (fun i => recs h (outs i) (seq 0 o)) (seq 0 (c_nout c)) ->
  exists es', enc_ready xe es' /\ encode_streams_loop fuel c xe o
      (mkRs (map (fun b => mkIs (skipn (o * ws) b) false) data) wc (pkt * ws) true) es out outs0 ps0 =
    Some (es', map (fun i => nth i old [] ++ firstn L (word_bytes_upto ws (outs i) bs)) (seq 0 (c_nout c)),
          map (fun i => recs h (outs i) (seq 0 bs)) (seq 0 (c_nout c))).
Proof.
  induction fuel; intros o wc es out outs0 ps0 Hf Ho Lw Hw He Hout E1 E2; [lia|]. cbn [encode_streams_loop].
  set (ins := map (fun b => mkIs (skipn (o * ws) b) false) data).
  assert (Li : length ins = k) by (unfold ins; now rewrite map_length).
  rewrite (read_turn_spec k (pkt * ws) (L - o * ws)); auto; [|apply (cs_k _ _ CS)|].
  2: { intros i Hi. unfold ins. rewrite (nth_indep _ _ ((fun b => mkIs (skipn (o * ws) b) false) [])) by (rewrite map_length; lia).
       rewrite (map_nth (fun b => mkIs (skipn (o * ws) b) false)). cbn [is_fail is_rest]. split; [reflexivity|].
       rewrite skipn_length. destruct (HdataS i Hi) as [-> _]. reflexivity. }
  cbn [rs_bytes rs_cont rs_wc].
  assert (Hps : 0 < pkt * ws) by (apply Nat.mul_pos_pos; auto).
  assert (Hob : o <= bs) by (apply Nat.mul_le_mono_pos_r with ws; [auto|lia]).
  destruct (Nat.leb_spec (pkt * ws) (L - o * ws)) as [Hfull|Hlast].
  - destruct (Nat.eqb_spec (pkt * ws) 0); [lia|]. unfold ins at 1. rewrite stream_words. unfold encode_pkt.
    destruct (enc_words xe es out (fun j t => sym j (o + t)) He Hout) as (es' & He' & E).
    { intros j t Hj _. rewrite Hcard. pose proof (sym_le j (o + t) Hj). lia. }
    rewrite E. clear E. change (fun (i t : nat) => cw (fun j => sym j (o + t)) (out_pos c i)) with (fun i t => outs i (o + t)).
    rewrite E2, post_recs by auto.
    assert (Hpb : o + pkt <= bs) by (apply Nat.mul_le_mono_pos_r with ws; [auto|nia]).
    unfold ins. rewrite map_map. cbn [is_rest].
    destruct (Nat.ltb_spec (L - o * ws) (pkt * ws)); [lia|].
    replace (map (fun x => mkIs (skipn (pkt * ws) (skipn (o * ws) x)) false) data) with
      (map (fun b => mkIs (skipn ((o + pkt) * ws) b) false) data).
    2: { apply map_ext. intros b. rewrite skipn_skipn. do 2 f_equal. lia. }
    apply IHfuel; auto; try nia.
    + rewrite map_map, map_length. exact Ldata.
    + intros i Hi. rewrite map_map. cbn [is_rest]. rewrite (nth_indep _ _ ((fun b => pkt_of (pkt * ws) (skipn (o * ws) b)) [])) by (rewrite map_length; lia).
      rewrite (map_nth (fun b => pkt_of (pkt * ws) (skipn (o * ws) b))). apply pkt_of_length.
    + unfold pkts. now rewrite map_length, seq_length.
    + rewrite E1. apply map_ext_in. intros i Hi. apply in_seq in Hi. rewrite get_map_seq by lia.
      assert (Eu : get [] (map (unpack_buf ws) (pkts (c_outlen c) pkt (fun i t => outs i (o + t)))) i =
                   unpack_buf ws (map (fun t => outs i (o + t)) (seq 0 pkt))).
      { unfold get. change (@nil N) with (unpack_buf ws []). rewrite map_nth. f_equal. unfold pkts.
        rewrite nth_map_seq by (pose proof nout_outlen; lia). reflexivity. }
      rewrite Eu, <- app_assoc, upto_full. reflexivity.
    + replace (Nat.min pkt (bs - o)) with pkt by lia. reflexivity.
  - destruct (Nat.eqb_spec (L - o * ws) 0) as [H0|H0].
    + assert (o = bs) by nia. subst o. exists es. split; [auto|]. rewrite E1, E2. f_equal. f_equal. f_equal.
      apply map_ext. intros i. f_equal. symmetry. apply firstn_all2. rewrite upto_length. lia.
    + unfold ins at 1. rewrite stream_words. unfold encode_pkt.
      destruct (enc_words xe es out (fun j t => sym j (o + t)) He Hout) as (es' & He' & E).
      { intros j t Hj _. rewrite Hcard. pose proof (sym_le j (o + t) Hj). lia. }
      rewrite E. clear E. change (fun (i t : nat) => cw (fun j => sym j (o + t)) (out_pos c i)) with (fun i t => outs i (o + t)).
      rewrite E2, post_recs by auto. exists es'. split; [auto|].
      assert (Hpb : bs <= o + pkt) by nia.
      f_equal. f_equal; [f_equal|].
      * rewrite E1. apply map_ext_in. intros i Hi. apply in_seq in Hi. rewrite get_map_seq by lia.
        assert (Eu : get [] (map (unpack_buf ws) (pkts (c_outlen c) pkt (fun i t => outs i (o + t)))) i =
                     unpack_buf ws (map (fun t => outs i (o + t)) (seq 0 pkt))).
        { unfold get. change (@nil N) with (unpack_buf ws []). rewrite map_nth. f_equal. unfold pkts.
          rewrite nth_map_seq by (pose proof nout_outlen; lia). reflexivity. }
        rewrite Eu, <- app_assoc. f_equal. apply upto_last; lia.
      * replace (o + Nat.min pkt (bs - o)) with bs by lia. reflexivity.
Qed.

Theorem encode_streams_any es wc out ps : enc_ready xe es -> length wc = k ->
  (forall i, i < k -> length (nth i wc []) = pkt * ws) -> length out = c_outlen c ->
  length old = c_nout c -> length ps = c_nout c ->
  exists es', enc_ready xe es' /\ encode_streams c xe es wc out data old ps =
    Some (es', map (fun i => nth i old [] ++ firstn L (word_bytes_upto ws (outs i) bs)) (seq 0 (c_nout c)),
          map (fun i => recs h (outs i) (seq 0 bs)) (seq 0 (c_nout c))).
Proof.
  intros He Lw Hw Ho Lo Lp. unfold encode_streams. rewrite Ldata, Lo, Lp, !Nat.eqb_refl. cbn [andb].
  replace (map (fun b => mkIs b false) data) with (map (fun b => mkIs (skipn (0 * ws) b) false) data) by reflexivity.
  apply encode_streams_loop_spec; auto.
  - unfold get. destruct (HdataS 0 (cs_k _ _ CS)) as [-> _]. lia.
  - lia.
  - rewrite <- (map_nth_seq _ [] old (c_nout c) Lo) at 1. apply map_ext. intros i. unfold word_bytes_upto. cbn [seq flat_map]. now rewrite app_nil_r.
  - rewrite <- Lp. clear. apply (list_ext _ []); [rewrite !map_length, seq_length; auto|].
    rewrite map_length. intros i Hi. rewrite nth_map_seq by auto.
    assert (X : forall (l : list props) i, nth i (map (fun _ => @nil (N * N)) l) [] = []).
    { clear. induction l; intros [|i]; cbn; auto. }
    now rewrite X.
Qed.
End EncS.

(** ** Decoding *)
Section Dec.
Variable missing : list bool.
Notation avail i := (negb (get true missing i)).
Notation ad := (avail_data c missing).
Notation ap := (avail_par c missing).
Notation present := (filter (fun i => negb (get true missing i)) (seq 0 (k + c_m c))).

Definition ids := firstn k present.

Lemma ad_le : length ad <= k.
Proof. unfold avail_data. destruct (c_sys c); [|cbn; lia]. rewrite filter_length_le, seq_length. auto. Qed.

Lemma present_split : present = ad ++ (if c_sys c then map (fun i => k + i)
    (filter (fun i => avail (if c_sys c then k + i else i)) (seq 0 (c_nout c)))
    else filter (fun i => avail (if c_sys c then k + i else i)) (seq 0 (c_nout c))).
Proof.
  unfold avail_data, c_nout. destruct (c_sys c).
  - rewrite seq_app, filter_app. f_equal. cbn [Nat.add].
    rewrite <- (filter_map _ _ (fun i => k + i) (fun i => avail i)). f_equal. symmetry.
    pose proof (map_add_seq k (c_m c) 0) as X. rewrite Nat.add_0_r in X. exact X.
  - reflexivity.
Qed.

Lemma ids_eq : ad ++ (if c_sys c then map (fun i => k + i) ap else ap) = ids.
Proof.
  unfold ids. rewrite present_split, firstn_app.
  rewrite (firstn_all2 ad) by apply ad_le. f_equal. unfold avail_par. destruct (c_sys c); [|reflexivity].
  now rewrite firstn_map.
Qed.

Hypothesis Henough : k <= length present.

Lemma ids_length : length ids = k.
Proof. unfold ids. rewrite firstn_length. lia. Qed.

Lemma par_length : length ap = k - length ad.
Proof.
  pose proof ids_length as H. rewrite <- ids_eq, app_length in H. destruct (c_sys c); rewrite ?map_length in H; lia.
Qed.

Lemma in_ids i : In i ids -> i < k + c_m c /\ avail i = true.
Proof.
  intros H. assert (X : In i present).
  { rewrite <- (firstn_skipn k present). apply in_or_app. now left. }
  apply filter_In in X. destruct X as [X Y]. apply in_seq in X. split; [lia|auto].
Qed.

Lemma ids_NoDup : NoDup ids.
Proof. apply NoDup_firstn, NoDup_filter, seq_NoDup. Qed.

Lemma ids_frags : frags c ids.
Proof.
  split; [apply ids_length|]. split; [apply ids_NoDup|]. intros i Hi. apply in_ids in Hi. pose proof (cs_n _ _ CS). lia.
Qed.

Lemma ids_sorted : nat_sort ids = ids.
Proof.
  unfold ids. apply sort_firstn; [apply sort_sublist|]. intros n.
  destruct (skipn_filter_seq (fun i => avail i) (k + c_m c) n 0) as (a' & n' & ->). apply sort_sublist.
Qed.

Variables (wanted : list bool) (buf par : list (list N)) (ps : list props).

(** Data blocks that are present (systematic code). *)
Hypothesis Hbuf : c_sys c = true -> forall j, j < k -> avail j = true ->
  bs * ws <= length (nth j buf []) /\ forall t, t < bs -> word_at ws (nth j buf []) t = sym j t /\ (sym j t < h)%N.
(** Output blocks that are present, with their records in any order. *)
Hypothesis Hpar : forall q, q < c_nout c -> avail (out_pos c q) = true ->
  bs * ws <= length (nth q par []) /\ (forall t, t < bs -> outs q t <> h -> word_at ws (nth q par []) t = outs q t) /\
  Permutation (nth q ps []) (recs h (outs q) (seq 0 bs)).
Hypothesis Hwant : forall j, j < k -> get false wanted j = true -> bs * ws <= length (nth j buf []).
Hypothesis Hps : length ps = c_nout c.

(** Where word [i] comes from. *)
Lemma ids_ad i : i < length ad -> nth i ids 0 = nth i ad 0 /\ c_sys c = true /\ nth i ids 0 < k /\ avail (nth i ids 0) = true.
Proof.
  intros Hi. rewrite <- ids_eq, app_nth1 by auto. split; [auto|].
  assert (X := nth_In ad 0 Hi). unfold avail_data in *. destruct (c_sys c); [|cbn in Hi; lia].
  apply filter_In in X. destruct X as [X Y]. apply in_seq in X. split; [auto|]. split; [lia|auto].
Qed.

Lemma ids_ap i : length ad <= i -> i < k -> let q := nth (i - length ad) ap 0 in
  q < c_nout c /\ nth i ids 0 = out_pos c q /\ avail (out_pos c q) = true.
Proof.
  intros Hi Hk q. assert (Hq : i - length ad < length ap) by (rewrite par_length; lia).
  assert (X : nth i ids 0 = out_pos c q).
  { rewrite <- ids_eq, app_nth2 by auto. unfold out_pos, q. destruct (c_sys c); [|auto].
    rewrite (nth_indep _ 0 (k + 0)) by (rewrite map_length; auto). now rewrite (map_nth (fun i => k + i)). }
  assert (Y : In (nth i ids 0) ids) by (apply nth_In; rewrite ids_length; lia).
  apply in_ids in Y. rewrite X in Y. destruct Y as [Y1 Y2].
  split; [|split; auto]. unfold out_pos in Y1. unfold c_nout. destruct (c_sys c); lia.
Qed.

Definition isd (i : nat) : bool := c_sys c && (nth i ids 0 <? k).
Definition pidx (i : nat) : nat := if c_sys c then nth i ids 0 - k else nth i ids 0.

Lemma isd_ad i : i < k -> isd i = (i <? length ad).
Proof.
  intros Hk. unfold isd. destruct (Nat.ltb_spec i (length ad)) as [Hi|Hi].
  - destruct (ids_ad i Hi) as (_ & -> & H & _). destruct (Nat.ltb_spec (nth i ids 0) k); [auto|lia].
  - destruct (ids_ap i Hi Hk) as (H1 & H2 & _). rewrite H2. unfold out_pos. destruct (c_sys c); [|auto].
    cbn. apply Nat.ltb_ge. lia.
Qed.

Lemma pidx_ap i : length ad <= i -> i < k -> pidx i = nth (i - length ad) ap 0.
Proof.
  intros Hi Hk. destruct (ids_ap i Hi Hk) as (H1 & H2 & _). unfold pidx. rewrite H2. unfold out_pos.
  destruct (c_sys c); lia.
Qed.

Lemma pidx_inj i j : i < k -> j < k -> isd i = false -> isd j = false -> pidx i = pidx j -> i = j.
Proof.
  intros Hi Hj Di Dj E. rewrite isd_ad in Di, Dj by auto. apply Nat.ltb_ge in Di, Dj.
  apply (proj1 (NoDup_nth ids 0) ids_NoDup); rewrite ?ids_length; auto.
  destruct (ids_ap i Di Hi) as (_ & -> & _). destruct (ids_ap j Dj Hj) as (_ & -> & _).
  rewrite <- !pidx_ap by auto. now rewrite E.
Qed.

Notation ps' := (map props_sort ps).

Lemma ps_sorted i : i < k -> isd i = false -> nth (pidx i) ps' [] = recs h (outs (pidx i)) (seq 0 bs).
Proof.
  intros Hi Di. rewrite isd_ad in Di by auto. apply Nat.ltb_ge in Di. destruct (ids_ap i Di Hi) as (H1 & H2 & H3).
  rewrite pidx_ap by auto. change (@nil (N * N)) with (props_sort []). rewrite map_nth.
  destruct (Hpar _ H1 H3) as (_ & _ & H). rewrite (sort_perm _ _ H). apply sort_recs.
Qed.

Lemma ids_pos i : i < k -> isd i = false -> nth i ids 0 = out_pos c (pidx i) /\ pidx i < c_nout c /\ avail (out_pos c (pidx i)) = true.
Proof.
  intros Hi Di. rewrite isd_ad in Di by auto. apply Nat.ltb_ge in Di. destruct (ids_ap i Di Hi) as (H1 & H2 & H3).
  rewrite pidx_ap by auto. auto.
Qed.

(** Cursors of the records in use. *)
Definition cur_ok (o : nat) (cur : list nat) : Prop :=
  length cur = c_nout c /\ forall i, i < k -> isd i = false -> nth (pidx i) cur 0 = cnt h (outs (pidx i)) o.

Lemma prepare_spec o cur words : o <= bs -> cur_ok o cur -> length words = k ->
  (forall i, i < k -> length (nth i words []) = pkt /\ forall t, t < pkt -> isd i = true \/ cws (nth i ids 0) (o + t) <> h ->
     nth t (nth i words []) 0%N = cws (nth i ids 0) (o + t)) ->
  exists cur', cur_ok (Nat.min bs (o + pkt)) cur' /\
   decode_prepare c ids ps' (N.of_nat o) cur words = (cur', pkts k pkt (fun i t => cws (nth i ids 0) (o + t))).
Proof.
  intros Ho [Hc1 Hc2] Hw Hwords. unfold decode_prepare.
  set (step := fun (st : list nat * list (list N)) (i : nat) => _).
  assert (X : forall m, m <= k -> exists cur' words', fold_left step (seq 0 m) (cur, words) = (cur', words') /\
     length cur' = c_nout c /\ length words' = k /\
     (forall i, i < k -> nth i words' [] = if i <? m then map (fun t => cws (nth i ids 0) (o + t)) (seq 0 pkt) else nth i words []) /\
     (forall i, i < k -> isd i = false -> nth (pidx i) cur' 0 = cnt h (outs (pidx i)) (if i <? m then Nat.min bs (o + pkt) else o))).
  { induction m; intros Hm.
    - exists cur, words. repeat split; auto.
    - destruct IHm as (cur1 & words1 & E & L1 & L2 & W & Q); [lia|].
      rewrite seq_S, fold_left_app, E. cbn [fold_left Nat.add].
      assert (Wm : nth m words1 [] = nth m words []) by (rewrite W by lia; destruct (Nat.ltb_spec m m); [lia|auto]).
      unfold step. change (get 0 ids m) with (nth m ids 0). change (c_sys c && (nth m ids 0 <? k)) with (isd m).
      change (if c_sys c then nth m ids 0 - k else nth m ids 0) with (pidx m).
      destruct (isd m) eqn:Dm.
      + exists cur1, words1. split; [auto|]. split; [auto|]. split; [auto|]. split.
        * intros i Hi. destruct (Nat.eq_dec i m) as [->|Hne].
          -- destruct (Nat.ltb_spec m (S m)); [|lia]. rewrite Wm. destruct (Hwords m ltac:(lia)) as [Lm Vm].
             apply (list_ext _ 0%N); [rewrite map_length, seq_length; auto|]. rewrite Lm. intros t Ht.
             rewrite nth_map_seq by auto. apply Vm; auto.
          -- rewrite W by auto. destruct (Nat.ltb_spec i m), (Nat.ltb_spec i (S m)); auto; lia.
        * intros i Hi Di. rewrite Q by auto. assert (i <> m) by congruence.
          destruct (Nat.ltb_spec i m), (Nat.ltb_spec i (S m)); auto; lia.
      + destruct (ids_pos m ltac:(lia) Dm) as (P1 & P2 & P3).
        change (get [] ps' (pidx m)) with (nth (pidx m) ps' []). rewrite (ps_sorted m ltac:(lia) Dm).
        change (get 0 cur1 (pidx m)) with (nth (pidx m) cur1 0). rewrite (Q m ltac:(lia) Dm).
        destruct (Nat.ltb_spec m m); [lia|]. change (get [] words1 m) with (nth m words1 []). rewrite Wm, c_hE.
        rewrite (restore_recs h (outs (pidx m)) bs o pkt (bs - o) o); [|lia|lia| |].
        2: { replace bs with (o + (bs - o)) at 2 by lia. rewrite seq_app, recs_app, app_length. cbn [Nat.add]. lia. }
        2: { apply Hwords. lia. }
        exists (set cur1 (pidx m) (cnt h (outs (pidx m)) (Nat.max o (Nat.min bs (o + pkt))))).
        eexists. split; [reflexivity|]. rewrite !set_length. split; [auto|]. split; [auto|]. split.
        * intros i Hi. destruct (Nat.eq_dec i m) as [->|Hne].
          -- rewrite nth_set_eq by lia. destruct (Nat.ltb_spec m (S m)); [|lia]. apply map_ext_in. intros t Ht. apply in_seq in Ht.
             rewrite P1. fold (outs (pidx m) (o + t)). destruct (Hwords m ltac:(lia)) as [Lm Vm].
             specialize (Vm t ltac:(lia)). rewrite P1 in Vm. fold (outs (pidx m) (o + t)) in Vm.
             destruct (Nat.leb_spec o (o + t)); [|lia]. destruct (Nat.ltb_spec (o + t) bs) as [Hb|Hb]; cbn [andb].
             ++ destruct (N.eqb_spec (outs (pidx m) (o + t)) h) as [Eh|Eh]; auto.
             ++ apply Vm. right. unfold outs. rewrite cws_out by lia. pose proof h_pos. lia.
          -- rewrite nth_set_neq by auto. rewrite W by auto. destruct (Nat.ltb_spec i m), (Nat.ltb_spec i (S m)); auto; lia.
        * intros i Hi Di. destruct (Nat.eq_dec i m) as [->|Hne].
          -- rewrite nth_set_eq by lia. destruct (Nat.ltb_spec m (S m)); [|lia]. f_equal. lia.
          -- rewrite nth_set_neq; [|intros Ep; apply Hne; now apply pidx_inj].
             rewrite Q by auto. destruct (Nat.ltb_spec i m), (Nat.ltb_spec i (S m)); auto; lia. }
  destruct (X k ltac:(lia)) as (cur' & words' & E & L1 & L2 & W & Q). exists cur'. split.
  - split; [auto|]. intros i Hi Di. rewrite Q by auto. destruct (Nat.ltb_spec i k); [auto|lia].
  - rewrite E. f_equal. apply (list_ext _ []); [unfold pkts; rewrite map_length, seq_length; auto|].
    rewrite L2. intros i Hi. rewrite W by auto. destruct (Nat.ltb_spec i k); [|lia]. unfold pkts. rewrite nth_map_seq; auto.
Qed.

Lemma words_then_word_ge f n blk t : n * ws <= length blk -> n <= t -> word_at ws (words_then ws f n blk) t = word_at ws blk t.
Proof.
  intros Hn Ht. unfold word_at, words_then. f_equal. unfold slice. f_equal.
  assert (Hl : forall t, length (bytes_of_word ws (f t)) = ws) by (intros; apply bytes_of_word_length).
  assert (T : n * ws <= t * ws) by (apply Nat.mul_le_mono_r; lia).
  rewrite skipn_app, (flat_length _ ws Hl), seq_length. rewrite skipn_all2 by (rewrite (flat_length _ ws Hl), seq_length; lia).
  cbn [app]. rewrite skipn_skipn. f_equal. lia.
Qed.

Variable x : ctx.
Variables (junk1 junk2 : list N).
Hypothesis Hx : ctx_new c ids junk1 junk2 = Some x.
Hypothesis Hj1 : length junk1 = c_n c.
Hypothesis Hj2 : length junk2 = c_l2 c.

Definition newbuf (o j : nat) : list N :=
  if get false wanted j then words_then ws (sym j) o (nth j buf []) else nth j buf [].

Record dec_inv (o : nat) (st : dbstate) : Prop := DecInv {
  di_wc : forall i, i < k -> length (nth i (db_wc st) []) = pkt * ws;
  di_ds : ds_ok c (db_ds st);
  di_cur : cur_ok o (db_cur st);
  di_data : db_data st = map (newbuf o) (seq 0 k)
}.

Lemma newbuf_word o j t : c_sys c = true -> j < k -> avail j = true -> o <= bs -> t < bs ->
  bs * ws <= length (newbuf o j) /\ word_at ws (newbuf o j) t = sym j t.
Proof.
  intros Hs Hj Ha Ho Ht. destruct (Hbuf Hs j Hj Ha) as [L W].
  assert (T : o * ws <= bs * ws) by (apply Nat.mul_le_mono_r; lia).
  unfold newbuf. destruct (get false wanted j); [|split; [auto|now apply W]]. split; [rewrite words_then_length; lia|].
  destruct (Nat.lt_ge_cases t o).
  - rewrite words_then_word_at by lia. apply N.mod_small, W. auto.
  - rewrite words_then_word_ge by lia. apply W. auto.
Qed.

Lemma x_idsE : x_ids x = ids.
Proof.
  set (ds0 := mkDscratch (repeat (@nil N) (c_l2 c)) (repeat [] (c_max c)) (repeat [] (c_n c))).
  assert (H0 : ds_ok c ds0) by (repeat split; apply repeat_length).
  apply (cs_dec _ _ CS x ids junk1 junk2 ds0 (fun _ _ => 0%N) Hx ids_frags Hj1 Hj2 H0).
  intros. rewrite Hcard. lia.
Qed.

Lemma decode_turn_inv o st : dec_inv o st -> o < bs ->
  dec_inv (o + Nat.min pkt (bs - o)) (decode_turn c x ad ap par ps' wanted bs o st).
Proof.
  intros I Ho. unfold decode_turn, decode_pkt. set (copy := Nat.min pkt (bs - o)). cbv zeta. rewrite x_idsE.
  set (src := fun i => if i <? length ad then get [] (db_data st) (get 0 ids i) else get [] par (get 0 ap (i - length ad))).
  set (wc := map (fun i => load_pkt ws pkt o copy _ _) (seq 0 k)).
  assert (Hsrc : forall i, i < k -> bs * ws <= length (src i) /\
     forall t, t < bs -> isd i = true \/ cws (nth i ids 0) t <> h -> word_at ws (src i) t = cws (nth i ids 0) t).
  { intros i Hi. unfold src. change (get 0 ids i) with (nth i ids 0). destruct (Nat.ltb_spec i (length ad)) as [Ha|Ha].
    - destruct (ids_ad i Ha) as (_ & Hs & Hk & Hav). rewrite (di_data _ _ I), get_map_seq by auto.
      split; [apply (newbuf_word o _ o); auto; lia|]. intros t Ht _.
      rewrite cws_data by auto. apply newbuf_word; auto. lia.
    - destruct (ids_ap i Ha Hi) as (H1 & H2 & H3). destruct (Hpar _ H1 H3) as (L & W & _). rewrite H2. split; [auto|].
      rewrite isd_ad by auto. destruct (Nat.ltb_spec i (length ad)); [lia|]. intros t Ht [X|X]; [discriminate|]. now apply W. }
  assert (Hwc : wc = map (fun i => load_pkt ws pkt o copy (src i) (get [] (db_wc st) i)) (seq 0 k)) by reflexivity.
  clearbody wc.
  assert (Ew : length (map (pack_buf ws pkt) wc) = k) by (rewrite Hwc, !map_length; apply seq_length).
  destruct (prepare_spec o (db_cur st) (map (pack_buf ws pkt) wc) ltac:(lia) (di_cur _ _ I) Ew) as (cur' & Hc' & E).
  { intros i Hi. rewrite Hwc, map_map, nth_map_seq by auto. destruct (Hsrc i Hi) as [L W].
    unfold copy, get. rewrite load_words; auto; [|now apply (di_wc _ _ I)|lia].
    rewrite map_length, seq_length. split; [auto|]. intros t Ht X. rewrite nth_map_seq by auto.
    destruct (Nat.ltb_spec (o + t) bs); [apply W; auto|]. symmetry. now apply cws_out. }
  rewrite E. clear E.
  destruct (cs_dec _ _ CS x ids junk1 junk2 (db_ds st) (fun j t => sym j (o + t)) Hx ids_frags Hj1 Hj2 (di_ds _ _ I)) as (_ & D1 & D2).
  { intros j t Hj _. rewrite Hcard. pose proof (sym_le j (o + t) Hj). lia. }
  change (fun (i t : nat) => cw (fun j => sym j (o + t)) (nth i ids 0)) with (fun i t => cws (nth i ids 0) (o + t)) in D1, D2.
  set (ds' := decode_words _ _ _ _ _) in *.
  constructor; cbn [db_wc db_ds db_cur db_data].
  - intros i Hi. rewrite Hwc, nth_map_seq by auto. destruct (Hsrc i Hi) as [L W]. apply load_length; auto; [now apply (di_wc _ _ I)|lia].
  - auto.
  - replace (o + copy) with (Nat.min bs (o + pkt)) by (unfold copy; lia). auto.
  - apply map_ext_in. intros j Hj. apply in_seq in Hj. assert (Hjk : j < k) by lia.
    rewrite (di_data _ _ I), get_map_seq by auto. unfold newbuf. destruct (get false wanted j) eqn:Ej; [|auto].
    rewrite D2.
    assert (Eu : get [] (map (unpack_buf ws) (pkts k pkt (fun j t => sym j (o + t)))) j =
                 unpack_buf ws (map (fun t => sym j (o + t)) (seq 0 pkt))).
    { unfold get. change (@nil N) with (unpack_buf ws []). rewrite map_nth. f_equal. unfold pkts. now rewrite nth_map_seq. }
    rewrite Eu. unfold store_pkt. apply (store_step ws pkt bs o (sym j)); [lia|auto].
Qed.

Lemma decode_loop_inv fuel : forall offset st, bs - offset <= fuel -> dec_inv (Nat.min offset bs) st ->
  dec_inv bs (decode_loop fuel c x ad ap par ps' wanted bs offset st).
Proof.
  induction fuel; intros offset st Hf I; cbn [decode_loop].
  - replace (Nat.min offset bs) with bs in I by lia. auto.
  - destruct (Nat.ltb_spec offset bs) as [Ho|Ho].
    + apply IHfuel; [lia|]. replace (Nat.min offset bs) with offset in I by lia.
      replace (Nat.min (offset + pkt) bs) with (offset + Nat.min pkt (bs - offset)) by lia.
      apply decode_turn_inv; auto.
    + replace (Nat.min offset bs) with bs in I by lia. auto.
Qed.
End Dec.

(** Enough fragments. *)
Theorem decode_blocks_any missing wanted buf par (ps : list props) wc ds junk1 junk2 bytes : bs = bytes / ws ->
  k <= length (filter (fun i => negb (get true missing i)) (seq 0 (k + c_m c))) ->
  (c_sys c = true -> forall j, j < k -> negb (get true missing j) = true ->
    bs * ws <= length (nth j buf []) /\ forall t, t < bs -> word_at ws (nth j buf []) t = sym j t /\ (sym j t < h)%N) ->
  (forall q, q < c_nout c -> negb (get true missing (out_pos c q)) = true ->
    bs * ws <= length (nth q par []) /\ (forall t, t < bs -> outs q t <> h -> word_at ws (nth q par []) t = outs q t) /\
    Permutation (nth q ps []) (recs h (outs q) (seq 0 bs))) ->
  (forall j, j < k -> get false wanted j = true -> bs * ws <= length (nth j buf [])) ->
  length buf = k -> length par = c_nout c -> length ps = c_nout c ->
  (forall i, i < k -> length (nth i wc []) = pkt * ws) -> ds_ok c ds -> length junk1 = c_n c -> length junk2 = c_l2 c ->
  (forall j, j < k -> all_bytes (nth j buf [])) ->
  exists ps', decode_blocks c junk1 junk2 wc ds buf par ps missing wanted bytes =
    Some (true, map (fun j => if get false wanted j then words_then ws (sym j) bs (nth j buf []) else nth j buf []) (seq 0 k), ps').
Proof.
  intros Eb Hen Hbuf Hpar Hwant Lb Lp Lps Hwc Hds Hj1 Hj2 Hbytes. unfold decode_blocks.
  rewrite Lb, Lp, Lps, !Nat.eqb_refl, orb_true_r. cbn [andb]. rewrite <- Eb.
  destruct (c_sys c && (length (avail_data c missing) =? k)) eqn:Eall.
  - (* all data present: nothing is done *)
    apply andb_prop in Eall. destruct Eall as [Hs Ea]. apply Nat.eqb_eq in Ea.
    exists ps. f_equal. f_equal. f_equal. rewrite <- (map_nth_seq _ [] buf k Lb) at 1. apply map_ext_in. intros j Hj. apply in_seq in Hj.
    destruct (get false wanted j) eqn:Ew; [|auto].
    assert (Hav : negb (get true missing j) = true).
    { unfold avail_data in Ea. rewrite Hs in Ea. clear - Ea Hj.
      assert (X : forall (P : nat -> bool) l, length (filter P l) = length l -> forall j, In j l -> P j = true).
      { clear. induction l as [|a l IH]; cbn; [contradiction|]. intros E i. pose proof (filter_length_le _ P l).
        destruct (P a) eqn:Ea; cbn in E; [|lia]. intros [<-|Hi]; [auto|]. apply IH; [lia|auto]. }
      apply (X (fun i => negb (get true missing i)) (seq 0 k)); [rewrite seq_length; auto|apply in_seq; lia]. }
    destruct (Hbuf Hs j ltac:(lia) Hav) as [L W].
    rewrite (words_then_ext ws (sym j) (word_at ws (nth j buf []))) by (intros; symmetry; apply W; auto).
    rewrite words_then_self by (auto; apply Hbytes; lia). symmetry. apply firstn_skipn.
  - assert (Hl := par_length missing Hen). pose proof (ad_le missing).
    destruct (Nat.ltb_spec (length (avail_data c missing) + length (avail_par c missing)) k); [lia|].
    rewrite ids_eq, ids_sorted.
    destruct (cs_ctx _ _ CS _ junk1 junk2 (ids_frags missing Hen) Hj1 Hj2) as [x Hx]. rewrite Hx.
    set (st0 := mkDb wc ds (repeat 0 (c_nout c)) buf).
    assert (I0 : dec_inv missing wanted buf 0 st0).
    { constructor; cbn; auto.
      - split; [apply repeat_length|]. intros i _ _. apply nth_repeat.
      - unfold newbuf. rewrite <- (map_nth_seq _ [] buf k Lb) at 1. apply map_ext. intros j. destruct (get false wanted j); reflexivity. }
    assert (I := decode_loop_inv missing Hen wanted buf par ps Hbuf Hpar Hwant Lps x junk1 junk2 Hx Hj1 Hj2 bs 0 st0 ltac:(lia)).
    replace (Nat.min 0 bs) with 0 in I by lia. specialize (I I0).
    eexists. rewrite (di_data _ _ _ _ _ I). reflexivity.
Qed.

(** Too few fragments. *)
Theorem decode_blocks_few missing wanted buf par (ps : list props) wc ds junk1 junk2 bytes :
  length (filter (fun i => negb (get true missing i)) (seq 0 (k + c_m c))) < k ->
  length buf = k -> length par = c_nout c -> length ps = c_nout c ->
  decode_blocks c junk1 junk2 wc ds buf par ps missing wanted bytes = Some (false, buf, ps).
Proof.
  intros Hen Lb Lp Lps. unfold decode_blocks.
  rewrite Lb, Lp, Lps, !Nat.eqb_refl, orb_true_r. cbn [andb].
  rewrite present_split, app_length in Hen.
  assert (Ha : (length (avail_data c missing) =? k) = false) by (apply Nat.eqb_neq; lia).
  rewrite Ha, andb_false_r.
  assert (Hap : length (avail_data c missing) + length (avail_par c missing) < k).
  { unfold avail_par. rewrite firstn_length. destruct (c_sys c); rewrite ?map_length in Hen; lia. }
  apply Nat.ltb_lt in Hap. rewrite Hap. reflexivity.
Qed.
(** *** Streams *)
Section DecS.
Variables (L : nat) (missing wanted : list bool) (data par : list (list N)) (ps : list props) (old : list (list N)).
Notation avail i := (negb (get true missing i)).
Notation ad := (avail_data c missing).
Notation ap := (avail_par c missing).
Notation ids := (ids missing).
Hypothesis HL : L <= bs * ws /\ bs * ws < L + ws.
Hypothesis Hen : k <= length (filter (fun i => avail i) (seq 0 (k + c_m c))).
Hypothesis HbufS : c_sys c = true -> forall j, j < k -> avail j = true ->
  length (nth j data []) = L /\ forall t, t < bs -> word_at ws (nth j data []) t = sym j t /\ (sym j t < h)%N.
Hypothesis HparS : forall q, q < c_nout c -> avail (out_pos c q) = true ->
  length (nth q par []) = L /\ (forall t, t < bs -> outs q t <> h -> word_at ws (nth q par []) t = outs q t) /\
  Permutation (nth q ps []) (recs h (outs q) (seq 0 bs)).
Hypothesis Lps : length ps = c_nout c.

Let pad (b : list N) : list N := b ++ repeat 0%N (bs * ws).

Lemma pad_length b : bs * ws <= length (pad b).
Proof. unfold pad. rewrite app_length, repeat_length. lia. Qed.

Lemma pad_word b t : word_at ws (pad b) t = word_at ws b t.
Proof.
  unfold word_at, slice, pad. rewrite skipn_app, skipn_zeros, firstn_app, firstn_zeros. apply word_of_bytes_zeros.
Qed.

Definition padded (n : nat) (bufs : list (list N)) : list (list N) := map (fun j => pad (nth j bufs [])) (seq 0 n).

Lemma padded_buf : c_sys c = true -> forall j, j < k -> avail j = true ->
  bs * ws <= length (nth j (padded k data) []) /\
  forall t, t < bs -> word_at ws (nth j (padded k data) []) t = sym j t /\ (sym j t < h)%N.
Proof.
  intros Hs j Hj Ha. unfold padded. rewrite nth_map_seq by auto. split; [apply pad_length|]. intros t Ht. rewrite pad_word.
  now apply HbufS.
Qed.

Lemma padded_par : forall q, q < c_nout c -> avail (out_pos c q) = true ->
  bs * ws <= length (nth q (padded (c_nout c) par) []) /\
  (forall t, t < bs -> outs q t <> h -> word_at ws (nth q (padded (c_nout c) par) []) t = outs q t) /\
  Permutation (nth q ps []) (recs h (outs q) (seq 0 bs)).
Proof.
  intros q Hq Ha. unfold padded. rewrite nth_map_seq by auto. destruct (HparS q Hq Ha) as (A & B & C).
  split; [apply pad_length|]. split; [|exact C]. intros t Ht X. rewrite pad_word. now apply B.
Qed.

Definition srcs (i : nat) : list N :=
  if i <? length ad then nth (nth i ids 0) data [] else nth (nth (i - length ad) ap 0) par [].

Lemma srcs_ok i : i < k -> length (srcs i) = L /\
  forall t, isd missing i = true \/ cws (nth i ids 0) t <> h -> word_at ws (srcs i) t = cws (nth i ids 0) t.
Proof.
  intros Hi.
  assert (X : length (srcs i) = L /\
    forall t, t < bs -> isd missing i = true \/ cws (nth i ids 0) t <> h -> word_at ws (srcs i) t = cws (nth i ids 0) t).
  { unfold srcs. destruct (Nat.ltb_spec i (length ad)) as [Ha|Ha].
    - destruct (ids_ad missing Hen (padded k data) ps padded_buf Lps i Ha) as (_ & Hs & Hk & Hav).
      destruct (HbufS Hs _ Hk Hav) as [A B]. split; [exact A|]. intros t Ht _. rewrite cws_data by auto. now apply B.
    - destruct (ids_ap missing Hen (padded k data) ps padded_buf Lps i Ha Hi) as (H1 & H2 & H3).
      destruct (HparS _ H1 H3) as (A & B & _). split; [exact A|]. intros t Ht.
      rewrite (isd_ad missing Hen (padded k data) ps padded_buf Lps i Hi). destruct (Nat.ltb_spec i (length ad)); [lia|].
      rewrite H2. intros [Y|Y]; [discriminate|]. now apply B. }
  destruct X as [X1 X2]. split; [exact X1|]. intros t Ht. destruct (Nat.lt_ge_cases t bs) as [H|H]; [now apply X2|].
  rewrite cws_out by auto. unfold word_at, slice. rewrite skipn_all2 by (rewrite X1; nia). rewrite firstn_nil. reflexivity.
Qed.

Variable x : ctx.
Variables (junk1 junk2 : list N).
Hypothesis Hx : ctx_new c ids junk1 junk2 = Some x.
Hypothesis Hj1 : length junk1 = c_n c.
Hypothesis Hj2 : length junk2 = c_l2 c.

Definition new_outs (out : nat -> list N) (j : nat) : list N :=
  if get false wanted j then nth j old [] ++ out j else nth j old [].

Lemma decode_streams_turn o wc ds cur : o <= bs -> cur_ok missing o cur -> ds_ok c ds -> wc = map (fun i => pkt_of (pkt * ws) (skipn (o * ws) (srcs i))) (seq 0 k) ->
  exists cur' ds', decode_pkt c x ds (map props_sort ps) (N.of_nat o) cur (map (pack_buf ws pkt) wc) = (cur', ds') /\
    cur_ok missing (Nat.min bs (o + pkt)) cur' /\ ds_ok c ds' /\
    firstn k (d_mx ds') = pkts k pkt (fun j t => sym j (o + t)).
Proof.
  intros Ho Hc Hds ->. unfold decode_pkt.
  rewrite (x_idsE missing Hen ps Lps x junk1 junk2 Hx Hj1 Hj2).
  set (words := map (pack_buf ws pkt) _).
  assert (Lw : length words = k) by (unfold words; rewrite !map_length; apply seq_length).
  destruct (prepare_spec missing Hen (padded k data) (padded (c_nout c) par) ps padded_buf padded_par Lps o cur words Ho Hc Lw)
    as (cur' & Hc' & E).
  { intros i Hi. unfold words. rewrite map_map, nth_map_seq by auto. rewrite pack_pkt_of, map_length, seq_length.
    split; [auto|]. intros t Ht X. rewrite nth_map_seq by auto. now apply srcs_ok. }
  rewrite E. clear E.
  destruct (cs_dec _ _ CS x ids junk1 junk2 ds (fun j t => sym j (o + t)) Hx (ids_frags missing Hen) Hj1 Hj2 Hds) as (_ & D1 & D2).
  { intros j t Hj _. rewrite Hcard. pose proof (sym_le j (o + t) Hj). lia. }
  change (fun (i t : nat) => cw (fun j => sym j (o + t)) (nth i ids 0)) with (fun i t => cws (nth i ids 0) (o + t)) in D1, D2.
  eexists _, _. split; [reflexivity|]. auto.
Qed.

Lemma unpack_nth (f : nat -> nat -> N) j : j < k -> get [] (map (unpack_buf ws) (pkts k pkt f)) j = unpack_buf ws (map (f j) (seq 0 pkt)).
Proof.
  intros Hj. unfold get. change (@nil N) with (unpack_buf ws []). rewrite map_nth. f_equal. unfold pkts. now rewrite nth_map_seq.
Qed.

Lemma decode_streams_loop_spec fuel : forall o wc ds cur outs0, L - o * ws < fuel -> o * ws <= L ->
  length wc = k -> (forall i, i < k -> length (nth i wc []) = pkt * ws) -> ds_ok c ds -> cur_ok missing o cur ->
  outs0 = map (new_outs (fun j => word_bytes_upto ws (sym j) o)) (seq 0 k) ->
  decode_streams_loop fuel c x (map props_sort ps) wanted o
      (mkRs (map (fun i => mkIs (skipn (o * ws) (srcs i)) false) (seq 0 k)) wc (pkt * ws) true) ds cur outs0 =
    Some (map (new_outs (fun j => firstn L (word_bytes_upto ws (sym j) bs))) (seq 0 k)).
Proof.
  induction fuel; intros o wc ds cur outs0 Hf Ho Lw Hw Hds Hcur E1; [lia|]. cbn [decode_streams_loop].
  set (ins := map (fun i => mkIs (skipn (o * ws) (srcs i)) false) (seq 0 k)).
  assert (Li : length ins = k) by (unfold ins; rewrite map_length; apply seq_length).
  rewrite (read_turn_spec k (pkt * ws) (L - o * ws)); auto; [|apply (cs_k _ _ CS)|].
  2: { intros i Hi. unfold ins. rewrite nth_map_seq by auto. cbn [is_fail is_rest]. split; [reflexivity|].
       rewrite skipn_length. destruct (srcs_ok i Hi) as [-> _]. reflexivity. }
  cbn [rs_bytes rs_cont rs_wc].
  assert (Hps : 0 < pkt * ws) by (apply Nat.mul_pos_pos; auto).
  assert (Hob : o <= bs) by (apply Nat.mul_le_mono_pos_r with ws; [auto|lia]).
  assert (Ew : map (fun s => pkt_of (pkt * ws) (is_rest s)) ins = map (fun i => pkt_of (pkt * ws) (skipn (o * ws) (srcs i))) (seq 0 k))
    by (unfold ins; now rewrite map_map).
  destruct (decode_streams_turn o _ ds cur Hob Hcur Hds Ew) as (cur' & ds' & E & Hc' & Hds' & Hmx).
  destruct (Nat.leb_spec (pkt * ws) (L - o * ws)) as [Hfull|Hlast].
  - destruct (Nat.eqb_spec (pkt * ws) 0); [lia|]. rewrite E, Hmx.
    assert (Hpb : o + pkt <= bs) by (apply Nat.mul_le_mono_pos_r with ws; [auto|nia]).
    destruct (Nat.ltb_spec (L - o * ws) (pkt * ws)); [lia|].
    replace (map (fun s => mkIs (skipn (pkt * ws) (is_rest s)) false) ins) with
      (map (fun i => mkIs (skipn ((o + pkt) * ws) (srcs i)) false) (seq 0 k)).
    2: { unfold ins. rewrite map_map. apply map_ext. intros i. cbn [is_rest]. rewrite skipn_skipn. do 2 f_equal. lia. }
    apply IHfuel; auto; try nia.
    + rewrite map_length. auto.
    + intros i Hi. rewrite Ew, nth_map_seq by auto. apply pkt_of_length.
    + replace (o + pkt) with (Nat.min bs (o + pkt)) by lia. auto.
    + rewrite E1. apply map_ext_in. intros j Hj. apply in_seq in Hj. rewrite get_map_seq by lia. unfold new_outs.
      destruct (get false wanted j); [|auto]. rewrite unpack_nth by lia. rewrite <- app_assoc, upto_full. reflexivity.
  - destruct (Nat.eqb_spec (L - o * ws) 0) as [H0|H0].
    + assert (o = bs) by nia. subst o. rewrite E1. f_equal. apply map_ext. intros j. unfold new_outs.
      rewrite firstn_all2 by (rewrite upto_length; lia). reflexivity.
    + rewrite E, Hmx. assert (Hpb : bs <= o + pkt) by nia. f_equal. rewrite E1. apply map_ext_in. intros j Hj. apply in_seq in Hj.
      rewrite get_map_seq by lia. unfold new_outs. destruct (get false wanted j); [|auto].
      rewrite unpack_nth by lia. rewrite <- app_assoc. f_equal. apply upto_last; lia.
Qed.
End DecS.

(** Enough fragments, and not all the data streams of a systematic code. *)
Theorem decode_streams_any L missing wanted data par (ps : list props) old wc ds junk1 junk2 :
  L <= bs * ws /\ bs * ws < L + ws ->
  k <= length (filter (fun i => negb (get true missing i)) (seq 0 (k + c_m c))) ->
  (c_sys c = true -> forall j, j < k -> negb (get true missing j) = true ->
    length (nth j data []) = L /\ forall t, t < bs -> word_at ws (nth j data []) t = sym j t /\ (sym j t < h)%N) ->
  (forall q, q < c_nout c -> negb (get true missing (out_pos c q)) = true ->
    length (nth q par []) = L /\ (forall t, t < bs -> outs q t <> h -> word_at ws (nth q par []) t = outs q t) /\
    Permutation (nth q ps []) (recs h (outs q) (seq 0 bs))) ->
  (c_sys c = true -> length data = k) -> length par = c_nout c -> length ps = c_nout c -> length old = k ->
  length wc = k -> (forall i, i < k -> length (nth i wc []) = pkt * ws) -> ds_ok c ds ->
  length junk1 = c_n c -> length junk2 = c_l2 c ->
  exists ps', decode_streams c junk1 junk2 wc ds data par ps missing wanted old =
    Some (true, if c_sys c && (length (avail_data c missing) =? k) then old
                else map (new_outs wanted old (fun j => firstn L (word_bytes_upto ws (sym j) bs))) (seq 0 k), ps').
Proof.
  intros HL Hen HbufS HparS Ld Lp Lps Lo Lw Hwc Hds Hj1 Hj2. unfold decode_streams.
  assert (Ea : negb (c_sys c) || (length data =? k) = true).
  { destruct (c_sys c); [|auto]. cbn. apply Nat.eqb_eq. auto. }
  rewrite Ea, Lp, Lps, Lo, !Nat.eqb_refl. cbn [andb].
  destruct (c_sys c && (length (avail_data c missing) =? k)) eqn:Eall; [eauto|].
  assert (Hl := par_length missing Hen). pose proof (ad_le missing).
  destruct (Nat.ltb_spec (length (avail_data c missing) + length (avail_par c missing)) k); [lia|].
  rewrite ids_eq, ids_sorted.
  destruct (cs_ctx _ _ CS _ junk1 junk2 (ids_frags missing Hen) Hj1 Hj2) as [x Hx]. rewrite Hx.
  rewrite (x_idsE missing Hen ps Lps x junk1 junk2 Hx Hj1 Hj2).
  change (map (fun i => mkIs (if i <? length (avail_data c missing) then get [] data (get 0 (ids missing) i)
     else get [] par (get 0 (avail_par c missing) (i - length (avail_data c missing)))) false) (seq 0 k)) with
    (map (fun i => mkIs (skipn (0 * ws) (srcs missing data par i)) false) (seq 0 k)).
  rewrite (decode_streams_loop_spec L missing wanted data par ps old HL Hen HbufS HparS Lps x junk1 junk2 Hx Hj1 Hj2); eauto; try lia.
  - unfold get. rewrite nth_map_seq by apply (cs_k _ _ CS). cbn [is_rest]. rewrite skipn_length.
    destruct (srcs_ok L missing data par ps HL Hen HbufS HparS Lps 0 (cs_k _ _ CS)) as [-> _]. lia.
  - split; [apply repeat_length|]. intros i _ _. apply nth_repeat.
  - rewrite <- (map_nth_seq _ [] old k Lo) at 1. apply map_ext. intros j. unfold new_outs, word_bytes_upto. cbn [seq flat_map].
    rewrite app_nil_r. destruct (get false wanted j); reflexivity.
Qed.

Theorem decode_streams_few missing wanted data par (ps : list props) old wc ds junk1 junk2 :
  length (filter (fun i => negb (get true missing i)) (seq 0 (k + c_m c))) < k ->
  (c_sys c = true -> length data = k) -> length par = c_nout c -> length ps = c_nout c -> length old = k ->
  decode_streams c junk1 junk2 wc ds data par ps missing wanted old = Some (false, old, ps).
Proof.
  intros Hen Lb Lp Lps Lo. unfold decode_streams.
  assert (Ea : negb (c_sys c) || (length data =? k) = true).
  { destruct (c_sys c); [|auto]. cbn. apply Nat.eqb_eq. auto. }
  rewrite Ea, Lp, Lps, Lo, !Nat.eqb_refl. cbn [andb].
  rewrite present_split, app_length in Hen.
  assert (Ha : (length (avail_data c missing) =? k) = false) by (apply Nat.eqb_neq; lia).
  rewrite Ha, andb_false_r.
  assert (Hap : length (avail_data c missing) + length (avail_par c missing) < k).
  { unfold avail_par. rewrite firstn_length. destruct (c_sys c); rewrite ?map_length in Hen; lia. }
  apply Nat.ltb_lt in Hap. rewrite Hap. reflexivity.
Qed.
End Blocks.

(** ** Data blocks of the caller *)
Section Data.
Variables (data : list (list N)) (bs : nat).
Hypothesis Hdata : forall j, j < k -> all_bytes (nth j data []) /\ bs * ws <= length (nth j data []).

(** Symbols of the data, zero after the last full word. *)
Definition sym (j t : nat) : N := if t <? bs then word_at ws (nth j data []) t else 0%N.

Lemma sym_lt j t : j < k -> (sym j t < h)%N.
Proof.
  intros Hj. unfold sym. destruct (t <? bs); [|apply h_pos]. apply word_at_lt. now apply Hdata.
Qed.

Lemma sym_out j t : bs <= t -> sym j t = 0%N.
Proof. intros Ht. unfold sym. destruct (Nat.ltb_spec t bs); [lia|auto]. Qed.

Theorem encode_blocks_exact xe es wc out par ps wanted bytes : bs = bytes / ws -> enc_ready xe es ->
  (forall i, i < k -> length (nth i wc []) = pkt * ws) -> length out = c_outlen c ->
  length data = k -> length par = c_nout c -> length ps = c_nout c ->
  (forall i, i < c_nout c -> get false wanted i = true -> bs * ws <= length (nth i par [])) ->
  exists es', enc_ready xe es' /\ encode_blocks c xe es wc out data par ps wanted bytes =
    Some (es', map (fun i => if get false wanted i then words_then ws (outs sym i) bs (nth i par []) else nth i par []) (seq 0 (c_nout c)),
          map (fun i => recs h (outs sym i) (seq 0 bs)) (seq 0 (c_nout c))).
Proof.
  intros Eb. apply encode_blocks_any; auto.
  - intros j t Hj. pose proof (sym_lt j t Hj). lia.
  - intros. now apply sym_out.
  - intros j Hj. split; [now apply Hdata|]. intros t Ht. unfold sym. destruct (Nat.ltb_spec t bs); [auto|lia].
Qed.

Theorem decode_blocks_exact missing wanted buf par (ps : list props) wc ds junk1 junk2 bytes : bs = bytes / ws ->
  k <= length (filter (fun i => negb (get true missing i)) (seq 0 (k + c_m c))) ->
  (c_sys c = true -> forall j, j < k -> negb (get true missing j) = true ->
    bs * ws <= length (nth j buf []) /\ forall t, t < bs -> word_at ws (nth j buf []) t = sym j t) ->
  (forall q, q < c_nout c -> negb (get true missing (out_pos c q)) = true ->
    bs * ws <= length (nth q par []) /\ (forall t, t < bs -> word_at ws (nth q par []) t = (outs sym q t mod h)%N) /\
    Permutation (nth q ps []) (recs h (outs sym q) (seq 0 bs))) ->
  (forall j, j < k -> get false wanted j = true -> bs * ws <= length (nth j buf [])) ->
  length buf = k -> length par = c_nout c -> length ps = c_nout c ->
  (forall i, i < k -> length (nth i wc []) = pkt * ws) -> ds_ok c ds -> length junk1 = c_n c -> length junk2 = c_l2 c ->
  (forall j, j < k -> all_bytes (nth j buf [])) ->
  exists ps', decode_blocks c junk1 junk2 wc ds buf par ps missing wanted bytes =
    Some (true, map (fun j => if get false wanted j then words_then ws (sym j) bs (nth j buf []) else nth j buf []) (seq 0 k), ps').
Proof.
  intros Eb Hen Hbuf Hpar. apply decode_blocks_any; auto.
  - intros j t Hj. pose proof (sym_lt j t Hj). lia.
  - intros. now apply sym_out.
  - intros Es j Hj Ha. destruct (Hbuf Es j Hj Ha) as [L W]. split; [auto|]. intros t Ht. split; [auto|]. now apply sym_lt.
  - intros q Hq Ha. destruct (Hpar q Hq Ha) as (L & W & P). split; [auto|]. split; [|auto]. intros t Ht Hne.
    rewrite W by auto. apply N.mod_small.
    assert (X : (outs sym q t <= h)%N) by (apply cws_le).
    lia.
Qed.
End Data.
End Code.
