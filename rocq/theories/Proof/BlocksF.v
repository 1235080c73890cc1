(** Block encoding and decoding with the codes that the constructor makes. *)
From Coq Require Import List NArith ZArith Arith Bool Lia Permutation.
From Verif.Model Require Import Common Arith Ring Fft2n Radix2 Poly Props Bytes Fnt Blocks.
From Verif.Spec Require Import Modular Code Blocks Widths Session.
From Verif.Proof Require Import ListP Tac BytesP PropsP BlocksP FntInst.
Import ListNotations.
Open Scope nat_scope.

(** [lia] compares hypotheses up to conversion, which unfolds the constructor: hide those about objects. *)
Ltac lia := repeat match goal with H : fnt_object _ _ _ _ _ _ _ |- _ => clear H end; Lia.lia.

Definition coded (ws : nat) (cw : (nat -> N) -> nat -> N) (data : list (list N)) (pos t : nat) : N :=
  cw (fun j => symbol ws (nth j data []) t) pos.

Section F.
Variables (w : N) (sys : bool) (ws k m : nat).
Hypothesis Hw : fnt_width w ws.

Lemma ws_pos : 0 < ws.
Proof. destruct Hw as [[-> _]|[-> _]]; lia. Qed.

Lemma div_mul_le bytes : bytes / ws * ws <= bytes.
Proof. rewrite Nat.mul_comm. apply Nat.mul_div_le. pose proof ws_pos. lia. Qed.

Section M.
Variables (pkt n : nat) (cw : (nat -> N) -> nat -> N) (c : fnt).
Hypothesis Hpkt : 0 < pkt.
Hypothesis M : fnt_made w sys ws k m pkt n cw c.

Lemma made_parts : code_spec c cw /\ c_n c = n /\ c_sys c = sys /\ c_ws c = ws /\ c_k c = k /\ c_m c = m /\ c_pkt c = pkt /\
  g_card (c_G c) = (256 ^ N.of_nat (c_ws c) + 1)%N /\ c_nout c = n_outs sys k m /\
  (forall q, out_pos c q = position sys k q).
Proof.
  destruct M as (_ & A1 & A2 & A3 & A4 & A5 & A6 & A7 & A8).
  do 7 (split; [assumption|]). split; [rewrite A4; assumption|].
  split; [unfold c_nout, n_outs; rewrite A3, A5, A6; reflexivity|]. intros q. unfold out_pos, position. rewrite A3, A5. reflexivity.
Qed.

Section D.
Variables (data : list (list N)) (bytes : nat).
Hypothesis Hdata : blocks k bytes data.
Let bs := bytes / ws.

Lemma data_ok : forall j, j < c_k c -> all_bytes (nth j data []) /\ bs * c_ws c <= length (nth j data []).
Proof.
  destruct made_parts as (_ & _ & _ & E1 & E2 & _). rewrite E1, E2. intros j Hj.
  destruct (proj2 Hdata j Hj) as [L A]. split; [exact A|]. rewrite L. apply div_mul_le.
Qed.

Lemma sym_symbol j t : j < k -> t < bs -> sym c data bs j t = symbol ws (nth j data []) t.
Proof.
  destruct made_parts as (_ & _ & _ & E1 & E2 & _). intros Hj Ht. unfold sym.
  destruct (Nat.ltb_spec t bs); [|lia]. rewrite E1. apply word_at_symbol.
  destruct (proj2 Hdata j Hj) as [L A]. rewrite L. pose proof (div_mul_le bytes). fold bs in H0. nia.
Qed.

Lemma outs_coded q t : t < bs -> outs c cw (sym c data bs) q t = coded ws cw data (position sys k q) t.
Proof.
  destruct made_parts as (CS & _ & _ & E1 & E2 & _ & _ & _ & _ & Ep). intros Ht. unfold outs, cws, coded. rewrite Ep.
  apply (cs_ext _ _ CS). intros j Hj. apply sym_symbol; [lia|auto].
Qed.

Lemma recs_record q : recs (256 ^ N.of_nat ws) (outs c cw (sym c data bs) q) (seq 0 bs) =
  record (256 ^ N.of_nat ws) (coded ws cw data (position sys k q)) bs.
Proof.
  rewrite record_recs. unfold recs. f_equal. apply filter_ext_in. intros t Ht. apply in_seq in Ht.
  rewrite outs_coded by lia. reflexivity.
Qed.

Theorem encode_made xe es wc out par ps wanted : encoder_buffers c xe es wc out ->
  length par = n_outs sys k m -> length ps = n_outs sys k m ->
  (forall q, q < n_outs sys k m -> nth q wanted false = true -> bs * ws <= length (nth q par [])) ->
  exists es', encoder_buffers c xe es' wc out /\ encode_blocks c xe es wc out data par ps wanted bytes =
    Some (es', map (fun q => if nth q wanted false then overwrite ws bs (coded ws cw data (position sys k q)) (nth q par [])
                             else nth q par []) (seq 0 (n_outs sys k m)),
          map (fun q => record (256 ^ N.of_nat ws) (coded ws cw data (position sys k q)) bs) (seq 0 (n_outs sys k m))).
Proof.
  destruct made_parts as (CS & En & Esys & E1 & E2 & E3 & E4 & E5 & E6 & E7). intros (He & Hwc & Ho) Lp Lps Hpar.
  destruct (encode_blocks_exact c cw CS ltac:(rewrite E1; apply ws_pos) ltac:(lia) E5 data bs data_ok xe es wc out par ps wanted bytes)
    as (es' & He' & R); try (rewrite ?E1, ?E2, ?E4, ?E6; first [exact Hwc|assumption|reflexivity]).
  - exact Hwc.
  - rewrite E2. apply Hdata.
  - exists es'. split; [split; [exact He'|split; assumption]|]. rewrite R, E6, E1. f_equal. f_equal; [f_equal|].
    + apply map_ext. intros q. unfold get. destruct (nth q wanted false); [|reflexivity].
      rewrite <- words_then_overwrite by apply ws_pos. apply words_then_ext. intros t Ht. apply outs_coded. exact Ht.
    + apply map_ext. intros q. apply recs_record.
Qed.

Theorem decode_made missing wanted buf par (ps : list props) wc ds junk1 junk2 : decoder_buffers c junk1 junk2 wc ds ->
  k <= length (present k m missing) ->
  (sys = true -> forall j, j < k -> nth j missing true = false -> bs * ws <= length (nth j buf []) /\
     forall t, t < bs -> symbol ws (nth j buf []) t = symbol ws (nth j data []) t) ->
  (forall q, q < n_outs sys k m -> nth (position sys k q) missing true = false -> bs * ws <= length (nth q par []) /\
     (forall t, t < bs -> symbol ws (nth q par []) t = N.modulo (coded ws cw data (position sys k q) t) (256 ^ N.of_nat ws)) /\
     Permutation (nth q ps []) (record (256 ^ N.of_nat ws) (coded ws cw data (position sys k q)) bs)) ->
  (forall j, j < k -> nth j wanted false = true -> bs * ws <= length (nth j buf [])) ->
  length buf = k -> length par = n_outs sys k m -> length ps = n_outs sys k m ->
  (forall j, j < k -> all_bytes (nth j buf [])) ->
  exists ps', decode_blocks c junk1 junk2 wc ds buf par ps missing wanted bytes =
    Some (true, map (fun j => if nth j wanted false then firstn (bs * ws) (nth j data []) ++ skipn (bs * ws) (nth j buf [])
                              else nth j buf []) (seq 0 k), ps').
Proof.
  destruct made_parts as (CS & En & Esys & E1 & E2 & E3 & E4 & E5 & E6 & E7).
  intros (J1 & J2 & Hwc & Hds) Hpres Hbuf Hpar Hwant Lb Lp Lps Hby.
  assert (SW : forall blk t, t < bs -> bs * ws <= length blk -> word_at ws blk t = symbol ws blk t).
  { intros. apply word_at_symbol. nia. }
  destruct (decode_blocks_exact c cw CS ltac:(rewrite E1; apply ws_pos) ltac:(lia) E5 data bs data_ok missing wanted buf par ps
     wc ds junk1 junk2 bytes) as (ps' & R); try (rewrite ?E1, ?E2, ?E3, ?E4, ?E6; first [exact Hwc|assumption|reflexivity]).
  - rewrite Esys. intros Hsys j Hj Hm. apply negb_true_iff in Hm. destruct (Hbuf Hsys j ltac:(lia) Hm) as [L W].
    rewrite E1. split; [exact L|]. intros t Ht. rewrite SW by auto. rewrite W by auto. symmetry. apply sym_symbol; [lia|auto].
  - rewrite E6. intros q Hq Hm. rewrite E7 in Hm. apply negb_true_iff in Hm. destruct (Hpar q Hq Hm) as (L & W & P).
    rewrite E1. split; [exact L|]. split; [|rewrite recs_record; exact P].
    intros t Ht. rewrite SW by auto. rewrite W by auto. rewrite outs_coded by auto. reflexivity.
  - exact Hwc.
  - exists ps'. rewrite R, E2, E1. f_equal. f_equal. f_equal. apply map_ext_in. intros j Hj. apply in_seq in Hj. unfold get.
    destruct (nth j wanted false) eqn:Ew; [|reflexivity].
    assert (Dj := data_ok j ltac:(lia)). rewrite E1 in Dj.
    rewrite <- (words_then_self ws (nth j data [])) by (try apply ws_pos; apply Dj).
    apply words_then_ext. intros t Ht. rewrite sym_symbol by lia. symmetry. apply SW; [auto|]. apply Dj.
Qed.
End D.
End M.
End F.

Lemma plain_fnt_build w ws : fnt_build 0 w ws.
Proof. now left. Qed.

Lemma object_made w sys ws k m : fnt_width w ws -> fnt_sizes ws k m ->
  exists cw r n, poly_code sys (256 ^ N.of_nat ws + 1) r n k cw /\ k + m <= n /\
   (forall nh pkt, fnt_build nh w ws -> 0 < pkt ->
      exists c, fnt_new nh w sys ws k m pkt = Some c /\ fnt_object w sys ws k m pkt c) /\
   forall pkt c, fnt_object w sys ws k m pkt c -> fnt_made w sys ws k m pkt n cw c.
Proof.
  intros Hw Hs. destruct (fnt_new_spec w sys ws k m Hw Hs) as (cw & r & n & HP & H). exists cw, r, n. split; [exact HP|].
  split.
  { destruct (H 0 1 (plain_fnt_build w ws) ltac:(lia)) as (c & _ & M). destruct (made_parts _ _ _ _ _ _ _ _ _ M) as (CS & En & _ & _ & E2 & E3 & _).
    pose proof (cs_n _ _ CS). lia. }
  split.
  - intros nh pkt Hb Hp. destruct (H nh pkt Hb Hp) as (c & E & M). exists c. split; [exact E|].
    split; [auto|]. split; [auto|]. split; [auto|]. exists nh. auto.
  - intros pkt c (_ & _ & Hp & nh & Hb & E). destruct (H nh pkt Hb Hp) as (c' & E' & M).
    assert (c' = c) by congruence. subst c'. exact M.
Qed.

(** Exact result of encoding, the same code for all packet sizes. *)
Theorem encode_result w sys ws k m : fnt_width w ws -> fnt_sizes ws k m ->
  exists cw r n, poly_code sys (256 ^ N.of_nat ws + 1) r n k cw /\ k + m <= n /\
  forall pkt c xe es wc out data par ps wanted bytes, fnt_object w sys ws k m pkt c -> encoder_buffers c xe es wc out ->
   blocks k bytes data -> length par = n_outs sys k m -> length ps = n_outs sys k m ->
   (forall q, q < n_outs sys k m -> nth q wanted false = true -> bytes / ws * ws <= length (nth q par [])) ->
   exists es', encoder_buffers c xe es' wc out /\ encode_blocks c xe es wc out data par ps wanted bytes =
    Some (es', map (fun q => if nth q wanted false
                             then overwrite ws (bytes / ws) (coded ws cw data (position sys k q)) (nth q par [])
                             else nth q par []) (seq 0 (n_outs sys k m)),
          map (fun q => record (256 ^ N.of_nat ws) (coded ws cw data (position sys k q)) (bytes / ws)) (seq 0 (n_outs sys k m))).
Proof.
  intros Hw Hs. destruct (object_made w sys ws k m Hw Hs) as (cw & r & n & HP & Hn & _ & H).
  exists cw, r, n. split; [exact HP|]. split; [exact Hn|]. intros pkt c xe es wc out data par ps wanted bytes HO.
  assert (Hp : 0 < pkt) by apply HO.
  intros He Hd. apply (encode_made w sys ws k m Hw pkt n cw c Hp (H _ _ HO) data bytes Hd xe es wc out par ps wanted He).
Qed.

Lemma symbol_overwrite ws n f blk t : 0 < ws -> n * ws <= length blk -> t < n ->
  symbol ws (overwrite ws n f blk) t = (f t mod 256 ^ N.of_nat ws)%N.
Proof.
  intros H0 Hl Ht. rewrite <- words_then_overwrite by auto.
  rewrite <- word_at_symbol; [apply words_then_word_at; auto|].
  rewrite words_then_length by auto. nia.
Qed.

Lemma overwrite_length ws n f blk : n * ws <= length blk -> length (overwrite ws n f blk) = length blk.
Proof. intros Hl. unfold overwrite. rewrite app_length, map_length, seq_length, skipn_length. lia. Qed.

(** Round trip, encoder and decoder possibly with different packet sizes. *)
Theorem roundtrip w sys ws k m pkt pkt' c c' xe es wc out data par ps wanted bytes :
  fnt_object w sys ws k m pkt c -> fnt_object w sys ws k m pkt' c' ->
  encoder_buffers c xe es wc out -> blocks k bytes data ->
  length par = n_outs sys k m -> length ps = n_outs sys k m ->
  (forall q, q < n_outs sys k m -> nth q wanted false = true -> bytes / ws * ws <= length (nth q par [])) ->
  exists es' par' ps', encode_blocks c xe es wc out data par ps wanted bytes = Some (es', par', ps') /\
  forall missing wanted' buf rpar rps wc' ds junk1 junk2,
    decoder_buffers c' junk1 junk2 wc' ds -> blocks k bytes buf ->
    received sys k m missing data par' ps' buf rpar rps ->
    (forall q, q < n_outs sys k m -> nth (position sys k q) missing true = false -> nth q wanted false = true) ->
    k <= length (present k m missing) ->
    exists ps'', decode_blocks c' junk1 junk2 wc' ds buf rpar rps missing wanted' bytes =
      Some (true, map (fun j => if nth j wanted' false
                                then firstn (bytes / ws * ws) (nth j data []) ++ skipn (bytes / ws * ws) (nth j buf [])
                                else nth j buf []) (seq 0 k), ps'').
Proof.
  intros HO HO' He Hd Lp Lps Hpar.
  assert (Hw : fnt_width w ws) by apply HO. assert (Hs : fnt_sizes ws k m) by apply HO.
  assert (Hp : 0 < pkt) by apply HO. assert (Hp' : 0 < pkt') by apply HO'.
  destruct (object_made w sys ws k m Hw Hs) as (cw & r & n & HP & _ & _ & H).
  destruct (encode_made w sys ws k m Hw pkt n cw c Hp (H _ _ HO) data bytes Hd xe es wc out par ps wanted He Lp Lps Hpar)
    as (es' & _ & E). do 3 eexists. split; [exact E|].
  intros missing wanted' buf rpar rps wc' ds junk1 junk2 Hb HB (R1 & R2 & R3 & R4) Hwant Hen.
  pose proof (div_mul_le w ws Hw bytes) as Hle.
  apply (decode_made w sys ws k m Hw pkt' n cw c' Hp' (H _ _ HO') data bytes Hd); auto.
  - intros Es j Hj Hm. rewrite (R1 Es j Hj Hm). destruct (proj2 Hd j Hj) as [L _]. split; [lia|auto].
  - intros q Hq Hm. destruct (R4 q Hq Hm) as [R5 R6]. rewrite R5. rewrite !nth_map_seq in * by auto.
    rewrite (Hwant q Hq Hm). specialize (Hpar q Hq (Hwant q Hq Hm)). rewrite overwrite_length by auto. split; [auto|]. split; [|exact R6].
    intros t Ht. apply symbol_overwrite; auto. apply (ws_pos w ws Hw).
  - intros j Hj _. destruct (proj2 HB j Hj) as [L _]. lia.
  - apply HB.
  - intros j Hj. apply (proj2 HB j Hj).
Qed.

(** Too few fragments. *)
Theorem few w sys ws k m pkt c missing wanted buf par (ps : list props) wc ds junk1 junk2 bytes :
  fnt_object w sys ws k m pkt c -> length (present k m missing) < k ->
  length buf = k -> length par = n_outs sys k m -> length ps = n_outs sys k m ->
  decode_blocks c junk1 junk2 wc ds buf par ps missing wanted bytes = Some (false, buf, ps).
Proof.
  intros HO. assert (Hw : fnt_width w ws) by apply HO. assert (Hs : fnt_sizes ws k m) by apply HO.
  assert (Hp : 0 < pkt) by apply HO.
  destruct (object_made w sys ws k m Hw Hs) as (cw & r & n & HP & _ & _ & H).
  destruct (made_parts _ _ _ _ _ _ _ _ _ (H _ _ HO)) as (CS & En & Esys & E1 & E2 & E3 & E4 & E5 & E6 & E7).
  intros Hf Lb Lp Lps. apply decode_blocks_few; rewrite ?E2, ?E3, ?E6; auto; try lia.
  rewrite E1. apply (ws_pos w ws Hw).
Qed.

(** ** Records *)

(** Packets of one fragment handled one after the other, the cursor being kept: fec_base.h:1376-1402 as run from
    decode_blocks_vertical for one fragment. *)
Fixpoint restore_run (h : N) (ps : props) (pkt p cur : nat) (chunks : list (list N)) : list (list N) :=
  match chunks with
  | [] => []
  | ch :: t =>
      let '(cur', ch') := restore (S (length ps)) ps h (N.of_nat (p * pkt)) (N.of_nat (p * pkt) + N.of_nat pkt) cur ch in
      ch' :: restore_run h ps pkt (S p) cur' t
  end.

(** Packet [p] of the fragment with symbols [f], zero after the end. *)
Definition packet (f : nat -> N) (bs pkt p : nat) : list N :=
  map (fun t => if p * pkt + t <? bs then f (p * pkt + t) else 0%N) (seq 0 pkt).

Lemma restore_run_spec h f bs pkt (ps : props) : (0 < h)%N -> (forall t, f t <= h)%N -> Permutation ps (record h f bs) ->
  forall np, restore_run h (props_sort ps) pkt 0 0 (map (packet (fun t => (f t mod h)%N) bs pkt) (seq 0 np)) =
    map (packet f bs pkt) (seq 0 np).
Proof.
  intros Hh Hf HP. rewrite (sort_perm _ _ HP), record_recs, sort_recs.
  assert (X : forall np p, restore_run h (recs h f (seq 0 bs)) pkt p (cnt h f (Nat.min bs (p * pkt)))
     (map (packet (fun t => (f t mod h)%N) bs pkt) (seq p np)) = map (packet f bs pkt) (seq p np)).
  { induction np; intros p; [reflexivity|]. cbn [seq map restore_run].
    set (ch := packet _ bs pkt p).
    assert (R : restore (S (length (recs h f (seq 0 bs)))) (recs h f (seq 0 bs)) h (N.of_nat (p * pkt))
      (N.of_nat (p * pkt) + N.of_nat pkt) (cnt h f (Nat.min bs (p * pkt))) ch = (cnt h f (Nat.min bs (S p * pkt)), packet f bs pkt p)).
    { destruct (Nat.le_gt_cases (p * pkt) bs) as [Hle|Hgt].
      - replace (Nat.min bs (p * pkt)) with (p * pkt) by lia.
        rewrite (restore_recs h f bs (p * pkt) pkt (bs - p * pkt) (p * pkt)); [|lia|lia| |].
        + f_equal.
          * f_equal. lia.
          * unfold packet. apply map_ext_in. intros t Ht. apply in_seq in Ht.
            destruct (Nat.leb_spec (p * pkt) (p * pkt + t)); [|lia]. cbn [andb].
            unfold ch, packet. rewrite nth_map_seq by lia. destruct (Nat.ltb_spec (p * pkt + t) bs); cbn [andb]; [|reflexivity].
            destruct (N.eqb_spec (f (p * pkt + t)%nat) h) as [E|E]; [auto|]. apply N.mod_small. specialize (Hf (p * pkt + t)%nat). lia.
        + replace bs with (p * pkt + (bs - p * pkt)) at 2 by lia. rewrite seq_app, recs_app, app_length. cbn [Nat.add]. lia.
        + unfold ch, packet. now rewrite map_length, seq_length.
      - replace (Nat.min bs (p * pkt)) with bs by lia. replace (Nat.min bs (S p * pkt)) with bs by lia.
        cbn [restore]. unfold props_in_range.
        assert (En : nth_error (recs h f (seq 0 bs)) (cnt h f bs) = None) by (apply nth_error_None; unfold cnt; lia).
        rewrite En. f_equal. unfold ch, packet. apply map_ext. intros t. destruct (Nat.ltb_spec (p * pkt + t) bs); [lia|reflexivity]. }
    rewrite R. f_equal. apply IHnp. }
  intros np. specialize (X np 0). rewrite Nat.mul_0_l, Nat.min_0_r in X. exact X.
Qed.

Lemma record_in h f n o mk : In (o, mk) (record h f n) <-> mk = 1%N /\ exists t, t < n /\ o = N.of_nat t /\ f t = h.
Proof.
  unfold record. rewrite in_map_iff. split.
  - intros (t & E & Ht). apply filter_In in Ht. destruct Ht as [Ht Ef]. apply in_seq in Ht. apply N.eqb_eq in Ef.
    injection E as <- <-. split; [auto|]. exists t. repeat split; auto; lia.
  - intros (-> & t & Ht & -> & Ef). exists t. split; [auto|]. apply filter_In. split; [apply in_seq; lia|now apply N.eqb_eq].
Qed.

Lemma record_sorted h f n : forall i j, i < j -> j < length (record h f n) ->
  (fst (nth i (record h f n) (0, 0)) < fst (nth j (record h f n) (0, 0)))%N.
Proof.
  intros i j Hij Hj. unfold record in *. rewrite map_length in Hj.
  set (l := filter (fun t => (f t =? h)%N) (seq 0 n)) in *.
  assert (E : forall a, a < length l -> nth a (map (fun t => (N.of_nat t, 1%N)) l) (0, 0)%N = (N.of_nat (nth a l 0), 1%N)).
  { intros a Ha. rewrite (nth_indep _ _ (N.of_nat 0, 1%N)) by (rewrite map_length; auto). now rewrite (map_nth (fun t => (N.of_nat t, 1%N))). }
  rewrite !E by lia. cbn [fst].
  assert (S : forall n a i j, i < j -> j < length (filter (fun t => (f t =? h)%N) (seq a n)) ->
     a <= nth i (filter (fun t => (f t =? h)%N) (seq a n)) 0 < nth j (filter (fun t => (f t =? h)%N) (seq a n)) 0).
  { clear. induction n; intros a i j Hij Hj; cbn [seq filter] in *; [cbn in Hj; lia|].
    destruct (f a =? h)%N; cbn [length nth] in *.
    - destruct j; [lia|]. destruct i; cbn [nth]; [|specialize (IHn (S a) i j ltac:(lia) ltac:(lia)); lia].
      split; [lia|]. destruct j; [|specialize (IHn (S a) 0 (S j) ltac:(lia) ltac:(lia)); lia].
      assert (In (nth 0 (filter (fun t => (f t =? h)%N) (seq (S a) n)) 0) (seq (S a) n)).
      { apply (filter_In (fun t => (f t =? h)%N)). apply nth_In. lia. }
      apply in_seq in H. lia.
    - specialize (IHn (S a) i j ltac:(lia) ltac:(lia)). lia. }
  specialize (S n 0 i j Hij Hj). fold l in S. lia.
Qed.

(** ** Reuse of the context *)

(** The outputs of decoding packets of symbols one after the other with the same buffers. *)
Fixpoint decode_seq (c : fnt) (x : ctx) (ds : dscratch (list N)) (packets : list (list (list N))) : list (list (list N)) :=
  match packets with
  | [] => []
  | wds :: t =>
      let ds' := decode_words (c_K c) c x ds wds in
      firstn (c_k c) (d_mx ds') :: decode_seq c x ds' t
  end.

Definition valid_words (c : fnt) (wds : list (list N)) : Prop :=
  length wds = c_k c /\ forall i, i < c_k c -> length (nth i wds []) = c_pkt c /\
    forall t, t < c_pkt c -> (nth t (nth i wds []) 0 < g_card (c_G c))%N.

Lemma words_pkts c wds : valid_words c wds -> wds = pkts (c_k c) (c_pkt c) (fun i t => nth t (nth i wds []) 0%N).
Proof.
  intros [L H]. apply (list_ext _ []); [unfold pkts; rewrite map_length, seq_length; auto|].
  rewrite L. intros i Hi. unfold pkts. rewrite nth_map_seq by auto. destruct (H i Hi) as [Lp _].
  symmetry. apply map_nth_seq. exact Lp.
Qed.

Lemma choice_fin {A B : Type} (d : B) (R : A -> B -> Prop) n (f : nat -> A) :
  (forall t, t < n -> exists y, R (f t) y) -> exists g, forall t, t < n -> R (f t) (g t).
Proof.
  induction n; intros H.
  - exists (fun _ => d). intros t Ht. inversion Ht.
  - destruct IHn as [g Hg]; [intros; apply H; auto|]. destruct (H n ltac:(auto)) as [y Hy].
    exists (fun t => if t =? n then y else g t). intros t Ht. destruct (Nat.eqb_spec t n) as [->|]; [auto|].
    apply Hg. lia.
Qed.

Lemma decode_words_det c cw x ids junk1 junk2 wds : code_spec c cw -> ctx_new c ids junk1 junk2 = Some x -> frags c ids ->
  length junk1 = c_n c -> length junk2 = c_l2 c -> valid_words c wds ->
  exists out, forall ds, ds_ok c ds -> let ds' := decode_words (c_K c) c x ds wds in
    ds_ok c ds' /\ firstn (c_k c) (d_mx ds') = out.
Proof.
  intros CS Hx Hf J1 J2 Hw.
  destruct (choice_fin (fun _ : nat => 0%N) (fun t col => (forall j, j < c_k c -> (col j < g_card (c_G c))%N) /\
      forall i, i < c_k c -> cw col (nth i ids 0) = nth t (nth i wds []) 0%N) (c_pkt c) (fun t => t)) as [g Hg].
  { intros t Ht. apply (cs_onto _ _ CS ids (fun i => nth t (nth i wds []) 0%N) Hf). intros i Hi. apply (proj2 Hw i Hi). exact Ht. }
  exists (pkts (c_k c) (c_pkt c) (fun j t => g t j)). intros ds Hds.
  rewrite (words_pkts c wds Hw).
  assert (E : pkts (c_k c) (c_pkt c) (fun i t => nth t (nth i wds []) 0%N) =
              pkts (c_k c) (c_pkt c) (fun i t => cw (fun j => g t j) (nth i ids 0))).
  { unfold pkts. apply map_ext_in. intros i Hi. apply map_ext_in. intros t Ht. apply in_seq in Hi, Ht.
    symmetry. apply (proj2 (Hg t ltac:(lia)) i). lia. }
  rewrite E.
  apply (cs_dec _ _ CS x ids junk1 junk2 ds (fun j t => g t j) Hx Hf J1 J2 Hds).
  intros j t Hj Ht. apply (proj1 (Hg t Ht) j Hj).
Qed.

Theorem decode_seq_fresh w sys ws k m pkt c ids junk1 junk2 x ds (fresh : list (list N) -> dscratch (list N)) packets :
  fnt_object w sys ws k m pkt c -> frags c ids -> length junk1 = c_n c -> length junk2 = c_l2 c ->
  ctx_new c ids junk1 junk2 = Some x -> ds_ok c ds -> (forall wds, ds_ok c (fresh wds)) ->
  (forall wds, In wds packets -> valid_words c wds) ->
  decode_seq c x ds packets =
  map (fun wds => firstn k (d_mx (decode_words (c_K c) c x (fresh wds) wds))) packets.
Proof.
  intros HO Hf J1 J2 Hx Hds Hfr Hv. assert (Hw : fnt_width w ws) by apply HO. assert (Hs : fnt_sizes ws k m) by apply HO.
  destruct (object_made w sys ws k m Hw Hs) as (cw & r & n & HP & _ & _ & H).
  destruct (made_parts _ _ _ _ _ _ _ _ _ (H _ _ HO)) as (CS & En & Esys & E1 & E2 & E3 & E4 & E5 & E6 & E7).
  clear HP H. revert ds Hds. induction packets as [|wds t IH]; intros ds Hds; [reflexivity|].
  destruct (decode_words_det c cw x ids junk1 junk2 wds CS Hx Hf J1 J2 (Hv wds (or_introl eq_refl))) as [o Ho].
  cbn [decode_seq map]. destruct (Ho ds Hds) as [D1 D2]. rewrite D2.
  rewrite <- E2. destruct (Ho _ (Hfr wds)) as [D3 D4]. rewrite D4. f_equal. rewrite E2. apply IH; [|exact D1].
  intros; apply Hv; right; assumption.
Qed.

(** ** Systematic packets *)
Theorem systematic_words w ws k m : fnt_width w ws -> fnt_sizes ws k m ->
  exists cw r n, poly_code true (256 ^ N.of_nat ws + 1) r n k cw /\ k + m <= n /\
  forall pkt c xe es wc out f, fnt_object w true ws k m pkt c -> encoder_buffers c xe es wc out ->
   (forall j t, j < k -> t < pkt -> (f j t <= 256 ^ N.of_nat ws)%N) ->
   exists es', encode_words (c_K c) c xe es out (pkts k pkt f) =
     (es', pkts m pkt (fun i t => cw (fun j => f j t) (k + i)), pkts k pkt f).
Proof.
  intros Hw Hs. destruct (object_made w true ws k m Hw Hs) as (cw & r & n & HP & Hn & _ & H).
  exists cw, r, n. split; [exact HP|]. split; [exact Hn|]. intros pkt c xe es wc out f HO (He & Hwc & Ho) Hf.
  destruct (made_parts _ _ _ _ _ _ _ _ _ (H _ _ HO)) as (CS & En & Esys & E1 & E2 & E3 & E4 & E5 & E6 & E7).
  destruct (He Esys) as (Hes & j1 & j2 & Hx & J1 & J2).
  destruct (cs_enc _ _ CS xe j1 j2 es out f Hx J1 J2 Hes Ho) as (es' & _ & R).
  - intros j t Hj Ht. rewrite E5, E1. rewrite E2 in Hj. rewrite E4 in Ht. specialize (Hf j t Hj Ht). lia.
  - exists es'. rewrite E2, E4 in R. rewrite R. unfold c_outlen, out_pos. rewrite Esys, E3, E2. reflexivity.
Qed.

Lemma restored_symbols h f bs pkt p t : t < pkt -> nth t (packet f bs pkt p) h = if p * pkt + t <? bs then f (p * pkt + t) else 0%N.
Proof. intros Ht. unfold packet. now rewrite nth_map_seq. Qed.
