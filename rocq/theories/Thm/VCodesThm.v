(** Property C55: blocks and streams processed by packets, with the codes other than RsFnt. *)
From Coq Require Import List NArith ZArith Arith Bool Lia Permutation.
From Verif.Model Require Import Common Arith Ring Fft2n Radix2 Poly Props Bytes Simd Fnt Blocks Streams Nf4 HCodes VCodes.
From Verif.Spec Require Import Primes Blocks Nf4 Code Session VCodes.
From Verif.Proof Require Import ListP Tac Param Nf4Sim Nf4Code Nf4New VLoops Nf4Inst.
From Verif.Thm Require Import Nf4CodeThm.
Import ListNotations.
Open Scope nat_scope.

(** ** RsNf4 *)

(** The decoders for the code [c]: any packet size, any build, any contents of the memory of the context. *)
Definition nf4_decoder (c : nf4code) (ws : nat) (d : pdec) : Prop :=
  exists nh pkt junk1 junk2 b1 mx, nh <= 2 /\ 0 < pkt /\ length junk1 = nf_n c /\ length junk2 = nf_l2 c /\
    length b1 = nf_l2 c /\ length mx = Nat.max (nf_n c) (nf_l2 c) /\ d = nf4_pdec nh c pkt ws junk1 junk2 b1 mx.

(** Words of 2, 4 and 8 bytes: blocks and streams come back from any [k] fragments; with fewer, nothing is done.  Missing:
    the other word sizes, see [C55_word_size_refuted], and the other codes, see [C55_other_codes_refuted]. *)
Theorem C55_nf4_partial B w ws k m : In ws [2; 4; 8] -> nf4_type B w (ws / 2) -> In w [32; 64; 128]%N -> nf4_sizes k m ->
  exists c, nf4_new B w ws k m = Some c /\
  forall nh pkt, nh <= 2 -> 0 < pkt ->
    vblocks_back ws k m (nf_n c) (nf4_penc nh c pkt ws) (nf4_decoder c ws) /\
    vstreams_back ws k m (nf_n c) (nf4_penc nh c pkt ws) (nf4_decoder c ws) /\
    forall d, nf4_decoder c ws d -> vtoo_few k m d.
Proof.
  intros Hws HT Hw Hs.
  assert (Hws' : ws = 2 \/ ws = 4 \/ ws = 8) by (destruct Hws as [<-|[<-|[<-|[]]]]; auto).
  destruct (nf4_new_sim B w ws k m) as (c & c' & cw & L & L2 & d & Ec & HS & _ & _ & Ee & Ek & El & Hn); auto; [lia|].
  rewrite <- El in Hn. exists c. split; [exact Ec|]. intros nh pkt Hnh Hpkt.
  pose proof (nf4_cols c c' cw L L2 d HS ws Hws' Ee) as CO. pose proof (nf4_enc c c' cw L L2 d HS Hn ws Hws' Ee nh pkt Hnh Hpkt) as EO.
  assert (HD : forall p, nf4_decoder c ws p -> exists ready, VLoops.dec_ok ws k (k + m) (wcw c cw) (wmk c cw) p ready).
  { intros p (nh' & pkt' & junk1 & junk2 & b1 & mx & H1 & H2 & H3 & H4 & H5 & H6 & ->). rewrite <- El, <- Ek.
    now apply (nf4_dec c c' cw L L2 d HS Hn ws Hws' Ee). }
  rewrite Ek, El in *. split; [|split].
  - exact (vblocks_ok _ _ _ _ _ _ CO m eq_refl _ HD _ EO).
  - exact (vstreams_ok _ _ _ _ _ _ CO m eq_refl _ HD _ EO).
  - intros p (nh' & pkt' & junk1 & junk2 & b1 & mx & _ & _ & _ & _ & _ & _ & ->). apply vtoo_few_ok; cbn; auto. apply Hs.
Qed.

(** ** The other codes and the other word sizes *)

(** The fragments and their records do not depend on the data: no decoder can get them back. *)
Section Blind.
Variable e : penc.
Hypothesis Hb : (forall out ps o words words', fst (pe_encode e out ps o words) = fst (pe_encode e out ps o words')) \/
  word_size_ok (pe_ws e) = false.

Definition same_bufs (b b' : ebufs) : Prop :=
  b_out b = b_out b' /\ b_oc b = b_oc b' /\ (word_size_ok (pe_ws e) = false -> b_words b = b_words b').
Lemma blind_pkt o wc wc' b b' ps : same_bufs b b' ->
  match pencode_pkt e o wc b ps, pencode_pkt e o wc' b' ps with
  | Some (b1, ps1), Some (b2, ps2) => same_bufs b1 b2 /\ ps1 = ps2
  | None, None => True | _, _ => False end.
Proof.
  intros (S1 & S2 & S3). unfold pencode_pkt. destruct (pe_bytes e <? pe_ws e); auto. rewrite S1, <- S2. unfold pack_words.
  destruct (word_size_ok (pe_ws e)) eqn:Ew.
  - destruct Hb as [H|H]; [|congruence].
    pose proof (H (b_out b') ps (N.of_nat o) (map (pack_buf (pe_ws e) (pe_pkt e)) wc) (map (pack_buf (pe_ws e) (pe_pkt e)) wc')) as E.
    destruct (pe_encode e _ _ _ (map _ wc)) as [[o1 p1] w1], (pe_encode e _ _ _ (map _ wc')) as [[o2 p2] w2]. cbn [fst] in E. injection E as -> ->.
    split; auto. split; [reflexivity|]. split; [reflexivity|]. congruence.
  - rewrite S3 by auto. destruct (pe_encode e _ _ _ _) as [[o1 p1] w1]. now repeat split.
Qed.
Lemma blind_loop data data' wanted bs fuel : forall o b b' par ps, same_bufs b b' ->
  pencode_loop fuel e data wanted bs o b par ps = pencode_loop fuel e data' wanted bs o b' par ps.
Proof.
  induction fuel as [|f IH]; intros o b b' par ps Hs; cbn [pencode_loop]; auto. destruct (o <? bs); auto. cbv zeta.
  pose proof (fun wc wc' => blind_pkt o wc wc' b b' ps Hs) as P.
  match goal with |- match ?x with _ => _ end = match ?y with _ => _ end => assert (Q : match x, y with
    | Some (b1, ps1), Some (b2, ps2) => same_bufs b1 b2 /\ ps1 = ps2 | None, None => True | _, _ => False end) by apply P; destruct x as [[b1 ps1]|], y as [[b2 ps2]|] end;
    auto; try contradiction.
  destruct Q as [Q <-]. destruct Q as (Q1 & Q2 & Q3). rewrite Q2. apply IH. repeat split; auto.
Qed.
Lemma blind_blocks b data data' par ps wanted bytes : length data = length data' ->
  pencode_blocks e b data par ps wanted bytes = pencode_blocks e b data' par ps wanted bytes.
Proof. intros L. unfold pencode_blocks. rewrite L. destruct (_ && _); auto. apply blind_loop. now repeat split. Qed.

Definition same_read (r r' : rstate) : Prop := rs_bytes r = rs_bytes r' /\ rs_cont r = rs_cont r' /\
  Forall2 (fun s s' => is_fail s = is_fail s' /\ length (is_rest s) = length (is_rest s')) (rs_in r) (rs_in r').
Lemma blind_read k size r r' : same_read r r' -> same_read (read_turn k size r) (read_turn k size r').
Proof.
  intros H. unfold read_turn. apply (fold_rel _ _ _ same_read); auto. clear. intros r r' i _ (H1 & H2 & H3). unfold read_one, stream_read.
  set (R := fun s s' : istream => is_fail s = is_fail s' /\ length (is_rest s) = length (is_rest s')) in *.
  assert (G : R (get (mkIs [] true) (rs_in r) i) (get (mkIs [] true) (rs_in r') i)) by (apply rel_get; auto; now split).
  destruct G as [G1 G2]. rewrite G1, G2.
  set (s := get _ (rs_in r) i) in *. set (s' := get _ (rs_in r') i) in *. destruct (is_fail s') eqn:Ef.
  - split; [reflexivity|]. split; [reflexivity|]. cbn [rs_in]. apply rel_set; auto. split; auto. congruence.
  - destruct (size <=? length (is_rest s')).
    + split; [exact H1|]. split; [exact H2|]. cbn [rs_in]. apply rel_set; auto. split; cbn [is_fail is_rest]; [reflexivity|]. rewrite !skipn_length. lia.
    + split; [cbn [rs_bytes]; rewrite !firstn_length; lia|]. split; [reflexivity|]. cbn [rs_in]. now apply rel_set.
Qed.
Lemma blind_sloop fuel : forall o r r' b b' outs ps, same_read r r' -> same_bufs b b' ->
  pencode_sloop fuel e o r b outs ps = pencode_sloop fuel e o r' b' outs ps.
Proof.
  induction fuel as [|f IH]; intros o r r' b b' outs ps Hr Hs; cbn [pencode_sloop]; auto.
  pose proof (blind_read (pe_k e) (pe_pkt e * pe_ws e) r r' Hr) as R.
  generalize dependent (read_turn (pe_k e) (pe_pkt e * pe_ws e) r). generalize (read_turn (pe_k e) (pe_pkt e * pe_ws e) r'). intros t' t R.
  pose proof R as (R1 & R2 & _). rewrite R1, R2. destruct (rs_bytes t' =? 0); auto.
  pose proof (blind_pkt o (rs_wc t) (rs_wc t') b b' ps Hs) as P.
  destruct (pencode_pkt e o (rs_wc t) b ps) as [[b1 ps1]|], (pencode_pkt e o (rs_wc t') b' ps) as [[b2 ps2]|]; auto; try contradiction.
  destruct P as [Q <-]. pose proof Q as (Q1 & Q2 & Q3). rewrite Q2. destruct (rs_cont t'); auto.
Qed.
Lemma blind_streams b data data' outs ps : Forall2 (fun x y => length x = length y) data data' ->
  pencode_streams e b data outs ps = pencode_streams e b data' outs ps.
Proof.
  intros L. unfold pencode_streams. rewrite (rel_len _ _ _ L). destruct (_ && _); auto.
  assert (E : length (get [] data 0) = length (get [] data' 0)) by (unfold get; destruct L; auto). rewrite E.
  apply blind_sloop; [|repeat split; auto]. split; [reflexivity|]. split; [reflexivity|]. cbn [rs_in]. apply (rel_maps (fun x y => length x = length y)); auto.
Qed.
End Blind.

(** No decoder gets the data back from fragments that do not depend on them. *)
Section NoDecoder.
Variables (ws k m outlen : nat) (e : penc).
Hypothesis ws0 : 0 < ws.
Hypothesis k0 : 0 < k.
Hypothesis Hb : (forall out ps o words words', fst (pe_encode e out ps o words) = fst (pe_encode e out ps o words')) \/
  word_size_ok (pe_ws e) = false.

Let zeros := repeat (repeat 0%N ws) k.
Let ones := repeat (repeat 1%N ws) k.
Lemma blocks_rep a n : (a < 256)%N -> blocks n ws (repeat (repeat a ws) n).
Proof.
  intros Ha. split; [apply repeat_length|]. intros i Hi. rewrite (nth_indep _ [] (repeat a ws)) by (now rewrite repeat_length).
  rewrite nth_repeat, repeat_length. split; auto. apply Forall_forall. intros x Hx. apply repeat_spec in Hx. now subst.
Qed.
Lemma nth_true n i : i < n -> nth i (repeat true n) false = true.
Proof. intros H. rewrite (nth_indep _ false true) by (now rewrite repeat_length). apply nth_repeat. Qed.
Lemma nth_false n i : i < n -> nth i (repeat false n) true = false.
Proof. intros H. rewrite (nth_indep _ true false) by (now rewrite repeat_length). apply nth_repeat. Qed.
Lemma all_present : k <= length (Session.present k m (repeat false (k + m))).
Proof.
  unfold Session.present. assert (E : forall l, (forall i, In i l -> i < k + m) -> filter (fun i => negb (nth i (repeat false (k + m)) true)) l = l).
  { induction l as [|i l IH]; intros H; [reflexivity|]. cbn [filter]. rewrite nth_false by (apply H; now left). cbn [negb]. f_equal. apply IH.
    intros j Hj. apply H. now right. }
  rewrite E by (intros i Hi; apply in_seq in Hi; lia). rewrite seq_length. lia.
Qed.
Lemma first_rep (a : N) j : j < k -> nth j (repeat (repeat a ws) k) [] = repeat a ws.
Proof. intros H. rewrite (nth_indep _ [] (repeat a ws)) by (now rewrite repeat_length). apply nth_repeat. Qed.
Lemma ne_01 : repeat 0%N ws <> repeat 1%N ws.
Proof. destruct ws; [lia|]. discriminate. Qed.

Lemma no_blocks (D : pdec -> Prop) d : D d -> ~ vblocks_back ws k m outlen e D.
Proof.
  intros Hd V.
  set (b := mkEbufs (repeat (repeat 0%N (pe_pkt e * ws)) k) [] (repeat [] outlen) []).
  set (q := mkDbufs (repeat (repeat 0%N (pd_pkt d * ws)) k) [] []).
  assert (Eb : enc_buffers ws k outlen e b).
  { split; [apply repeat_length|]. split; [|apply repeat_length]. intros i Hi. cbn [b_wc b].
    rewrite (nth_indep _ [] (repeat 0%N (pe_pkt e * ws))) by (now rewrite repeat_length). now rewrite nth_repeat, repeat_length. }
  assert (Eq : dec_buffers ws k d q).
  { split; [apply repeat_length|]. intros i Hi. cbn [q_wc q].
    rewrite (nth_indep _ [] (repeat 0%N (pd_pkt d * ws))) by (now rewrite repeat_length). now rewrite nth_repeat, repeat_length. }
  set (par := repeat (repeat 0%N ws) (k + m)). set (ps := repeat ([] : props) (k + m)). set (wanted := repeat true (k + m)).
  assert (Back : forall a, (a < 256)%N -> exists par' ps', pencode_blocks e b (repeat (repeat a ws) k) par ps wanted ws = Some (par', ps') /\
     length par' = k + m /\ length ps' = k + m /\
     exists ps'', pdecode_blocks d q zeros par' ps' (repeat false (k + m)) (repeat true k) ws = Some (true, repeat (repeat a ws) k, ps'')).
  { intros a Ha. destruct (V b (repeat (repeat a ws) k) par ps wanted ws Eb) as (par' & ps' & E & [Lp _] & Ls & Dec).
    - apply Nat.mod_same. lia.
    - now apply blocks_rep.
    - now apply blocks_rep.
    - apply repeat_length.
    - exists par', ps'. split; [exact E|]. split; [exact Lp|]. split; [exact Ls|].
      destruct (Dec d q (repeat false (k + m)) (repeat true k) zeros par' ps') as (ps'' & E2); auto.
      + now apply blocks_rep.
      + split; [discriminate|]. split; [exact Lp|]. split; [exact Ls|]. intros i Hi _. split; auto.
      + intros i Hi _. now apply nth_true.
      + apply all_present.
      + exists ps''. rewrite E2. do 3 f_equal. apply (list_ext _ []); [now rewrite map_length, seq_length, repeat_length|].
        intros j Hj. rewrite map_length, seq_length in Hj. rewrite nth_map_seq, nth_true by auto. reflexivity. }
  destruct (Back 0%N eq_refl) as (p0 & s0 & E0 & _ & _ & ps0 & D0). destruct (Back 1%N eq_refl) as (p1 & s1 & E1 & _ & _ & ps1 & D1).
  rewrite (blind_blocks e Hb b _ (repeat (repeat 1%N ws) k)) in E0 by (now rewrite !repeat_length).
  assert (E : Some (p0, s0) = Some (p1, s1)) by congruence. injection E as -> ->.
  assert (Z : zeros = ones) by (unfold zeros, ones; congruence). apply ne_01. rewrite <- (first_rep 0%N 0 k0), <- (first_rep 1%N 0 k0). exact (f_equal (fun l => nth 0 l []) Z).
Qed.

Lemma no_streams (D : pdec -> Prop) d : D d -> ~ vstreams_back ws k m outlen e D.
Proof.
  intros Hd V.
  set (b := mkEbufs (repeat (repeat 0%N (pe_pkt e * ws)) k) [] (repeat [] outlen) []).
  set (q := mkDbufs (repeat (repeat 0%N (pd_pkt d * ws)) k) [] []).
  assert (Eb : enc_buffers ws k outlen e b).
  { split; [apply repeat_length|]. split; [|apply repeat_length]. intros i Hi. cbn [b_wc b].
    rewrite (nth_indep _ [] (repeat 0%N (pe_pkt e * ws))) by (now rewrite repeat_length). now rewrite nth_repeat, repeat_length. }
  assert (Eq : dec_buffers ws k d q).
  { split; [apply repeat_length|]. intros i Hi. cbn [q_wc q].
    rewrite (nth_indep _ [] (repeat 0%N (pd_pkt d * ws))) by (now rewrite repeat_length). now rewrite nth_repeat, repeat_length. }
  set (old := repeat ([] : list N) (k + m)). set (ps := repeat ([] : props) (k + m)).
  assert (Back : forall a, (a < 256)%N -> exists par' ps', pencode_streams e b (repeat (repeat a ws) k) old ps = Some (par', ps') /\
     exists ps'', pdecode_streams d q par' ps' (repeat false (k + m)) (repeat true k) (repeat [] k) = Some (true, repeat (repeat a ws) k, ps'')).
  { intros a Ha. destruct (V b (repeat (repeat a ws) k) old ps ws Eb) as (par' & ps' & E & [Lp _] & Ls & Dec).
    - apply Nat.mod_same. lia.
    - now apply blocks_rep.
    - apply repeat_length.
    - apply repeat_length.
    - exists par', ps'. split.
      + rewrite E. do 2 f_equal. apply (list_ext _ []); [now rewrite map_length, seq_length|]. intros i Hi. rewrite map_length, seq_length in Hi.
        rewrite nth_map_seq by auto. unfold old. now rewrite nth_repeat.
      + destruct (Dec d q (repeat false (k + m)) (repeat true k) par' ps' (repeat [] k) zeros) as (ps'' & E2); auto using repeat_length, all_present.
        { split; [discriminate|]. split; [exact Lp|]. split; [exact Ls|]. intros i Hi _. split; auto. }
        exists ps''. rewrite E2. do 3 f_equal. apply (list_ext _ []); [now rewrite map_length, seq_length, repeat_length|].
        intros j Hj. rewrite map_length, seq_length in Hj. rewrite nth_map_seq, nth_true by auto. now rewrite nth_repeat. }
  destruct (Back 0%N eq_refl) as (p0 & s0 & E0 & ps0 & D0). destruct (Back 1%N eq_refl) as (p1 & s1 & E1 & ps1 & D1).
  assert (Ls : Forall2 (fun x y : list N => length x = length y) (repeat (repeat 0%N ws) k) (repeat (repeat 1%N ws) k)).
  { apply rel_repeat. now rewrite !repeat_length. }
  rewrite (blind_streams e Hb b _ _ _ _ Ls) in E0.
  assert (E : Some (p0, s0) = Some (p1, s1)) by congruence. injection E as -> ->.
  assert (Z : zeros = ones) by (unfold zeros, ones; congruence). apply ne_01. rewrite <- (first_rep 0%N 0 k0), <- (first_rep 1%N 0 k0). exact (f_equal (fun l => nth 0 l []) Z).
Qed.
End NoDecoder.

(** RsGf2n, RsGf2nFft, RsGf2nFftAdd and RsGfpFft have no encode on Buffers: whatever the decoders, the data are lost.  The
    fragments are what the memory of the buffers holds. *)
Theorem C55_other_codes_refuted bytes ws k m pkt outlen (D : pdec -> Prop) d : 0 < ws -> 0 < k -> D d ->
  ~ vblocks_back ws k m outlen (base_penc bytes ws k (k + m) pkt) D /\ ~ vstreams_back ws k m outlen (base_penc bytes ws k (k + m) pkt) D.
Proof. intros H1 H2 Hd. split; [apply (no_blocks _ _ _ _ _ H1 H2) with d|apply (no_streams _ _ _ _ _ H1 H2) with d]; auto; left; reflexivity. Qed.

(** Any code with words of 3, 5, 6, 7, 9 bytes, and so on: vec::pack does nothing.  RsNf4 accepts 3, 5, 6 and 7. *)
Theorem C55_word_size_refuted nh c pkt ws m (D : pdec -> Prop) d : word_size_ok ws = false -> 0 < ws -> 0 < nf_k c -> D d ->
  ~ vblocks_back ws (nf_k c) m (nf_n c) (nf4_penc nh c pkt ws) D /\ ~ vstreams_back ws (nf_k c) m (nf_n c) (nf4_penc nh c pkt ws) D.
Proof. intros Hw H1 H2 Hd. split; [apply (no_blocks _ _ _ _ _ H1 H2) with d|apply (no_streams _ _ _ _ _ H1 H2) with d]; auto. Qed.

(** Example: words of two bytes, two data fragments, four in all, blocks of two packets of one word.  Fragment 0 gets the
    number 65536, that has a record.  Decoding from fragments 0 and 3, with packets of two words. *)
Definition case_ebufs : ebufs := mkEbufs (repeat (repeat 7%N 2) 2) [] (repeat [] 4) [].
Definition case_dbufs : dbufs := mkDbufs (repeat (repeat 7%N 4) 2) [] [].
Definition case_blocks : list (list N) := [[255; 255; 1; 2]; [1; 0; 7; 255]]%N.
Definition case_nf4 : option nf4code := nf4_new Plain 32 2 2 2.
Definition case_dec (c : nf4code) : pdec := nf4_pdec 0 c 2 2 (repeat 3%N 4) (repeat 3%N 4) (repeat [] 4) (repeat [] 4).
Example C55_case : match case_nf4 with
  | Some c =>
      match pencode_blocks (nf4_penc 0 c 1 2) case_ebufs case_blocks (repeat (repeat 9%N 4) 4) (repeat [] 4) (repeat true 4) 4 with
      | Some (par, ps) => get [] ps 0 = [(0, 1)]%N /\
          option_map fst (pdecode_blocks (case_dec c) case_dbufs
            (repeat (repeat 5%N 4) 2) [get [] par 0; []; []; get [] par 3] ps [false; true; true; false] [true; true] 4) = Some (true, case_blocks)
      | None => False end
  | None => False end.
Proof. vm_compute. split; reflexivity. Qed.
Example C55_nf4_case : In 2 [2; 4; 8] /\ nf4_type Plain 32 (2 / 2) /\ In 32%N [32; 64; 128]%N /\ nf4_sizes 2 2 /\
  match case_nf4 with Some c => nf_n c = 4 /\ nf_l2 c = 4 /\ nf4_decoder c 2 (case_dec c) | None => False end.
Proof.
  split; [cbn; auto|]. split; [unfold nf4_type; cbn; lia|]. split; [cbn; auto|]. split; [apply C41_case|].
  assert (E : match case_nf4 with Some c => nf_n c = 4 /\ nf_l2 c = 4 | None => False end) by (vm_compute; split; reflexivity).
  destruct case_nf4 as [c|]; [|exact E]. destruct E as [E1 E2]. split; [exact E1|]. split; [exact E2|].
  exists 0, 2, (repeat 3%N 4), (repeat 3%N 4), (repeat [] 4), (repeat [] 4). rewrite E1, E2, !repeat_length. repeat split; auto.
Qed.
(** Words of three bytes are accepted. *)
Example C55_word_size_case : word_size_ok 3 = false /\ match nf4_new Plain 32 3 2 2 with Some c => nf_k c = 2 | None => False end.
Proof. vm_compute. split; reflexivity. Qed.

Print Assumptions C55_nf4_partial.
Print Assumptions C55_other_codes_refuted.
Print Assumptions C55_word_size_refuted.
