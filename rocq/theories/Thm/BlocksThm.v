(** Properties C01, C02, C05, C06, C07, C27, C28, C29 and C48: blocks encoded and decoded with the Fermat-field codes
    (src/fec_rs_fnt.h, src/fec_context.h, encode_blocks_vertical and decode_blocks_vertical of src/fec_base.h). *)
From Coq Require Import List NArith Arith Bool Lia Permutation.
From Verif.Model Require Import Common Arith Ring Fft2n Radix2 Poly Props Bytes Fnt Blocks.
From Verif.Spec Require Import Modular Code Blocks Widths Session.
From Verif.Proof Require Import ListP BytesP PropsP BlocksP FntInst BlocksF.
Import ListNotations.
Open Scope nat_scope.

(** The constructor succeeds for all the sizes that the field allows, with and without SIMD. *)
Theorem C01_constructor nh w sys ws k m pkt : fnt_width w ws -> fnt_build nh w ws -> fnt_sizes ws k m -> 0 < pkt ->
  exists c, fnt_new nh w sys ws k m pkt = Some c /\ fnt_object w sys ws k m pkt c.
Proof.
  intros Hw Hb Hs Hp. destruct (object_made w sys ws k m Hw Hs) as (_ & _ & _ & _ & _ & H & _). exact (H nh pkt Hb Hp).
Qed.

(** * C01, C02: any [k] fragments give the data back.
    Blocks of [bytes] bytes, a multiple of the word size.  The buffers that the functions use, the output blocks before
    encoding, the blocks that stand for the lost fragments and the destination buffers hold anything. *)
Definition recovers (sys : bool) : Prop := forall w ws k m pkt c xe es wc out data par ps wanted bytes,
  fnt_object w sys ws k m pkt c -> encoder_buffers c xe es wc out -> bytes mod ws = 0 ->
  blocks k bytes data -> blocks (n_outs sys k m) bytes par -> length ps = n_outs sys k m ->
  exists es' par' ps', encode_blocks c xe es wc out data par ps wanted bytes = Some (es', par', ps') /\
  forall missing wanted' buf rpar rps wc' ds junk1 junk2,
    decoder_buffers c junk1 junk2 wc' ds -> blocks k bytes buf ->
    received sys k m missing data par' ps' buf rpar rps ->
    (forall q, q < n_outs sys k m -> nth (position sys k q) missing true = false -> nth q wanted false = true) ->
    k <= length (present k m missing) ->
    exists buf' ps'', decode_blocks c junk1 junk2 wc' ds buf rpar rps missing wanted' bytes = Some (true, buf', ps'') /\
      forall j, j < k -> nth j wanted' false = true -> nth j buf' [] = nth j data [].

Lemma recovers_all sys : recovers sys.
Proof.
  intros w ws k m pkt c xe es wc out data par ps wanted bytes HO He Hb Hd Hp Lps.
  assert (Hw : fnt_width w ws) by apply HO. pose proof (ws_pos w ws Hw) as W0.
  assert (Eb : bytes / ws * ws = bytes). { pose proof (Nat.div_mod bytes ws ltac:(lia)). lia. }
  destruct (roundtrip w sys ws k m pkt pkt c c xe es wc out data par ps wanted bytes HO HO He Hd (proj1 Hp) Lps) as (es' & par' & ps' & E & D).
  - intros q Hq _. rewrite (proj1 (proj2 Hp q Hq)). lia.
  - exists es', par', ps'. split; [exact E|]. intros missing wanted' buf rpar rps wc' ds junk1 junk2 H1 H2 H3 H4 H5.
    destruct (D missing wanted' buf rpar rps wc' ds junk1 junk2 H1 H2 H3 H4 H5) as (ps'' & R).
    eexists _, ps''. split; [exact R|]. intros j Hj Hwj. rewrite nth_map_seq by auto. rewrite Hwj, Eb.
    destruct (proj2 Hd j Hj) as [L1 _], (proj2 H2 j Hj) as [L2 _].
    rewrite firstn_all2 by lia. rewrite skipn_all2 by lia. apply app_nil_r.
Qed.

Theorem C01_roundtrip : recovers false.
Proof. exact (recovers_all false). Qed.

Theorem C02_roundtrip : recovers true.
Proof. exact (recovers_all true). Qed.

(** * C05: fewer than [k] fragments: refused, nothing written.  (With [k] or more the result is true: C01, C02.) *)
Theorem C05_too_few w sys ws k m pkt c missing wanted buf par (ps : list props) wc ds junk1 junk2 bytes :
  fnt_object w sys ws k m pkt c -> length (present k m missing) < k ->
  length buf = k -> length par = n_outs sys k m -> length ps = n_outs sys k m ->
  decode_blocks c junk1 junk2 wc ds buf par ps missing wanted bytes = Some (false, buf, ps).
Proof. exact (few w sys ws k m pkt c missing wanted buf par ps wc ds junk1 junk2 bytes). Qed.

(** * C06: systematic packets: the data come back unchanged (third component) and the parities are values of the
    polynomial of degree below [k] through the data ([poly_code true]), at the points [k .. k+m-1] of the [n] powers of
    [r], all different. *)
Theorem C06_systematic w ws k m : fnt_width w ws -> fnt_sizes ws k m ->
  exists cw r n, poly_code true (256 ^ N.of_nat ws + 1) r n k cw /\ k + m <= n /\
  forall pkt c xe es wc out f, fnt_object w true ws k m pkt c -> encoder_buffers c xe es wc out ->
   (forall j t, j < k -> t < pkt -> (f j t <= 256 ^ N.of_nat ws)%N) ->
   exists es', encode_words (c_K c) c xe es out (pkts k pkt f) =
     (es', pkts m pkt (fun i t => cw (fun j => f j t) (k + i)), pkts k pkt f).
Proof. exact (systematic_words w ws k m). Qed.

(** * C07: records.  [coded ws cw data p t] is the symbol at word [t] of the fragment at codeword position [p]. *)
Theorem C07_recorded w sys ws k m : fnt_width w ws -> fnt_sizes ws k m ->
  exists cw r n, poly_code sys (256 ^ N.of_nat ws + 1) r n k cw /\ k + m <= n /\
  forall pkt c xe es wc out data par ps wanted bytes, fnt_object w sys ws k m pkt c -> encoder_buffers c xe es wc out ->
   blocks k bytes data -> blocks (n_outs sys k m) bytes par -> length ps = n_outs sys k m ->
   exists es' par' ps', encode_blocks c xe es wc out data par ps wanted bytes = Some (es', par', ps') /\
    forall q, q < n_outs sys k m ->
     let symbols := coded ws cw data (position sys k q) in
     let rec := nth q ps' [] in
     (forall o mk, In (o, mk) rec <-> mk = 1%N /\ exists t, t < bytes / ws /\ o = N.of_nat t /\ symbols t = (256 ^ N.of_nat ws)%N) /\
     (forall i j, i < j -> j < length rec -> (fst (nth i rec (0, 0)) < fst (nth j rec (0, 0)))%N) /\
     (nth q wanted false = true -> forall t, t < bytes / ws ->
        symbol ws (nth q par' []) t = if (symbols t =? 256 ^ N.of_nat ws)%N then 0%N else symbols t).
Proof.
  intros Hw Hs. destruct (object_made w sys ws k m Hw Hs) as (cw & r & n & HP & Hn & _ & H). exists cw, r, n.
  split; [exact HP|]. split; [exact Hn|]. intros pkt c xe es wc out data par ps wanted bytes HO He Hd Hp Lps.
  assert (Hpk : 0 < pkt) by apply HO. pose proof (div_mul_le w ws Hw bytes) as Hle.
  destruct (encode_made w sys ws k m Hw pkt n cw c Hpk (H _ _ HO) data bytes Hd xe es wc out par ps wanted He (proj1 Hp) Lps) as (es' & _ & E).
  { intros q Hq _. rewrite (proj1 (proj2 Hp q Hq)). exact Hle. }
  do 3 eexists. split; [exact E|]. intros q Hq symbols rec. unfold rec. rewrite !nth_map_seq by auto.
  split; [exact (record_in _ _ _)|]. split; [exact (record_sorted _ _ _)|].
  intros Hwq t Ht. rewrite Hwq. rewrite symbol_overwrite; [|apply (ws_pos w ws Hw)|rewrite (proj1 (proj2 Hp q Hq)); exact Hle|exact Ht].
  fold symbols. destruct (made_parts _ _ _ _ _ _ _ _ _ (H _ _ HO)) as (CS & _ & _ & E1 & _ & _ & _ & E5 & _).
  assert (X : (symbols t <= 256 ^ N.of_nat ws)%N).
  { pose proof (cs_lt _ _ CS (fun j => symbol ws (nth j data []) t) (position sys k q)) as Y. rewrite E5, E1 in Y.
    unfold symbols, coded. lia. }
  destruct (N.eqb_spec (symbols t) (256 ^ N.of_nat ws)) as [->|]; [|apply N.mod_small; lia].
  apply N.mod_same, N.pow_nonzero. discriminate.
Qed.

(** Decoding: the packets of a fragment, cut to bytes (256^ws becomes 0), given one after the other to the restoring loop
    with the records in any order: every symbol is put back. *)
Theorem C07_restored h f bs pkt (ps : props) np : (0 < h)%N -> (forall t, f t <= h)%N -> Permutation ps (record h f bs) ->
  restore_run h (props_sort ps) pkt 0 0 (map (packet (fun t => (f t mod h)%N) bs pkt) (seq 0 np)) =
  map (packet f bs pkt) (seq 0 np).
Proof. intros H1 H2 H3. exact (restore_run_spec h f bs pkt ps H1 H2 H3 np). Qed.

(** * C27: pack and unpack.  (The signed/unsigned byte types of vec_cast.h do not matter: words are unsigned.) *)
Theorem C27_pack_unpack ws n bytes : 0 < ws -> length bytes = n * ws -> all_bytes bytes ->
  unpack_buf ws (pack_buf ws n bytes) = bytes /\ length (pack_buf ws n bytes) = n.
Proof.
  intros H0 Hl Hb. split; [|unfold pack_buf; now rewrite map_length, seq_length].
  pose proof (words_then_self ws bytes n bytes Hb ltac:(lia)) as E.
  rewrite firstn_skipn in E. unfold words_then in E. rewrite skipn_all2, app_nil_r in E by lia.
  unfold unpack_buf, pack_buf. rewrite flat_map_concat_map, map_map, <- flat_map_concat_map. exact E.
Qed.

Theorem C27_unpack_pack ws els : 0 < ws ->
  pack_buf ws (length els) (unpack_buf ws els) = map (fun v => (v mod 256 ^ N.of_nat ws)%N) els /\
  length (unpack_buf ws els) = length els * ws /\ all_bytes (unpack_buf ws els).
Proof.
  intros H0.
  assert (L : length (unpack_buf ws els) = length els * ws).
  { unfold unpack_buf. induction els as [|a l IH]; [reflexivity|]. cbn [flat_map]. rewrite app_length, bytes_of_word_length, IH. cbn. lia. }
  split; [|split; [exact L|]].
  - unfold pack_buf. clear L. induction els as [|a l IH]; [reflexivity|].
    cbn [length seq map unpack_buf flat_map]. f_equal.
    + unfold slice. cbn [Nat.mul skipn]. rewrite firstn_app, bytes_of_word_length, Nat.sub_diag, firstn_O, app_nil_r, firstn_all2
        by (rewrite bytes_of_word_length; lia). apply word_bytes.
    + rewrite <- IH, <- seq_shift, map_map. apply map_ext. intros i. unfold slice. f_equal. f_equal.
      rewrite skipn_app, bytes_of_word_length, skipn_all2 by (rewrite bytes_of_word_length; cbn; lia).
      cbn [app]. f_equal. cbn. lia.
  - apply Forall_forall. intros b Hb. unfold unpack_buf in Hb. apply in_flat_map in Hb. destruct Hb as (v & _ & Hb).
    revert b Hb. apply Forall_forall. apply bytes_of_word_bytes.
Qed.

(** * C28: two code objects that differ only by the packet size. *)
Theorem C28_encoding w sys ws k m pkt pkt' c c' xe xe' es es' wc wc' out out' data par ps wanted bytes :
  fnt_object w sys ws k m pkt c -> fnt_object w sys ws k m pkt' c' ->
  encoder_buffers c xe es wc out -> encoder_buffers c' xe' es' wc' out' ->
  blocks k bytes data -> blocks (n_outs sys k m) bytes par -> length ps = n_outs sys k m ->
  exists r1 r2 par' ps', encode_blocks c xe es wc out data par ps wanted bytes = Some (r1, par', ps') /\
    encode_blocks c' xe' es' wc' out' data par ps wanted bytes = Some (r2, par', ps').
Proof.
  intros HO HO' He He' Hd Hp Lps.
  assert (Hw : fnt_width w ws) by apply HO. assert (Hs : fnt_sizes ws k m) by apply HO.
  destruct (encode_result w sys ws k m Hw Hs) as (cw & r & n & _ & _ & H). pose proof (div_mul_le w ws Hw bytes) as Hle.
  assert (Hpar : forall q, q < n_outs sys k m -> nth q wanted false = true -> bytes / ws * ws <= length (nth q par [])).
  { intros q Hq _. rewrite (proj1 (proj2 Hp q Hq)). exact Hle. }
  destruct (H pkt c xe es wc out data par ps wanted bytes HO He Hd (proj1 Hp) Lps Hpar) as (r1 & _ & R1).
  destruct (H pkt' c' xe' es' wc' out' data par ps wanted bytes HO' He' Hd (proj1 Hp) Lps Hpar) as (r2 & _ & R2).
  exists r1, r2. do 2 eexists. split; [exact R1|exact R2].
Qed.

(** Fragments encoded with packets of [pkt] symbols decode to the same blocks with packets of [pkt1] and of [pkt2]. *)
Theorem C28_decoding w sys ws k m pkt pkt1 pkt2 c c1 c2 xe es wc out data par ps wanted bytes :
  fnt_object w sys ws k m pkt c -> fnt_object w sys ws k m pkt1 c1 -> fnt_object w sys ws k m pkt2 c2 ->
  encoder_buffers c xe es wc out ->
  blocks k bytes data -> blocks (n_outs sys k m) bytes par -> length ps = n_outs sys k m ->
  exists es' par' ps', encode_blocks c xe es wc out data par ps wanted bytes = Some (es', par', ps') /\
  forall missing wanted' buf rpar rps wc1 ds1 j1 j1' wc2 ds2 j2 j2',
    decoder_buffers c1 j1 j1' wc1 ds1 -> decoder_buffers c2 j2 j2' wc2 ds2 -> blocks k bytes buf ->
    received sys k m missing data par' ps' buf rpar rps ->
    (forall q, q < n_outs sys k m -> nth (position sys k q) missing true = false -> nth q wanted false = true) ->
    k <= length (present k m missing) ->
    exists buf' p1 p2, decode_blocks c1 j1 j1' wc1 ds1 buf rpar rps missing wanted' bytes = Some (true, buf', p1) /\
      decode_blocks c2 j2 j2' wc2 ds2 buf rpar rps missing wanted' bytes = Some (true, buf', p2).
Proof.
  intros HO H1 H2 He Hd Hp Lps. assert (Hw : fnt_width w ws) by apply HO. pose proof (div_mul_le w ws Hw bytes) as Hle.
  assert (Hpar : forall q, q < n_outs sys k m -> nth q wanted false = true -> bytes / ws * ws <= length (nth q par [])).
  { intros q Hq _. rewrite (proj1 (proj2 Hp q Hq)). exact Hle. }
  destruct (roundtrip w sys ws k m pkt pkt1 c c1 xe es wc out data par ps wanted bytes HO H1 He Hd (proj1 Hp) Lps Hpar) as (a & b & d & E & D1).
  destruct (roundtrip w sys ws k m pkt pkt2 c c2 xe es wc out data par ps wanted bytes HO H2 He Hd (proj1 Hp) Lps Hpar) as (a' & b' & d' & E' & D2).
  rewrite E in E'. injection E' as <- <- <-. exists a, b, d. split; [exact E|].
  intros missing wanted' buf rpar rps wc1 ds1 j1 j1' wc2 ds2 j2 j2' B1 B2 Hb Hr Hwa Hen.
  destruct (D1 missing wanted' buf rpar rps wc1 ds1 j1 j1' B1 Hb Hr Hwa Hen) as (p1 & R1).
  destruct (D2 missing wanted' buf rpar rps wc2 ds2 j2 j2' B2 Hb Hr Hwa Hen) as (p2 & R2).
  eexists _, p1, p2. split; [exact R1|exact R2].
Qed.

(** * C29: what is not wanted is not written, nor anything after the last full word; any block length. *)
Theorem C29_encoding w sys ws k m pkt c xe es wc out data par ps wanted bytes :
  fnt_object w sys ws k m pkt c -> encoder_buffers c xe es wc out ->
  blocks k bytes data -> length par = n_outs sys k m -> length ps = n_outs sys k m ->
  (forall q, q < n_outs sys k m -> nth q wanted false = true -> bytes / ws * ws <= length (nth q par [])) ->
  exists es' par' ps', encode_blocks c xe es wc out data par ps wanted bytes = Some (es', par', ps') /\
   length par' = length par /\ forall q, q < n_outs sys k m ->
     if nth q wanted false then
       length (nth q par' []) = length (nth q par []) /\
       forall b, bytes / ws * ws <= b -> nth b (nth q par' []) 0%N = nth b (nth q par []) 0%N
     else nth q par' [] = nth q par [].
Proof.
  intros HO He Hd Lp Lps Hpar. assert (Hw : fnt_width w ws) by apply HO. assert (Hs : fnt_sizes ws k m) by apply HO.
  destruct (encode_result w sys ws k m Hw Hs) as (cw & r & n & _ & _ & H).
  destruct (H pkt c xe es wc out data par ps wanted bytes HO He Hd Lp Lps Hpar) as (r1 & _ & R1).
  do 3 eexists. split; [exact R1|]. split; [rewrite map_length, seq_length; auto|]. intros q Hq. rewrite nth_map_seq by auto.
  destruct (nth q wanted false) eqn:Eq; [|reflexivity]. specialize (Hpar q Hq Eq). split; [now apply overwrite_length|].
  intros b Hb. unfold overwrite. rewrite app_nth2 by (rewrite map_length, seq_length; lia).
  rewrite map_length, seq_length, nth_skipn. f_equal. lia.
Qed.

Theorem C29_decoding w sys ws k m pkt c xe es wc out data par ps wanted bytes :
  fnt_object w sys ws k m pkt c -> encoder_buffers c xe es wc out ->
  blocks k bytes data -> blocks (n_outs sys k m) bytes par -> length ps = n_outs sys k m ->
  exists es' par' ps', encode_blocks c xe es wc out data par ps wanted bytes = Some (es', par', ps') /\
  forall missing wanted' buf rpar rps wc' ds junk1 junk2,
    decoder_buffers c junk1 junk2 wc' ds -> blocks k bytes buf ->
    received sys k m missing data par' ps' buf rpar rps ->
    (forall q, q < n_outs sys k m -> nth (position sys k q) missing true = false -> nth q wanted false = true) ->
    k <= length (present k m missing) ->
    exists buf' ps'', decode_blocks c junk1 junk2 wc' ds buf rpar rps missing wanted' bytes = Some (true, buf', ps'') /\
      length buf' = k /\ forall j, j < k ->
      if nth j wanted' false then
        length (nth j buf' []) = bytes /\
        forall b, nth b (nth j buf' []) 0%N = nth b (nth j (if b <? bytes / ws * ws then data else buf) []) 0%N
      else nth j buf' [] = nth j buf [].
Proof.
  intros HO He Hd Hp Lps. assert (Hw : fnt_width w ws) by apply HO. pose proof (div_mul_le w ws Hw bytes) as Hle.
  assert (Hpar : forall q, q < n_outs sys k m -> nth q wanted false = true -> bytes / ws * ws <= length (nth q par [])).
  { intros q Hq _. rewrite (proj1 (proj2 Hp q Hq)). exact Hle. }
  destruct (roundtrip w sys ws k m pkt pkt c c xe es wc out data par ps wanted bytes HO HO He Hd (proj1 Hp) Lps Hpar) as (a & b & d & E & D).
  exists a, b, d. split; [exact E|]. intros missing wanted' buf rpar rps wc' ds junk1 junk2 B1 Hb Hr Hwa Hen.
  destruct (D missing wanted' buf rpar rps wc' ds junk1 junk2 B1 Hb Hr Hwa Hen) as (p & R).
  eexists _, p. split; [exact R|]. split; [rewrite map_length, seq_length; auto|]. intros j Hj. rewrite nth_map_seq by auto.
  destruct (nth j wanted' false); [|reflexivity].
  destruct (proj2 Hd j Hj) as [L1 _], (proj2 Hb j Hj) as [L2 _].
  set (e := bytes / ws * ws) in *. split; [rewrite app_length, firstn_length, skipn_length; lia|]. intros o.
  destruct (Nat.ltb_spec o e) as [Ho|Ho].
  - rewrite app_nth1 by (rewrite firstn_length; lia). rewrite nth_firstn. destruct (Nat.ltb_spec o e); [reflexivity|lia].
  - rewrite app_nth2 by (rewrite firstn_length; lia). rewrite firstn_length, nth_skipn. f_equal. lia.
Qed.

(** * C48: one context for a sequence of packets gives what contexts with any other contents of the buffers would give
    for each packet alone (for all symbols, whether or not they come from an encoder).  The record cursors are the object
    of C07_restored. *)
Theorem C48_reuse w sys ws k m pkt c ids junk1 junk2 x ds (fresh : list (list N) -> dscratch (list N)) packets :
  fnt_object w sys ws k m pkt c -> frags c ids -> length junk1 = c_n c -> length junk2 = c_l2 c ->
  ctx_new c ids junk1 junk2 = Some x -> ds_ok c ds -> (forall wds, ds_ok c (fresh wds)) ->
  (forall wds, In wds packets -> valid_words c wds) ->
  decode_seq c x ds packets =
  map (fun wds => firstn k (d_mx (decode_words (c_K c) c x (fresh wds) wds))) packets.
Proof. exact (decode_seq_fresh w sys ws k m pkt c ids junk1 junk2 x ds fresh packets). Qed.

(** * A concrete case: the code of 2 data and 2 more fragments on 1-byte words, 32-bit symbols, packets of 2 symbols,
    blocks of 3 bytes.  The first column is (255, 1): its symbol at the point 1 is 256.  All buffers hold 7 before. *)
Definition sevens (n len : nat) : list (list N) := repeat (repeat 7%N len) n.
Definition no_fft : radix2 := mkRadix2 0 0 0%N 0%N [] [] [] 0%N.
Definition case_fnt (sys : bool) : fnt :=
  match fnt_new 0 32 sys 1 2 2 2 with
  | Some c => c
  | None => fnt_make 0 32 sys 1 2 2 2 (prime_ops 32 257) 4 0%N no_fft no_fft []
  end.
Definition case_ctx (sys : bool) : ctx :=
  match ctx_new (case_fnt sys) [0; 1] (repeat 7%N 4) (repeat 7%N 4) with Some x => x | None => mkCtx [] [] [] end.
Definition case_data : list (list N) := [[255; 10; 3]; [1; 20; 4]]%N.
Definition case_es : escratch (list N) := mkEscratch (sevens 4 2) (sevens 4 2) [].
Definition case_ds : dscratch (list N) := mkDscratch (sevens 4 2) (sevens 4 2) (sevens 4 2).
Definition case_encode (sys : bool) :=
  encode_blocks (case_fnt sys) (case_ctx sys) case_es (sevens 2 2) (sevens (if sys then 2 else 4) 2) case_data
    (sevens (n_outs sys 2 2) 3) (repeat [] (n_outs sys 2 2)) (repeat true 4) 3.

Lemma case_object sys : fnt_object 32 sys 1 2 2 2 (case_fnt sys).
Proof.
  split; [left; split; [reflexivity|cbn; auto]|].
  split; [unfold fnt_sizes; cbn; repeat split; try lia; discriminate|]. split; [lia|].
  exists 0. split; [apply plain_fnt_build|]. unfold case_fnt. destruct (fnt_new 0 32 sys 1 2 2 2) eqn:E; [reflexivity|].
  assert (X : match fnt_new 0 32 sys 1 2 2 2 with Some _ => true | None => false end = true)
    by (destruct sys; vm_compute; reflexivity).
  rewrite E in X. discriminate.
Qed.

Lemma case_sizes sys : (c_n (case_fnt sys) = 4 /\ c_l2 (case_fnt sys) = 4) /\ c_sys (case_fnt sys) = sys /\ c_k (case_fnt sys) = 2 /\
  c_m (case_fnt sys) = 2 /\ c_pkt (case_fnt sys) = 2 /\ c_ws (case_fnt sys) = 1.
Proof. destruct sys; vm_compute; auto 10. Qed.

Example C01_encoder_case sys :
  encoder_buffers (case_fnt sys) (case_ctx sys) case_es (sevens 2 2) (sevens (if sys then 2 else 4) 2).
Proof.
  destruct (case_sizes sys) as ([En El] & Es & Ek & Em & Ep & Ew). split; [|split].
  - intros Hs. split; [unfold es_ok, c_max; rewrite En, El, Ek, Em; repeat split|].
    exists (repeat 7%N 4), (repeat 7%N 4). rewrite Ek, En, El. split; [|auto]. unfold case_ctx.
    destruct (ctx_new (case_fnt sys) [0; 1] (repeat 7%N 4) (repeat 7%N 4)) eqn:E; [exact E|].
    assert (X : match ctx_new (case_fnt sys) [0; 1] (repeat 7%N 4) (repeat 7%N 4) with Some _ => true | None => false end = true)
      by (destruct sys; vm_compute; reflexivity).
    rewrite E in X. discriminate.
  - rewrite Ek, Ep, Ew. intros i Hi. destruct i as [|[|i]]; [reflexivity|reflexivity|lia].
  - unfold c_outlen. rewrite Es, Em, En. destruct sys; reflexivity.
Qed.

Example C01_decoder_case sys : decoder_buffers (case_fnt sys) (repeat 7%N 4) (repeat 7%N 4) (sevens 2 2) case_ds.
Proof.
  destruct (case_sizes sys) as ([En El] & Es & Ek & Em & Ep & Ew). unfold decoder_buffers, ds_ok, c_max.
  rewrite En, El, Ek, Ep, Ew. repeat split. intros i Hi. destruct i as [|[|i]]; [reflexivity|reflexivity|lia].
Qed.

Example C01_data_case : blocks 2 3 case_data.
Proof.
  split; [reflexivity|]. intros i Hi. destruct i as [|[|i]]; [| |lia]; (split; [reflexivity|repeat constructor]).
Qed.

(** The encoder's results: the non-systematic code has special values in fragments 0 and 2. *)
Example C07_case : option_map (fun r => (snd (fst r), snd r)) (case_encode false) =
  Some ([[0; 30; 7]; [239; 204; 196]; [254; 247; 0]; [14; 73; 67]]%N, [[(0, 1)]; []; [(2, 1)]; []]%N).
Proof. vm_compute. reflexivity. Qed.

Example C06_case : option_map (fun r => (snd (fst r), snd r)) (case_encode true) =
  Some ([[210; 117; 245]; [207; 107; 244]]%N, [[]; []]%N).
Proof. vm_compute. reflexivity. Qed.

(** Fragments 0 and 2 remain; the others are replaced by 9s, the destination holds 5s; the second buffer is wanted. *)
Example C01_case : option_map (fun r => (fst (fst r), snd (fst r)))
  (decode_blocks (case_fnt false) (repeat 7%N 4) (repeat 7%N 4) (sevens 2 2) case_ds [[5; 5; 5]; [5; 5; 5]]%N
    [[0; 30; 7]; [9; 9; 9]; [254; 247; 0]; [9; 9; 9]]%N [[(0, 1)]; [(1, 1)]; [(2, 1)]; []]%N
    [false; true; false; true] [false; true] 3) = Some (true, [[5; 5; 5]; [1; 20; 4]]%N).
Proof. vm_compute. reflexivity. Qed.

(** Data block 1 and parity 0 remain. *)
Example C02_case : option_map (fun r => (fst (fst r), snd (fst r)))
  (decode_blocks (case_fnt true) (repeat 7%N 4) (repeat 7%N 4) (sevens 2 2) case_ds [[5; 5; 5]; [1; 20; 4]]%N
    [[210; 117; 245]; [9; 9; 9]]%N [[]; [(1, 1)]]%N
    [true; false; false; true] [true; true] 3) = Some (true, [[255; 10; 3]; [1; 20; 4]]%N).
Proof. vm_compute. reflexivity. Qed.

Example C05_case : length (present 2 2 [true; false; true; true]) < 2.
Proof. cbn. lia. Qed.

Example C01_received_case : received false 2 2 [false; true; false; true] case_data
  [[0; 30; 7]; [239; 204; 196]; [254; 247; 0]; [14; 73; 67]]%N [[(0, 1)]; []; [(2, 1)]; []]%N [[5; 5; 5]; [5; 5; 5]]%N
  [[0; 30; 7]; [9; 9; 9]; [254; 247; 0]; [9; 9; 9]]%N [[(0, 1)]; [(1, 1)]; [(2, 1)]; []]%N.
Proof.
  split; [discriminate|]. split; [reflexivity|]. split; [reflexivity|]. cbn [n_outs position Nat.add].
  intros q Hq. destruct q as [|[|[|[|q]]]]; cbn; try discriminate; try lia; intros _; split; auto.
Qed.

Example C27_case : pack_buf 2 2 [1; 2; 255; 3]%N = [513; 1023]%N /\ unpack_buf 2 [513; 65536 + 7]%N = [1; 2; 7; 0]%N.
Proof. vm_compute. auto. Qed.

(** Records at places 1, 4 and 5 of a fragment cut in packets of 2: a packet boundary lies between the first two. *)
Example C07_restored_case :
  restore_run 256 (props_sort [(5, 1); (1, 1); (4, 1)]%N) 2 0 0 [[3; 0]; [8; 9]; [0; 0]; [2; 0]]%N =
  [[3; 256]; [8; 9]; [256; 256]; [2; 0]]%N.
Proof. vm_compute. reflexivity. Qed.

Example C48_case : frags (case_fnt true) [1; 3] /\ valid_words (case_fnt true) [[256; 3]; [0; 17]]%N.
Proof.
  destruct (case_sizes true) as ([En El] & Es & Ek & Em & Ep & Ew). unfold frags, valid_words. rewrite En, Ek, Ep.
  assert (Eg : g_card (c_G (case_fnt true)) = 257%N) by (vm_compute; reflexivity). rewrite Eg. split.
  - split; [reflexivity|]. split; [repeat constructor; cbn; lia|]. cbn. lia.
  - split; [reflexivity|]. intros i Hi. destruct i as [|[|i]]; [| |lia]; (split; [reflexivity|]); intros t Ht;
      (destruct t as [|[|t]]; [| |lia]); cbn; lia.
Qed.

Print Assumptions C01_constructor.
Print Assumptions C01_roundtrip.
Print Assumptions C02_roundtrip.
Print Assumptions C05_too_few.
Print Assumptions C06_systematic.
Print Assumptions C07_recorded.
Print Assumptions C07_restored.
Print Assumptions C27_pack_unpack.
Print Assumptions C27_unpack_pack.
Print Assumptions C28_encoding.
Print Assumptions C28_decoding.
Print Assumptions C29_encoding.
Print Assumptions C29_decoding.
Print Assumptions C48_reuse.
