(** Properties C03, C05 (vertical streams), C49 and C50, and C28 for any fragments: encode_streams_vertical and
    decode_streams_vertical of src/fec_base.h with the Fermat-field codes. *)
From Coq Require Import List NArith Arith Bool Lia Permutation.
From Verif.Model Require Import Common Arith Ring Fft2n Radix2 Poly Props Bytes Fnt Blocks Streams.
From Verif.Spec Require Import Modular Code Blocks Widths Session.
From Verif.Proof Require Import ListP BytesP PropsP BlocksP FntInst BlocksF StreamsL StreamsF.
From Verif.Thm Require Import BlocksThm.
Import ListNotations.
Open Scope nat_scope.

(** * C03: streams whose length is a multiple of the word size, any packet sizes (also different ones for the encoder and
    for the decoder).  The output streams may already hold something.  [P missing] restricts the patterns of losses. *)
Definition streams_recovered (sys : bool) (P : nat -> list bool -> Prop) : Prop :=
  forall w ws k m pkt pkt' c c' xe es wc out data old ps L,
  fnt_object w sys ws k m pkt c -> fnt_object w sys ws k m pkt' c' -> encoder_buffers c xe es wc out -> length wc = k ->
  L mod ws = 0 -> blocks k L data -> length old = n_outs sys k m -> length ps = n_outs sys k m ->
  exists es' frags ps', encode_streams c xe es wc out data old ps =
      Some (es', map (fun q => nth q old [] ++ nth q frags []) (seq 0 (n_outs sys k m)), ps') /\
    blocks (n_outs sys k m) L frags /\
  forall missing wanted rdata rpar rps old' wc' ds junk1 junk2,
    decoder_buffers c' junk1 junk2 wc' ds -> length wc' = k ->
    received sys k m missing data frags ps' rdata rpar rps -> (sys = true -> length rdata = k) -> length old' = k ->
    P k missing -> k <= length (present k m missing) ->
    exists outs ps'', decode_streams c' junk1 junk2 wc' ds rdata rpar rps missing wanted old' = Some (true, outs, ps'') /\
      length outs = k /\
      forall j, j < k -> nth j outs [] = nth j old' [] ++ (if nth j wanted false then nth j data [] else []).

Lemma streams_recovered_if sys (P : nat -> list bool -> Prop) : (forall k missing, P k missing -> sys = true -> exists j, j < k /\ nth j missing true = true) ->
  streams_recovered sys P.
Proof.
  intros HP w ws k m pkt pkt' c c' xe es wc out data old ps L HO HO' He Lw EL Hd Lo Lps.
  assert (Hw : fnt_width w ws) by apply HO. pose proof (ws_pos w ws Hw) as W0. destruct (nwords_exact ws L W0 EL) as [_ EL2].
  destruct (streams_roundtrip w sys ws k m pkt pkt' c c' xe es wc out data old ps L HO HO' He Lw Hd Lo Lps)
    as (es' & frags & ps' & E & B & D).
  exists es', frags, ps'. split; [exact E|]. split; [exact B|].
  intros missing wanted rdata rpar rps old' wc' ds junk1 junk2 H1 H2 H3 H4 H5 HPm H6.
  destruct (D missing wanted rdata rpar rps old' wc' ds junk1 junk2 H1 H2 H3 H4 H5 (HP k missing HPm) H6) as (outs & ps'' & R & Lout & O).
  exists outs, ps''. split; [exact R|]. split; [exact Lout|]. intros j Hj. specialize (O j Hj).
  destruct (nth j wanted false); [|now rewrite O, app_nil_r]. destruct O as (b & -> & Lb & Eb). f_equal.
  rewrite EL2, !firstn_all2 in Eb; [exact Eb| |lia]. rewrite (proj1 (proj2 Hd j Hj)). lia.
Qed.

Theorem C03_nonsystematic : streams_recovered false (fun _ _ => True).
Proof. apply streams_recovered_if. discriminate. Qed.

(** Missing from the full statement: when all the data streams of a systematic code are present nothing is written. *)
Theorem C03_systematic_partial : streams_recovered true (fun k missing => exists j, j < k /\ nth j missing true = true).
Proof. apply streams_recovered_if. auto. Qed.

Theorem C03_all_present w ws k m pkt c junk1 junk2 wc ds data par (ps : list props) missing wanted old :
  fnt_object w true ws k m pkt c -> length data = k -> length par = m -> length ps = m -> length old = k ->
  (forall j, j < k -> nth j missing true = false) ->
  decode_streams c junk1 junk2 wc ds data par ps missing wanted old = Some (true, old, ps).
Proof.
  intros HO Ld Lp Lps Lo Hm. assert (Hw : fnt_width w ws) by apply HO. assert (Hs : fnt_sizes ws k m) by apply HO.
  destruct (object_made w true ws k m Hw Hs) as (cw & r & n & HP & _ & _ & H).
  destruct (made_parts _ _ _ _ _ _ _ _ _ (H _ _ HO)) as (CS & En & Esys & E1 & E2 & E3 & E4 & E5 & E6 & E7).
  unfold decode_streams. rewrite E2, E6, Esys, Ld, Lp, Lps, Lo. unfold n_outs. rewrite !Nat.eqb_refl. cbn [negb orb andb].
  assert (A : avail_data c missing = seq 0 k).
  { unfold avail_data. rewrite Esys, E2.
    assert (G : forall l, (forall x, In x l -> negb (get true missing x) = true) -> filter (fun i => negb (get true missing i)) l = l).
    { induction l as [|a l IH]; intros X; [reflexivity|]. cbn [filter]. rewrite X by (left; auto). f_equal. apply IH.
      intros; apply X; right; auto. }
    apply G. intros x Hx. apply in_seq in Hx. unfold get. rewrite Hm by lia. reflexivity. }
  rewrite A, seq_length, Nat.eqb_refl. reflexivity.
Qed.

(** * C05: vertical streams. *)
Theorem C05_streams_too_few w sys ws k m pkt c missing wanted data par (ps : list props) old wc ds junk1 junk2 :
  fnt_object w sys ws k m pkt c -> length (present k m missing) < k ->
  (sys = true -> length data = k) -> length par = n_outs sys k m -> length ps = n_outs sys k m -> length old = k ->
  decode_streams c junk1 junk2 wc ds data par ps missing wanted old = Some (false, old, ps).
Proof.
  intros HO. assert (Hw : fnt_width w ws) by apply HO. assert (Hs : fnt_sizes ws k m) by apply HO.
  assert (Hp : 0 < pkt) by apply HO. pose proof (ws_pos w ws Hw) as W0.
  destruct (object_made w sys ws k m Hw Hs) as (cw & r & n & HP & _ & _ & H).
  destruct (made_parts _ _ _ _ _ _ _ _ _ (H _ _ HO)) as (CS & En & Esys & E1 & E2 & E3 & E4 & E5 & E6 & E7).
  intros Hf Ld Lp Lps Lo. apply decode_streams_few; rewrite ?E2, ?E3, ?E6, ?Esys; auto; lia.
Qed.

(** With [k] fragments or more, whatever they hold, decoding is not refused ([usable]: the fragments in use have the right
    length and their records have different places inside). *)
Theorem C05_enough w sys ws k m pkt c missing wanted buf par (ps : list props) L wc ds junk1 junk2 old :
  fnt_object w sys ws k m pkt c -> decoder_buffers c junk1 junk2 wc ds -> usable sys ws k m missing L buf par ps ->
  length par = n_outs sys k m -> length ps = n_outs sys k m -> length buf = k -> length old = k -> length wc = k ->
  (exists outs ps', decode_streams c junk1 junk2 wc ds buf par ps missing wanted old = Some (true, outs, ps')) /\
  (L mod ws = 0 -> blocks k L buf ->
   exists buf' ps', decode_blocks c junk1 junk2 wc ds buf par ps missing wanted L = Some (true, buf', ps')).
Proof.
  intros HO Hb HU Lp Lps Lb Lo Lw. assert (Hw : fnt_width w ws) by apply HO. assert (Hs : fnt_sizes ws k m) by apply HO.
  assert (Hp : 0 < pkt) by apply HO.
  destruct (object_made w sys ws k m Hw Hs) as (cw & r & n & HP & _ & _ & H).
  destruct (columns_exist w sys ws k m n cw pkt c Hp (H _ _ HO) missing L buf par ps HU) as (F & HF).
  split.
  - destruct (decode_streams_cols w sys ws k m Hw n cw pkt c Hp (H _ _ HO) missing wanted L buf par ps F HU HF
      junk1 junk2 wc ds old Hb Lw (fun _ => Lb) Lp Lps Lo) as (ps' & R). eexists _, ps'. exact R.
  - intros EL HB. destruct (decode_blocks_cols w sys ws k m Hw n cw pkt c Hp (H _ _ HO) missing wanted L buf par ps F HU HF
      junk1 junk2 wc ds EL Hb) as (ps' & R); auto; try (intros; now apply HB). eexists _, ps'. exact R.
Qed.

(** * C28: any fragments and records, from an encoder or not: the decoded blocks and streams do not depend on the packet
    size nor on the contents of the buffers. *)
Theorem C28_decoding_any w sys ws k m pkt1 pkt2 c1 c2 missing wanted buf par (ps : list props) L wc1 ds1 j1 j1' wc2 ds2 j2 j2' :
  fnt_object w sys ws k m pkt1 c1 -> fnt_object w sys ws k m pkt2 c2 ->
  decoder_buffers c1 j1 j1' wc1 ds1 -> decoder_buffers c2 j2 j2' wc2 ds2 -> L mod ws = 0 ->
  usable sys ws k m missing L buf par ps -> blocks k L buf -> length par = n_outs sys k m -> length ps = n_outs sys k m ->
  exists buf' p1 p2, decode_blocks c1 j1 j1' wc1 ds1 buf par ps missing wanted L = Some (true, buf', p1) /\
    decode_blocks c2 j2 j2' wc2 ds2 buf par ps missing wanted L = Some (true, buf', p2).
Proof.
  intros HO1 HO2 B1 B2 EL HU HB Lp Lps. assert (Hw : fnt_width w ws) by apply HO1. assert (Hs : fnt_sizes ws k m) by apply HO1.
  assert (P1 : 0 < pkt1) by apply HO1. assert (P2 : 0 < pkt2) by apply HO2.
  destruct (object_made w sys ws k m Hw Hs) as (cw & r & n & HP & _ & _ & H).
  destruct (columns_exist w sys ws k m n cw pkt1 c1 P1 (H _ _ HO1) missing L buf par ps HU) as (F & HF).
  destruct (decode_blocks_cols w sys ws k m Hw n cw pkt1 c1 P1 (H _ _ HO1) missing wanted L buf par ps F HU HF
      j1 j1' wc1 ds1 EL B1) as (ps1 & R1); auto; try (intros; now apply HB).
  destruct (decode_blocks_cols w sys ws k m Hw n cw pkt2 c2 P2 (H _ _ HO2) missing wanted L buf par ps F HU HF
      j2 j2' wc2 ds2 EL B2) as (ps2 & R2); auto; try (intros; now apply HB).
  eexists _, ps1, ps2. split; [exact R1|exact R2].
Qed.

(** * C49: blocks and streams.  Also with different packet sizes. *)
Theorem C49_encoding w sys ws k m pkt pkt' c c' xe xe' es es' wc wc' out out' data par ps old ps2 wanted L :
  fnt_object w sys ws k m pkt c -> fnt_object w sys ws k m pkt' c' ->
  encoder_buffers c xe es wc out -> encoder_buffers c' xe' es' wc' out' -> length wc' = k ->
  L mod ws = 0 -> blocks k L data -> blocks (n_outs sys k m) L par -> length ps = n_outs sys k m ->
  length old = n_outs sys k m -> length ps2 = n_outs sys k m ->
  exists r1 r2 par' outs recs, encode_blocks c xe es wc out data par ps wanted L = Some (r1, par', recs) /\
    encode_streams c' xe' es' wc' out' data old ps2 = Some (r2, outs, recs) /\
    length outs = n_outs sys k m /\
    forall q, q < n_outs sys k m -> nth q wanted false = true -> nth q outs [] = nth q old [] ++ nth q par' [].
Proof.
  intros HO HO' He He' Lw EL Hd Hp Lps Lo Lps2. assert (Hw : fnt_width w ws) by apply HO. assert (Hs : fnt_sizes ws k m) by apply HO.
  assert (P1 : 0 < pkt) by apply HO. assert (P2 : 0 < pkt') by apply HO'. pose proof (ws_pos w ws Hw) as W0.
  destruct (nwords_exact ws L W0 EL) as [N1 N2].
  destruct (object_made w sys ws k m Hw Hs) as (cw & r & n & HP & _ & _ & H).
  destruct (encode_made w sys ws k m Hw pkt n cw c P1 (H _ _ HO) data L Hd xe es wc out par ps wanted He (proj1 Hp) Lps) as (r1 & _ & R1).
  { intros q Hq _. rewrite (proj1 (proj2 Hp q Hq)). lia. }
  destruct (streams_made w sys ws k m Hw pkt' n cw c' P2 (H _ _ HO') data old ps2 L xe' es' wc' out' Hd He' Lw Lo Lps2) as (r2 & _ & R2).
  rewrite N1 in R2. eexists r1, r2, _, _, _. split; [exact R1|]. split; [exact R2|]. split; [rewrite map_length, seq_length; auto|].
  intros q Hq Hwq. rewrite !nth_map_seq by auto. rewrite Hwq, stream_overwrite; auto. apply (proj2 Hp q Hq).
Qed.

(** Decoding any fragments.  Missing from the full statement: if all the data streams of a systematic code are there the
    stream function writes nothing (C03_all_present), and the block function leaves the blocks as they are. *)
Theorem C49_decoding_partial w sys ws k m pkt pkt' c c' missing wanted buf par (ps : list props) L wc ds j1 j2 wc' ds' j1' j2' old :
  fnt_object w sys ws k m pkt c -> fnt_object w sys ws k m pkt' c' ->
  decoder_buffers c j1 j2 wc ds -> decoder_buffers c' j1' j2' wc' ds' -> length wc' = k -> L mod ws = 0 ->
  usable sys ws k m missing L buf par ps -> blocks k L buf -> length par = n_outs sys k m -> length ps = n_outs sys k m ->
  length old = k -> (sys = true -> exists j, j < k /\ nth j missing true = true) ->
  exists buf' outs p1 p2, decode_blocks c j1 j2 wc ds buf par ps missing wanted L = Some (true, buf', p1) /\
    decode_streams c' j1' j2' wc' ds' buf par ps missing wanted old = Some (true, outs, p2) /\
    length outs = k /\ forall j, j < k -> nth j outs [] = nth j old [] ++ (if nth j wanted false then nth j buf' [] else []).
Proof.
  intros HO1 HO2 B1 B2 Lw EL HU HB Lp Lps Lo Hmiss. assert (Hw : fnt_width w ws) by apply HO1. assert (Hs : fnt_sizes ws k m) by apply HO1.
  assert (P1 : 0 < pkt) by apply HO1. assert (P2 : 0 < pkt') by apply HO2.
  destruct (object_made w sys ws k m Hw Hs) as (cw & r & n & HP & _ & _ & H).
  destruct (columns_exist w sys ws k m n cw pkt c P1 (H _ _ HO1) missing L buf par ps HU) as (F & HF).
  destruct (decode_blocks_cols w sys ws k m Hw n cw pkt c P1 (H _ _ HO1) missing wanted L buf par ps F HU HF
      j1 j2 wc ds EL B1) as (ps1 & R1); auto; try (intros; now apply HB).
  destruct (decode_streams_cols w sys ws k m Hw n cw pkt' c' P2 (H _ _ HO2) missing wanted L buf par ps F HU HF
      j1' j2' wc' ds' old B2 Lw (fun _ => proj1 HB) Lp Lps Lo) as (ps2 & R2).
  destruct (sys && (length (avail_data c' missing) =? k)) eqn:Eall.
  { exfalso. apply andb_prop in Eall. destruct Eall as [Es Ea]. apply Nat.eqb_eq in Ea. destruct (Hmiss Es) as (j & Hj & Hm).
    destruct (made_parts _ _ _ _ _ _ _ _ _ (H _ _ HO2)) as (CS & En & Esys & E1 & E2 & _).
    unfold avail_data in Ea. rewrite Esys, Es, E2 in Ea.
    assert (X : forall (P : nat -> bool) l, length (filter P l) = length l -> forall j, In j l -> P j = true).
    { clear. induction l as [|a l IH]; cbn; [contradiction|]. intros E i. pose proof (filter_length_le _ P l).
      destruct (P a) eqn:Ea; cbn in E; [|lia]. intros [<-|Hi]; [auto|]. apply IH; [lia|auto]. }
    specialize (X (fun i => negb (get true missing i)) (seq 0 k)). rewrite seq_length in X. specialize (X Ea j).
    unfold get in X. rewrite Hm in X. cbn in X. assert (false = true) by (apply X, in_seq; lia). discriminate. }
  eexists _, _, ps1, ps2. split; [exact R1|]. split; [exact R2|]. split; [rewrite map_length, seq_length; auto|].
  intros j Hj. rewrite !nth_map_seq by auto. destruct (nth j wanted false); [reflexivity|]. symmetry. apply app_nil_r.
Qed.

(** * C50: lengths that are not multiples of the word size.  Every full word is recovered, for any length; the bytes after
    the last full word are not (all the fragments together do not determine them, see C50_refuted). *)
Theorem C50_partial w sys ws k m pkt pkt' c c' xe es wc out data old ps L :
  fnt_object w sys ws k m pkt c -> fnt_object w sys ws k m pkt' c' ->
  encoder_buffers c xe es wc out -> length wc = k -> blocks k L data ->
  length old = n_outs sys k m -> length ps = n_outs sys k m ->
  exists es' frags ps', encode_streams c xe es wc out data old ps =
      Some (es', map (fun q => nth q old [] ++ nth q frags []) (seq 0 (n_outs sys k m)), ps') /\
    blocks (n_outs sys k m) L frags /\
  forall missing wanted rdata rpar rps old' wc' ds junk1 junk2,
    decoder_buffers c' junk1 junk2 wc' ds -> length wc' = k ->
    received sys k m missing data frags ps' rdata rpar rps -> (sys = true -> length rdata = k) -> length old' = k ->
    (sys = true -> exists j, j < k /\ nth j missing true = true) ->
    k <= length (present k m missing) ->
    exists outs ps'', decode_streams c' junk1 junk2 wc' ds rdata rpar rps missing wanted old' = Some (true, outs, ps'') /\
      length outs = k /\ forall j, j < k -> if nth j wanted false
        then exists b, nth j outs [] = nth j old' [] ++ b /\ length b = L /\ firstn (L / ws * ws) b = firstn (L / ws * ws) (nth j data [])
        else nth j outs [] = nth j old' [].
Proof. exact (streams_roundtrip w sys ws k m pkt pkt' c c' xe es wc out data old ps L). Qed.

(** The code with 2 data and 1 more fragment on 2-byte words, packets of 1 symbol. *)
Definition odd_fnt : fnt :=
  match fnt_new 0 32 false 2 2 1 1 with
  | Some c => c
  | None => fnt_make 0 32 false 2 2 1 1 (prime_ops 32 65537) 4 0%N no_fft no_fft []
  end.
Definition odd_encode (data : list (list N)) :=
  encode_streams odd_fnt (mkCtx [] [] []) (mkEscratch [] [] []) (sevens 2 2) (sevens 4 1) data (repeat [] 3) (repeat [] 3).
Definition drop1 {A} (l : list A) : list A := firstn 1 l ++ skipn 2 l.

(** Two different pairs of streams of 1 byte; fragment 1 is lost; fragments 0 and 2 with their records are the same for
    both, so nothing can tell which pair was encoded. *)
Theorem C50_refuted : exists data data' e1 e2 frags frags' recs recs', blocks 2 1 data /\ blocks 2 1 data' /\ data <> data' /\
  fnt_object 32 false 2 2 1 1 odd_fnt /\
  odd_encode data = Some (e1, frags, recs) /\ odd_encode data' = Some (e2, frags', recs') /\
  length frags = 3 /\ drop1 frags = drop1 frags' /\ drop1 recs = drop1 recs'.
Proof.
  exists [[1]; [2]]%N, [[129]; [130]]%N. do 6 eexists.
  split; [split; [reflexivity|]; intros [|[|i]] Hi; [| |lia]; (split; [reflexivity|repeat constructor])|].
  split; [split; [reflexivity|]; intros [|[|i]] Hi; [| |lia]; (split; [reflexivity|repeat constructor])|].
  split; [discriminate|]. split.
  { split; [right; split; [reflexivity|cbn; auto]|].
    split; [unfold fnt_sizes; cbn; repeat split; try lia; discriminate|]. split; [lia|].
    exists 0. split; [apply plain_fnt_build|]. unfold odd_fnt. destruct (fnt_new 0 32 false 2 2 1 1) eqn:E; [reflexivity|].
    assert (X : match fnt_new 0 32 false 2 2 1 1 with Some _ => true | None => false end = true) by (vm_compute; reflexivity).
    rewrite E in X. discriminate. }
  split; [vm_compute; reflexivity|]. split; [vm_compute; reflexivity|]. vm_compute. auto.
Qed.

(** * The case of BlocksThm.v with streams; the encoder uses packets of 2, streams of 3 bytes. *)
Definition case_streams (sys : bool) :=
  encode_streams (case_fnt sys) (case_ctx sys) case_es (sevens 2 2) (sevens (if sys then 2 else 4) 2) case_data
    (repeat [11]%N (n_outs sys 2 2)) (repeat [] (n_outs sys 2 2)).

Example C03_case : option_map (fun r => (snd (fst r), snd r)) (case_streams false) =
  Some ([[11; 0; 30; 7]; [11; 239; 204; 196]; [11; 254; 247; 0]; [11; 14; 73; 67]]%N, [[(0, 1)]; []; [(2, 1)]; []]%N).
Proof. vm_compute. reflexivity. Qed.

Example C03_decode_case : option_map (fun r => (fst (fst r), snd (fst r)))
  (decode_streams (case_fnt false) (repeat 7%N 4) (repeat 7%N 4) (sevens 2 2) case_ds []
    [[0; 30; 7]; [9; 9; 9]; [254; 247; 0]; [9; 9; 9]]%N [[(0, 1)]; [(1, 1)]; [(2, 1)]; []]%N
    [false; true; false; true] [false; true] [[5]; [6]]%N) = Some (true, [[5]; [6; 1; 20; 4]]%N).
Proof. vm_compute. reflexivity. Qed.

Example C03_systematic_case : option_map (fun r => (fst (fst r), snd (fst r)))
  (decode_streams (case_fnt true) (repeat 7%N 4) (repeat 7%N 4) (sevens 2 2) case_ds [[]; [1; 20; 4]]%N
    [[210; 117; 245]; []]%N [[]; []]%N [true; false; false; true] [true; true] [[]; []]) = Some (true, case_data).
Proof. vm_compute. reflexivity. Qed.

(** So the full statement is false for systematic codes: with nothing lost, nothing is written. *)
Theorem C03_refuted : ~ streams_recovered true (fun _ _ => True).
Proof.
  intros H. pose proof (case_sizes true) as ([En El] & Es & Ek & Em & Ep & Ew).
  destruct (H 32%N 1 2 2 2 2 (case_fnt true) (case_fnt true) (case_ctx true) case_es (sevens 2 2) (sevens 2 2) case_data
     [[]; []] [[]; []] 3 (case_object true) (case_object true) (C01_encoder_case true)) as (es' & frags & ps' & E & B & D);
     try reflexivity; [exact C01_data_case|].
  destruct (D [false; false; false; false] [true; true] case_data frags ps' [[]; []] (sevens 2 2) case_ds (repeat 7%N 4) (repeat 7%N 4))
    as (outs & ps'' & R & Lo & O); try reflexivity; auto.
  - apply C01_decoder_case.
  - split; [auto|]. split; [apply B|]. split; [|auto].
    assert (X : option_map (fun r => length (snd r)) (encode_streams (case_fnt true) (case_ctx true) case_es (sevens 2 2) (sevens 2 2)
       case_data [[]; []] [[]; []]) = Some 2) by (vm_compute; reflexivity).
    rewrite E in X. injection X as X. exact X.
  - cbn. lia.
  - rewrite (C03_all_present 32 1 2 2 2) in R; try reflexivity.
    + injection R as <- <-. specialize (O 0 ltac:(lia)). discriminate O.
    + apply case_object.
    + apply B.
    + assert (X : option_map (fun r => length (snd r)) (encode_streams (case_fnt true) (case_ctx true) case_es (sevens 2 2) (sevens 2 2)
         case_data [[]; []] [[]; []]) = Some 2) by (vm_compute; reflexivity).
      rewrite E in X. injection X as X. exact X.
    + intros j Hj. destruct j as [|[|j]]; [reflexivity|reflexivity|lia].
Qed.

(** Fragments that no encoder made. *)
Example C49_usable_case : usable false 1 2 2 [false; true; false; true] 3 [[5; 5; 5]; [5; 5; 5]]%N
  [[3; 30; 7]; [9; 9; 9]; [254; 7; 0]; [9; 9; 9]]%N [[(2, 1); (0, 1)]; []; []; []]%N.
Proof.
  split; [cbn; lia|]. split; [discriminate|]. cbn [n_outs position].
  intros q Hq Hin. cbn in Hin. destruct Hin as [<-|[<-|[]]]; cbn; (split; [reflexivity|]; split; [repeat constructor; cbn; lia|]).
  - split; [cbn; repeat constructor; cbn; intuition discriminate|]. intros o mk [X|[X|[]]]; injection X as <- <-; (split; [reflexivity|cbn; lia]).
  - split; [constructor|]. intros o mk [].
Qed.

Print Assumptions C03_nonsystematic.
Print Assumptions C03_systematic_partial.
Print Assumptions C03_all_present.
Print Assumptions C03_refuted.
Print Assumptions C05_streams_too_few.
Print Assumptions C05_enough.
Print Assumptions C28_decoding_any.
Print Assumptions C49_encoding.
Print Assumptions C49_decoding_partial.
Print Assumptions C50_partial.
Print Assumptions C50_refuted.
