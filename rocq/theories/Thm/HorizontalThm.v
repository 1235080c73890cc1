(** Properties C04 and C05 (horizontal streams): encode_streams_horizontal and decode_streams_horizontal of
    src/fec_base.h with the Fermat-field codes. *)
From Coq Require Import List NArith Arith Bool Lia Permutation.
From Verif.Model Require Import Common Arith Ring Fft2n Radix2 Poly Props Bytes Fnt Blocks Header Streams Horizontal.
From Verif.Spec Require Import Modular Code Blocks Widths Session.
From Verif.Proof Require Import ListP BytesP PropsP BlocksP FntInst BlocksF StreamsL StreamsF HorizontalP HorizontalF.
From Verif.Thm Require Import BlocksThm StreamsThm.
Import ListNotations.
Open Scope nat_scope.

(** * C04.  [output] is the vector that the encoder allocates, with any contents; the output streams may already hold
    something.  Any number of bytes: those after the last full word are not encoded. *)
Theorem C04_any_length w ws k m pkt pkt' c c' output data old ps L :
  fnt_object w false ws k m pkt c -> fnt_object w false ws k m pkt' c' ->
  length output = c_outlen c -> blocks k L data -> length old = k + m -> length ps = k + m ->
  exists frags ps', encode_hstreams c output data old ps =
      Some (Ret (map (fun q => nth q old [] ++ nth q frags []) (seq 0 (k + m)), ps')) /\
    blocks (k + m) (L / ws * ws) frags /\ length ps' = k + m /\
  forall missing wanted rdata rpar rps old' vs junk1 junk2,
    vs_ok c' vs -> length junk1 = c_n c' -> length junk2 = c_l2 c' ->
    received false k m missing data frags ps' rdata rpar rps -> length old' = k ->
    k <= length (present k m missing) ->
    exists outs ps'', decode_hstreams c' junk1 junk2 vs rdata rpar rps missing wanted old' = Some (Ret (true, outs, ps'')) /\
      length outs = k /\
      forall j, j < k -> nth j outs [] = nth j old' [] ++ (if nth j wanted false then firstn (L / ws * ws) (nth j data []) else []).
Proof. exact (hstreams_roundtrip w ws k m pkt pkt' c c' output data old ps L). Qed.

Theorem C04_roundtrip w ws k m pkt pkt' c c' output data old ps L :
  fnt_object w false ws k m pkt c -> fnt_object w false ws k m pkt' c' -> L mod ws = 0 ->
  length output = c_outlen c -> blocks k L data -> length old = k + m -> length ps = k + m ->
  exists frags ps', encode_hstreams c output data old ps =
      Some (Ret (map (fun q => nth q old [] ++ nth q frags []) (seq 0 (k + m)), ps')) /\
    blocks (k + m) L frags /\ length ps' = k + m /\
  forall missing wanted rdata rpar rps old' vs junk1 junk2,
    vs_ok c' vs -> length junk1 = c_n c' -> length junk2 = c_l2 c' ->
    received false k m missing data frags ps' rdata rpar rps -> length old' = k ->
    k <= length (present k m missing) ->
    exists outs ps'', decode_hstreams c' junk1 junk2 vs rdata rpar rps missing wanted old' = Some (Ret (true, outs, ps'')) /\
      length outs = k /\ forall j, j < k -> nth j outs [] = nth j old' [] ++ (if nth j wanted false then nth j data [] else []).
Proof.
  intros HO HO' EL Lout Hd Lo Lps. assert (Hw : fnt_width w ws) by apply HO. pose proof (ws_pos w ws Hw) as W0.
  destruct (nwords_exact ws L W0 EL) as [_ E2].
  destruct (C04_any_length w ws k m pkt pkt' c c' output data old ps L HO HO' Lout Hd Lo Lps) as (frags & ps' & E & B & Lp & D).
  rewrite E2 in B, D. exists frags, ps'. split; [exact E|]. split; [exact B|]. split; [exact Lp|].
  intros missing wanted rdata rpar rps old' vs junk1 junk2 Hv J1 J2 R Lo' Hen.
  destruct (D missing wanted rdata rpar rps old' vs junk1 junk2 Hv J1 J2 R Lo' Hen) as (outs & ps'' & X & Lx & O).
  exists outs, ps''. split; [exact X|]. split; [exact Lx|]. intros j Hj. rewrite (O j Hj), firstn_all2; [reflexivity|].
  rewrite (proj1 (proj2 Hd j Hj)). lia.
Qed.

(** Both kinds of streams are the same, with any packet size. *)
Theorem C04_same_as_vertical w ws k m pkt pkt' c c' xe es wc out output data old ps L :
  fnt_object w false ws k m pkt c -> fnt_object w false ws k m pkt' c' -> L mod ws = 0 ->
  encoder_buffers c xe es wc out -> length wc = k -> length output = c_outlen c' -> blocks k L data ->
  length old = k + m -> length ps = k + m ->
  exists es' outs recs, encode_streams c xe es wc out data old ps = Some (es', outs, recs) /\
    encode_hstreams c' output data old ps = Some (Ret (outs, recs)).
Proof.
  intros HO HO' EL He Lw Lout Hd Lo Lps.
  assert (Hw : fnt_width w ws) by apply HO. assert (Hs : fnt_sizes ws k m) by apply HO.
  assert (P1 : 0 < pkt) by apply HO. assert (P2 : 0 < pkt') by apply HO'. pose proof (ws_pos w ws Hw) as W0.
  destruct (nwords_exact ws L W0 EL) as [N1 N2].
  destruct (object_made w false ws k m Hw Hs) as (cw & r & n & HP & _ & _ & H).
  destruct (streams_made w false ws k m Hw pkt n cw c P1 (H _ _ HO) data old ps L xe es wc out Hd He Lw Lo Lps) as (es' & _ & R).
  pose proof (hencode_made w ws k m Hw n cw pkt' c' P2 (H _ _ HO') data old ps L output Hd Lout Lo Lps) as R2.
  rewrite N1 in R. rewrite N2 in R2. eexists es', _, _. split; [exact R|exact R2].
Qed.

(** Decoding any fragments: the same as decode_streams_vertical. *)
Theorem C04_decoding_as_vertical w ws k m pkt pkt' c c' missing wanted buf par (ps : list props) L wc ds j1 j2 vs j1' j2' old :
  fnt_object w false ws k m pkt c -> fnt_object w false ws k m pkt' c' -> L mod ws = 0 ->
  decoder_buffers c j1 j2 wc ds -> length wc = k -> vs_ok c' vs -> length j1' = c_n c' -> length j2' = c_l2 c' ->
  usable false ws k m missing L buf par ps -> length par = k + m -> length ps = k + m -> length old = k ->
  exists outs p1 p2, decode_streams c j1 j2 wc ds buf par ps missing wanted old = Some (true, outs, p1) /\
    decode_hstreams c' j1' j2' vs buf par ps missing wanted old = Some (Ret (true, outs, p2)).
Proof.
  intros HO1 HO2 EL B1 Lw Hv J1 J2 HU Lp Lps Lo. assert (Hw : fnt_width w ws) by apply HO1. assert (Hs : fnt_sizes ws k m) by apply HO1.
  assert (P1 : 0 < pkt) by apply HO1. assert (P2 : 0 < pkt') by apply HO2.
  destruct (object_made w false ws k m Hw Hs) as (cw & r & n & HP & _ & _ & H).
  destruct (columns_exist w false ws k m n cw pkt c P1 (H _ _ HO1) missing L buf par ps HU) as (F & HF).
  destruct (decode_streams_cols w false ws k m Hw n cw pkt c P1 (H _ _ HO1) missing wanted L buf par ps F HU HF
      j1 j2 wc ds old B1 Lw ltac:(discriminate) Lp Lps Lo) as (ps1 & R1).
  pose proof (hdecode_cols w ws k m Hw n cw pkt' c' P2 (H _ _ HO2) missing wanted L buf buf par ps F vs old j1' j2' EL HU HF Lp Lps Lo Hv J1 J2) as R2.
  eexists _, ps1, _. split; [|exact R2]. rewrite R1. f_equal. f_equal. f_equal. cbn [andb]. apply map_ext. intros j.
  destruct (nth j wanted false); [reflexivity|]. symmetry. apply app_nil_r.
Qed.

(** Systematic codes: the encoder transforms to a vector of [m] symbols, too short for the [n >= k + m] results
    (fec_rs_fnt.h:165-168 with fec_base.h:422), as soon as the streams hold one word. *)
Theorem C04_systematic_overrun w ws k m pkt c output data old ps L :
  fnt_object w true ws k m pkt c -> length output = c_outlen c -> blocks k L data -> ws <= L ->
  length old = m -> length ps = m ->
  encode_hstreams c output data old ps = Some Ub.
Proof.
  intros HO Lout Hd HL Lo Lps. assert (Hw : fnt_width w ws) by apply HO. assert (Hs : fnt_sizes ws k m) by apply HO.
  destruct (object_made w true ws k m Hw Hs) as (cw & r & n & HP & _ & _ & H).
  destruct (made_parts _ _ _ _ _ _ _ _ _ (H _ _ HO)) as (CS & En & Esys & E1 & E2 & E3 & E4 & E5 & E6 & E7). cbn [n_outs] in E6.
  unfold encode_hstreams. rewrite E2, E6, (proj1 Hd), Lo, Lps, !Nat.eqb_refl. cbn [andb hencode_loop].
  replace (map (fun b => mkIs b false) data) with (map (at_word (c_ws c) 0) data) by reflexivity.
  rewrite readw_all_some.
  - assert (X : length output < c_n c).
    { rewrite Lout. unfold c_outlen. rewrite Esys. pose proof (cs_n _ _ CS). pose proof (cs_k _ _ CS). lia. }
    apply Nat.ltb_lt in X. rewrite X. reflexivity.
  - intros b Hb. destruct (In_nth _ _ [] Hb) as (i & Hi & <-). rewrite (proj1 (proj2 Hd i ltac:(rewrite <- (proj1 Hd); exact Hi))). lia.
Qed.

(** * C05 *)
Theorem C05_horizontal_too_few w sys ws k m pkt c missing wanted data par (ps : list props) old vs junk1 junk2 :
  fnt_object w sys ws k m pkt c -> length (present k m missing) < k ->
  (sys = true -> length data = k) -> length par = n_outs sys k m -> length ps = n_outs sys k m -> length old = k ->
  decode_hstreams c junk1 junk2 vs data par ps missing wanted old = Some (Ret (false, old, ps)).
Proof.
  intros HO. assert (Hw : fnt_width w ws) by apply HO. assert (Hs : fnt_sizes ws k m) by apply HO.
  assert (Hp : 0 < pkt) by apply HO. pose proof (ws_pos w ws Hw) as W0.
  destruct (object_made w sys ws k m Hw Hs) as (cw & r & n & HP & _ & _ & H).
  destruct (made_parts _ _ _ _ _ _ _ _ _ (H _ _ HO)) as (CS & En & Esys & E1 & E2 & E3 & E4 & E5 & E6 & E7).
  intros Hf Ld Lp Lps Lo. apply decode_hstreams_few; rewrite ?E2, ?E3, ?E6, ?Esys; auto; lia.
Qed.

(** Missing from the full statement: systematic codes, for which see HSysThm.v. *)
Theorem C05_horizontal_enough_partial w ws k m pkt c missing wanted buf par (ps : list props) L vs junk1 junk2 old :
  fnt_object w false ws k m pkt c -> vs_ok c vs -> length junk1 = c_n c -> length junk2 = c_l2 c -> L mod ws = 0 ->
  usable false ws k m missing L buf par ps ->
  length par = k + m -> length ps = k + m -> length old = k ->
  exists outs ps', decode_hstreams c junk1 junk2 vs buf par ps missing wanted old = Some (Ret (true, outs, ps')).
Proof.
  intros HO Hv J1 J2 EL HU Lp Lps Lo. assert (Hw : fnt_width w ws) by apply HO. assert (Hs : fnt_sizes ws k m) by apply HO.
  assert (Hp : 0 < pkt) by apply HO.
  destruct (object_made w false ws k m Hw Hs) as (cw & r & n & HP & _ & _ & H).
  destruct (columns_exist w false ws k m n cw pkt c Hp (H _ _ HO) missing L buf par ps HU) as (F & HF).
  eexists _, _. exact (hdecode_cols w ws k m Hw n cw pkt c Hp (H _ _ HO) missing wanted L buf buf par ps F vs old junk1 junk2 EL HU HF Lp Lps Lo Hv J1 J2).
Qed.

(** * The case of BlocksThm.v. *)
Definition case_vs : vscratch := mkVscratch (repeat 7%N 4) (repeat 7%N 4) (repeat 7%N 4).

Example C04_case : encode_hstreams (case_fnt false) (repeat 7%N 4) case_data (repeat [11]%N 4) (repeat [] 4) =
  Some (Ret ([[11; 0; 30; 7]; [11; 239; 204; 196]; [11; 254; 247; 0]; [11; 14; 73; 67]]%N, [[(0, 1)]; []; [(2, 1)]; []]%N)).
Proof. vm_compute. reflexivity. Qed.

Example C04_vs_case : vs_ok (case_fnt false) case_vs.
Proof. vm_compute. auto. Qed.

Example C04_decode_case : decode_hstreams (case_fnt false) (repeat 7%N 4) (repeat 7%N 4) case_vs []
    [[0; 30; 7]; [9; 9; 9]; [254; 247; 0]; [9; 9; 9]]%N [[(0, 1)]; [(1, 1)]; [(2, 1)]; []]%N
    [false; true; false; true] [false; true] [[5]; [6]]%N =
  Some (Ret (true, [[5]; [6; 1; 20; 4]]%N, [[(0, 1)]; [(1, 1)]; [(2, 1)]; []]%N)).
Proof. vm_compute. reflexivity. Qed.

(** Words of two bytes, streams of three bytes: the third byte is not encoded. *)
Example C04_odd_case : encode_hstreams odd_fnt (repeat 7%N 4) [[1; 2; 3]; [4; 5; 6]]%N (repeat [] 3) (repeat [] 3) =
  encode_hstreams odd_fnt (repeat 0%N 4) [[1; 2]; [4; 5]]%N (repeat [] 3) (repeat [] 3).
Proof. vm_compute. reflexivity. Qed.

(** Systematic decoding with fragments 0 and 2 uses the index 2 in a table of 2 records. *)
Example C04_systematic_decode_case : decode_hstreams (case_fnt true) (repeat 7%N 4) (repeat 7%N 4) case_vs [[1; 2; 3]; []]%N
    [[210; 117; 245]; []]%N [[]; []]%N [false; true; false; true] [true; true] [[]; []] = Some Ub.
Proof. vm_compute. reflexivity. Qed.

Print Assumptions C04_any_length.
Print Assumptions C04_roundtrip.
Print Assumptions C04_same_as_vertical.
Print Assumptions C04_decoding_as_vertical.
Print Assumptions C04_systematic_overrun.
Print Assumptions C05_horizontal_too_few.
Print Assumptions C05_horizontal_enough_partial.
