(** Properties C12, C13 and C14: the C interface (src/quadiron_c.cpp) on the buffers of its caller. *)
From Coq Require Import List NArith ZArith Arith Bool Lia.
From Verif.Model Require Import Common Arith Ring Fft2n Radix2 Poly Props Bytes Fnt Blocks Header CApi.
From Verif.Spec Require Import Modular Code Blocks Widths Session Header CApi.
From Verif.Proof Require Import ListP BytesP BlocksF StreamsF CApiP CApiH CApiF.
From Verif.Thm Require Import BlocksThm.
Import ListNotations.
Open Scope nat_scope.

(** The constructor: word sizes 1 and 2, all the sizes that the field allows. *)
Theorem C12_constructor nh ws k m sys : ws = 1 \/ ws = 2 -> fnt_build nh 32 ws -> fnt_sizes ws k m ->
  exists c, fnt32_new nh ws k m sys = Some c /\ fnt_object 32 sys ws k m 1024 c.
Proof.
  intros Hws Hb Hs. assert (Hw : fnt_width 32 ws) by (destruct Hws as [->| ->]; [left|right]; cbn; auto).
  destruct (object_made 32 sys ws k m Hw Hs) as (_ & _ & _ & _ & _ & H & _). destruct (H nh 1024 Hb ltac:(lia)) as (c & E & HO).
  exists c. split; [|exact HO]. unfold fnt32_new. destruct Hws as [->| ->]; exact E.
Qed.

(** * C12: what encoding leaves, and decoding after losses.
    The data buffers come first in the memory, then the parity buffers; a buffer is a header and a block.  In the
    non-systematic mode the fragments 0, ..., k - 1 replace the data. *)
Theorem C12_encoded sys ws k m : fnt_width 32 ws -> fnt_sizes ws k m ->
  exists cw r n, poly_code sys (256 ^ N.of_nat ws + 1) r n k cw /\ k + m <= n /\
  forall pkt c xe es wc out block mem wanted, fnt_object 32 sys ws k m pkt c -> encoder_buffers c xe es wc out ->
   block mod ws = 0 -> capi_memory (k + m) block mem ->
   let data := map (payload block mem) (seq 0 k) in
   let special q := record (256 ^ N.of_nat ws) (coded ws cw data (position sys k q)) (block / ws) in
   (forall q, q < n_outs sys k m -> length (special q) <= room block) ->
   exists mem' es', fnt32_encode c xe es wc out mem wanted block = Some (Ret (0%Z, mem', es')) /\
    encoder_buffers c xe es' wc out /\ capi_memory (k + m) block mem' /\
    (forall q, q < n_outs sys k m ->
       head block mem' (position sys k q) =
         header_area block (map (fun r => fst r mod 2 ^ 32)%N (special q)) (head block mem (position sys k q)) /\
       payload block mem' (position sys k q) =
         if nth q wanted false then stream_of ws (coded ws cw data (position sys k q)) block
         else payload block mem (position sys k q)) /\
    (sys = true -> forall i, i < k -> head block mem' i = header_area block [] (head block mem i) /\
       payload block mem' i = payload block mem i).
Proof.
  intros Hw Hs. destruct (object_made 32 sys ws k m Hw Hs) as (cw & r & n & HP & Hn & _ & H). exists cw, r, n.
  split; [exact HP|]. split; [exact Hn|]. intros pkt c xe es wc out block mem wanted HO He Hb Hm data special Hr.
  destruct (encode_fits sys ws k m pkt n cw c Hw ltac:(apply HO) (H _ _ HO) block Hb xe es wc out mem wanted Hm He Hr) as (es' & mem' & He' & E & (Hm' & A & B)).
  exists mem', es'. split; [exact E|]. split; [exact He'|]. split; [exact Hm'|]. split.
  - intros q Hq. destruct (A q Hq) as (_ & (A1 & _) & A2). split; [exact A1|exact A2].
  - intros Hsys i Hi. destruct (B Hsys i Hi) as ((B1 & _) & B2). split; [exact B1|exact B2].
Qed.

(** The fragments that survive [mem'] in [mem2], of those that were wanted, are at least [k]. *)
Definition enough (sys : bool) (k m block : nat) (wanted missing : list bool) (mem' mem2 : list (list N)) : Prop :=
  capi_memory (k + m) block mem2 /\ survive (k + m) missing mem' mem2 /\
  (forall q, q < n_outs sys k m -> nth (position sys k q) missing true = false -> nth q wanted false = true) /\
  k <= length (present k m missing).

Definition limit (ws block : nat) : Prop := block mod ws = 0 /\ (N.of_nat block <= N.of_nat ws * 2 ^ 32)%N.

(** Lengths of the headers: decoding writes one word less than the header has. *)
Lemma payload_cat block h p mem j : length h = header_size block -> nth j mem [] = h ++ p -> payload block mem j = p.
Proof. intros L E. unfold payload. rewrite E, skipn_app, L, Nat.sub_diag, skipn_all2, skipn_O by lia. reflexivity. Qed.

Lemma head_cat block h p mem j : length h = header_size block -> nth j mem [] = h ++ p -> head block mem j = h.
Proof. intros L E. unfold head. rewrite E, firstn_app, L, Nat.sub_diag, firstn_all2, firstn_O, app_nil_r by lia. reflexivity. Qed.

Lemma area_length block locs old : length old = header_size block -> length locs <= room block ->
  length (header_area block locs old) = header_size block.
Proof.
  intros L R. unfold header_area, header. rewrite !app_length, repeat_length, skipn_length, L.
  assert (X : length (flat_map be32 locs) = 4 * length locs).
  { clear. induction locs; [reflexivity|]. cbn [flat_map]. rewrite app_length, IHlocs. cbn [length]. unfold be32. cbn [length]. lia. }
  unfold room, header_size in *. cbn [length]. rewrite ?app_length, ?X. unfold be32, le32, magic in *. cbn [length] in *. lia.
Qed.

(** Missing from the full statement: systematic codes with fewer parities than data, for which the decoder runs over an
    array (C14_decode_overrun below). *)
Theorem C12_roundtrip_partial sys ws k m pkt c xe es wc out block mem wanted mem' es' :
  fnt_object 32 sys ws k m pkt c -> encoder_buffers c xe es wc out -> limit ws block -> (sys = true -> k <= m) ->
  capi_memory (k + m) block mem ->
  fnt32_encode c xe es wc out mem wanted block = Some (Ret (0%Z, mem', es')) ->
  forall missing mem2 junk1 junk2 wc' ds, decoder_buffers c junk1 junk2 wc' ds -> enough sys k m block wanted missing mem' mem2 ->
  exists mem3, fnt32_decode c junk1 junk2 wc' ds mem2 missing block = Some (Ret (0%Z, mem3)) /\ length mem3 = k + m /\
    (forall j, j < k -> payload block mem3 j = payload block mem j) /\
    (forall b, k <= b -> nth b mem3 [] = nth b mem2 []).
Proof.
  intros HO He [Hb Hbig] Hkm Hm E missing mem2 junk1 junk2 wc' ds Hd (H1 & H2 & H3 & H4).
  assert (Hw : fnt_width 32 ws) by apply HO. assert (Hs : fnt_sizes ws k m) by apply HO.
  destruct (object_made 32 sys ws k m Hw Hs) as (cw & r & n & HP & Hn & _ & H).
  destruct (encode_zero sys ws k m pkt n cw c Hw ltac:(apply HO) (H _ _ HO) block Hb xe es wc out mem wanted mem' es' Hm He E) as [_ Henc].
  destruct (decode_ok sys ws k m pkt n cw c Hw ltac:(apply HO) (H _ _ HO) block Hb Hbig junk1 junk2 wc' ds mem wanted missing mem' mem2 Hm) as (mem3 & D & L & A & B).
  - split; [exact Henc|]. auto.
  - exact Hd.
  - exact Hkm.
  - exists mem3. split; [exact D|]. split; [rewrite L; apply H1|]. split; [|exact B]. intros j Hj.
    apply (payload_cat block (header_area block [] (head block mem2 j))); [|auto].
    apply area_length; [|cbn; lia]. unfold head. rewrite firstn_length. destruct (proj2 H1 j ltac:(lia)) as [X _]. lia.
Qed.

(** Fewer than [k] fragments: -1, nothing written. *)
Theorem C12_too_few sys ws k m pkt c xe es wc out block mem wanted mem' es' :
  fnt_object 32 sys ws k m pkt c -> encoder_buffers c xe es wc out -> limit ws block -> capi_memory (k + m) block mem ->
  fnt32_encode c xe es wc out mem wanted block = Some (Ret (0%Z, mem', es')) ->
  forall missing mem2 junk1 junk2 wc' ds, capi_memory (k + m) block mem2 -> survive (k + m) missing mem' mem2 ->
  length (present k m missing) < k ->
  fnt32_decode c junk1 junk2 wc' ds mem2 missing block = Some (Ret ((-1)%Z, mem2)).
Proof.
  intros HO He [Hb Hbig] Hm E missing mem2 junk1 junk2 wc' ds H1 H2 H3.
  assert (Hw : fnt_width 32 ws) by apply HO. assert (Hs : fnt_sizes ws k m) by apply HO.
  destruct (object_made 32 sys ws k m Hw Hs) as (cw & r & n & HP & Hn & _ & H).
  destruct (encode_zero sys ws k m pkt n cw c Hw ltac:(apply HO) (H _ _ HO) block Hb xe es wc out mem wanted mem' es' Hm He E) as [_ Henc].
  exact (decode_few sys ws k m pkt n cw c Hw ltac:(apply HO) (H _ _ HO) block Hb Hbig junk1 junk2 wc' ds mem wanted missing mem' mem2 Henc H1 H2 H3).
Qed.

(** * C13: reconstruction of any one fragment ([dest]), missing or not.
    The header is compared without its last word, which neither encoding nor reconstruction writes: it is the one that
    was in the buffer.
    Missing from the full statement: systematic codes with fewer parities than data (C14_reconstruct_overrun below). *)
Theorem C13_reconstruct_partial sys ws k m pkt c xe es wc out block mem wanted mem' es' :
  fnt_object 32 sys ws k m pkt c -> encoder_buffers c xe es wc out -> limit ws block -> (sys = true -> k <= m) ->
  capi_memory (k + m) block mem ->
  fnt32_encode c xe es wc out mem wanted block = Some (Ret (0%Z, mem', es')) ->
  forall missing mem2 junk1 junk2 wc' ds xe2 es2 wc2 out2 dest,
  decoder_buffers c junk1 junk2 wc' ds -> encoder_buffers c xe2 es2 wc2 out2 -> enough sys k m block wanted missing mem' mem2 ->
  dest < k + m -> (forall q, q < n_outs sys k m -> position sys k q = dest -> nth q wanted false = true) ->
  exists mem3 es3, fnt32_reconstruct c xe2 es2 junk1 junk2 wc' ds wc2 out2 mem2 missing dest block = Some (Ret (0%Z, mem3, es3)) /\
    length mem3 = k + m /\
    payload block mem3 dest = payload block mem' dest /\
    firstn (header_size block - 4) (head block mem3 dest) = firstn (header_size block - 4) (head block mem' dest) /\
    skipn (header_size block - 4) (head block mem3 dest) = skipn (header_size block - 4) (head block mem2 dest) /\
    (forall b, b < k + m -> b <> dest -> nth b mem3 [] = nth b mem2 []).
Proof.
  intros HO He [Hb Hbig] Hkm Hm E missing mem2 junk1 junk2 wc' ds xe2 es2 wc2 out2 dest Hd He2 (H1 & H2 & H3 & H4) Hde Hwa.
  assert (Hw : fnt_width 32 ws) by apply HO. assert (Hs : fnt_sizes ws k m) by apply HO.
  destruct (object_made 32 sys ws k m Hw Hs) as (cw & r & n & HP & Hn & _ & H).
  destruct (encode_zero sys ws k m pkt n cw c Hw ltac:(apply HO) (H _ _ HO) block Hb xe es wc out mem wanted mem' es' Hm He E) as [_ Henc].
  assert (U : usable_after sys ws k m cw block mem wanted missing mem' mem2) by (split; [exact Henc|auto]).
  destruct Henc as (Hm' & A & B).
  assert (Lh : forall mm b, capi_memory (k + m) block mm -> b < k + m -> length (head block mm b) = header_size block).
  { intros mm b [_ X] Hlt. unfold head. rewrite firstn_length, (proj1 (X b Hlt)). lia. }
  (* the result, from the contents of the destination *)
  assert (G : forall mem3 es3 locs P, length locs <= room block ->
    fnt32_reconstruct c xe2 es2 junk1 junk2 wc' ds wc2 out2 mem2 missing dest block = Some (Ret (0%Z, mem3, es3)) ->
    length mem3 = k + m -> nth dest mem3 [] = header_area block locs (head block mem2 dest) ++ P ->
    (forall b, b < k + m -> b <> dest -> nth b mem3 [] = nth b mem2 []) ->
    payload block mem' dest = P -> head block mem' dest = header_area block locs (head block mem dest) ->
    exists mem3 es3, fnt32_reconstruct c xe2 es2 junk1 junk2 wc' ds wc2 out2 mem2 missing dest block = Some (Ret (0%Z, mem3, es3)) /\
    length mem3 = k + m /\
    payload block mem3 dest = payload block mem' dest /\
    firstn (header_size block - 4) (head block mem3 dest) = firstn (header_size block - 4) (head block mem' dest) /\
    skipn (header_size block - 4) (head block mem3 dest) = skipn (header_size block - 4) (head block mem2 dest) /\
    (forall b, b < k + m -> b <> dest -> nth b mem3 [] = nth b mem2 [])).
  { intros mem3 es3 locs P Hl R L3 N3 O3 P3 Q3. exists mem3, es3. split; [exact R|]. split; [exact L3|].
    assert (La : forall mm, capi_memory (k + m) block mm -> length (header_area block locs (head block mm dest)) = header_size block).
    { intros mm Hmm. apply area_length; auto. }
    split; [rewrite P3; now apply (payload_cat block _ P mem3 dest (La _ H1))|].
    rewrite (head_cat block _ P mem3 dest (La _ H1) N3), Q3.
    assert (K : forall old, length old = header_size block -> exists pre, header_area block locs old = pre ++ skipn (header_size block - 4) old /\
      length pre = header_size block - 4 /\ pre = header locs ++ repeat 0%N (header_size block - 12 - 4 * length locs)).
    { intros old Lo. eexists. unfold header_area. rewrite app_assoc. split; [reflexivity|]. split; [|reflexivity].
      pose proof (area_length block locs old Lo Hl) as X. unfold header_area in X. rewrite app_assoc, app_length, skipn_length in X. unfold header_size in *. lia. }
    destruct (K (head block mem2 dest)) as (p1 & -> & L1 & E1); [auto|]. destruct (K (head block mem dest)) as (p2 & -> & L2 & E2); [auto|].
    rewrite <- E1 in E2. subst p2. split; [|split; [|exact O3]].
    - rewrite !firstn_app, L1, Nat.sub_diag. reflexivity.
    - rewrite skipn_app, L1, Nat.sub_diag, (@skipn_all2 _ _ p1), skipn_O by lia. reflexivity. }
  assert (C : (sys = true /\ dest < k) \/ exists q, q < n_outs sys k m /\ position sys k q = dest).
  { unfold n_outs, position. clear - Hde. destruct sys; [|right; exists dest; auto]. destruct (Nat.lt_ge_cases dest k); [auto|].
    right. exists (dest - k). lia. }
  destruct C as [[Hsys Hdk]|(q & Hq & Eq)].
  - destruct (reconstruct_data sys ws k m pkt n cw c Hw ltac:(apply HO) (H _ _ HO) block Hb Hbig xe2 es2 junk1 junk2 wc' ds wc2 out2 mem wanted missing mem' mem2 dest
      Hm U Hd Hsys Hdk (Hkm Hsys)) as (mem3 & R & L3 & N3 & O3).
    destruct (B Hsys dest Hdk) as ((B1 & _) & B2). apply (G mem3 es2 [] (payload block mem dest)); auto. cbn. lia.
  - subst dest. destruct (reconstruct_frag sys ws k m pkt n cw c Hw ltac:(apply HO) (H _ _ HO) block Hb Hbig xe2 es2 junk1 junk2 wc' ds wc2 out2 mem wanted missing mem' mem2 q
      Hm U Hd He2 Hq) as (mem3 & es3 & R & He3 & L3 & N3 & O3).
    destruct (A q Hq) as (A0 & (A1 & _) & A2). rewrite (Hwa q Hq eq_refl) in A2.
    refine (G mem3 es3 _ _ _ R L3 N3 O3 A2 A1). rewrite map_length. exact A0.
Qed.

(** * C14: encoding, decoding and reconstruction stay inside their arrays in the cases of C12_encoded, C12_roundtrip_partial,
    C12_too_few and C13_reconstruct_partial (the result is [Ret]); not in the following cases. *)

(** Encoding: the fragment [q] is the first one with more special values than its header has room for.  With one too many
    the header is overrun; with more, the result is -1 (the fragments have already been written). *)
Theorem C14_encode_overrun sys ws k m : fnt_width 32 ws -> fnt_sizes ws k m ->
  exists cw r n, poly_code sys (256 ^ N.of_nat ws + 1) r n k cw /\ k + m <= n /\
  forall pkt c xe es wc out block mem wanted q, fnt_object 32 sys ws k m pkt c -> encoder_buffers c xe es wc out ->
   block mod ws = 0 -> capi_memory (k + m) block mem -> q < n_outs sys k m ->
   let data := map (payload block mem) (seq 0 k) in
   let special q := record (256 ^ N.of_nat ws) (coded ws cw data (position sys k q)) (block / ws) in
   (forall q', q' < q -> length (special q') <= room block) ->
   (length (special q) = room block + 1 -> fnt32_encode c xe es wc out mem wanted block = Some Ub) /\
   (room block + 1 < length (special q) ->
     exists mem' es', fnt32_encode c xe es wc out mem wanted block = Some (Ret ((-1)%Z, mem', es'))).
Proof.
  intros Hw Hs. destruct (object_made 32 sys ws k m Hw Hs) as (cw & r & n & HP & Hn & _ & H). exists cw, r, n.
  split; [exact HP|]. split; [exact Hn|]. intros pkt c xe es wc out block mem wanted q HO He Hb Hm Hq data special Hr.
  exact (encode_stop sys ws k m pkt n cw c Hw ltac:(apply HO) (H _ _ HO) block Hb xe es wc out mem wanted q Hm He Hq Hr).
Qed.

(** Decoding with a systematic code that has fewer parities than data: overruns the records when the headers of the data
    are reset, whatever has been lost. *)
Theorem C14_decode_overrun ws k m pkt c xe es wc out block mem wanted mem' es' :
  fnt_object 32 true ws k m pkt c -> encoder_buffers c xe es wc out -> limit ws block -> m < k ->
  capi_memory (k + m) block mem ->
  fnt32_encode c xe es wc out mem wanted block = Some (Ret (0%Z, mem', es')) ->
  forall missing mem2 junk1 junk2 wc' ds, decoder_buffers c junk1 junk2 wc' ds -> enough true k m block wanted missing mem' mem2 ->
  fnt32_decode c junk1 junk2 wc' ds mem2 missing block = Some Ub.
Proof.
  intros HO He [Hb Hbig] Hkm Hm E missing mem2 junk1 junk2 wc' ds Hd (H1 & H2 & H3 & H4).
  assert (Hw : fnt_width 32 ws) by apply HO. assert (Hs : fnt_sizes ws k m) by apply HO.
  destruct (object_made 32 true ws k m Hw Hs) as (cw & r & n & HP & Hn & _ & H).
  destruct (encode_zero true ws k m pkt n cw c Hw ltac:(apply HO) (H _ _ HO) block Hb xe es wc out mem wanted mem' es' Hm He E) as [_ Henc].
  apply (decode_over true ws k m pkt n cw c Hw ltac:(apply HO) (H _ _ HO) block Hb Hbig junk1 junk2 wc' ds mem wanted missing mem' mem2 Hm); auto.
  split; [exact Henc|auto].
Qed.

(** The same codes: reconstruction of a data fragment that is missing overruns the table of wanted fragments. *)
Theorem C14_reconstruct_overrun ws k m pkt c xe es wc out block mem wanted mem' es' :
  fnt_object 32 true ws k m pkt c -> encoder_buffers c xe es wc out -> limit ws block -> 0 < block -> m < k ->
  capi_memory (k + m) block mem ->
  fnt32_encode c xe es wc out mem wanted block = Some (Ret (0%Z, mem', es')) ->
  forall missing mem2 junk1 junk2 wc' ds xe2 es2 wc2 out2 dest,
  decoder_buffers c junk1 junk2 wc' ds -> enough true k m block wanted missing mem' mem2 ->
  dest < k -> nth dest missing true = true ->
  fnt32_reconstruct c xe2 es2 junk1 junk2 wc' ds wc2 out2 mem2 missing dest block = Some Ub.
Proof.
  intros HO He [Hb Hbig] Hb0 Hkm Hm E missing mem2 junk1 junk2 wc' ds xe2 es2 wc2 out2 dest Hd (H1 & H2 & H3 & H4) Hdk Hmi.
  assert (Hw : fnt_width 32 ws) by apply HO. assert (Hs : fnt_sizes ws k m) by apply HO.
  destruct (object_made 32 true ws k m Hw Hs) as (cw & r & n & HP & Hn & _ & H).
  destruct (encode_zero true ws k m pkt n cw c Hw ltac:(apply HO) (H _ _ HO) block Hb xe es wc out mem wanted mem' es' Hm He E) as [_ Henc].
  apply (reconstruct_over true ws k m pkt n cw c Hw ltac:(apply HO) (H _ _ HO) block Hb Hbig xe2 es2 junk1 junk2 wc' ds wc2 out2 mem wanted missing mem' mem2 dest Hm); auto.
  split; [exact Henc|auto].
Qed.

(** * Cases
    The codes of BlocksThm.v (2 data, 2 parities), blocks of 3 bytes; a header is 64 bytes.  All the headers hold 5s. *)
Definition capi_case (sys : bool) : list (list N) :=
  map (fun p => repeat 5%N 64 ++ p) ([[255; 10; 3]; [1; 20; 4]; [8; 8; 8]; [6; 6; 6]]%N).
Definition capi_encode (sys : bool) (mem : list (list N)) (block : nat) :=
  fnt32_encode (case_fnt sys) (case_ctx sys) case_es (sevens 2 2) (sevens (if sys then 2 else 4) 2) mem (repeat true 4) block.
Definition after (r : option (outcome (Z * cmem * escratch (list N)))) : Z * list (list N) :=
  match r with Some (Ret (z, mem, _)) => (z, mem) | _ => (1%Z, []) end.
Definition heads (mem : list (list N)) : list (list N) := map (firstn 12) mem.
Definition tails (mem : list (list N)) : list (list N) := map (skipn 58) mem.

Lemma bytes_dec l : forallb (fun b => b <? 256)%N l = true -> all_bytes l.
Proof. intros H. apply Forall_forall. intros x Hx. rewrite forallb_forall in H. apply N.ltb_lt. auto. Qed.

Lemma blocks_dec n bytes l : length l = n -> forallb (fun b => (length b =? bytes) && forallb (fun x => x <? 256)%N b) l = true -> blocks n bytes l.
Proof.
  intros L H. split; [exact L|]. intros i Hi. rewrite forallb_forall in H. specialize (H (nth i l []) ltac:(apply nth_In; lia)).
  apply andb_prop in H. destruct H as [H1 H2]. split; [now apply Nat.eqb_eq|now apply bytes_dec].
Qed.

Example C12_case_memory sys : capi_memory (2 + 2) 3 (capi_case sys) /\ limit 1 3.
Proof. split; [apply blocks_dec; [reflexivity|destruct sys; vm_compute; reflexivity]|]. split; [reflexivity|]. vm_compute. discriminate. Qed.

(** Encoding without systematic data: the fragments replace the data; fragments 0 and 2 have a special value. *)
Example C12_encode_case : let r := after (capi_encode false (capi_case false) 3) in fst r = 0%Z /\
  heads (snd r) = [[70; 78; 84; 49; 0; 0; 0; 1; 0; 0; 0; 0]; [70; 78; 84; 49; 0; 0; 0; 0; 0; 0; 0; 0];
                   [70; 78; 84; 49; 0; 0; 0; 1; 0; 0; 0; 2]; [70; 78; 84; 49; 0; 0; 0; 0; 0; 0; 0; 0]]%N /\
  tails (snd r) = [[0; 0; 5; 5; 5; 5; 0; 30; 7]; [0; 0; 5; 5; 5; 5; 239; 204; 196];
                   [0; 0; 5; 5; 5; 5; 254; 247; 0]; [0; 0; 5; 5; 5; 5; 14; 73; 67]]%N.
Proof. vm_compute. auto. Qed.

(** Buffers 1 and 3 are lost (9s).  Decoding, and reconstruction of fragment 3. *)
Definition lose (missing : list bool) (mem : list (list N)) : list (list N) :=
  map (fun i => if nth i missing true then repeat 9%N 67 else nth i mem []) (seq 0 4).
Definition lost13 : list bool := [false; true; false; true].

Example C12_enough_case sys : enough sys 2 2 3 (repeat true 4) lost13 (snd (after (capi_encode sys (capi_case sys) 3)))
  (lose lost13 (snd (after (capi_encode sys (capi_case sys) 3)))).
Proof.
  split; [apply blocks_dec; [reflexivity|destruct sys; vm_compute; reflexivity]|]. split; [|split; [|cbn; lia]].
  - intros i Hi Mi. unfold lose. rewrite nth_map_seq by exact Hi. now rewrite Mi.
  - intros q Hq _. destruct sys; cbn in Hq; destruct q as [|[|[|[|q]]]]; cbn; auto; lia.
Qed.

Example C12_decode_case : match fnt32_decode (case_fnt false) (repeat 7%N 4) (repeat 7%N 4) (sevens 2 2) case_ds
    (lose lost13 (snd (after (capi_encode false (capi_case false) 3)))) lost13 3 with
  | Some (Ret (z, mem)) => (z, map (skipn 64) mem)
  | _ => (1%Z, [])
  end = (0%Z, [[255; 10; 3]; [1; 20; 4]; [254; 247; 0]; [9; 9; 9]]%N).
Proof. vm_compute. reflexivity. Qed.

Example C13_case : let r := after (fnt32_reconstruct (case_fnt false) (case_ctx false) case_es (repeat 7%N 4) (repeat 7%N 4) (sevens 2 2) case_ds
    (sevens 2 2) (sevens 4 2) (lose lost13 (snd (after (capi_encode false (capi_case false) 3)))) lost13 3 3) in fst r = 0%Z /\
  heads (snd r) = [[70; 78; 84; 49; 0; 0; 0; 1; 0; 0; 0; 0]; repeat 9 12;
                   [70; 78; 84; 49; 0; 0; 0; 1; 0; 0; 0; 2]; [70; 78; 84; 49; 0; 0; 0; 0; 0; 0; 0; 0]]%N /\
  tails (snd r) = [[0; 0; 5; 5; 5; 5; 0; 30; 7]; repeat 9 9;
                   [0; 0; 5; 5; 5; 5; 254; 247; 0]; [0; 0; 9; 9; 9; 9; 14; 73; 67]]%N.
Proof. vm_compute. auto. Qed.

(** Systematic: data 1 and parity 1 are lost, data 1 is reconstructed. *)
Example C13_systematic_case : let r := after (fnt32_reconstruct (case_fnt true) (case_ctx true) case_es (repeat 7%N 4) (repeat 7%N 4) (sevens 2 2) case_ds
    (sevens 2 2) (sevens 2 2) (lose lost13 (snd (after (capi_encode true (capi_case true) 3)))) lost13 1 3) in fst r = 0%Z /\
  heads (snd r) = [[70; 78; 84; 49; 0; 0; 0; 0; 0; 0; 0; 0]; [70; 78; 84; 49; 0; 0; 0; 0; 0; 0; 0; 0];
                   [70; 78; 84; 49; 0; 0; 0; 0; 0; 0; 0; 0]; repeat 9 12]%N /\
  tails (snd r) = [[0; 0; 5; 5; 5; 5; 255; 10; 3]; [0; 0; 9; 9; 9; 9; 1; 20; 4];
                   [0; 0; 5; 5; 5; 5; 210; 117; 245]; repeat 9 9]%N.
Proof. vm_compute. auto. Qed.

(** 14 words (255, 1): fragment 0 has 14 special values, one more than the header has room for; with 15 the result is -1. *)
Definition special_mem (n : nat) : list (list N) :=
  map (fun v => repeat 5%N 64 ++ repeat v n) [255; 1; 8; 8]%N.

Theorem C14_encode_refuted : fnt_object 32 false 1 2 2 2 (case_fnt false) /\ exists mem, capi_memory (2 + 2) 14 mem /\ capi_encode false mem 14 = Some Ub.
Proof. split; [apply case_object|]. exists (special_mem 14). split; [apply blocks_dec; [reflexivity|vm_compute; reflexivity]|]. vm_compute. reflexivity. Qed.

Example C14_encode_case : fst (after (capi_encode false (special_mem 13) 13)) = 0%Z /\ fst (after (capi_encode false (special_mem 15) 15)) = (-1)%Z.
Proof. vm_compute. auto. Qed.

(** A systematic code of 2 data and 1 parity: nothing is lost and decoding overruns; data 1 is lost and its reconstruction
    overruns. *)
Definition few_fnt : fnt :=
  match fnt_new 0 32 true 1 2 1 2 with
  | Some c => c
  | None => fnt_make 0 32 true 1 2 1 2 (prime_ops 32 257) 4 0%N no_fft no_fft []
  end.
Definition few_ctx : ctx :=
  match ctx_new few_fnt [0; 1] (repeat 7%N 4) (repeat 7%N 4) with Some x => x | None => mkCtx [] [] [] end.
Definition few_es : escratch (list N) := mkEscratch (sevens 4 2) (sevens 4 2) (sevens 1 2).
Definition few_mem : list (list N) := firstn 3 (capi_case true).
Definition few_encode := fnt32_encode few_fnt few_ctx few_es (sevens 2 2) (sevens 1 2) few_mem (repeat true 1) 3.

Lemma few_object : fnt_object 32 true 1 2 1 2 few_fnt.
Proof.
  split; [left; split; [reflexivity|cbn; auto]|].
  split; [unfold fnt_sizes; cbn; repeat split; try lia; discriminate|]. split; [lia|].
  exists 0. split; [apply plain_fnt_build|]. unfold few_fnt. destruct (fnt_new 0 32 true 1 2 1 2) eqn:E; [reflexivity|].
  assert (X : match fnt_new 0 32 true 1 2 1 2 with Some _ => true | None => false end = true) by (vm_compute; reflexivity).
  rewrite E in X. discriminate.
Qed.

Lemma few_sizes : c_n few_fnt = 4 /\ c_l2 few_fnt = 4 /\ c_sys few_fnt = true /\ c_k few_fnt = 2 /\
  c_m few_fnt = 1 /\ c_pkt few_fnt = 2 /\ c_ws few_fnt = 1.
Proof. vm_compute. auto 10. Qed.

Lemma few_buffers : encoder_buffers few_fnt few_ctx few_es (sevens 2 2) (sevens 1 2) /\
  decoder_buffers few_fnt (repeat 7%N 4) (repeat 7%N 4) (sevens 2 2) case_ds.
Proof.
  destruct few_sizes as (En & El & Es & Ek & Em & Ep & Ew). split.
  - split; [|split].
    + intros Hs. split; [unfold es_ok, c_max; rewrite En, El, Ek, Em; repeat split|].
      exists (repeat 7%N 4), (repeat 7%N 4). rewrite Ek, En, El. split; [|auto]. unfold few_ctx.
      destruct (ctx_new few_fnt [0; 1] (repeat 7%N 4) (repeat 7%N 4)) eqn:E; [exact E|].
      assert (X : match ctx_new few_fnt [0; 1] (repeat 7%N 4) (repeat 7%N 4) with Some _ => true | None => false end = true)
        by (vm_compute; reflexivity).
      rewrite E in X. discriminate.
    + rewrite Ek, Ep, Ew. intros i Hi. destruct i as [|[|i]]; [reflexivity|reflexivity|lia].
    + unfold c_outlen. rewrite Es, Em. reflexivity.
  - unfold decoder_buffers, ds_ok, c_max. rewrite En, El, Ek, Ep, Ew. repeat split.
    intros i Hi. destruct i as [|[|i]]; [reflexivity|reflexivity|lia].
Qed.

Theorem C14_decode_refuted : fnt_object 32 true 1 2 1 2 few_fnt /\ exists mem es', few_encode = Some (Ret (0%Z, mem, es')) /\ capi_memory (2 + 1) 3 mem /\
  fnt32_decode few_fnt (repeat 7%N 4) (repeat 7%N 4) (sevens 2 2) case_ds mem [false; false; false] 3 = Some Ub.
Proof.
  split; [exact few_object|]. do 2 eexists. split; [vm_compute; reflexivity|]. split; [apply blocks_dec; [reflexivity|vm_compute; reflexivity]|]. vm_compute. reflexivity.
Qed.

Theorem C14_reconstruct_refuted : fnt_object 32 true 1 2 1 2 few_fnt /\ exists mem es', few_encode = Some (Ret (0%Z, mem, es')) /\ capi_memory (2 + 1) 3 mem /\
  fnt32_reconstruct few_fnt few_ctx few_es (repeat 7%N 4) (repeat 7%N 4) (sevens 2 2) case_ds (sevens 2 2) (sevens 1 2)
    mem [false; true; false] 1 3 = Some Ub.
Proof.
  split; [exact few_object|]. do 2 eexists. split; [vm_compute; reflexivity|]. split; [apply blocks_dec; [reflexivity|vm_compute; reflexivity]|]. vm_compute. reflexivity.
Qed.

Print Assumptions C12_constructor.
Print Assumptions C12_encoded.
Print Assumptions C12_roundtrip_partial.
Print Assumptions C12_too_few.
Print Assumptions C13_reconstruct_partial.
Print Assumptions C14_encode_overrun.
Print Assumptions C14_decode_overrun.
Print Assumptions C14_reconstruct_overrun.
Print Assumptions C14_encode_refuted.
Print Assumptions C14_decode_refuted.
Print Assumptions C14_reconstruct_refuted.
