(** Model of encode_blocks_vertical, decode_blocks_vertical, encode_streams_vertical and decode_streams_vertical of
    src/fec_base.h for the codes other than RsFnt (Blocks.v and Streams.v have them for that one), and of the functions on
    Buffers of src/fec_rs_nf4.h.  Proof-free.  Decoding is that of codes that are not systematic. *)
From Coq Require Import List NArith ZArith Arith Bool.
From Verif.Model Require Import Common Arith Ring Fft2n Radix2 Poly Props Bytes Simd Fnt Blocks Streams Nf4 HCodes.
Import ListNotations.
Open Scope nat_scope.

(** What the two encoding functions use of a code: sizeof(T), the members of fec_base.h:96-127, and encode on Buffers, which
    gives the output, the records and the words. *)
Record penc := mkPenc { pe_bytes : nat; pe_ws : nat; pe_k : nat; pe_nout : nat; pe_pkt : nat;
  pe_encode : list (list N) -> list props -> N -> list (list N) -> list (list N) * list props * list (list N) }.

(** What the two decoding functions use.  [pd_begin ids props]: decode_add_parities, decode_build and init_context_dec; the
    records are those left by the context.  [pd_decode]: the state and the words.  [pd_out]: the buffers [output], that
    share memory with the context. *)
Record pdec := mkPdec { pd_bytes : nat; pd_ws : nat; pd_k : nat; pd_nout : nat; pd_pkt : nat; pd_state : Type;
  pd_begin : list nat -> list props -> option (pd_state * list props);
  pd_out : pd_state -> list (list N);
  pd_decode : pd_state -> list props -> N -> list (list N) -> pd_state * list (list N) }.

(** vec::pack and vec::unpack, vec_cast.h:70-103 and 131-163: nothing is done for the other word sizes. *)
Definition pack_words (ws pkt : nat) (wc words : list (list N)) : list (list N) :=
  if word_size_ok ws then map (pack_buf ws pkt) wc else words.
Definition unpack_words (ws : nat) (out oc : list (list N)) : list (list N) :=
  if word_size_ok ws then map (unpack_buf ws) out else oc.

(** ** Encoding *)

(** The buffers of the functions, fec_base.h:484-499 and 1084-1097: [words_char], [words], [output], [output_char]. *)
Record ebufs := mkEbufs { b_wc : list (list N); b_words : list (list N); b_out : list (list N); b_oc : list (list N) }.

(** vec::pack, encode, vec::unpack: fec_base.h:518-534 and 1124-1139.  [None]: the assertion of vec_cast.h:78. *)
Definition pencode_pkt (e : penc) (offset : nat) (wc : list (list N)) (b : ebufs) (ps : list props) : option (ebufs * list props) :=
  if pe_bytes e <? pe_ws e then None
  else
    let '(out, ps, words) := pe_encode e (b_out b) ps (N.of_nat offset) (pack_words (pe_ws e) (pe_pkt e) wc (b_words b)) in
    Some (mkEbufs wc words out (unpack_words (pe_ws e) out (b_oc b)), ps).

(** The loop of encode_blocks_vertical, fec_base.h:1101-1150. *)
Fixpoint pencode_loop (fuel : nat) (e : penc) (data : list (list N)) (wanted : list bool) (bs offset : nat) (b : ebufs)
    (par : list (list N)) (ps : list props) : option (list (list N) * list props) :=
  match fuel with
  | O => Some (par, ps)
  | S f =>
      if offset <? bs then
        let copy := Nat.min (pe_pkt e) (bs - offset) in
        let wc := map (fun i => load_pkt (pe_ws e) (pe_pkt e) offset copy (get [] data i) (get [] (b_wc b) i)) (seq 0 (pe_k e)) in
        match pencode_pkt e offset wc b ps with
        | None => None
        | Some (b, ps) =>
            let par := map (fun i => if get false wanted i
                                     then store_pkt (pe_ws e) offset copy (get [] (b_oc b) i) (get [] par i)
                                     else get [] par i) (seq 0 (pe_nout e)) in
            pencode_loop f e data wanted bs (offset + pe_pkt e) b par ps
        end
      else Some (par, ps)
  end.
(** encode_blocks_vertical, fec_base.h:1066-1151: the blocks and the records. *)
Definition pencode_blocks (e : penc) (b : ebufs) (data par : list (list N)) (ps : list props) (wanted : list bool) (bytes : nat)
  : option (list (list N) * list props) :=
  if (length data =? pe_k e) && (length par =? pe_nout e) && (length ps =? pe_nout e) then
    let bs := bytes / pe_ws e in
    pencode_loop bs e data wanted bs 0 b par (map (fun _ => []) ps)
  else None.

(** The loop of encode_streams_vertical, fec_base.h:503-541. *)
Fixpoint pencode_sloop (fuel : nat) (e : penc) (offset : nat) (rs : rstate) (b : ebufs) (outs : list (list N)) (ps : list props)
  : option (list (list N) * list props) :=
  match fuel with
  | O => None
  | S f =>
      let rs := read_turn (pe_k e) (pe_pkt e * pe_ws e) rs in
      if rs_bytes rs =? 0 then Some (outs, ps)
      else
        match pencode_pkt e offset (rs_wc rs) b ps with
        | None => None
        | Some (b, ps) =>
            let outs := map (fun i => get [] outs i ++ firstn (rs_bytes rs) (get [] (b_oc b) i)) (seq 0 (pe_nout e)) in
            if rs_cont rs then pencode_sloop f e (offset + pe_pkt e) rs b outs ps else Some (outs, ps)
        end
  end.
(** encode_streams_vertical, fec_base.h:463-542 *)
Definition pencode_streams (e : penc) (b : ebufs) (data outs : list (list N)) (ps : list props)
  : option (list (list N) * list props) :=
  if (length data =? pe_k e) && (length outs =? pe_nout e) && (length ps =? pe_nout e) then
    pencode_sloop (S (length (get [] data 0))) e 0
      (mkRs (map (fun s => mkIs s false) data) (b_wc b) (pe_pkt e * pe_ws e) true) b outs (map (fun _ => []) ps)
  else None.

(** ** Decoding *)

(** [words_char], [words], [output_char]: fec_base.h:942-956 and 1240-1255. *)
Record dbufs := mkDbufs { q_wc : list (list N); q_words : list (list N); q_oc : list (list N) }.

(** fec_base.h:1008-1024 and 1293-1309 *)
Definition pdecode_pkt (d : pdec) (x : pd_state d) (offset : nat) (wc : list (list N)) (q : dbufs) (ps : list props)
  : option (pd_state d * dbufs) :=
  if pd_bytes d <? pd_ws d then None
  else
    let '(x, words) := pd_decode d x ps (N.of_nat offset) (pack_words (pd_ws d) (pd_pkt d) wc (q_words q)) in
    Some (x, mkDbufs wc words (unpack_words (pd_ws d) (pd_out d x) (q_oc q))).

(** The loop of decode_blocks_vertical, fec_base.h:1260-1320; [ids]: the fragments in use. *)
Fixpoint pdecode_loop (fuel : nat) (d : pdec) (x : pd_state d) (ids : list nat) (par : list (list N)) (ps : list props)
    (wanted : list bool) (bs offset : nat) (q : dbufs) (data : list (list N)) : option (list (list N)) :=
  match fuel with
  | O => Some data
  | S f =>
      if offset <? bs then
        let copy := Nat.min (pd_pkt d) (bs - offset) in
        let wc := map (fun i => load_pkt (pd_ws d) (pd_pkt d) offset copy (get [] par (get 0 ids i)) (get [] (q_wc q) i))
                    (seq 0 (pd_k d)) in
        match pdecode_pkt d x offset wc q ps with
        | None => None
        | Some (x, q) =>
            let data := map (fun i => if get false wanted i
                                      then store_pkt (pd_ws d) offset copy (get [] (q_oc q) i) (get [] data i)
                                      else get [] data i) (seq 0 (pd_k d)) in
            pdecode_loop f d x ids par ps wanted bs (offset + pd_pkt d) q data
        end
      else Some data
  end.
(** fec_base.h:913-936 and 1197-1235: the fragments in use. *)
Definition pd_avail (d : pdec) (missing : list bool) : list nat :=
  firstn (pd_k d) (filter (fun i => negb (get true missing i)) (seq 0 (pd_nout d))).
(** decode_blocks_vertical, fec_base.h:1177-1321: the returned boolean, the data blocks and the records. *)
Definition pdecode_blocks (d : pdec) (q : dbufs) (data par : list (list N)) (ps : list props) (missing wanted : list bool)
    (bytes : nat) : option (bool * list (list N) * list props) :=
  if (length par =? pd_nout d) && (length ps =? pd_nout d) then
    let ap := pd_avail d missing in
    if length ap <? pd_k d then Some (false, data, ps)
    else
      match pd_begin d (nat_sort ap) ps with
      | None => None
      | Some (x, ps') =>
          let bs := bytes / pd_ws d in
          match pdecode_loop bs d x ap par ps' wanted bs 0 q data with
          | None => None
          | Some data => Some (true, data, ps')
          end
      end
  else None.

(** The loop of decode_streams_vertical, fec_base.h:970-1045. *)
Fixpoint pdecode_sloop (fuel : nat) (d : pdec) (x : pd_state d) (ps : list props) (wanted : list bool) (offset : nat)
    (rs : rstate) (q : dbufs) (outs : list (list N)) : option (list (list N)) :=
  match fuel with
  | O => None
  | S f =>
      let rs := read_turn (pd_k d) (pd_pkt d * pd_ws d) rs in
      if rs_bytes rs =? 0 then Some outs
      else
        match pdecode_pkt d x offset (rs_wc rs) q ps with
        | None => None
        | Some (x, q) =>
            let outs := map (fun i => if get false wanted i then get [] outs i ++ firstn (rs_bytes rs) (get [] (q_oc q) i)
                                      else get [] outs i) (seq 0 (pd_k d)) in
            if rs_cont rs then pdecode_sloop f d x ps wanted (offset + pd_pkt d) rs q outs else Some outs
        end
  end.
(** decode_streams_vertical, fec_base.h:898-1048 *)
Definition pdecode_streams (d : pdec) (q : dbufs) (par : list (list N)) (ps : list props) (missing wanted : list bool)
    (outs : list (list N)) : option (bool * list (list N) * list props) :=
  if (length par =? pd_nout d) && (length ps =? pd_nout d) && (length outs =? pd_k d) then
    let ap := pd_avail d missing in
    if length ap <? pd_k d then Some (false, outs, ps)
    else
      match pd_begin d (nat_sort ap) ps with
      | None => None
      | Some (x, ps') =>
          let ins := map (fun i => mkIs (get [] par i) false) ap in
          match pdecode_sloop (S (length (is_rest (get (mkIs [] true) ins 0)))) d x ps' wanted 0
                  (mkRs ins (q_wc q) (pd_pkt d * pd_ws d) true) q outs with
          | None => None
          | Some outs => Some (true, outs, ps')
          end
      end
  else None.

(** ** Codes that have no encode on Buffers: RsGf2n, RsGf2nFft, RsGf2nFftAdd, RsGfpFft *)

(** The empty function of fec_base.h:138-142 is called. *)
Definition base_encode (out : list (list N)) (ps : list props) (offset : N) (words : list (list N))
  : list (list N) * list props * list (list N) := (out, ps, words).
Definition base_penc (bytes ws k nout pkt : nat) : penc := mkPenc bytes ws k nout pkt base_encode.

(** ** RsNf4 *)
Section Nf4.
Variables (nh : nat) (c : nf4code) (pkt : nat).
Notation B := (nf_B c).
Notation w := (nf_w c).
Notation e := (nf_e c).
Notation G := (nf_G c).

(** The transforms on Buffers have SIMD versions for uint32_t (fft_2n.cpp:75-127, gf_ring.cpp:62-89), whatever the field. *)
Definition nf4_kernels : kernels (list N) :=
  match nh with
  | S _ => if (w =? 32)%N then simd_kernels 4 nh G pkt else plain (sym_pkt G pkt)
  | O => plain (sym_pkt G pkt)
  end.
Notation K := nf4_kernels.
Notation S := (k_sym K).

(** One fragment of encode_post_process, fec_rs_nf4.h:279-288. *)
Definition nf4_post_chunk (offset : N) (chunk : list N) (p : props) : list N * props :=
  fold_left (fun st j =>
      let '(chunk, p) := st in
      let '(v, flag) := unpack B w e (get 0%N chunk j) in
      (set chunk j v, if (0 <? flag)%N then props_add p (offset + N.of_nat j)%N flag else p))
    (seq 0 pkt) (chunk, p).
(** encode_post_process: fec_rs_nf4.h:270-290 *)
Definition nf4_post_buf (offset : N) (output : list (list N)) (ps : list props) : list (list N) * list props :=
  fold_left (fun st i =>
      let '(o, ps) := st in
      let '(chunk, p) := nf4_post_chunk offset (get [] o i) (get [] ps i) in
      (set o i chunk, set ps i p))
    (seq 0 (nf_len c)) (output, ps).
(** encode: fec_rs_nf4.h:255-268 *)
Definition nf4_encode_buf (out : list (list N)) (ps : list props) (offset : N) (words : list (list N))
  : list (list N) * list props * list (list N) :=
  let words := map (map (pack B w e)) words in
  let '(out, ps) := nf4_post_buf offset (k_fft K (nf_fft c) out words) ps in
  (out, ps, words).

(** One fragment of decode_prepare, fec_rs_nf4.h:301-313; [cur] is its cursor. *)
Definition nf4_prepare_chunk (p : props) (offset : N) (cur : nat) (chunk : list N) : nat * list N :=
  fold_left (fun st j =>
      let '(cur, chunk) := st in
      if props_is_marked p cur (offset + N.of_nat j)%N then
        (cur + 1, set chunk j (pack_flag B w e (get 0%N chunk j) (props_marker p cur)))
      else (cur, set chunk j (pack B w e (get 0%N chunk j))))
    (seq 0 pkt) (cur, chunk).
(** decode_prepare: fec_rs_nf4.h:292-315 *)
Definition nf4_prepare_buf (ids : list nat) (ps : list props) (offset : N) (cur : list nat) (words : list (list N))
  : list nat * list (list N) :=
  fold_left (fun st i =>
      let '(cur, words) := st in
      let j := get 0 ids i in
      let '(cj, chunk) := nf4_prepare_chunk (get [] ps j) offset (get 0 cur j) (get [] words i) in
      (set cur j cj, set words i chunk))
    (seq 0 (nf_k c)) (cur, words).

(** FecCode::decode_apply, fec_base.h:1418-1448; buffers as in [decode_apply] of Fnt.v. *)
Definition nf4_apply_buf (x : ctx) (b1 mx words : list (list N)) : list (list N) * list (list N) :=
  let h := nf4_h w e in
  let b1a := mul_vec_to_vecp S h (x_invA x) words b1 in
  let mx1 := k_fft_inv K (nf_fft c) (firstn (nf_n c) mx) (shuffle (s_zero S) (x_ids x) (nf_n c) (firstn (nf_k c) b1a))
             ++ skipn (nf_n c) mx in
  let b2 := k_fft K (nf_fft2k c) b1a (firstn (nf_k c) mx1) in
  let b3 := mul_vec_to_vecp S h (x_A2k x) b2 b2 in
  let mx2 := r2_ifft_buf K h (nf_fft2k c) (firstn (nf_l2 c) mx1) b3 ++ skipn (nf_l2 c) mx1 in
  (b3, neg_bufs S (firstn (nf_k c) mx2) ++ skipn (nf_k c) mx2).
(** decode_apply: fec_rs_nf4.h:317-330, the output being the first [n_data] buffers of the context. *)
Definition nf4_apply_unpack (x : ctx) (b1 mx words : list (list N)) : list (list N) * list (list N) :=
  let '(b1, mx) := nf4_apply_buf x b1 mx words in
  (b1, map (map (fun a => fst (unpack B w e a))) (firstn (nf_k c) mx) ++ skipn (nf_k c) mx).

(** The code given to the functions above: fec_rs_nf4.h:115-123 and fec_base.h:312-313 (not systematic).  The number of
    buffers of [output] is the length of the transform. *)
Definition nf4_penc (ws : nat) : penc := mkPenc (N.to_nat (w / 8)) ws (nf_k c) (nf_len c) pkt nf4_encode_buf.
(** fec_rs_nf4.h:176-216 with fec_context.h:76-139.  [junk1], [junk2], [b1], [mx]: contents of the memory of the context. *)
Definition nf4_pdec (ws : nat) (junk1 junk2 : list N) (b1 mx : list (list N)) : pdec :=
  mkPdec (N.to_nat (w / 8)) ws (nf_k c) (nf_len c) pkt (ctx * list (list N) * list (list N) * list nat)
    (fun ids ps => match nf4_ctx c ids junk1 junk2 with
                   | Some x => Some ((x, b1, mx, repeat 0 (length ps)), map props_sort ps)
                   | None => None end)
    (fun st => let '(_, _, mx, _) := st in firstn (nf_k c) mx)
    (fun st ps offset words =>
       let '(x, b1, mx, cur) := st in
       let '(cur, words) := nf4_prepare_buf (x_ids x) ps offset cur words in
       let '(b1, mx) := nf4_apply_unpack x b1 mx words in
       ((x, b1, mx, cur), words)).
End Nf4.
