(** Model of encode_streams_vertical and decode_streams_vertical of src/fec_base.h for the Fermat-field code.  Proof-free.
    An input stream is the list of the bytes that are left in it and its failure flag; an output stream is the list of
    the bytes written so far.  Writing never fails.  Distinct stream pointers are distinct streams. *)
From Coq Require Import List NArith ZArith Arith Bool.
From Verif.Model Require Import Common Arith Ring Fft2n Radix2 Poly Props Bytes Fnt Blocks.
Import ListNotations.
Open Scope nat_scope.

Record istream := mkIs { is_rest : list N; is_fail : bool }.

(** istream::read of [n] bytes to the start of [buf] (read_pkt, fec_base.h:387-390): the stream, the buffer, success and
    gcount().  A stream that has failed reads nothing. *)
Definition stream_read (n : nat) (s : istream) (buf : list N) : istream * list N * bool * nat :=
  if is_fail s then (s, buf, false, 0)
  else
    let got := firstn n (is_rest s) in
    if n <=? length (is_rest s) then (mkIs (skipn n (is_rest s)) false, blit buf 0 got, true, n)
    else (mkIs [] true, blit buf 0 got, false, length got).

(** State of the reading loop: streams, [words_char], [read_bytes], [cont]. *)
Record rstate := mkRs { rs_in : list istream; rs_wc : list (list N); rs_bytes : nat; rs_cont : bool }.

(** One turn of the reading loops, fec_base.h:504-514, 972-984 and 987-1000. *)
Definition read_one (size : nat) (st : rstate) (i : nat) : rstate :=
  let '(s, buf, ok, got) := stream_read size (get (mkIs [] true) (rs_in st) i) (get [] (rs_wc st) i) in
  if ok : bool then mkRs (set (rs_in st) i s) (set (rs_wc st) i buf) (rs_bytes st) (rs_cont st)
  else mkRs (set (rs_in st) i s) (set (rs_wc st) i (blit buf got (repeat 0%N (size - got)))) got false.

(** fec_base.h:503-515. *)
Definition read_turn (k size : nat) (st : rstate) : rstate := fold_left (read_one size) (seq 0 k) st.

(** ** Encoding *)

(** The loop of encode_streams_vertical, fec_base.h:503-541.  [None]: fuel exhausted.  [outs] is what the output streams
    hold.  The members of the state are those of [ebstate], the last ones being the outputs and the records. *)
Fixpoint encode_streams_loop (fuel : nat) (c : fnt) (xe : ctx) (offset : nat) (rs : rstate)
    (es : escratch (list N)) (out outs : list (list N)) (ps : list props)
  : option (escratch (list N) * list (list N) * list props) :=
  match fuel with
  | O => None
  | S f =>
      let ws := c_ws c in let pkt := c_pkt c in
      let rs := read_turn (c_k c) (pkt * ws) rs in
      if rs_bytes rs =? 0 then Some (es, outs, ps)
      else
        let words := map (pack_buf ws pkt) (rs_wc rs) in
        let '(es, out, _, ps) := encode_pkt c xe es out words ps (N.of_nat offset) in
        let oc := map (unpack_buf ws) out in
        let outs := map (fun i => get [] outs i ++ firstn (rs_bytes rs) (get [] oc i)) (seq 0 (c_nout c)) in
        if rs_cont rs then encode_streams_loop f c xe (offset + pkt) rs es out outs ps
        else Some (es, outs, ps)
  end.

(** encode_streams_vertical, fec_base.h:463-542.  [wc], [out]: contents of the buffers allocated by the function.
    [data]: contents of the input streams; [outs]: of the output streams before the call.  [None]: a failed assertion. *)
Definition encode_streams (c : fnt) (xe : ctx) (es : escratch (list N)) (wc out : list (list N))
    (data outs : list (list N)) (ps : list props) : option (escratch (list N) * list (list N) * list props) :=
  if (length data =? c_k c) && (length outs =? c_nout c) && (length ps =? c_nout c) then
    encode_streams_loop (S (length (get [] data 0))) c xe 0
      (mkRs (map (fun b => mkIs b false) data) wc (c_pkt c * c_ws c) true) es out outs (map (fun _ => []) ps)
  else None.

(** ** Decoding *)

(** The loop of decode_streams_vertical, fec_base.h:970-1045; the streams of [rs] are those of the fragments in use. *)
Fixpoint decode_streams_loop (fuel : nat) (c : fnt) (x : ctx) (ps : list props) (wanted : list bool) (offset : nat)
    (rs : rstate) (ds : dscratch (list N)) (cur : list nat) (outs : list (list N)) : option (list (list N)) :=
  match fuel with
  | O => None
  | S f =>
      let ws := c_ws c in let pkt := c_pkt c in
      let rs := read_turn (c_k c) (pkt * ws) rs in
      if rs_bytes rs =? 0 then Some outs
      else
        let words := map (pack_buf ws pkt) (rs_wc rs) in
        let '(cur, ds) := decode_pkt c x ds ps (N.of_nat offset) cur words in
        let oc := map (unpack_buf ws) (firstn (c_k c) (d_mx ds)) in
        let outs := map (fun i => if get false wanted i then get [] outs i ++ firstn (rs_bytes rs) (get [] oc i)
                                  else get [] outs i) (seq 0 (c_k c)) in
        if rs_cont rs then decode_streams_loop f c x ps wanted (offset + pkt) rs ds cur outs
        else Some outs
  end.

(** decode_streams_vertical, fec_base.h:898-1048.  [data] and [par] are the contents of the input streams; [missing] tells
    which pointers are null (as for blocks), [wanted] which output pointers are not.  The result is the returned boolean,
    the output streams and the records. *)
Definition decode_streams (c : fnt) (junk1 junk2 : list N) (wc : list (list N)) (ds : dscratch (list N))
    (data par : list (list N)) (ps : list props) (missing wanted : list bool) (outs : list (list N))
  : option (bool * list (list N) * list props) :=
  if (negb (c_sys c) || (length data =? c_k c)) && (length par =? c_nout c) && (length ps =? c_nout c)
     && (length outs =? c_k c) then
    let ad := avail_data c missing in
    if c_sys c && (length ad =? c_k c) then Some (true, outs, ps)
    else
      let ap := avail_par c missing in
      if length ad + length ap <? c_k c then Some (false, outs, ps)
      else
        let ids := nat_sort (ad ++ (if c_sys c then map (fun i => c_k c + i) ap else ap)) in
        let ps' := map props_sort ps in
        match ctx_new c ids junk1 junk2 with
        | None => None
        | Some x =>
            let ins := map (fun i => mkIs (if i <? length ad then get [] data (get 0 (x_ids x) i)
                                           else get [] par (get 0 ap (i - length ad))) false) (seq 0 (c_k c)) in
            match decode_streams_loop (S (length (is_rest (get (mkIs [] true) ins 0)))) c x ps' wanted 0
                    (mkRs ins wc (c_pkt c * c_ws c) true) ds (repeat 0 (length ps)) outs with
            | None => None
            | Some outs' => Some (true, outs', ps')
            end
        end
  else None.
