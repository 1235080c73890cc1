(** Model of encode_blocks_vertical and decode_blocks_vertical of src/fec_base.h for the Fermat-field code.  Proof-free.
    Byte buffers are lists; sizes and offsets are natural numbers (below 2^63 in the code). *)
From Coq Require Import List NArith ZArith Arith Bool.
From Verif.Model Require Import Common Arith Ring Fft2n Radix2 Poly Props Bytes Fnt.
Import ListNotations.
Open Scope nat_scope.

(** fec_base.h:1104-1126 / 1266-1301: one packet of bytes from a block into the packet buffer [wc], zeros after
    [copy] words. *)
Definition load_pkt (ws pkt offset copy : nat) (block wc : list N) : list N :=
  let wc1 := blit wc 0 (slice block (offset * ws) (copy * ws)) in
  if copy <? pkt then blit wc1 (copy * ws) (repeat 0%N (pkt * ws - copy * ws)) else wc1.

(** fec_base.h:1141-1148 / 1312-1318: the first [copy] words of a packet of bytes to the block. *)
Definition store_pkt (ws offset copy : nat) (oc block : list N) : list N :=
  blit block (offset * ws) (firstn (copy * ws) oc).

(** ** Encoding *)

(** State of the loop of encode_blocks_vertical: [words_char], the buffers of the code object, [output], the blocks of the
    caller and the records.  [words] and [output_char] are overwritten in full in each turn. *)
Record ebstate := mkEb {
  eb_wc : list (list N);
  eb_es : escratch (list N);
  eb_out : list (list N);
  eb_par : list (list N);
  eb_ps : list props
}.

(** One turn, fec_base.h:1101-1150. *)
Definition encode_turn (c : fnt) (xe : ctx) (data : list (list N)) (wanted : list bool) (bs offset : nat)
    (st : ebstate) : ebstate :=
  let ws := c_ws c in let pkt := c_pkt c in
  let copy := Nat.min pkt (bs - offset) in
  let wc := map (fun i => load_pkt ws pkt offset copy (get [] data i) (get [] (eb_wc st) i)) (seq 0 (c_k c)) in
  let words := map (pack_buf ws pkt) wc in
  let '(es, out, _, ps) := encode_pkt c xe (eb_es st) (eb_out st) words (eb_ps st) (N.of_nat offset) in
  let oc := map (unpack_buf ws) out in
  let par := map (fun i => if get false wanted i then store_pkt ws offset copy (get [] oc i) (get [] (eb_par st) i)
                           else get [] (eb_par st) i) (seq 0 (c_nout c)) in
  mkEb wc es out par ps.

(** The loop, fec_base.h:1101. *)
Fixpoint encode_loop (fuel : nat) (c : fnt) (xe : ctx) (data : list (list N)) (wanted : list bool) (bs offset : nat)
    (st : ebstate) : ebstate :=
  match fuel with
  | O => st
  | S f =>
      if offset <? bs then
        encode_loop f c xe data wanted bs (offset + c_pkt c) (encode_turn c xe data wanted bs offset st)
      else st
  end.

(** encode_blocks_vertical, fec_base.h:1066-1151.  [None]: a failed assertion.  [wc], [out]: contents of the buffers
    allocated by the function; [es]: of those allocated with the code; [par]: the output blocks before the call.
    The result is the code's buffers, the blocks and the records. *)
Definition encode_blocks (c : fnt) (xe : ctx) (es : escratch (list N)) (wc out : list (list N))
    (data par : list (list N)) (ps : list props) (wanted : list bool) (bytes : nat)
  : option (escratch (list N) * list (list N) * list props) :=
  if (length data =? c_k c) && (length par =? c_nout c) && (length ps =? c_nout c) then
    let bs := bytes / c_ws c in
    let st := encode_loop bs c xe data wanted bs 0 (mkEb wc es out par (map (fun _ => []) ps)) in
    Some (eb_es st, eb_par st, eb_ps st)
  else None.

(** ** Decoding *)

(** Vector::sort of vec_vector.h:451-454 (std::sort). *)
Fixpoint nat_insert (x : nat) (l : list nat) : list nat :=
  match l with [] => [x] | y :: t => if x <=? y then x :: l else y :: nat_insert x t end.
Fixpoint nat_sort (l : list nat) : list nat :=
  match l with [] => [] | x :: t => nat_insert x (nat_sort t) end.

(** fec_base.h:1200-1213: data fragments that are not missing (systematic code). *)
Definition avail_data (c : fnt) (missing : list bool) : list nat :=
  if c_sys c then filter (fun i => negb (get true missing i)) (seq 0 (c_k c)) else [].

(** fec_base.h:1217-1232: indices of the first available outputs, enough to have [k] fragments. *)
Definition avail_par (c : fnt) (missing : list bool) : list nat :=
  firstn (c_k c - length (avail_data c missing))
    (filter (fun i => negb (get true missing (if c_sys c then c_k c + i else i))) (seq 0 (c_nout c))).

(** State of the loop: [words_char], the buffers of the context, the cursors, the data blocks of the caller. *)
Record dbstate := mkDb {
  db_wc : list (list N);
  db_ds : dscratch (list N);
  db_cur : list nat;
  db_data : list (list N)
}.

(** One turn, fec_base.h:1260-1320.  [ad], [ap]: available data and parities. *)
Definition decode_turn (c : fnt) (x : ctx) (ad ap : list nat) (par : list (list N)) (ps : list props)
    (wanted : list bool) (bs offset : nat) (st : dbstate) : dbstate :=
  let ws := c_ws c in let pkt := c_pkt c in
  let copy := Nat.min pkt (bs - offset) in
  let src := fun i => if i <? length ad then get [] (db_data st) (get 0 (x_ids x) i)
                      else get [] par (get 0 ap (i - length ad)) in
  let wc := map (fun i => load_pkt ws pkt offset copy (src i) (get [] (db_wc st) i)) (seq 0 (c_k c)) in
  let words := map (pack_buf ws pkt) wc in
  let '(cur, ds) := decode_pkt c x (db_ds st) ps (N.of_nat offset) (db_cur st) words in
  let oc := map (unpack_buf ws) (firstn (c_k c) (d_mx ds)) in
  let data := map (fun i => if get false wanted i then store_pkt ws offset copy (get [] oc i) (get [] (db_data st) i)
                            else get [] (db_data st) i) (seq 0 (c_k c)) in
  mkDb wc ds cur data.

(** The loop, fec_base.h:1260. *)
Fixpoint decode_loop (fuel : nat) (c : fnt) (x : ctx) (ad ap : list nat) (par : list (list N)) (ps : list props)
    (wanted : list bool) (bs offset : nat) (st : dbstate) : dbstate :=
  match fuel with
  | O => st
  | S f =>
      if offset <? bs then
        decode_loop f c x ad ap par ps wanted bs (offset + c_pkt c)
          (decode_turn c x ad ap par ps wanted bs offset st)
      else st
  end.

(** decode_blocks_vertical, fec_base.h:1177-1321.  [None]: a failed assertion.  [junk1], [junk2], [wc], [ds]: contents of
    the memory allocated by the function.  The result is the returned boolean, the data blocks and the records, which the
    context has sorted. *)
Definition decode_blocks (c : fnt) (junk1 junk2 : list N) (wc : list (list N)) (ds : dscratch (list N))
    (data par : list (list N)) (ps : list props) (missing wanted : list bool) (bytes : nat)
  : option (bool * list (list N) * list props) :=
  if (negb (c_sys c) || (length data =? c_k c)) && (length par =? c_nout c) && (length ps =? c_nout c) then
    let bs := bytes / c_ws c in
    let ad := avail_data c missing in
    if c_sys c && (length ad =? c_k c) then Some (true, data, ps)
    else
      let ap := avail_par c missing in
      if length ad + length ap <? c_k c then Some (false, data, ps)
      else
        let ids := nat_sort (ad ++ (if c_sys c then map (fun i => c_k c + i) ap else ap)) in
        let ps' := map props_sort ps in
        match ctx_new c ids junk1 junk2 with
        | None => None
        | Some x =>
            let st := decode_loop bs c x ad ap par ps' wanted bs 0 (mkDb wc ds (repeat 0 (length ps)) data) in
            Some (true, db_data st, ps')
        end
  else None.
