(** Model of the C interface, src/quadiron_c.cpp, and of the block functions of src/fec_base.h with pointers, so that the
    same memory can be both read and written.  Proof-free. *)
From Coq Require Import List NArith ZArith Arith Bool.
From Verif.Model Require Import Common Arith Ring Fft2n Radix2 Poly Props Bytes Fnt Blocks Header.
Import ListNotations.
Open Scope nat_scope.

(** ** Memory
    The buffers of the caller and, at the end, those allocated by quadiron_fnt32_reconstruct; different buffers do not
    overlap.  A pointer is the number of a buffer and a place in it; [None] is the null pointer.  Accesses outside of a
    buffer are [Ub].  A buffer that is not allocated is the empty list. *)
Definition cmem := list (list N).
Definition ptr := option (nat * nat).
Definition null : ptr := None.

(** memcpy of [len] bytes from [p + off], and of [bytes] to [p + off]. *)
Definition mem_read (m : cmem) (p : ptr) (off len : nat) : outcome (list N) :=
  match p with
  | None => Ub
  | Some (b, a) =>
      if a + off + len <=? length (get [] m b) then Ret (slice (get [] m b) (a + off) len) else Ub
  end.
Definition mem_write (m : cmem) (p : ptr) (off : nat) (bytes : list N) : outcome cmem :=
  match p with
  | None => Ub
  | Some (b, a) =>
      if a + off + length bytes <=? length (get [] m b) then Ret (set m b (blit (get [] m b) (a + off) bytes)) else Ub
  end.

Fixpoint mapM {A B} (f : A -> outcome B) (l : list A) : outcome (list B) :=
  match l with
  | [] => Ret []
  | a :: t => bind (f a) (fun b => bind (mapM f t) (fun r => Ret (b :: r)))
  end.
Fixpoint foldM {A S} (f : S -> A -> outcome S) (l : list A) (s : S) : outcome S :=
  match l with [] => Ret s | a :: t => bind (f s a) (foldM f t) end.

(** fec_base.h:1104-1126 and 1266-1301 after the memcpy. *)
Definition load_bytes (ws pkt copy : nat) (bytes wc : list N) : list N :=
  let wc1 := blit wc 0 bytes in
  if copy <? pkt then blit wc1 (copy * ws) (repeat 0%N (pkt * ws - copy * ws)) else wc1.

(** fec_base.h:1141-1148 and 1312-1318: the wanted packets go to memory, one after the other. *)
Definition store_all (wanted : list bool) (pp : list ptr) (ws offset copy : nat) (oc : list (list N)) (n : nat) (m : cmem)
  : outcome cmem :=
  foldM (fun m i =>
      if length wanted <=? i then Ub
      else if get false wanted i then mem_write m (get null pp i) (offset * ws) (firstn (copy * ws) (get [] oc i))
      else Ret m)
    (seq 0 n) m.

(** ** encode_blocks_vertical, fec_base.h:1066-1151 *)
Record emstate := mkEm {
  em_wc : list (list N);
  em_es : escratch (list N);
  em_out : list (list N);
  em_mem : cmem;
  em_ps : list props
}.

Definition encode_turn_mem (c : fnt) (xe : ctx) (dp pp : list ptr) (wanted : list bool) (bs offset : nat)
    (st : emstate) : outcome emstate :=
  let ws := c_ws c in let pkt := c_pkt c in
  let copy := Nat.min pkt (bs - offset) in
  bind (mapM (fun i => mem_read (em_mem st) (get null dp i) (offset * ws) (copy * ws)) (seq 0 (c_k c))) (fun chunks =>
  let wc := map (fun i => load_bytes ws pkt copy (get [] chunks i) (get [] (em_wc st) i)) (seq 0 (c_k c)) in
  let words := map (pack_buf ws pkt) wc in
  let '(es, out, _, ps) := encode_pkt c xe (em_es st) (em_out st) words (em_ps st) (N.of_nat offset) in
  let oc := map (unpack_buf ws) out in
  bind (store_all wanted pp ws offset copy oc (c_nout c) (em_mem st)) (fun m =>
  Ret (mkEm wc es out m ps))).

Fixpoint encode_loop_mem (fuel : nat) (c : fnt) (xe : ctx) (dp pp : list ptr) (wanted : list bool) (bs offset : nat)
    (st : emstate) : outcome emstate :=
  match fuel with
  | O => Ret st
  | S f =>
      if offset <? bs then
        bind (encode_turn_mem c xe dp pp wanted bs offset st) (encode_loop_mem f c xe dp pp wanted bs (offset + c_pkt c))
      else Ret st
  end.

(** [None]: a failed assertion. *)
Definition encode_blocks_mem (c : fnt) (xe : ctx) (es : escratch (list N)) (wc out : list (list N))
    (dp pp : list ptr) (m : cmem) (ps : list props) (wanted : list bool) (bytes : nat)
  : option (outcome (escratch (list N) * cmem * list props)) :=
  if (length dp =? c_k c) && (length pp =? c_nout c) && (length ps =? c_nout c) then
    let bs := bytes / c_ws c in
    Some (bind (encode_loop_mem bs c xe dp pp wanted bs 0 (mkEm wc es out m (map (fun _ => []) ps))) (fun st =>
          Ret (em_es st, em_mem st, em_ps st)))
  else None.

(** ** decode_blocks_vertical, fec_base.h:1177-1321 *)
Record dmstate := mkDm {
  dm_wc : list (list N);
  dm_ds : dscratch (list N);
  dm_cur : list nat;
  dm_mem : cmem
}.

Definition decode_turn_mem (c : fnt) (x : ctx) (ad ap : list nat) (dp pp : list ptr) (ps : list props)
    (wanted : list bool) (bs offset : nat) (st : dmstate) : outcome dmstate :=
  let ws := c_ws c in let pkt := c_pkt c in
  let copy := Nat.min pkt (bs - offset) in
  let src := fun i => if i <? length ad then get null dp (get 0 (x_ids x) i)
                      else get null pp (get 0 ap (i - length ad)) in
  bind (mapM (fun i => mem_read (dm_mem st) (src i) (offset * ws) (copy * ws)) (seq 0 (c_k c))) (fun chunks =>
  let wc := map (fun i => load_bytes ws pkt copy (get [] chunks i) (get [] (dm_wc st) i)) (seq 0 (c_k c)) in
  let words := map (pack_buf ws pkt) wc in
  let '(cur, ds) := decode_pkt c x (dm_ds st) ps (N.of_nat offset) (dm_cur st) words in
  let oc := map (unpack_buf ws) (firstn (c_k c) (d_mx ds)) in
  bind (store_all wanted dp ws offset copy oc (c_k c) (dm_mem st)) (fun m =>
  Ret (mkDm wc ds cur m))).

Fixpoint decode_loop_mem (fuel : nat) (c : fnt) (x : ctx) (ad ap : list nat) (dp pp : list ptr) (ps : list props)
    (wanted : list bool) (bs offset : nat) (st : dmstate) : outcome dmstate :=
  match fuel with
  | O => Ret st
  | S f =>
      if offset <? bs then
        bind (decode_turn_mem c x ad ap dp pp ps wanted bs offset st)
          (decode_loop_mem f c x ad ap dp pp ps wanted bs (offset + c_pkt c))
      else Ret st
  end.

Definition decode_blocks_mem (c : fnt) (junk1 junk2 : list N) (wc : list (list N)) (ds : dscratch (list N))
    (dp pp : list ptr) (m : cmem) (ps : list props) (missing wanted : list bool) (bytes : nat)
  : option (outcome (bool * cmem * list props)) :=
  if (negb (c_sys c) || (length dp =? c_k c)) && (length pp =? c_nout c) && (length ps =? c_nout c) then
    let bs := bytes / c_ws c in
    let ad := avail_data c missing in
    if c_sys c && (length ad =? c_k c) then Some (Ret (true, m, ps))
    else
      let ap := avail_par c missing in
      if length ad + length ap <? c_k c then Some (Ret (false, m, ps))
      else
        let ids := nat_sort (ad ++ (if c_sys c then map (fun i => c_k c + i) ap else ap)) in
        let ps' := map props_sort ps in
        match ctx_new c ids junk1 junk2 with
        | None => None
        | Some x =>
            Some (bind (decode_loop_mem bs c x ad ap dp pp ps' wanted bs 0 (mkDm wc ds (repeat 0 (length ps)) m)) (fun st =>
                  Ret (true, dm_mem st, ps')))
        end
  else None.

(** ** The C interface
    The buffers of the caller are [data[0]], ..., [data[n_data - 1]], [parity[0]], ..., in this order. *)

(** quadiron_fnt32_new, quadiron_c.cpp:37-55. *)
Definition fnt32_new (nh : nat) (ws k m : nat) (sys : bool) : option fnt :=
  if (ws =? 1) || (ws =? 2) then fnt_new nh 32 sys ws k m 1024 else None.

(** quadiron_fnt32_get_metadata_size, quadiron_c.cpp:61-71.  (The conversion to int does not matter below 2^44 bytes.) *)
Definition metadata_size (block : nat) : nat := N.to_nat ((N.of_nat block / 65536 + 16) * 4).

(** fnt_serialize to the first words of buffer [b]: the header is an array of [metadata_size / 4] words, least significant
    byte first. *)
Definition serialize_at (md : nat) (ps : props) (b : nat) (m : cmem) : outcome (Z * cmem) :=
  let buf := get [] m b in
  if length buf <? md then Ub
  else bind (fnt_serialize ps (pack_buf 4 (md / 4) (firstn md buf))) (fun r =>
       Ret (fst r, set m b (unpack_buf 4 (snd r) ++ skipn md buf))).

(** The loops over headers, e.g. quadiron_c.cpp:113-147: they end at the first failure. *)
Fixpoint serialize_all (md : nat) (l : list (nat * props)) (m : cmem) : outcome (Z * cmem) :=
  match l with
  | [] => Ret (0%Z, m)
  | (b, p) :: t => bind (serialize_at md p b m) (fun r =>
                   if (fst r =? -1)%Z then Ret ((-1)%Z, snd r) else serialize_all md t (snd r))
  end.

Definition deserialize_at (md : nat) (b : nat) (m : cmem) : outcome (Z * props) :=
  let buf := get [] m b in
  if length buf <? md then Ub else fnt_deserialize [] (pack_buf 4 (md / 4) (firstn md buf)).

(** The loops over the headers of the fragments that are not missing: record [q] comes from the header of fragment [p].
    [None]: a failure, the function returns -1. *)
Fixpoint deserialize_all (md : nat) (l : list (nat * nat)) (missing : list bool) (m : cmem) (ps : list props)
  : outcome (option (list props)) :=
  match l with
  | [] => Ret (Some ps)
  | (q, p) :: t =>
      if get true missing p then deserialize_all md t missing m ps
      else bind (deserialize_at md p m) (fun r =>
           if (fst r =? -1)%Z then Ret None else deserialize_all md t missing m (set ps q (snd r)))
  end.

(** Fragment [q] of the outputs is in buffer [frag_buf q]: quadiron_c.cpp:92-108. *)
Definition frag_buf (c : fnt) (q : nat) : nat := if c_sys c then c_k c + q else q.
Definition data_ptrs (c : fnt) (md : nat) : list ptr := map (fun i => Some (i, md)) (seq 0 (c_k c)).
Definition out_ptrs (c : fnt) (md : nat) : list ptr := map (fun q => Some (frag_buf c q, md)) (seq 0 (c_nout c)).

(** quadiron_fnt32_encode, quadiron_c.cpp:73-150: the result is the returned number, the memory and the buffers of the
    code object. *)
Definition fnt32_encode (c : fnt) (xe : ctx) (es : escratch (list N)) (wc out : list (list N)) (m : cmem)
    (wanted : list bool) (block : nat) : option (outcome (Z * cmem * escratch (list N))) :=
  let md := metadata_size block in
  let w := map (get false wanted) (seq 0 (c_nout c)) in
  match encode_blocks_mem c xe es wc out (data_ptrs c md) (out_ptrs c md) m (repeat [] (c_nout c)) w block with
  | None => None
  | Some o => Some (bind o (fun r =>
      let '(es', m', ps) := r in
      let frags := map (fun q => (frag_buf c q, get [] ps q)) (seq 0 (c_nout c)) in
      let l := if c_sys c then map (fun i => (i, [])) (seq 0 (c_k c)) ++ frags else frags in
      bind (serialize_all md l m') (fun r => Ret (fst r, snd r, es'))))
  end.

(** The records that quadiron_c.cpp:168-204 and 247-283 read. *)
Definition read_headers (c : fnt) (md : nat) (missing : list bool) (m : cmem) : outcome (option (list props)) :=
  deserialize_all md (map (fun q => (q, frag_buf c q)) (seq 0 (c_nout c))) missing m (repeat [] (c_nout c)).

(** The last loop of quadiron_fnt32_decode, quadiron_c.cpp:217-226: the record of index [i] is used, also for systematic
    codes that have fewer records than data. *)
Fixpoint reset_headers (md nps : nat) (l : list nat) (m : cmem) : outcome (Z * cmem) :=
  match l with
  | [] => Ret (0%Z, m)
  | i :: t => if nps <=? i then Ub
              else bind (serialize_at md [] i m) (fun r =>
                   if (fst r =? -1)%Z then Ret ((-1)%Z, snd r) else reset_headers md nps t (snd r))
  end.

(** quadiron_fnt32_decode, quadiron_c.cpp:152-229. *)
Definition fnt32_decode (c : fnt) (junk1 junk2 : list N) (wc : list (list N)) (ds : dscratch (list N)) (m : cmem)
    (missing : list bool) (block : nat) : option (outcome (Z * cmem)) :=
  let md := metadata_size block in
  match read_headers c md missing m with
  | Ub => Some Ub
  | Ret None => Some (Ret ((-1)%Z, m))
  | Ret (Some ps) =>
      let pp := map (fun q => if get true missing (frag_buf c q) then None else Some (frag_buf c q, md)) (seq 0 (c_nout c)) in
      match decode_blocks_mem c junk1 junk2 wc ds (data_ptrs c md) pp m ps missing (repeat true (c_k c)) block with
      | None => None
      | Some o => Some (bind o (fun r =>
          let '(ok, m', ps') := r in
          if ok : bool then reset_headers md (length ps') (seq 0 (c_k c)) m' else Ret ((-1)%Z, m')))
      end
  end.

(** quadiron_fnt32_reconstruct, quadiron_c.cpp:231-406.  The blocks that it allocates (lines 325-343) are buffers
    [n_data + n_parities + i]. *)
Definition fnt32_reconstruct (c : fnt) (xe : ctx) (es : escratch (list N)) (junk1 junk2 : list N)
    (wc : list (list N)) (ds : dscratch (list N)) (wc2 out2 : list (list N)) (m : cmem)
    (missing : list bool) (dest block : nat) : option (outcome (Z * cmem * escratch (list N))) :=
  let md := metadata_size block in
  let k := c_k c in
  let n := c_k c + c_m c in
  match read_headers c md missing m with
  | Ub => Some Ub
  | Ret None => Some (Ret ((-1)%Z, m, es))
  | Ret (Some ps) =>
      if c_sys c && (dest <? k) then
        (* lines 290-318; wanted_idxs_vec has n_outputs entries *)
        if c_nout c <=? dest then Some Ub
        else
          let wanted := set (repeat false (c_nout c)) dest true in
          match decode_blocks_mem c junk1 junk2 wc ds (data_ptrs c md) (out_ptrs c md) m ps missing wanted block with
          | None => None
          | Some o => Some (bind o (fun r =>
              let '(ok, m', ps') := r in
              if ok : bool then bind (serialize_at md [] dest m') (fun r => Ret (fst r, snd r, es))
              else Ret ((-1)%Z, m', es)))
          end
      else
        (* lines 320-406 *)
        let need := fun i => negb (c_sys c) || get true missing i in
        let tmp := map (fun i => if need i then repeat 0%N block else []) (seq 0 k) in
        let dp := map (fun i => if need i then Some (n + i, 0) else Some (i, md)) (seq 0 k) in
        let decoded :=
          if existsb need (seq 0 k) then
            decode_blocks_mem c junk1 junk2 wc ds dp (out_ptrs c md) (m ++ tmp) ps missing (map need (seq 0 k)) block
          else Some (Ret (true, m ++ tmp, ps)) in
        match decoded with
        | None => None
        | Some Ub => Some Ub
        | Some (Ret (false, m', _)) => Some (Ret ((-1)%Z, firstn n m', es))
        | Some (Ret (true, m', ps')) =>
            let q := if c_sys c then dest - k else dest in
            if c_nout c <=? q then Some Ub
            else
              let wanted := set (repeat false (c_nout c)) q true in
              match encode_blocks_mem c xe es wc2 out2 dp (out_ptrs c md) m' ps' wanted block with
              | None => None
              | Some o => Some (bind o (fun r =>
                  let '(es', m'', ps'') := r in
                  bind (serialize_at md (get [] ps'' q) (frag_buf c q) (firstn n m'')) (fun r =>
                  Ret (fst r, snd r, es'))))
              end
        end
  end.
