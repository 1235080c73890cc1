(** Model of encode_streams_horizontal and decode_streams_horizontal of src/fec_base.h for the Fermat-field code.
    Proof-free.  Streams are as in Streams.v. *)
From Coq Require Import List NArith ZArith Arith Bool.
From Verif.Model Require Import Common Arith Ring Fft2n Radix2 Poly Props Bytes Fnt Blocks Header Streams.
Import ListNotations.
Open Scope nat_scope.

(** readw, fec_base.h:318-355, for word sizes 1 and 2: a word of [ws] bytes is read to a local variable; the word is
    [None] if the stream gives fewer bytes. *)
Definition readw (ws : nat) (s : istream) : istream * option N :=
  let '(s', buf, ok, _) := stream_read ws s (repeat 0%N ws) in
  (s', if ok : bool then Some (word_of_bytes buf) else None).

(** The reading loops, fec_base.h:435-442, 640-651 and 652-660: one word from every stream, up to the first failure. *)
Fixpoint readw_all (ws : nat) (l : list istream) : list istream * option (list N) :=
  match l with
  | [] => ([], Some [])
  | s :: t =>
      let '(s', o) := readw ws s in
      match o with
      | None => (s' :: t, None)
      | Some v => let '(t', r) := readw_all ws t in (s' :: t', option_map (cons v) r)
      end
  end.

(** The loop of encode_streams_horizontal, fec_base.h:433-459.  [None]: fuel exhausted.  The transform writes [c_n]
    symbols to [output], which has get_n_outputs() symbols (fec_base.h:423): [Ub] if they are fewer. *)
Fixpoint hencode_loop (fuel : nat) (c : fnt) (offset : nat) (ins : list istream) (output : list N)
    (outs : list (list N)) (ps : list props) : option (outcome (list (list N) * list props)) :=
  match fuel with
  | O => None
  | S f =>
      let '(ins, r) := readw_all (c_ws c) ins in
      match r with
      | None => Some (Ret (outs, ps))
      | Some words =>
          if length output <? c_n c then Some Ub
          else
            let '(output, ps) := encode_vec c output ps (N.of_nat offset) words in
            let outs := map (fun i => get [] outs i ++ bytes_of_word (c_ws c) (get 0%N output i)) (seq 0 (c_nout c)) in
            hencode_loop f c (offset + 1) ins output outs ps
      end
  end.

(** encode_streams_horizontal, fec_base.h:409-460.  [output]: contents of the vector allocated by the function.
    [None]: a failed assertion. *)
Definition encode_hstreams (c : fnt) (output : list N) (data outs : list (list N)) (ps : list props)
  : option (outcome (list (list N) * list props)) :=
  if (length data =? c_k c) && (length outs =? c_nout c) && (length ps =? c_nout c) then
    hencode_loop (S (length (get [] data 0))) c 0 (map (fun b => mkIs b false) data) output outs (map (fun _ => []) ps)
  else None.

(** decode_prepare on Vectors, fec_base.h:799-820: the index of the fragment is used as index of its record and of its
    cursor, for systematic codes too; [Ub] if there is no such record. *)
Definition decode_prepare_vec (c : fnt) (ids : list nat) (ps : list props) (offset : N) (cur : list nat) (words : list N)
  : outcome (list nat * list N) :=
  fold_left (fun o i => bind o (fun st : list nat * list N =>
      let '(cur, words) := st in
      let j := get 0 ids i in
      if length ps <=? j then Ub
      else
        let pj := get [] ps j in
        if props_is_marked pj (get 0 cur j) offset then
          Ret (set cur j (get 0 cur j + 1),
               if N.eqb (props_marker pj (get 0 cur j)) OOR_MARK then set words i (c_h c) else words)
        else Ret (cur, words)))
    (seq 0 (c_k c)) (Ret (cur, words)).

(** The loop of decode_streams_horizontal, fec_base.h:638-678; the streams are those of the fragments in use. *)
Fixpoint hdecode_loop (fuel : nat) (c : fnt) (x : ctx) (ps : list props) (wanted : list bool) (offset : nat)
    (ins : list istream) (vs : vscratch) (cur : list nat) (outs : list (list N)) : option (outcome (list (list N))) :=
  match fuel with
  | O => None
  | S f =>
      let '(ins, r) := readw_all (c_ws c) ins in
      match r with
      | None => Some (Ret outs)
      | Some words =>
          match decode_prepare_vec c (x_ids x) ps (N.of_nat offset) cur words with
          | Ub => Some Ub
          | Ret (cur, words) =>
              let '(vs, output) := decode_apply_vec c x vs words in
              let outs := map (fun i => if get false wanted i
                                        then get [] outs i ++ bytes_of_word (c_ws c) (get 0%N output i)
                                        else get [] outs i) (seq 0 (c_k c)) in
              hdecode_loop f c x ps wanted (offset + 1) ins vs cur outs
          end
      end
  end.

(** decode_streams_horizontal, fec_base.h:560-680.  Arguments and result as for decode_streams_vertical; [vs]: contents of
    the vectors of the new context.  The indices of the fragments are increasing. *)
Definition decode_hstreams (c : fnt) (junk1 junk2 : list N) (vs : vscratch)
    (data par : list (list N)) (ps : list props) (missing wanted : list bool) (outs : list (list N))
  : option (outcome (bool * list (list N) * list props)) :=
  if (negb (c_sys c) || (length data =? c_k c)) && (length par =? c_nout c) && (length ps =? c_nout c)
     && (length outs =? c_k c) then
    let ad := avail_data c missing in
    if c_sys c && (length ad =? c_k c) then Some (Ret (true, outs, ps))
    else
      let ap := avail_par c missing in
      if length ad + length ap <? c_k c then Some (Ret (false, outs, ps))
      else
        let ids := ad ++ (if c_sys c then map (fun i => c_k c + i) ap else ap) in
        let ps' := map props_sort ps in
        match ctx_new c ids junk1 junk2 with
        | None => None
        | Some x =>
            let ins := map (fun i => mkIs (if i <? length ad then get [] data (get 0 (x_ids x) i)
                                           else get [] par (get 0 ap (i - length ad))) false) (seq 0 (c_k c)) in
            match hdecode_loop (S (length (is_rest (get (mkIs [] true) ins 0)))) c x ps' wanted 0 ins vs
                    (repeat 0 (length ps)) outs with
            | None => None
            | Some Ub => Some Ub
            | Some (Ret outs') => Some (Ret (true, outs', ps'))
            end
        end
  else None.
