(** Blocks and streams given to a code that is not systematic, and read back. *)
From Coq Require Import List NArith Arith Bool.
From Verif.Model Require Import Common Props VCodes.
From Verif.Spec Require Import Blocks Session.
Import ListNotations.
Open Scope nat_scope.

(** The buffers that the functions allocate, with any contents: [k] buffers of packets of bytes, [outlen] output buffers. *)
Definition enc_buffers (ws k outlen : nat) (e : penc) (b : ebufs) : Prop :=
  length (b_wc b) = k /\ (forall i, i < k -> length (nth i (b_wc b) []) = pe_pkt e * ws) /\ length (b_out b) = outlen.
Definition dec_buffers (ws k : nat) (d : pdec) (q : dbufs) : Prop :=
  length (q_wc q) = k /\ forall i, i < k -> length (nth i (q_wc q) []) = pd_pkt d * ws.

(** Blocks of [bytes] bytes, a multiple of the word size, are encoded by [e].  Any decoder among [D] gets the data back from
    any [k] fragments, intact and with their records in any order.  The output blocks before encoding, what stands for the
    lost fragments and the destination buffers hold anything. *)
Definition vblocks_back (ws k m outlen : nat) (e : penc) (D : pdec -> Prop) : Prop :=
  forall b data par ps wanted bytes, enc_buffers ws k outlen e b -> bytes mod ws = 0 ->
  blocks k bytes data -> blocks (k + m) bytes par -> length ps = k + m ->
  exists par' ps', pencode_blocks e b data par ps wanted bytes = Some (par', ps') /\
    blocks (k + m) bytes par' /\ length ps' = k + m /\
  forall d q missing wanted' buf rpar rps, D d -> dec_buffers ws k d q -> blocks k bytes buf ->
    received false k m missing data par' ps' buf rpar rps ->
    (forall i, i < k + m -> nth i missing true = false -> nth i wanted false = true) ->
    k <= length (present k m missing) ->
    exists ps'', pdecode_blocks d q buf rpar rps missing wanted' bytes =
      Some (true, map (fun j => if nth j wanted' false then nth j data [] else nth j buf []) (seq 0 k), ps'').

(** The same for streams of [L] bytes; the output streams already hold [old] and [old']. *)
Definition vstreams_back (ws k m outlen : nat) (e : penc) (D : pdec -> Prop) : Prop :=
  forall b data old ps L, enc_buffers ws k outlen e b -> L mod ws = 0 ->
  blocks k L data -> length old = k + m -> length ps = k + m ->
  exists frags ps', pencode_streams e b data old ps = Some (map (fun q => nth q old [] ++ nth q frags []) (seq 0 (k + m)), ps') /\
    blocks (k + m) L frags /\ length ps' = k + m /\
  forall d q missing wanted rpar rps old' rdata, D d -> dec_buffers ws k d q -> length old' = k ->
    received false k m missing data frags ps' rdata rpar rps -> k <= length (present k m missing) ->
    exists ps'', pdecode_streams d q rpar rps missing wanted old' =
      Some (true, map (fun j => nth j old' [] ++ (if nth j wanted false then nth j data [] else [])) (seq 0 k), ps'').

(** With fewer fragments, decoding returns false and changes nothing. *)
Definition vtoo_few (k m : nat) (d : pdec) : Prop :=
  forall q missing wanted bufs par (ps : list props) bytes, length (present k m missing) < k ->
  length bufs = k -> length par = k + m -> length ps = k + m ->
  pdecode_blocks d q bufs par ps missing wanted bytes = Some (false, bufs, ps) /\
  pdecode_streams d q par ps missing wanted bufs = Some (false, bufs, ps).
