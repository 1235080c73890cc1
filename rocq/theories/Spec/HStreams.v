(** Streams given to a code and read back. *)
From Coq Require Import List NArith Arith Bool.
From Verif.Model Require Import Common Props HCodes.
From Verif.Spec Require Import Blocks Session.
Import ListNotations.
Open Scope nat_scope.

(** [k] data streams of [L] bytes are encoded by [e] to the output streams, that already hold [old]; the bytes after the
    last full word of [ws] bytes are not encoded.  Any decoder among [D] gets the data back from what is received, when at
    least [k] fragments are there and [pat] holds of the missing ones; [old'] is what its output streams already hold.  A
    systematic code writes nothing if all the data are there.  [output] and [out'] are the vectors that the functions
    allocate. *)
Definition streams_back (sys : bool) (ws k m : nat) (e : vcode) (D : vcode -> Prop) (pat : list bool -> Prop) : Prop :=
  forall output data old ps L, length output = v_out e -> blocks k L data -> length old = n_outs sys k m -> length ps = n_outs sys k m ->
  exists frags ps', encode_vstreams e output data old ps =
      Some (map (fun q => nth q old [] ++ nth q frags []) (seq 0 (n_outs sys k m)), ps') /\
    blocks (n_outs sys k m) (L / ws * ws) frags /\ length ps' = n_outs sys k m /\
  forall d missing wanted rdata rpar rps old' out', D d ->
    received sys k m missing data frags ps' rdata rpar rps -> (sys = true -> length rdata = k) -> length old' = k -> length out' = k ->
    k <= length (present k m missing) -> pat missing ->
    exists outs ps'', decode_vstreams d out' rdata rpar rps missing wanted old' = Some (true, outs, ps'') /\ length outs = k /\
      forall j, j < k -> nth j outs [] = nth j old' [] ++
        (if nth j wanted false && negb (sys && forallb (fun i => negb (nth i missing true)) (seq 0 k))
         then firstn (L / ws * ws) (nth j data []) else []).

(** With fewer fragments, decoding returns false and writes nothing. *)
Definition streams_too_few (sys : bool) (k m : nat) (d : vcode) : Prop :=
  forall missing wanted data par (ps : list props) old out', length (present k m missing) < k ->
  (sys = true -> length data = k) -> length par = n_outs sys k m -> length ps = n_outs sys k m -> length old = k ->
  decode_vstreams d out' data par ps missing wanted old = Some (false, old, ps).
