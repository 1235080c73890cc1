(** Objects of one code that can take the place of each other. *)
From Coq Require Import List NArith Arith Bool.
From Verif.Model Require Import Common Props HCodes.
From Verif.Spec Require Import Blocks Session HStreams.
Import ListNotations.
Open Scope nat_scope.

(** [E]: encoders, [D]: decoders.  Two encoders write the same bytes and the same records for the same data; what any of
    them writes is decoded by any decoder, as in [streams_back]. *)
Definition interchangeable (sys : bool) (ws k m : nat) (E D : vcode -> Prop) (pat : list bool -> Prop) : Prop :=
  (forall e e' output output' data old ps L, E e -> E e' -> length output = v_out e -> length output' = v_out e' ->
     blocks k L data -> length old = n_outs sys k m -> length ps = n_outs sys k m ->
     exists outs ps', encode_vstreams e output data old ps = Some (outs, ps') /\ encode_vstreams e' output' data old ps = Some (outs, ps')) /\
  forall e, E e -> streams_back sys ws k m e D pat.
