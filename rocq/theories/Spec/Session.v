(** Situations in which the block functions are used: what the caller and the allocator provide. *)
From Coq Require Import List NArith Arith Permutation.
From Verif.Model Require Import Common Fnt Props.
From Verif.Spec Require Import Code Blocks Widths.
Import ListNotations.
Open Scope nat_scope.

(** [c] is a code object made by the constructor of some build of the library. *)
Definition fnt_object (w : N) (sys : bool) (ws k m pkt : nat) (c : fnt) : Prop :=
  fnt_width w ws /\ fnt_sizes ws k m /\ 0 < pkt /\
  exists nh, fnt_build nh w ws /\ fnt_new nh w sys ws k m pkt = Some c.

(** Number of output fragments and their positions in the codeword. *)
Definition n_outs (sys : bool) (k m : nat) : nat := if sys then m else k + m.
Definition position (sys : bool) (k q : nat) : nat := if sys then k + q else q.

(** Buffers of the sizes the code allocates, with any contents.  A systematic encoder also has the context made when it
    was built. *)
Definition encoder_buffers (c : fnt) (xe : ctx) (es : escratch (list N)) (wc out : list (list N)) : Prop :=
  (c_sys c = true -> es_ok c es /\ exists junk1 junk2,
     ctx_new c (seq 0 (c_k c)) junk1 junk2 = Some xe /\ length junk1 = c_n c /\ length junk2 = c_l2 c) /\
  (forall i, i < c_k c -> length (nth i wc []) = c_pkt c * c_ws c) /\ length out = c_outlen c.

Definition decoder_buffers (c : fnt) (junk1 junk2 : list N) (wc : list (list N)) (ds : dscratch (list N)) : Prop :=
  length junk1 = c_n c /\ length junk2 = c_l2 c /\
  (forall i, i < c_k c -> length (nth i wc []) = c_pkt c * c_ws c) /\ ds_ok c ds.

(** [n] blocks of [bytes] bytes. *)
Definition blocks (n bytes : nat) (b : list (list N)) : Prop :=
  length b = n /\ forall i, i < n -> length (nth i b []) = bytes /\ all_bytes (nth i b []).

(** Fragments that have not been lost. *)
Definition present (k m : nat) (missing : list bool) : list nat :=
  filter (fun i => negb (nth i missing true)) (seq 0 (k + m)).

(** What a decoder receives when the fragments [par], with records [ps], and for a systematic code the blocks [data],
    are stored and some are lost: those not missing are intact, anything may stand for the others, and records may come
    in any order. *)
Definition received (sys : bool) (k m : nat) (missing : list bool) (data par : list (list N)) (ps : list props)
    (buf par' : list (list N)) (ps' : list props) : Prop :=
  (sys = true -> forall j, j < k -> nth j missing true = false -> nth j buf [] = nth j data []) /\
  length par' = n_outs sys k m /\ length ps' = n_outs sys k m /\
  (forall q, q < n_outs sys k m -> nth (position sys k q) missing true = false ->
    nth q par' [] = nth q par [] /\ Permutation (nth q ps' []) (nth q ps [])).
