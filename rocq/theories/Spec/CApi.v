(** What users of the C interface know: sizes of the buffers, payloads, headers. *)
From Coq Require Import List NArith Arith.
From Verif.Model Require Import Common Props.
From Verif.Spec Require Import Blocks Header Session.
Import ListNotations.
Open Scope nat_scope.

(** quadiron_c.h: a header is 4 bytes for each of 16 + block/65536 words. *)
Definition header_size (block : nat) : nat := 4 * (16 + N.to_nat (N.of_nat block / 65536)).

(** [n] buffers, each a header and a block of [block] bytes: data first, then parities. *)
Definition capi_memory (n block : nat) (mem : list (list N)) : Prop := blocks n (header_size block + block) mem.

(** The block in buffer [b], and the header. *)
Definition payload (block : nat) (mem : list (list N)) (b : nat) : list N := skipn (header_size block) (nth b mem []).
Definition head (block : nat) (mem : list (list N)) (b : nat) : list N := firstn (header_size block) (nth b mem []).

(** A header with the locations [locs], zeros, and the last word that was there ([old]: the header before). *)
Definition header_area (block : nat) (locs : list N) (old : list N) : list N :=
  header locs ++ repeat 0%N (header_size block - 12 - 4 * length locs) ++ skipn (header_size block - 4) old.

(** Number of words of a header that can be used for locations: one word is always left. *)
Definition room (block : nat) : nat := 13 + N.to_nat (N.of_nat block / 65536).


(** Fragments survive as they were; anything is in the other buffers. *)
Definition survive (n : nat) (missing : list bool) (mem mem' : list (list N)) : Prop :=
  forall i, i < n -> nth i missing true = false -> nth i mem' [] = nth i mem [].
