(** Model of src/vec_cast.h (pack, unpack) and of the memory copies of src/fec_base.h.  Bytes are numbers below 256;
    the host is little-endian, as on the x86 targets of the SIMD kernels.  Proof-free. *)
From Coq Require Import List NArith Arith Bool.
From Verif.Model Require Import Common.
Import ListNotations.
Open Scope nat_scope.

(** A word of [ws] bytes read from / written to memory (the casts of vec_cast.h:55 and 114). *)
Fixpoint word_of_bytes (bs : list N) : N :=
  match bs with [] => 0%N | b :: t => (b + 256 * word_of_bytes t)%N end.
Fixpoint bytes_of_word (ws : nat) (v : N) : list N :=
  match ws with O => [] | S m => (v mod 256)%N :: bytes_of_word m (v / 256)%N end.

(** memcpy / memset / copy_n at a byte position of an existing buffer. *)
Definition blit {A} (dst : list A) (pos : nat) (src : list A) : list A :=
  firstn pos dst ++ src ++ skipn (pos + length src) dst.

(** [len] entries of a buffer from position [pos] on. *)
Definition slice {A} (src : list A) (pos len : nat) : list A := firstn len (skipn pos src).

(** One buffer of pack_next, vec_cast.h:48-58: [size] words of [ws] bytes. *)
Definition pack_buf (ws size : nat) (bytes : list N) : list N :=
  map (fun i => word_of_bytes (slice bytes (i * ws) ws)) (seq 0 size).

(** One buffer of unpack_next, vec_cast.h:107-117: every element is converted to a word of [ws] bytes. *)
Definition unpack_buf (ws : nat) (els : list N) : list N := flat_map (bytes_of_word ws) els.
