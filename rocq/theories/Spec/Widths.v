(** The combinations of an unsigned type (width in bits) and a word size (bytes) on which the Fermat-field code can be
    instantiated: the field with 257 or 65537 elements must fit.  __uint128_t is left out: Thm/U128Thm.v. *)
From Coq Require Import List NArith.
Import ListNotations.

Definition fnt_width (w : N) (ws : nat) : Prop :=
  (ws = 1 /\ In w [16; 32; 64]%N) \/ (ws = 2 /\ In w [32; 64]%N).

(** Builds: without SIMD ([nh = 0]), with registers of 128 bits ([nh = 1]) or 256 bits ([nh = 2]).  The SIMD functions have
    the field fixed by the type, so that in these builds uint16_t goes with 257 and uint32_t with 65537. *)
Definition fnt_build (nh : nat) (w : N) (ws : nat) : Prop :=
  nh = 0 \/ (nh <= 2 /\ (w = 16%N -> ws = 1) /\ (w = 32%N -> ws = 2)).

(** Numbers of data and parity fragments that the field allows. *)
Definition fnt_sizes (ws k m : nat) : Prop :=
  0 < k /\ 0 < m /\ (N.of_nat (k + m) <= 256 ^ N.of_nat ws)%N /\ (2 * N.of_nat k <= 256 ^ N.of_nat ws)%N.
