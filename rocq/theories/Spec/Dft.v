(** Specifications independent of the modelled algorithms: the discrete Fourier transform and bit reversal. *)
Set Warnings "-notation-overridden,-ambiguous-paths".
From mathcomp Require Import all_ssreflect ssralg.
Import GRing.Theory.
Local Open Scope ring_scope.

(** [dft w n x i] is the value at [w^i] of the polynomial with coefficients [x 0 .. x (n-1)]. *)
Definition dft (F : fieldType) (w : F) (n : nat) (x : nat -> F) (i : nat) : F :=
  \sum_(j < n) x j * w ^+ (i * j).

(** The number whose [l] low bits are those of [b] in reverse order. *)
Fixpoint brev (l b : nat) : nat :=
  if l is l'.+1 then (odd b * 2 ^ l' + brev l' b./2)%N else 0%N.
