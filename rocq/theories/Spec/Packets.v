(** Operations on packets. *)
Set Warnings "-notation-overridden,-ambiguous-paths".
From Coq Require Import NArith.
From Coq Require List.
From Verif.Model Require Import Common Ring Simd.
From mathcomp Require Import all_ssreflect ssralg.
Import GRing.Theory.
Local Open Scope ring_scope.

(** Builds in which the functions on packets are those of the field [G]: without SIMD, or types that have no specialisation,
    any field; else only the prime field of the type, 257 elements in 16 bits and 65537 in 32 bits. *)
Definition build_fits (nh : nat) (w rc : N) (G : gfops) : Prop :=
  (nh <= 2)%N /\ (nh = 0%N \/ ~ List.In w [:: 16; 32]%num \/
    (w = 16%num /\ rc = 257%num /\ G = prime_ops 16 257) \/ (w = 32%num /\ rc = 65537%num /\ G = prime_ops 32 65537)).

Section Packets.
Variables (F : fieldType) (G : gfops) (phi : N -> F).
(** [len] elements of the field. *)
Definition packet (len : nat) (p : list N) : Prop := size p = len /\ forall t, (t < len)%N -> (List.nth t p 0 < g_card G)%num.
(** [len] elements of the field, those of [f]. *)
Definition made_of (len : nat) (f : nat -> F) (p : list N) : Prop :=
  packet len p /\ forall t, (t < len)%N -> phi (List.nth t p 0%num) = f t.
Definition elt (p : list N) (t : nat) : F := phi (List.nth t p 0%num).
(** Buffers of [m] packets, and what an operation on the first [m] packets of a buffer leaves in it. *)
Definition buffer (len m : nat) (b : list (list N)) : Prop := size b = m /\ forall i, (i < m)%N -> packet len (List.nth i b nil).
Definition updated (len m : nat) (f : nat -> nat -> F) (old b : list (list N)) : Prop :=
  [/\ size b = size old, forall i, (i < m)%N -> made_of len (f i) (List.nth i b nil) & forall i, (m <= i)%N -> List.nth i b nil = List.nth i old nil].
Definition cell (b : list (list N)) (i t : nat) : F := elt (List.nth i b nil) t.
End Packets.
