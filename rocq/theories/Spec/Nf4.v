(** What words of several numbers are, independently of shifts and masks: digits in base 2^32 or 2^16. *)
From Coq Require Import List NArith Arith.
From Verif.Spec Require Import Blocks.
From Verif.Model Require Import Nf4.
Import ListNotations.
Open Scope N_scope.

(** The number with these digits, least significant first. *)
Definition digits (base : N) (l : list N) : N := fold_right (fun x c => x + base * c) 0 l.
(** Elements of GF(65537), each in 32 bits. *)
Definition word32 (l : list N) : N := digits (2 ^ 32) l.
(** Numbers of 16 bits. *)
Definition word16 (l : list N) : N := digits (2 ^ 16) l.
Definition elements (n : nat) (l : list N) : Prop := length l = n /\ Forall (fun x => x < 65537) l.
Definition numbers (n : nat) (l : list N) : Prop := length l = n /\ Forall (fun x => x < 65536) l.

(** Element-wise operations. *)
Definition zip (f : N -> N -> N) (l m : list N) : list N := map (fun p => f (fst p) (snd p)) (combine l m).

(** Types: the generic functions for any type of at least 32 n bits; the specialisations for 128 bits. *)
Definition nf4_type (B : build) (w : N) (n : nat) : Prop :=
  (0 < n)%nat /\
  match B with
  | Plain => 32 * N.of_nat n <= w
  | Wide nh hi => w = 128 /\ (n <= 4)%nat /\ (nh = 1%nat \/ nh = 2%nat) /\ forall x, length (hi x) = 16%nat /\ all_bytes (hi x)
  end.

(** The number whose binary digits say which elements are 65536. *)
Definition marks (l : list N) : N := digits 2 (map (fun x => if x =? 65536 then 1 else 0) l).
