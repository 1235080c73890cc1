(** Specification: matrices of numbers read in a field. *)
Set Warnings "-notation-overridden,-ambiguous-paths".
From Coq Require Import NArith.
From Coq Require List.
From Verif.Model Require Import Matrix.
From mathcomp Require Import all_ssreflect ssralg matrix.

(** A matrix of [r] rows and [c] columns of numbers below [q]. *)
Definition mat_ok (q : N) (r c : nat) (M : Matrix.matrix) : Prop :=
  Matrix.m_rows M = r /\ Matrix.m_cols M = c /\ length (Matrix.m_mem M) = (r * c)%N /\ List.Forall (fun a => (a < q)%num) (Matrix.m_mem M).
(** Its cells in the field: row major order. *)
Definition cells (F : fieldType) (h : N -> F) (n : nat) (M : Matrix.matrix) : 'M[F]_n :=
  (\matrix_(i, j) h (List.nth (i * n + j) (Matrix.m_mem M) 0%num))%R.

(** How many of the first [n] places are present. *)
Definition present (n : nat) (f : nat -> bool) : nat := List.length (List.filter f (List.seq 0 n)).

(** The erasures that the code of the Cauchy matrix does not decode: data 0 is lost, parity 0 is in use, and the exclusive or
    of the numbers of the parities in use and of [m + j] for the other lost data [j] is 1. *)
Definition lost (k : nat) (data : nat -> bool) : list nat := List.filter (fun j => negb (data j)) (List.seq 0 k).
Definition parities_used (k m : nat) (data par : nat -> bool) : list nat :=
  List.firstn (List.length (lost k data)) (List.filter par (List.seq 0 m)).
Definition xor_all (l : list nat) : N := List.fold_right (fun i a => N.lxor (N.of_nat i) a) 0%num l.
Definition undecodable (k m : nat) (data par : nat -> bool) : bool :=
  negb (data 0%N) && List.existsb (Nat.eqb 0) (parities_used k m data par) &&
  N.eqb 1 (xor_all (parities_used k m data par ++ List.map (fun j => (j + m)%N) (List.filter (fun j => negb (Nat.eqb 0 j)) (lost k data)))).
