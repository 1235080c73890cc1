(** Primes and factorisations of natural numbers, independent of the model. *)
From Coq Require Import List NArith Sorting.Sorted.
Import ListNotations.
Open Scope N_scope.

Definition primeN (p : N) : Prop := 1 < p /\ forall d, (d | p) -> d = 1 \/ d = p.

(** Product of prime powers. *)
Definition prod_powers (l : list (N * N)) : N := fold_right (fun pe acc => fst pe ^ snd pe * acc) 1 l.

(** [l] is the factorisation of [n]: strictly increasing primes, positive exponents. *)
Definition factorisation (n : N) (l : list (N * N)) : Prop :=
  StronglySorted (fun a b => fst a < fst b) l /\
  Forall (fun pe => primeN (fst pe) /\ 0 < snd pe) l /\
  prod_powers l = n.

(** Product of a list. *)
Definition list_prod (l : list N) : N := fold_right N.mul 1 l.
