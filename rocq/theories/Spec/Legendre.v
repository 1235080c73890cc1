(** Quadratic residues, Legendre and Jacobi symbols, independent of the model. *)
From Coq Require Import List NArith ZArith.
From Verif.Spec Require Import Primes.
Import ListNotations.
Open Scope Z_scope.

(** [a] is congruent to a square modulo [p]. *)
Definition residueb (a p : Z) : bool :=
  existsb (fun x => (Z.of_nat x * Z.of_nat x - a) mod p =? 0) (seq 0 (Z.to_nat p)).
(** The Legendre symbol, for a prime [p]. *)
Definition legendre (a p : Z) : Z := if a mod p =? 0 then 0 else if residueb a p then 1 else -1.
(** The Jacobi symbol modulo the product of the primes [ps]. *)
Definition jacobi_symbol (a : Z) (ps : list N) : Z := fold_right (fun p acc => legendre a (Z.of_N p) * acc) 1 ps.
Definition odd_primes (ps : list N) : Prop := Forall (fun p => primeN p /\ N.odd p = true) ps.

(** The units modulo [n], as numbers below [n]. *)
Definition unitsN (n : N) : list N := filter (fun a => N.gcd a n =? 1)%N (map N.of_nat (seq 0 (N.to_nat n))).
(** The congruence of the Solovay-Strassen test for [n] the product of [ps]. *)
Definition euler_jacobi (a : Z) (ps : list N) : Prop :=
  let n := Z.of_N (list_prod ps) in (n | a ^ ((n - 1) / 2) - jacobi_symbol a ps).
