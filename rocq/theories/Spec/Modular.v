(** Modular arithmetic on natural numbers, independent of the model. *)
From Coq Require Import List NArith.
Open Scope N_scope.

(** [n] is the least positive exponent with [x^n = 1] modulo [p]. *)
Definition mod_order (p x n : N) : Prop := 0 < n /\ x ^ n mod p = 1 /\ forall m, 0 < m -> m < n -> x ^ m mod p <> 1.

(** The powers of [g] are all the non-zero residues. *)
Definition generator (p g : N) : Prop := forall a, 0 < a -> a < p -> exists e, g ^ e mod p = a.

(** [sum f n] is [f 0 + ... + f (n-1)]. *)
Fixpoint sumN (f : nat -> N) (n : nat) : N :=
  match n with O => 0 | S m => sumN f m + f m end.

(** Discrete Fourier transform of length [n] modulo [p]; entries beyond the list are zero. *)
Definition dft_mod (p w : N) (n : nat) (x : list N) (j : nat) : N :=
  sumN (fun i => nth i x 0 * w ^ N.of_nat (i * j)) n mod p.

(** Value modulo [p] at the point [r^i] of the polynomial with coefficients [cs 0 .. cs (k-1)]. *)
Definition poly_mod (p r : N) (k : nat) (cs : nat -> N) (i : nat) : N :=
  sumN (fun j => cs j * r ^ N.of_nat (i * j)) k mod p.

(** [cw] maps a column of [k] symbols to the values at the powers of [r] (of order [n]) of a polynomial of degree below
    [k]: the one with these coefficients, or, for a systematic code, the only one with these first [k] values. *)
Definition poly_code (sys : bool) (p r : N) (n k : nat) (cw : (nat -> N) -> nat -> N) : Prop :=
  mod_order p r (N.of_nat n) /\
  forall col, (forall j, (j < k)%nat -> col j < p) ->
    if sys then
      exists cs, (forall j, (j < k)%nat -> cs j < p) /\ (forall i, cw col i = poly_mod p r k cs i) /\
        (forall i, (i < k)%nat -> poly_mod p r k cs i = col i) /\
        (forall cs', (forall j, (j < k)%nat -> cs' j < p) -> (forall i, (i < k)%nat -> poly_mod p r k cs' i = col i) ->
           forall j, (j < k)%nat -> cs' j = cs j)
    else forall i, cw col i = poly_mod p r k col i.
