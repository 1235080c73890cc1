(** Polynomials, their expansions in powers of [X^t + X], and the numbering of the points of a subspace. *)
Set Warnings "-notation-overridden,-ambiguous-paths".
From Coq Require Import NArith.
From Coq Require List.
From mathcomp Require Import all_ssreflect ssralg poly.
Import GRing.Theory.
Local Open Scope ring_scope.

Section Spec.
Variables (F : fieldType) (phi : N -> F).

Definition cf (l : list N) (i : nat) : F := phi (List.nth i l 0%num).
(** The polynomial whose first [n] coefficients are those of the list. *)
Definition poly_of (n : nat) (l : list N) : {poly F} := \poly_(i < n) cf l i.
Definition Yt (t : nat) : {poly F} := 'X^t + 'X.
(** [sum_b h_b (X^t + X)^b] where the coefficients of [h_b] are the elements [t b] up to [t b + t - 1] of the list. *)
Definition taylor_sum (t n : nat) (l : list N) : {poly F} :=
  \sum_(i < n) cf l i *: ('X^(i %% t) * Yt t ^+ (i %/ t)).

(** The sum of the elements of [basis] at the places of the bits of [i]. *)
Definition point (basis : nat -> F) (dim i : nat) : F := \sum_(j < dim) (if odd (i %/ 2 ^ j) then basis j else 0).
(** No sum of elements of the basis is zero, besides the empty one. *)
Definition independent (basis : nat -> F) (dim : nat) : Prop :=
  forall i, (i < 2 ^ dim)%N -> point basis dim i = 0 -> i = 0%N.
End Spec.
