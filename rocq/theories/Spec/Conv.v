(** Cyclic convolution modulo [m] and numbers in base [b], independent of the model. *)
From Coq Require Import List NArith.
From Verif.Spec Require Import Modular.
Open Scope N_scope.

(** Entry [i] of the cyclic convolution of length [n]. *)
Definition cyclic_conv (m : N) (n : nat) (x y : list N) (i : nat) : N :=
  sumN (fun s => nth s x 0 * nth (Nat.modulo (i + n - s) n) y 0) n mod m.

(** The number with the digits [x] in base [b], lowest first. *)
Definition value (b : N) (x : list N) : N := fold_right (fun d acc => d + b * acc) 0 x.
