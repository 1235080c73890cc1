(** Model of src/big_int.h and of gf_ring.h with [T] = __uint128_t, whose double-size types are UInt256 and Int256
    (core.h:56-80).  Proof-free.
    Every operation and constructor of both structures sets [hi] to 0 and works on [lo], so that a value is a number below
    [2 ^ 128]. *)
From Coq Require Import List NArith ZArith Bool.
From Verif.Model Require Import Common Arith Ring.
Open Scope N_scope.

(** big_int.h:46-49 (UInt256), 99-102 (Int256) *)
Definition big_mul (a b : N) : N := wrap 128 (a * b).
(** big_int.h:94-97 *)
Definition big_sub (a b : N) : N := wrap 128 (a + 2 ^ 128 - b).
(** big_int.h:89-92 *)
Definition big_add (a b : N) : N := wrap 128 (a + b).
(** big_int.h:104-107 *)
Definition big_div (a b : N) : N := a / b.
(** big_int.h:51-54 *)
Definition big_mod (a b : N) : N := a mod b.
(** big_int.h:74-77: the [int] is converted to __uint128_t. *)
Definition big_lt_int (a : N) (x : Z) : bool := a <? Z.to_N (Z.modulo x (2 ^ 128)).

(** extended_gcd<__uint128_t>, arith.h:274-317: the state of the loop is as for the other types. *)
Record big_state := Big { b_s : N; b_os : N; b_t : N; b_ot : N; b_r : N; b_or : N }.
(** arith.h:290-304.  [0 != r] converts [r] to __uint128_t. *)
Definition big_step (st : big_state) : big_state :=
  let q := big_div (b_or st) (b_r st) in
  Big (big_sub (b_os st) (big_mul q (b_s st))) (b_s st)
      (big_sub (b_ot st) (big_mul q (b_t st))) (b_t st)
      (big_sub (b_or st) (big_mul q (b_r st))) (b_r st).
Fixpoint big_loop (fuel : nat) (st : big_state) : option big_state :=
  if b_r st =? 0 then Some st
  else match fuel with
       | O => None
       | S f => big_loop f (big_step st)
       end.
Definition big_extended_gcd (a b : N) : option big_state :=
  big_loop (egcd_fuel (Z.of_N a) (Z.of_N b)) (Big 0 1 1 0 b a).

(** gf_ring.h:238-244 *)
Definition u128_mul (card a b : N) : N := big_mod (big_mul a b) card.
(** gf_ring.h:259-271 *)
Definition u128_inv (card a : N) : N :=
  match big_extended_gcd a card with
  | Some st => let b := b_os st in if big_lt_int b 0 then big_add card b else b
  | None => 0
  end.
(** gf::Prime<__uint128_t>: the operations that do not need a double-size type are those of Ring.v. *)
Definition u128_ops (p : N) : gfops :=
  Gfops p (ring_add 128 p) (ring_sub 128 p) (u128_mul p) (ring_neg 128 p) (u128_inv p) (exp_quick (u128_mul p)).
