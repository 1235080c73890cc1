(** Specification: polynomials over the field of two elements, numbers as their bits. *)
Set Warnings "-notation-overridden,-ambiguous-paths".
From Coq Require Import NArith.
From mathcomp Require Import all_ssreflect ssralg poly polydiv zmodp.
Import GRing.Theory.
Local Open Scope ring_scope.

(** The polynomial whose coefficients are the bits of [a]. *)
Definition bits_poly (a : N) : {poly 'F_2} := \poly_(i < N.size_nat a) (N.testbit a (N.of_nat i) : nat)%:R.

(** The moduli documented in gf_bin_ext.h. *)
Definition field_poly (n : N) : {poly 'F_2} :=
  match n with
  | 1%num => 'X + 1
  | 2%num => 'X^2 + 'X + 1
  | 3%num => 'X^3 + 'X + 1
  | 4%num => 'X^4 + 'X + 1
  | 8%num => 'X^8 + 'X^4 + 'X^3 + 'X^2 + 1
  | 16%num => 'X^16 + 'X^12 + 'X^3 + 'X + 1
  | 32%num => 'X^32 + 'X^7 + 'X^3 + 'X^2 + 1
  | 64%num => 'X^64 + 'X^4 + 'X^3 + 'X + 1
  | 128%num => 'X^128 + 'X^7 + 'X^2 + 'X + 1
  | _ => 0
  end.

(** Types of [w] bits and exponents for which the class is built on these moduli: the tables of logarithms (n <= 16)
    need one more bit than the elements. *)
Definition supported (w n : N) : Prop :=
  List.In w [:: 8; 16; 32; 64; 128]%num /\ List.In n [:: 1; 2; 3; 4; 8; 16; 32; 64; 128]%num /\ (n <= w)%num /\ (n <= 16 -> n < w)%num.
