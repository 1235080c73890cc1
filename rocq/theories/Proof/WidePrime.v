(** A prime above [2 ^ 64]. *)
Set Warnings "-notation-overridden,-ambiguous-paths".
From Coq Require Import NArith.
From Verif.Spec Require Import Primes.
From Verif.Proof Require Import PrimeP.
From mathcomp Require Import all_ssreflect.
From Verif.Proof Require Import BigPrime.

Definition wide : N := 22161087866383368193.
Lemma wide_factor f : primeN f -> N.divide f (wide - 1) -> (f = 2 \/ f = 3)%num.
Proof.
  move=> Pf; have one r : primeN r -> N.divide f r -> f = r.
    by move=> [_ H] D; case: (H f D) => // E; case: Pf; rewrite E.
  rewrite (_ : wide - 1 = 2 ^ 50 * 3 ^ 9)%num //.
  move=> /(prime_divides_mul _ _ _ Pf) [|] /(prime_divides_pow _ _ _ Pf) D; [left|right]; apply: one => //; first exact: prime2.
  by apply: (proj1 (is_prime_spec 16 _ _ _ _)).
Qed.
Lemma prime_wide : primeN wide.
Proof.
  apply: (pocklington wide 5); [by []|by vm_compute|].
  by move=> f Pf /(wide_factor f Pf) [->|->]; vm_compute.
Qed.
