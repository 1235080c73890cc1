(** Property C52: prime fields with elements in __uint128_t (src/big_int.h). *)
From Coq Require Import List NArith ZArith Lia.
From Verif.Model Require Import Common Arith Ring Fft2n Radix2 BigInt.
From Verif.Spec Require Import Primes.
From Verif.Proof Require Import PrimeP BigIntP WidePrime.
Import ListNotations.
Open Scope N_scope.

(** * C52 *)
(** Products are right while they fit in 128 bits. *)
Theorem C52_mul_partial p a b : p <= 2 ^ 64 -> a < p -> b < p -> u128_mul p a b = (a * b) mod p.
Proof.
  intros Hp Ha Hb. unfold u128_mul, big_mul, big_mod, wrap. rewrite (N.mod_small (a * b)); [reflexivity|].
  change (2 ^ 128) with (2 ^ 64 * 2 ^ 64). nia.
Qed.
(** A wider prime: the product wraps. *)
Theorem C52_mul_refuted : exists p a b, primeN p /\ 2 * p <= 2 ^ 128 /\ a < p /\ b < p /\ u128_mul p a b <> (a * b) mod p.
Proof. exists wide, (2 ^ 64), (2 ^ 64). split; [apply prime_wide|]. repeat split; vm_compute; discriminate. Qed.

(** The Bezout coefficient is never seen as negative: the inverse is returned for the elements whose inverse is below half
    the prime, and a number that is not an inverse for all the others. *)
Theorem C52_inv_partial p a : primeN p -> 2 < p -> p < 2 ^ 128 -> 0 < a < p ->
  exists c, c < p /\ (a * c) mod p = 1 /\
    (2 * c < p -> u128_inv p a = c) /\
    (p < 2 * c -> u128_inv p a = 2 ^ 128 - (p - c) /\ (a * u128_inv p a) mod p <> 1).
Proof.
  intros Pp P2 Hp Ha. destruct (u128_inv_exact p a Pp P2 Hp Ha) as (c & Hc & E & V). exists c. rewrite V.
  split; [exact Hc|]. split; [exact E|]. destruct (N.ltb_spec (2 * c) p); split; intros; try lia.
  split; [reflexivity|]. now apply u128_inv_wrong.
Qed.
Theorem C52_inv_refuted : exists p a, primeN p /\ 0 < a < p /\ u128_mul p a (u128_inv p a) <> 1.
Proof.
  exists 65537, 2. split; [apply (is_prime_spec 16); [reflexivity|lia|lia|vm_compute; reflexivity]|]. split; [lia|]. vm_compute. discriminate.
Qed.
(** The inverse transform then does not invert the transform. *)
Theorem C52_transform_refuted : exists f x, let G := u128_ops 257 in
  find_primitive_root 128 G = Some 3 /\ radix2_new G 257 3 4 4 = Some f /\
  r2_ifft_vec G f [0; 0; 0; 0] (r2_fft_vec (sym_vec G) f [0; 0; 0; 0] x) <> x.
Proof.
  eexists. exists [1; 2; 3; 4]. cbv zeta. split; [vm_compute; reflexivity|]. split; [vm_compute; reflexivity|]. vm_compute. discriminate.
Qed.

Example C52_case : primeN 257 /\ u128_inv 257 129 = 2 /\ u128_inv 257 2 = 2 ^ 128 - 128 /\ u128_mul 257 200 200 = 165.
Proof. split; [apply (is_prime_spec 16); [reflexivity|lia|lia|vm_compute; reflexivity]|]. repeat split; vm_compute; reflexivity. Qed.

Print Assumptions C52_mul_partial.
Print Assumptions C52_mul_refuted.
Print Assumptions C52_inv_partial.
Print Assumptions C52_inv_refuted.
Print Assumptions C52_transform_refuted.
