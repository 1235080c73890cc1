(** Properties C20 and C24: prime fields.  [w] is the width of the type in bits; the bound [2 * p <= 2^w] is met by all
    the instantiations: 257 in 16 and 32 bits, 65537 in 32 and 64 bits. *)
Set Warnings "-notation-overridden,-ambiguous-paths".
From Coq Require Import NArith ZArith Lia.
From Verif.Model Require Import Common Arith Ring.
From Verif.Spec Require Import Primes Modular.
From Verif.Proof Require Import PrimeP FieldP PrimeR2.
Open Scope N_scope.

(** * C20 *)
Theorem C20_add w p a b : primeN p -> 2 * p <= 2 ^ w -> a < p -> b < p -> ring_add w p a b = (a + b) mod p.
Proof. intros H Hw. now apply FieldP.ring_addE. Qed.

Theorem C20_sub w p a b : primeN p -> 2 * p <= 2 ^ w -> a < p -> b < p ->
  ring_sub w p a b < p /\ (ring_sub w p a b + b) mod p = a.
Proof.
  intros H Hw Ha Hb. rewrite (FieldP.ring_subE w p) by assumption. destruct H as [H _].
  split; [apply N.mod_upper_bound; lia|]. rewrite N.add_mod_idemp_l by lia.
  replace (a + p - b + b) with (a + 1 * p) by lia. rewrite N.mod_add by lia. now apply N.mod_small.
Qed.

Theorem C20_neg w p a : primeN p -> 2 * p <= 2 ^ w -> a < p -> ring_neg w p a < p /\ (ring_neg w p a + a) mod p = 0.
Proof.
  intros H Hw Ha. unfold ring_neg. assert (p0 : 0 < p) by (destruct H; lia).
  now apply C20_sub.
Qed.

Theorem C20_mul w p a b : primeN p -> 2 * p <= 2 ^ w -> a < p -> b < p -> ring_mul w p a b = (a * b) mod p.
Proof. intros H Hw. now apply FieldP.ring_mulE. Qed.

Theorem C20_exp w p a e : primeN p -> 2 * p <= 2 ^ w -> a < p -> ring_exp w p a e = a ^ e mod p.
Proof. intros H Hw Ha. now apply FieldP.ring_exp_pow. Qed.

Theorem C20_inv w p a : primeN p -> 2 * p <= 2 ^ w -> a < p -> a <> 0 ->
  inv_bezout w p a < p /\ (a * inv_bezout w p a) mod p = 1 /\ inv_exp w p a = inv_bezout w p a.
Proof.
  intros H Hw Ha H0. destruct (FieldP.inv_bezoutE w p H Hw a Ha H0) as [A B].
  split; [exact A|]. split; [exact B|]. now apply FieldP.inv_expE.
Qed.

Theorem C20_div w p a b : primeN p -> 2 * p <= 2 ^ w -> a < p -> b < p -> b <> 0 ->
  ring_div w p a b < p /\ (ring_div w p a b * b) mod p = a.
Proof.
  intros H Hw Ha Hb H0. destruct (FieldP.inv_bezoutE w p H Hw b Hb H0) as [A B].
  unfold ring_div. rewrite (FieldP.ring_mulE w p) by assumption. destruct H as [H _].
  split; [apply N.mod_upper_bound; lia|]. rewrite N.mul_mod_idemp_l by lia.
  rewrite <- N.mul_assoc, (N.mul_comm _ b), N.mul_mod, B, N.mul_1_r, N.mod_mod by lia.
  now apply N.mod_small.
Qed.

(** The two moduli of the Fermat codes. *)
Theorem C20_fermat_primes : primeN 257 /\ primeN 65537.
Proof. split; (apply (is_prime_spec 16); [reflexivity|lia|lia|vm_compute; reflexivity]). Qed.

(** The bound is needed: with a modulus above half the range the addition wraps. *)
Theorem C20_add_wide_refuted : exists p a b, primeN p /\ p < 2 ^ 8 /\ a < p /\ b < p /\ ring_add 8 p a b <> (a + b) mod p.
Proof.
  exists 251, 250, 250. split; [|repeat split; try lia; vm_compute; discriminate].
  apply (is_prime_spec 16); [reflexivity|lia|lia|vm_compute; reflexivity].
Qed.

(** The code does not report the inverse of 0. *)
Theorem C20_inv_zero w p : 0 < w -> 1 < p -> p < 2 ^ w -> inv_bezout w p 0 = 0.
Proof.
  intros Hw H H'. unfold inv_bezout, extended_gcd, egcd_fuel. set (k := Z.to_nat _).
  assert (Hk : (1 <= k)%nat) by (unfold k; pose proof (Z.log2_nonneg (Z.abs (Z.of_N p))); clear - H0; lia).
  assert (E : exists c, (2 * k + 1 = S (S c))%nat) by (exists (2 * k - 1)%nat; clear - Hk; lia). destruct E as [c ->].
  assert (Hp : (Z.of_N p <> 0)%Z) by (clear - H; lia).
  cbn [egcd_loop egcd_init e_r]. change (Z.of_N 0) with 0%Z.
  destruct (Z.eqb_spec (Z.of_N p) 0) as [E|_]; [contradiction|].
  unfold egcd_step; cbn [e_os e_s e_ot e_t e_or e_r]. rewrite Z.quot_0_l by exact Hp. reflexivity.
Qed.

Example C20_case : primeN 65537 /\ 2 * 65537 <= 2 ^ 32 /\ ring_add 32 65537 65536 65536 = 65535 /\
  ring_mul 32 65537 65536 65536 = 1 /\ inv_bezout 32 65537 3 = 21846 /\ ring_exp 32 65537 3 65536 = 1 /\
  ring_div 32 65537 5 3 = 43693.
Proof. split; [apply C20_fermat_primes|]. repeat split; try lia; vm_compute; reflexivity. Qed.

(** * C24 *)
Theorem C24_primitive_root h p : 0 < h -> primeN p -> 2 * p <= 2 ^ (2 * h) ->
  exists r, find_primitive_root (2 * h) (prime_ops (2 * h) p) = Some r /\ r < p /\ generator p r.
Proof.
  intros Hh Hp Hw. destruct (prime_root p Hp h Hh Hw) as [r [E _ _ _]]. exists r. split; [exact E|].
  now apply (prime_generator p Hp h Hh Hw).
Qed.

Theorem C24_get_order h p x : 0 < h -> primeN p -> 2 * p <= 2 ^ (2 * h) -> x < p -> x <> 0 ->
  exists o, get_order (2 * h) (prime_ops (2 * h) p) x = Some o /\ mod_order p x o.
Proof. intros Hh Hp Hw Hx H0. exact (prime_order p Hp h Hh Hw x Hx H0). Qed.

Theorem C24_get_nth_root h p r n : 0 < h -> primeN p -> 2 * p <= 2 ^ (2 * h) ->
  find_primitive_root (2 * h) (prime_ops (2 * h) p) = Some r -> n <> 0 -> (n | p - 1) ->
  get_nth_root (prime_ops (2 * h) p) r n < p /\ mod_order p (get_nth_root (prime_ops (2 * h) p) r n) n.
Proof.
  intros Hh Hp Hw Hr Hn Hd. destruct (prime_nth_root p Hp h Hh Hw r n Hr Hn) as [A B]. split; [exact A|].
  destruct Hp as [Hp _]. now rewrite (proj1 (N.divide_gcd_iff n (p - 1) (N.le_0_l n)) Hd) in B.
Qed.

Example C24_case : find_primitive_root 32 (prime_ops 32 257) = Some 3 /\ get_order 32 (prime_ops 32 257) 4 = Some 8 /\
  get_nth_root (prime_ops 32 257) 3 8 = 64 /\ find_primitive_root 32 (prime_ops 32 65537) = Some 3.
Proof. repeat split; vm_compute; reflexivity. Qed.

(** The naive order check accepts order 2 for the element 1. *)
Theorem C24_check_order_naive_refuted : exists x n, check_order_naive (prime_ops 32 257) x n = true /\ ~ mod_order 257 x n.
Proof.
  exists 1, 2. split; [vm_compute; reflexivity|]. intros (_ & _ & H). apply (H 1); [lia|lia|reflexivity].
Qed.

Print Assumptions C20_add.
Print Assumptions C20_inv.
Print Assumptions C20_div.
Print Assumptions C20_exp.
Print Assumptions C20_fermat_primes.
Print Assumptions C24_primitive_root.
Print Assumptions C24_get_order.
Print Assumptions C24_get_nth_root.
