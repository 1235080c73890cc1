(** Properties C16, C17, C18 and C19: the radix-2 transforms of src/fft_2n.h over the prime fields. *)
Set Warnings "-notation-overridden,-ambiguous-paths".
From Coq Require Import List NArith Arith Lia.
From Verif.Model Require Import Common Arith Ring Fft2n Radix2.
From Verif.Spec Require Import Primes Modular.
From Verif.Proof Require Import ListP Kern Build PrimeP FieldP BitRev Fft2nL Fft2nP Radix2P Lanes PrimeR2 FftFinal.
Import ListNotations.

(** [f] is an object as the constructor makes it, of length [2^L], over the integers modulo the prime [p] held in
    [2 * h] bits. *)
Definition radix2_object (h p : N) (L data_len : nat) (f : radix2) : Prop :=
  (0 < h /\ 2 * p <= 2 ^ (2 * h))%N /\ primeN p /\ L < 32 /\
  exists r, find_primitive_root (2 * h) (prime_ops (2 * h) p) = Some r /\
            radix2_new (prime_ops (2 * h) p) p r (2 ^ L) data_len = Some f.

(** Objects exist for every length dividing [p - 1]. *)
Theorem C16_object_exists h p L data_len : (0 < h)%N -> (2 * p <= 2 ^ (2 * h))%N -> primeN p -> L < 32 ->
  (2 ^ N.of_nat L | p - 1)%N -> data_len <= 2 ^ L -> exists f, radix2_object h p L data_len f.
Proof. exact (object_exists h p L data_len). Qed.

(** * C16 The transform is the DFT, whatever the output held.
    Missing: lengths such that the larger of the data length and the input length is not a power of two, where it is
    false; Thm/FftRangeThm.v proves that it then always is. *)
Theorem C16_fft_partial h p L data_len f e out input : radix2_object h p L data_len f ->
  e <= L -> Nat.max (if 0 <? data_len then data_len else 2 ^ L) (length input) = 2 ^ e ->
  length out = 2 ^ L -> Forall (fun a => (a < p)%N) input ->
  let res := r2_fft_vec (sym_vec (prime_ops (2 * h) p)) f out input in
  mod_order p (r_w f) (2 ^ N.of_nat L) /\ length res = 2 ^ L /\
  forall j, j < 2 ^ L -> nth j res 0%N = dft_mod p (r_w f) (2 ^ L) input j.
Proof. intros ([Hh Hw] & Hp & HL & r & Hr & Hf). exact (fft_dft h p L data_len f r Hh Hw Hp HL Hr Hf e out input). Qed.

(** * C17 Inverse transforms *)
Theorem C17_fft_inv h p L data_len f out input : radix2_object h p L data_len f ->
  length input <= 2 ^ L -> length out = 2 ^ L -> Forall (fun a => (a < p)%N) input ->
  let res := r2_fft_inv_vec (sym_vec (prime_ops (2 * h) p)) f out input in
  exists iw, ((r_w f * iw) mod p = 1)%N /\ length res = 2 ^ L /\
  forall j, j < 2 ^ L -> nth j res 0%N = dft_mod p iw (2 ^ L) input j.
Proof. intros ([Hh Hw] & Hp & HL & r & Hr & Hf). exact (fft_inv_dft h p L data_len f r Hh Hw Hp HL Hr Hf out input). Qed.

Theorem C17_roundtrip h p L data_len f out1 out2 x : radix2_object h p L data_len f ->
  length x = 2 ^ L -> length out1 = 2 ^ L -> length out2 = 2 ^ L -> Forall (fun a => (a < p)%N) x ->
  let G := prime_ops (2 * h) p in
  r2_ifft_vec G f out2 (r2_fft_vec (sym_vec G) f out1 x) = x /\
  r2_fft_vec (sym_vec G) f out2 (r2_ifft_vec G f out1 x) = x.
Proof. intros ([Hh Hw] & Hp & HL & r & Hr & Hf). exact (roundtrip h p L data_len f r Hh Hw Hp HL Hr Hf out1 out2 x). Qed.

(** * C18 Packets: position [j] of the result is the transform of positions [j] of the operands. *)
Definition packets (p : N) (pkt : nat) (v : list (list N)) : Prop :=
  Forall (fun b => length b = pkt /\ Forall (fun a => (a < p)%N) b) v.

Definition at_pos (j : nat) (v : list (list N)) : list N := map (fun b => nth j b 0%N) v.

(** Missing, as for C16: lengths such that the larger of the data length and the input length is not a power of two. *)
Theorem C18_fft_partial h p L data_len f e pkt j out out' input : radix2_object h p L data_len f ->
  e <= L -> Nat.max (if 0 <? data_len then data_len else 2 ^ L) (length input) = 2 ^ e ->
  packets p pkt input -> j < pkt -> length out = 2 ^ L -> length out' = 2 ^ L ->
  let G := prime_ops (2 * h) p in
  at_pos j (r2_fft_buf (sym_pkt G pkt) f out input) = r2_fft_vec (sym_vec G) f out' (at_pos j input).
Proof. intros ([Hh Hw] & Hp & HL & r & Hr & Hf). exact (fft_pkt h p L data_len f r Hh Hw Hp HL Hr Hf pkt _ (plain_ok _) (agree_refl _ _ _) e j out out' input). Qed.

Theorem C18_fft_inv h p L data_len f pkt j out out' input : radix2_object h p L data_len f ->
  0 < length input <= 2 ^ L -> packets p pkt input -> j < pkt -> length out = 2 ^ L -> length out' = 2 ^ L ->
  let G := prime_ops (2 * h) p in
  at_pos j (r2_fft_inv_buf (sym_pkt G pkt) f out input) = r2_fft_inv_vec (sym_vec G) f out' (at_pos j input).
Proof. intros ([Hh Hw] & Hp & HL & r & Hr & Hf). exact (fft_inv_pkt h p L data_len f r Hh Hw Hp HL Hr Hf pkt _ (plain_ok _) (agree_refl _ _ _) j out out' input). Qed.

Theorem C18_ifft h p L data_len f pkt j out out' input : radix2_object h p L data_len f ->
  0 < length input <= 2 ^ L -> packets p pkt input -> j < pkt -> length out = 2 ^ L -> length out' = 2 ^ L ->
  let G := prime_ops (2 * h) p in
  at_pos j (r2_ifft_buf (plain (sym_pkt G pkt)) (p - 1) f out input) = r2_ifft_vec G f out' (at_pos j input).
Proof. intros ([Hh Hw] & Hp & HL & r & Hr & Hf). exact (ifft_pkt h p L data_len f r Hh Hw Hp HL Hr Hf pkt _ (plain_ok _) (agree_refl _ _ _) j out out' input). Qed.

(** * C19 Bit reversal *)
(** [reverse_bitwise x 2^l l] has the [l] bits of [x] in reverse order, and nothing else. *)
Theorem C19_reverse_bits l x : (l < 32 -> x < 2 ^ l ->
  let y := reverse_bitwise x (2 ^ l) l in
  y < 2 ^ l /\ (forall b, b < l -> N.testbit y b = N.testbit x (l - 1 - b)) /\ reverse_bitwise y (2 ^ l) l = x)%N.
Proof. exact (reverse_bits l x). Qed.

(** The table filled by the constructor is an involution of [0, 2^L); swapping along it moves entry [rev k] to [k];
    doing so twice restores the vector. *)
Theorem C19_permute A (d : A) L v : L < 32 -> length v = 2 ^ L ->
  let rev := init_bitrev (2 ^ L) in
  (forall i, i < 2 ^ L -> nth i rev 0 < 2 ^ L /\ nth (nth i rev 0) rev 0 = i) /\
  (forall k, k < 2 ^ L -> nth k (bit_rev_permute d (2 ^ L) rev v) d = nth (nth k rev 0) v d) /\
  bit_rev_permute d (2 ^ L) rev (bit_rev_permute d (2 ^ L) rev v) = v.
Proof. exact (permute_twice A d L v). Qed.

(** * Concrete cases *)
Definition case_f : radix2 := match radix2_new (prime_ops 32 257) 257 3 8 4 with Some f => f | None => mkRadix2 0 0 0 0 [] [] [] 0 end.

Example C16_object : radix2_object 16 257 3 4 case_f.
Proof.
  split; [split; vm_compute; [reflexivity|discriminate]|]. split.
  - apply (is_prime_spec 16); [reflexivity|lia|reflexivity|vm_compute; reflexivity].
  - split; [lia|]. exists 3%N. split; vm_compute; reflexivity.
Qed.

Example C16_case : let input := [1; 2; 3]%N in
  Nat.max 4 (length input) = 2 ^ 2 /\ Forall (fun a => (a < 257)%N) input /\
  r2_fft_vec (sym_vec (prime_ops 32 257)) case_f (repeat 99%N 8) input = map (dft_mod 257 64 8 input) (seq 0 8).
Proof. split; [reflexivity|]. split; [repeat constructor|vm_compute; reflexivity]. Qed.

Example C18_case : let input := [[1; 256]; [2; 0]; [3; 5]]%N in packets 257 2 input /\
  r2_fft_buf (sym_pkt (prime_ops 32 257) 2) case_f (repeat [7; 8]%N 8) input =
  map (fun i => [dft_mod 257 64 8 [1; 2; 3] i; dft_mod 257 64 8 [256; 0; 5] i]%N) (seq 0 8).
Proof. split; [repeat constructor|vm_compute; reflexivity]. Qed.

Example C19_case : init_bitrev (2 ^ 3) = [0; 4; 2; 6; 1; 5; 3; 7].
Proof. vm_compute. reflexivity. Qed.

Print Assumptions C16_object_exists.
Print Assumptions C16_fft_partial.
Print Assumptions C17_fft_inv.
Print Assumptions C17_roundtrip.
Print Assumptions C18_fft_partial.
Print Assumptions C18_fft_inv.
Print Assumptions C18_ifft.
Print Assumptions C19_reverse_bits.
Print Assumptions C19_permute.
