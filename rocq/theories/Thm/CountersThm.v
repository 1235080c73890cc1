(** Property C45: the operation counters of src/fft_2n.h. *)
Set Warnings "-notation-overridden,-ambiguous-paths".
From Coq Require Import List NArith Arith Lia.
From Verif.Model Require Import Common Arith Ring Fft2n Radix2 Counters.
From Verif.Spec Require Import Primes Counters.
From Verif.Proof Require Import CountersP.
From Verif.Thm Require Import FftThm.
Import ListNotations.
Open Scope nat_scope.

Lemma object_sizes h p L data_len f : radix2_object h p L data_len f ->
  r_n f = 2 ^ L /\ r_data_len f = if 0 <? data_len then data_len else 2 ^ L.
Proof.
  intros (_ & _ & _ & r & _ & H). revert H. unfold radix2_new. destruct (2 ^ L <? data_len); [discriminate|].
  destruct (negb _); [discriminate|]. intros H. injection H. intros <-. split; reflexivity.
Qed.

(** The counters count the butterflies executed by the transforms, and their additions, subtractions, products and
    negations: both the versions for vectors and for packets.  All the lengths for which the transform stays inside its
    vectors (C16_range). *)
Theorem C45_fft h p L data_len f k len : radix2_object h p L data_len f ->
  2 ^ L / Nat.max (if 0 <? data_len then data_len else 2 ^ L) len = 2 ^ k ->
  total (r2_fft_vec (tally (p - 1)) f (repeat none (2 ^ L)) (repeat none len)) = fft_op_counter (p - 1) f len /\
  total (r2_fft_buf (tally (p - 1)) f (repeat none (2 ^ L)) (repeat none len)) = fft_op_counter (p - 1) f len /\
  n_butterfly (fft_op_counter (p - 1) f len) = (L - k) * 2 ^ (L - 1).
Proof.
  intros H Hm. destruct (object_sizes _ _ _ _ _ H) as [E1 E2]. rewrite <- E2 in Hm.
  assert (Hk : k <= L).
  { apply (Nat.pow_le_mono_r_iff 2); [lia|]. rewrite <- Hm. destruct (Nat.max (r_data_len f) len) as [|M]; [cbn; lia|].
    apply Nat.div_le_upper_bound; nia. }
  replace k with (L - (L - k)) in Hm by lia.
  split; [apply vec_count with (e := L - k); auto; lia|]. split; [apply buf_count with (e := L - k); auto; lia|]. apply fft_closed; auto; lia.
Qed.

(** The products of the final scaling by 1/n are not part of the count, nor of the transform [fft_inv]. *)
Theorem C45_fft_inv h p L data_len f len : radix2_object h p L data_len f -> 0 < len ->
  total (r2_fft_inv_buf (tally (p - 1)) f (repeat none (2 ^ L)) (repeat none len)) = ifft_op_counter (p - 1) f len /\
  n_butterfly (ifft_op_counter (p - 1) f len) = L * 2 ^ (L - 1).
Proof.
  intros H Hl. destruct (object_sizes _ _ _ _ _ H) as [E1 E2]. split; [now apply inv_count|]. now apply ifft_closed.
Qed.

(** The vector version has no simple butterflies: it executes the operations of a full input, in as many butterflies. *)
Theorem C45_fft_inv_vec h p L data_len f len : radix2_object h p L data_len f -> 0 < len <= 2 ^ L ->
  let done := total (r2_fft_inv_vec (tally (p - 1)) f (repeat none (2 ^ L)) (repeat none len)) in
  done = ifft_op_counter (p - 1) f (2 ^ L) /\ n_butterfly done = n_butterfly (ifft_op_counter (p - 1) f len).
Proof.
  intros H Hl. destruct (object_sizes _ _ _ _ _ H) as [E1 E2].
  pose proof (inv_vec_count (p - 1) f L E1 len ltac:(lia)) as E. cbn zeta. rewrite E. split; [reflexivity|].
  rewrite !(ifft_closed _ _ L) by (auto; lia). reflexivity.
Qed.

(** So for shorter inputs it executes more additions than counted. *)
Theorem C45_fft_inv_vec_refuted : exists h p L data_len f len, radix2_object h p L data_len f /\ 0 < len < 2 ^ L /\
  total (r2_fft_inv_vec (tally (p - 1)) f (repeat none (2 ^ L)) (repeat none len)) <> ifft_op_counter (p - 1) f len.
Proof.
  exists 16%N, 257%N, 3, 4, case_f, 4. split; [exact C16_object|]. split; [cbn; lia|]. vm_compute. discriminate.
Qed.

Example C45_case : fft_op_counter 256 case_f 3 = mkCounter 8 8 5 0 8 /\ ifft_op_counter 256 case_f 3 = mkCounter 8 8 5 0 12.
Proof. split; vm_compute; reflexivity. Qed.
Example C45_case_hyp : radix2_object 16 257 3 4 case_f /\ 2 ^ 3 / Nat.max 4 3 = 2 ^ 1.
Proof. split; [exact C16_object|reflexivity]. Qed.

Print Assumptions C45_fft.
Print Assumptions C45_fft_inv.
Print Assumptions C45_fft_inv_vec.
Print Assumptions C45_fft_inv_vec_refuted.
