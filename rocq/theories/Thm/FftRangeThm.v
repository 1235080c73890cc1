(** Property C16 and C18 for all lengths: Radix2::fft stays inside its vectors and is the DFT exactly when the larger of
    the data length and the input length is a power of two. *)
Set Warnings "-notation-overridden,-ambiguous-paths".
From Coq Require Import List NArith Arith Lia.
From Verif.Model Require Import Common Arith Ring Fft2n Radix2 FftIndex.
From Verif.Spec Require Import Primes Modular.
From Verif.Proof Require Import ListP Lanes FftRange.
From Verif.Thm Require Import FftThm.
Import ListNotations.

(** The number of entries the transform takes its input to have: the larger of the data length (the FFT length if it is
    given as 0) and the input length. *)
Definition effective (L data_len len : nat) : nat := Nat.max (if 0 <? data_len then data_len else 2 ^ L) len.

Lemma object_radix2 h p L data_len f : radix2_object h p L data_len f -> L < 32 /\ (1 < p)%N /\
  r_n f = 2 ^ L /\ r_data_len f = (if 0 <? data_len then data_len else 2 ^ L) /\ 0 < r_data_len f <= 2 ^ L /\
  r_rev f = init_bitrev (2 ^ L) /\ length (r_W f) = 2 ^ L.
Proof.
  intros ([Hh Hw] & Hp & HL & r & Hr & Hf). split; [exact HL|]. split; [exact (proj1 Hp)|]. exact (object_parts _ _ _ _ _ _ HL Hf).
Qed.

(** * C16 Every access is inside the vectors exactly when the FFT length divided by the effective length, rounded down,
    is a power of two. *)
Theorem C16_range h p L data_len f T (S : symops N T) out input : radix2_object h p L data_len f ->
  length out = 2 ^ L -> length input <= 2 ^ L ->
  (r2_fft_checked S f out input <> None <-> exists k, 2 ^ L / effective L data_len (length input) = 2 ^ k).
Proof.
  intros Ob Ho Hi. destruct (object_radix2 _ _ _ _ _ Ob) as (HL & _ & E1 & E2 & E3 & E4 & E5).
  rewrite (checked_pow S f L HL E1 E3 E4 E5 out input Ho Hi). unfold glen, effective. now rewrite E2.
Qed.

(** * C16 For inputs of [l] entries the transform is inside its vectors and is the DFT, for every input and every old
    content of the output, exactly when the effective length is a power of two. *)
Theorem C16_exact h p L data_len f l : radix2_object h p L data_len f -> l <= 2 ^ L ->
  ((forall out input, length out = 2 ^ L -> length input = l -> Forall (fun a => (a < p)%N) input ->
      r2_fft_checked (sym_vec (prime_ops (2 * h) p)) f out input =
      Some (map (dft_mod p (r_w f) (2 ^ L) input) (seq 0 (2 ^ L)))) <->
   exists e, effective L data_len l = 2 ^ e).
Proof.
  intros Ob Hl. destruct (object_radix2 _ _ _ _ _ Ob) as (HL & Hp & E1 & E2 & E3 & E4 & E5).
  set (S := sym_vec (prime_ops (2 * h) p)). assert (Z : s_zero S = 0%N) by reflexivity. split.
  - intros H. set (zi := repeat 0%N l). assert (Lz : length zi = l) by apply repeat_length.
    assert (Fz : Forall (fun a => (a < p)%N) zi) by (apply Forall_forall; intros a Ha; apply repeat_spec in Ha; subst a; lia).
    set (out0 := repeat 0%N (2 ^ L)). assert (L0 : length out0 = 2 ^ L) by apply repeat_length.
    assert (K : exists k, 2 ^ L / effective L data_len (length zi) = 2 ^ k).
    { apply (C16_range h p L data_len f N S out0 zi Ob L0 ltac:(lia)). rewrite (H out0 zi L0 Lz Fz). discriminate. }
    destruct K as (k & Ek). rewrite Lz in Ek.
    assert (Eg : glen L (r_data_len f) l = 2 ^ k) by (unfold glen; rewrite E2; exact Ek).
    assert (M : effective L data_len l = Nat.max (r_data_len f) l) by (unfold effective; now rewrite E2).
    destruct (glen_bound L (r_data_len f) l k ltac:(lia) ltac:(lia) Eg) as (Hk & B). rewrite M.
    destruct (Nat.eq_dec (Nat.max (r_data_len f) l) (2 ^ (L - k))) as [E|NE]; [now exists (L - k)|]. exfalso.
    set (W := Nat.max (r_data_len f) l) in *. set (x := one_at W (2 ^ (L - k))).
    assert (Lx : length x = 2 ^ (L - k)) by (apply one_at_length; lia).
    assert (PL : 2 ^ (L - k) <= 2 ^ L) by (apply Nat.pow_le_mono_r; lia).
    destruct (scatter_stale S f L HL E1 E3 E4 E5 k zi x out0 ltac:(rewrite Lz; exact Eg) ltac:(lia) L0 Lx) as (Lo & Es & _).
    { intros i Hi. rewrite Lz in Hi. rewrite Z. unfold x. rewrite one_at_low by exact Hi. unfold zi.
      destruct (Nat.lt_ge_cases i l); [now rewrite nth_repeat|rewrite nth_overflow by (rewrite repeat_length; lia); reflexivity]. }
    set (out := fft_scatter S (2 ^ L) (r_data_len f) (init_bitrev (2 ^ L)) x out0) in *.
    assert (R := checked_some S f out zi _ (H out zi Lo Lz Fz)).
    destruct (C16_fft_partial h p L data_len f (L - k) out0 x Ob ltac:(lia)) as (_ & _ & D).
    { rewrite <- E2, Lx. lia. }
    { exact L0. }
    { apply one_at_bound. exact Hp. }
    pose proof (pow2_pos L) as P0. specialize (D 0 P0). unfold S in *. rewrite <- Es, <- R in D.
    rewrite (one_at_dft p _ (2 ^ L) W (2 ^ (L - k)) Hp ltac:(lia)) in D.
    rewrite (nth_indep _ 0%N (dft_mod p (r_w f) (2 ^ L) zi 0)) in D by (rewrite map_length, seq_length; exact P0).
    rewrite map_nth, seq_nth in D by exact P0. unfold zi in D. rewrite zeros_dft in D by exact Hp. discriminate.
  - intros (e & He) out input Ho Li Fi.
    assert (eL : e <= L).
    { apply (Nat.pow_le_mono_r_iff 2); [lia|]. rewrite <- He. unfold effective. rewrite <- E2. lia. }
    destruct (C16_fft_partial h p L data_len f e out input Ob eL ltac:(rewrite Li; exact He) Ho Fi) as (_ & Lr & D).
    destruct (r2_fft_checked S f out input) as [res|] eqn:Ec.
    + apply checked_some in Ec. f_equal. rewrite Ec. apply (list_ext _ 0%N).
      * unfold S. rewrite Lr, map_length, seq_length. reflexivity.
      * intros j Hj. unfold S in *. rewrite Lr in Hj. rewrite D by exact Hj.
        rewrite (nth_indep _ 0%N (dft_mod p (r_w f) (2 ^ L) input 0)) by (rewrite map_length, seq_length; exact Hj).
        rewrite map_nth, seq_nth by exact Hj. reflexivity.
    + exfalso. apply (proj2 (C16_range h p L data_len f N S out input Ob Ho ltac:(lia))); [|exact Ec].
      exists (L - e). rewrite Li, He, (pow2_split e L eL). apply Nat.div_mul. pose proof (pow2_pos e). lia.
Qed.

(** * C16 refuted as stated: data of 3 entries in a transform of length 8 leaves two entries of the output unwritten. *)
Theorem C16_fft_refuted : exists f out input, radix2_object 16 257 3 3 f /\ length out = 8 /\
  Forall (fun a => (a < 257)%N) input /\ length input = 3 /\
  r2_fft_vec (sym_vec (prime_ops 32 257)) f out input <> map (dft_mod 257 (r_w f) 8 input) (seq 0 8).
Proof.
  exists (match radix2_new (prime_ops 32 257) 257 3 8 3 with Some f => f | None => case_f end), (repeat 1%N 8), [0; 0; 0]%N.
  split; [|split; [reflexivity|]; split; [repeat constructor|]; split; [reflexivity|vm_compute; discriminate]].
  split; [split; vm_compute; [reflexivity|discriminate]|]. split; [exact (proj1 (proj2 C16_object))|].
  split; [lia|]. exists 3%N. split; vm_compute; reflexivity.
Qed.

(** A transform of length 16 for data of 3 entries reads and writes outside its output. *)
Theorem C16_outside_refuted : exists f, radix2_object 16 257 4 3 f /\
  forall T (S : symops N T) out input, length out = 16 -> length input <= 3 -> r2_fft_checked S f out input = None.
Proof.
  destruct (C16_object_exists 16 257 4 3) as (f & Hf);
    [reflexivity|vm_compute; discriminate|exact (proj1 (proj2 C16_object))|lia|exists 16%N; reflexivity|cbn; lia|].
  exists f. split; [exact Hf|]. intros T S out input Ho Hi.
  destruct (r2_fft_checked S f out input) eqn:E; [exfalso|reflexivity].
  assert (X : exists k, 2 ^ 4 / effective 4 3 (length input) = 2 ^ k)
    by (apply (C16_range 16 257 4 3 f T S out input Hf Ho ltac:(cbn; lia)); congruence).
  destruct X as (k & X). unfold effective in X. change (if 0 <? 3 then 3 else 2 ^ 4) with 3 in X. rewrite (Nat.max_l 3 (length input)) in X by lia. change (2 ^ 4 / 3) with 5 in X.
  destruct k as [|[|[|k]]]; [discriminate X..|]. cbn in X. lia.
Qed.

(** * C18 On Buffers, when the effective length is no power of two but the accesses are inside: some old contents of the
    output make the result depend on them, at every position of the packets. *)
Theorem C18_stale_refuted h p L data_len f l k pkt : radix2_object h p L data_len f -> l <= 2 ^ L -> 0 < pkt ->
  2 ^ L / effective L data_len l = 2 ^ k -> effective L data_len l <> 2 ^ (L - k) ->
  exists out input, length out = 2 ^ L /\ length input = l /\ packets p pkt input /\
  forall j, j < pkt ->
    nth 0 (at_pos j (r2_fft_buf (sym_pkt (prime_ops (2 * h) p) pkt) f out input)) 0%N <>
    dft_mod p (r_w f) (2 ^ L) (at_pos j input) 0.
Proof.
  intros Ob Hl Pp Ek NE. destruct (object_radix2 _ _ _ _ _ Ob) as (HL & Hp & E1 & E2 & E3 & E4 & E5).
  set (S := sym_pkt (prime_ops (2 * h) p) pkt).
  assert (Z : s_zero S = repeat 0%N pkt) by reflexivity.
  assert (M : effective L data_len l = Nat.max (r_data_len f) l) by (unfold effective; now rewrite E2). rewrite M in NE.
  assert (Eg : glen L (r_data_len f) l = 2 ^ k) by (unfold glen; rewrite <- M; exact Ek).
  destruct (glen_bound L (r_data_len f) l k ltac:(lia) ltac:(lia) Eg) as (Hk & B).
  set (W := Nat.max (r_data_len f) l) in *.
  set (zi := repeat (repeat 0%N pkt) l). set (out0 := repeat (repeat 0%N pkt) (2 ^ L)).
  assert (Lz : length zi = l) by apply repeat_length. assert (L0 : length out0 = 2 ^ L) by apply repeat_length.
  set (x := map (fun a => repeat a pkt) (one_at W (2 ^ (L - k)))).
  assert (Lx : length x = 2 ^ (L - k)) by (unfold x; rewrite map_length; apply one_at_length; lia).
  assert (PL : 2 ^ (L - k) <= 2 ^ L) by (apply Nat.pow_le_mono_r; lia).
  destruct (scatter_stale S f L HL E1 E3 E4 E5 k zi x out0 ltac:(rewrite Lz; exact Eg) ltac:(lia) L0 Lx) as (Lo & _ & Es).
  { intros i Hi. rewrite Lz in Hi. rewrite Z. unfold x. change (repeat 0%N pkt) with ((fun a => repeat a pkt) 0%N) at 1.
    rewrite map_nth, one_at_low by exact Hi. unfold zi.
    destruct (Nat.lt_ge_cases i l); [now rewrite nth_repeat|rewrite nth_overflow by (rewrite repeat_length; lia); reflexivity]. }
  set (out := fft_scatter S (2 ^ L) (r_data_len f) (init_bitrev (2 ^ L)) x out0) in *.
  exists out, zi. split; [exact Lo|]. split; [exact Lz|]. split.
  - apply Forall_forall. intros b Hb. apply repeat_spec in Hb. subst b. split; [apply repeat_length|].
    apply Forall_forall. intros a Ha. apply repeat_spec in Ha. subst a. lia.
  - intros j Hj. fold S. rewrite Es.
    assert (AP : forall l0, at_pos j (map (fun a => repeat a pkt) l0) = l0).
    { intros l0. unfold at_pos. rewrite map_map. rewrite <- (map_id l0) at 2. apply map_ext. intros a.
      rewrite (nth_indep _ 0%N a) by (rewrite repeat_length; lia). apply nth_repeat. }
    assert (F := one_at_bound W (2 ^ (L - k)) p Hp).
    assert (Q := C18_fft_partial h p L data_len f (L - k) pkt j out0 (repeat 0%N (2 ^ L)) x Ob ltac:(lia)).
    cbv zeta in Q. fold S in Q. rewrite Q; clear Q.
    + destruct (C16_fft_partial h p L data_len f (L - k) (repeat 0%N (2 ^ L)) (at_pos j x) Ob ltac:(lia)) as (_ & _ & D).
      * unfold x. rewrite AP, one_at_length by lia. rewrite <- E2. lia.
      * apply repeat_length.
      * unfold x. rewrite AP. exact F.
      * rewrite (D 0 (pow2_pos L)). unfold x at 1. rewrite AP, one_at_dft by (try exact Hp; lia).
        unfold zi, at_pos.
        assert (RM : forall n, map (fun b : list N => nth j b 0%N) (repeat (repeat 0%N pkt) n) = repeat 0%N n).
        { induction n as [|n IH]; [reflexivity|]. cbn [repeat map]. rewrite IH, nth_repeat. reflexivity. }
        rewrite RM, zeros_dft by exact Hp. discriminate.
    + rewrite <- E2, Lx. lia.
    + unfold x. apply Forall_map. rewrite Forall_forall in F |- *. intros a Ha. split; [apply repeat_length|].
      apply Forall_forall. intros b Hb. apply repeat_spec in Hb. subst b. now apply F.
    + exact Hj.
    + exact L0.
    + apply repeat_length.
Qed.

(** * Concrete cases *)
Example C16_range_cases : effective 3 4 2 = 2 ^ 2 /\ 2 ^ 3 / effective 3 3 2 = 2 ^ 1 /\ 2 ^ 4 / effective 4 3 2 = 5 /\
  r2_fft_checked (sym_vec (prime_ops 32 257)) case_f (repeat 99%N 8) [1; 2; 3]%N =
  Some (map (dft_mod 257 64 8 [1; 2; 3]%N) (seq 0 8)).
Proof. repeat split; vm_compute; reflexivity. Qed.

Example C18_stale_case : exists f, radix2_object 16 257 3 3 f /\ 2 ^ 3 / effective 3 3 3 = 2 ^ 1 /\ effective 3 3 3 <> 2 ^ (3 - 1).
Proof.
  destruct (C16_object_exists 16 257 3 3) as (f & Hf);
    [reflexivity|vm_compute; discriminate|exact (proj1 (proj2 C16_object))|lia|exists 32%N; reflexivity|cbn; lia|].
  exists f. split; [exact Hf|]. split; [reflexivity|]. cbn. lia.
Qed.

Print Assumptions C16_range.
Print Assumptions C16_exact.
Print Assumptions C16_fft_refuted.
Print Assumptions C16_outside_refuted.
Print Assumptions C18_stale_refuted.
