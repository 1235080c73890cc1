(** The index tables of fft::Large (Model/Large.v). *)
From Coq Require Import List NArith Arith Lia Bool.
From Verif.Model Require Import Common Arith Ring Large.
From Verif.Spec Require Import Modular.
Import ListNotations.
Open Scope N_scope.

(** Number with the bits [f 0 .. f (n-1)]. *)
Definition bsum (f : nat -> bool) (n : nat) : N := sumN (fun q => N.b2n (f q) * 2 ^ N.of_nat q) n.

Lemma bsumS f n : bsum f (S n) = bsum f n + N.b2n (f n) * 2 ^ N.of_nat n.
Proof. reflexivity. Qed.

Lemma bsum_lt f n : bsum f n < 2 ^ N.of_nat n.
Proof.
induction n as [|n IH]; [reflexivity|].
rewrite bsumS, Nat2N.inj_succ, N.pow_succ_r'. destruct (f n); simpl N.b2n; lia.
Qed.

Lemma bsum_bit f : forall n k, N.testbit (bsum f n) (N.of_nat k) = (k <? n)%nat && f k.
Proof.
induction n as [|n IH]; intros k; [now rewrite N.bits_0|].
rewrite bsumS, N.add_comm.
assert (H := bsum_lt f n).
destruct (Nat.lt_trichotomy k n) as [L|[->|L]].
- rewrite <- (N.mod_pow2_bits_low _ (N.of_nat n)) by lia.
  rewrite N.add_comm, N.mod_add by (apply N.pow_nonzero; lia).
  rewrite N.mod_small, IH by lia.
  destruct (Nat.ltb_spec k n); [|lia]. destruct (Nat.ltb_spec k (S n)); [reflexivity|lia].
- rewrite N.add_comm.
  transitivity (N.testbit (bsum f n + N.b2n (f n) * 2 ^ N.of_nat n) (0 + N.of_nat n)); [now rewrite N.add_0_l|].
  rewrite <- N.div_pow2_bits, N.div_add, N.div_small, N.add_0_l by (try apply N.pow_nonzero; lia).
  destruct (Nat.ltb_spec n (S n)); [|lia]. simpl. destruct (f n); reflexivity.
- destruct (Nat.ltb_spec k (S n)); [lia|]. simpl.
  apply N.bits_above_log2.
  destruct (N.eq_dec (N.b2n (f n) * 2 ^ N.of_nat n + bsum f n) 0) as [->|NZ]; [simpl; lia|].
  apply N.log2_lt_pow2; [lia|].
  apply N.lt_le_trans with (2 ^ N.of_nat (S n)).
  + rewrite Nat2N.inj_succ, N.pow_succ_r'. destruct (f n); simpl N.b2n; lia.
  + apply N.pow_le_mono_r; lia.
Qed.

Lemma bsum_ext f g n : (forall q, (q < n)%nat -> f q = g q) -> bsum f n = bsum g n.
Proof.
induction n as [|n IH]; intros H; [reflexivity|].
rewrite !bsumS, IH, H by (intros; try apply H; lia). reflexivity.
Qed.

Lemma nat_bits_inj a b : (forall k, N.testbit a (N.of_nat k) = N.testbit b (N.of_nat k)) -> a = b.
Proof. intros H; apply N.bits_inj; intros k. rewrite <- (N2Nat.id k). apply H. Qed.

Lemma bsum_mod x k : x mod 2 ^ N.of_nat k = bsum (fun q => N.testbit x (N.of_nat q)) k.
Proof.
apply nat_bits_inj; intros q; rewrite bsum_bit.
destruct (Nat.ltb_spec q k).
- rewrite N.mod_pow2_bits_low by lia. reflexivity.
- rewrite N.mod_pow2_bits_high by lia. reflexivity.
Qed.

(** ** get_p *)
Lemma get_p_loopE : forall fuel x y j, (y <= j)%nat -> (j - y < fuel)%nat ->
  get_p_loop fuel x y j = N.b2n (N.testbit x (N.of_nat (j - y))).
Proof.
induction fuel as [|fuel IH]; intros x y j H1 H2; [lia|]. cbn [get_p_loop].
destruct (Nat.eqb_spec y j) as [->|NE].
- rewrite Nat.sub_diag. simpl N.of_nat. rewrite N.bit0_odd. destruct (N.odd x); reflexivity.
- replace (N.of_nat (j - y)) with (N.of_nat (j - S y) + 1) by lia.
  rewrite <- N.shiftr_spec by lia. cbv zeta.
  destruct (N.eqb_spec (N.shiftr x 1) 0) as [->|_].
  + rewrite N.bits_0. reflexivity.
  + apply IH; lia.
Qed.

Lemma get_pE i j : (1 <= j)%nat -> get_p i j = N.b2n (N.testbit i (N.of_nat (j - 1))).
Proof. intros H. unfold get_p. apply get_p_loopE; lia. Qed.

Lemma exp2nE k : exp2n k = 2 ^ N.of_nat k.
Proof. unfold exp2n, exp2. now rewrite N.shiftl_1_l. Qed.

(** ** Sums *)
Lemma sumN_ext f g n : (forall q, (q < n)%nat -> f q = g q) -> sumN f n = sumN g n.
Proof. induction n as [|n IH]; intros H; [reflexivity|]. simpl. rewrite IH, H by (intros; try apply H; lia). reflexivity. Qed.

Lemma sum_toE tw f n : sumN (fun q => f (S q)) n < 2 ^ tw -> sum_to tw f n = sumN (fun q => f (S q)) n.
Proof.
unfold sum_to. induction n as [|n IH]; intros H; [reflexivity|].
rewrite seq_S, fold_left_app. cbn [fold_left sumN] in *.
rewrite IH by lia. unfold wrap. rewrite N.mod_small; [reflexivity|exact H].
Qed.

Lemma sumN_shift f n : sumN f (S n) = f O + sumN (fun q => f (S q)) n.
Proof. induction n as [|n IH]; [simpl; lia|]. change (sumN f (S (S n))) with (sumN f (S n) + f (S n)). rewrite IH. simpl. lia. Qed.

Lemma sumN_rev f : forall n, sumN f n = sumN (fun q => f (n - 1 - q)%nat) n.
Proof.
induction n as [|n IH]; [reflexivity|].
rewrite (sumN_shift (fun q => f (S n - 1 - q)%nat)). simpl sumN.
rewrite IH. replace (S n - 1 - 0)%nat with n by lia. rewrite N.add_comm. f_equal.
apply sumN_ext. intros q Hq. f_equal. lia.
Qed.

Lemma sum_to_bits tw f n : N.of_nat n <= tw -> sum_to tw (fun k => N.b2n (f (k - 1)%nat) * exp2n (k - 1)) n = bsum f n.
Proof.
intros H. assert (E : sumN (fun q => N.b2n (f (S q - 1)%nat) * exp2n (S q - 1)) n = bsum f n).
{ apply sumN_ext. intros q _. rewrite exp2nE. now replace (S q - 1)%nat with q by lia. }
rewrite sum_toE; rewrite E; [reflexivity|].
apply N.lt_le_trans with (2 ^ N.of_nat n); [apply bsum_lt|apply N.pow_le_mono_r; lia].
Qed.

Lemma sum_to_ext tw f g n : (forall k, (1 <= k <= n)%nat -> f k = g k) -> sum_to tw f n = sum_to tw g n.
Proof.
unfold sum_to. generalize 0. induction n as [|n IH]; intros a H; [reflexivity|].
rewrite seq_S, !fold_left_app. cbn [fold_left]. rewrite IH by (intros; apply H; lia).
now rewrite (H (1 + n)%nat) by lia.
Qed.

Section Tables.
Variables (tw : N) (l : nat).
Hypothesis lw : N.of_nat l <= tw.

(** The first [i] bits from the top (bit [l - 1] is the lowest of the result). *)
Definition rtop (i : nat) (j : N) : N := bsum (fun q => N.testbit j (N.of_nat (l - 1 - q))) i.

Lemma tmp1E i j : (i <= l)%nat -> large_tmp1 tw l i j = rtop i j.
Proof.
intros Hi. unfold large_tmp1.
assert (E : sumN (fun q => get_p j (l - i + S q) * exp2n (i - S q)) i = rtop i j).
{ unfold rtop, bsum. rewrite sumN_rev. apply sumN_ext. intros q Hq.
  rewrite get_pE by lia. rewrite exp2nE.
  replace (l - i + S (i - 1 - q) - 1)%nat with (l - 1 - q)%nat by lia.
  replace (i - S (i - 1 - q))%nat with q by lia. reflexivity. }
rewrite sum_toE; rewrite E; [reflexivity|].
apply N.lt_le_trans with (2 ^ N.of_nat i); [apply bsum_lt|apply N.pow_le_mono_r; lia].
Qed.

Lemma tmp4E i j : (i <= l)%nat -> large_tmp4 tw l i j = rtop i j * 2 ^ N.of_nat (l - i).
Proof.
intros Hi. unfold large_tmp4. rewrite tmp1E, exp2nE by lia. unfold wrap. apply N.mod_small.
assert (B := bsum_lt (fun q => N.testbit j (N.of_nat (l - 1 - q))) i). fold (rtop i j) in B.
apply N.lt_le_trans with (2 ^ N.of_nat i * 2 ^ N.of_nat (l - i)).
- apply N.mul_lt_mono_pos_r; [|exact B]. apply N.neq_0_lt_0, N.pow_nonzero; lia.
- rewrite <- N.pow_add_r. apply N.pow_le_mono_r; lia.
Qed.

Lemma tmp4_lt i j : (i <= l)%nat -> large_tmp4 tw l i j < 2 ^ N.of_nat l.
Proof.
intros Hi. rewrite tmp4E by lia.
assert (B := bsum_lt (fun q => N.testbit j (N.of_nat (l - 1 - q))) i). fold (rtop i j) in B.
apply N.lt_le_trans with (2 ^ N.of_nat i * 2 ^ N.of_nat (l - i)).
- apply N.mul_lt_mono_pos_r; [|exact B]. apply N.neq_0_lt_0, N.pow_nonzero; lia.
- rewrite <- N.pow_add_r. apply N.pow_le_mono_r; lia.
Qed.

Lemma tmp5E j : large_tmp5 tw l j = rtop l j.
Proof.
unfold large_tmp5, rtop. rewrite <- (sum_to_bits tw) by lia.
apply sum_to_ext. intros k Hk. rewrite get_pE by lia.
replace (l - k + 1 - 1)%nat with (l - 1 - (k - 1))%nat by lia. reflexivity.
Qed.

Lemma rtop_invol j : j < 2 ^ N.of_nat l -> rtop l (rtop l j) = j.
Proof.
intros Hj. rewrite <- (N.mod_small j (2 ^ N.of_nat l)) at 2 by lia. rewrite bsum_mod.
unfold rtop at 1. apply bsum_ext. intros q Hq. unfold rtop. rewrite bsum_bit.
destruct (Nat.ltb_spec (l - 1 - q) l); [|lia]. cbn [andb]. do 2 f_equal. lia.
Qed.

Lemma rtopS i j : rtop (S i) j = rtop i j + N.b2n (N.testbit j (N.of_nat (l - S i))) * 2 ^ N.of_nat i.
Proof. unfold rtop. rewrite bsumS. replace (l - 1 - i)%nat with (l - S i)%nat by lia. reflexivity. Qed.

Definition other (b : bool) (i : nat) (j : N) : N := if b then large_tmp3 tw l i j else large_tmp2 tw l i j.

Lemma otherE b i j : (1 <= i <= l)%nat ->
  other b i j = bsum (fun q => if Nat.eqb q (l - i) then b else N.testbit j (N.of_nat q)) l.
Proof.
intros Hi. rewrite <- (sum_to_bits tw) by lia.
destruct b; unfold other, large_tmp2, large_tmp3, get_p0, get_p1; apply sum_to_ext; intros k Hk;
  rewrite (get_pE _ k) by lia;
  destruct (Nat.eqb_spec k (l - i + 1)), (Nat.eqb_spec (k - 1) (l - i)); try lia; reflexivity.
Qed.

Lemma other_lt b i j : (1 <= i <= l)%nat -> other b i j < 2 ^ N.of_nat l.
Proof. intros Hi. rewrite otherE by lia. apply bsum_lt. Qed.

Lemma other_mod b i j : (1 <= i <= l)%nat ->
  other b i j mod 2 ^ N.of_nat (l - i + 1) = N.b2n b * 2 ^ N.of_nat (l - i) + j mod 2 ^ N.of_nat (l - i).
Proof.
intros Hi. rewrite !bsum_mod, otherE by lia.
replace (l - i + 1)%nat with (S (l - i)) by lia. rewrite bsumS, bsum_bit, Nat.eqb_refl, N.add_comm.
destruct (Nat.ltb_spec (l - i) l); [|lia]. cbn [andb]. f_equal.
apply bsum_ext. intros q Hq. rewrite bsum_bit.
destruct (Nat.ltb_spec q l); [|lia]. destruct (Nat.eqb_spec q (l - i)); [lia|]. reflexivity.
Qed.

Lemma other_rtop b i j : (1 <= i <= l)%nat -> rtop (i - 1) (other b i j) = rtop (i - 1) j.
Proof.
intros Hi. apply bsum_ext. intros q Hq. rewrite otherE, bsum_bit by lia.
destruct (Nat.ltb_spec (l - 1 - q) l); [|lia]. destruct (Nat.eqb_spec (l - 1 - q) (l - i)); [lia|]. reflexivity.
Qed.
End Tables.
