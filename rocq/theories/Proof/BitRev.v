(** The bit-reversal loop computes the reversed number. *)
Set Warnings "-notation-overridden,-ambiguous-paths".
From Coq Require Import List NArith ZArith Arith Bool.
From Verif.Model Require Import Common Arith Fft2n.
From Verif.Proof Require Import ListP Tac.
Import ListNotations.
Open Scope N_scope.

Fixpoint brevN (l : nat) (x : N) : N :=
  match l with O => 0 | S l' => (x mod 2) * 2 ^ N.of_nat l' + brevN l' (x / 2) end.

Lemma brevN_lt l : forall x, brevN l x < 2 ^ N.of_nat l.
Proof.
  induction l as [|l IH]; intros x; [reflexivity|]. cbn [brevN].
  rewrite Nnat.Nat2N.inj_succ, N.pow_succ_r'. specialize (IH (x / 2)).
  pose proof (N.mod_upper_bound x 2). nia.
Qed.

Lemma lor_shift_add a k b : b < 2 ^ k -> N.lor b (N.shiftl a k) = a * 2 ^ k + b.
Proof.
  intros H. rewrite N.lor_comm. rewrite <- (N.shiftl_mul_pow2 a k).
  symmetry. rewrite <- N.lxor_lor; [apply N.add_nocarry_lxor|].
  - apply N.bits_inj. intros i. rewrite N.land_spec, N.bits_0.
    destruct (N.lt_ge_cases i k) as [Hi|Hi].
    + rewrite N.shiftl_spec_low; auto.
    + assert (E : N.testbit b i = false); [|rewrite E; apply andb_false_r].
      destruct (N.eq_dec b 0) as [->|Hb]; [apply N.bits_0|].
      apply N.bits_above_log2. apply N.log2_lt_pow2 in H; dlia.
  - apply N.bits_inj. intros i. rewrite N.land_spec, N.bits_0.
    destruct (N.lt_ge_cases i k) as [Hi|Hi].
    + rewrite N.shiftl_spec_low; auto.
    + assert (E : N.testbit b i = false); [|rewrite E; apply andb_false_r].
      destruct (N.eq_dec b 0) as [->|Hb]; [apply N.bits_0|].
      apply N.bits_above_log2. apply N.log2_lt_pow2 in H; dlia.
Qed.

Lemma land_pow2_shift x b : N.shiftr (N.land x (2 ^ b)) b = (x / 2 ^ b) mod 2.
Proof.
  rewrite N.shiftr_land, (N.shiftr_div_pow2 (2 ^ b)).
  rewrite N.div_same by (apply N.pow_nonzero; dlia).
  change 1 with (N.ones 1). rewrite N.land_ones. now rewrite N.shiftr_div_pow2.
Qed.

Lemma rev_loop_spec l x : l < 32 -> forall b fuel, N.of_nat b < l -> (b + 2 <= fuel)%nat ->
  rev_loop fuel x (2 ^ N.of_nat b) (N.of_nat b) l (brevN (N.to_nat l - b - 1) (x / 2 ^ (N.of_nat b + 1)))
  = brevN (N.to_nat l) x.
Proof.
  intros Hl. induction b as [|b IH]; intros fuel Hb Hf.
  - destruct fuel as [|[|f]]; try dlia. cbn [rev_loop].
    change (2 ^ N.of_nat 0) with 1. change (N.of_nat 0) with 0. change (1 =? 0) with false. change (N.div2 1) with 0.
    cbv iota. rewrite N.eqb_refl.
    assert (Hb0 : N.shiftr (N.land x 1) 0 = x mod 2).
    { rewrite N.shiftr_0_r. change 1 with (N.ones 1). now rewrite N.land_ones. }
    rewrite Hb0.
    unfold wrap. change (2 ^ 32) with 4294967296.
    replace ((l + 4294967296 - 1 - 0) mod 4294967296) with (l - 1) by dlia.
    replace (N.to_nat l) with (S (N.to_nat l - 1)) at 2 by dlia. cbn [brevN].
    replace (N.to_nat l - 0 - 1)%nat with (N.to_nat l - 1)%nat by dlia.
    change (2 ^ (0 + 1)) with 2.
    replace (N.of_nat (N.to_nat l - 1)) with (l - 1) by dlia.
    apply lor_shift_add. pose proof (brevN_lt (N.to_nat l - 1) (x / 2)). now replace (N.of_nat (N.to_nat l - 1)) with (l - 1) in H by dlia.
  - destruct fuel as [|f]; try dlia. cbn [rev_loop].
    assert (P : 2 ^ N.of_nat (S b) <> 0) by (apply N.pow_nonzero; dlia).
    destruct (N.eqb_spec (2 ^ N.of_nat (S b)) 0); [dlia|].
    rewrite land_pow2_shift.
    replace (N.div2 (2 ^ N.of_nat (S b))) with (2 ^ N.of_nat b).
    2:{ rewrite N.div2_div, Nnat.Nat2N.inj_succ, N.pow_succ_r'. rewrite N.mul_comm, N.div_mul; dlia. }
    unfold wrap. change (2 ^ 32) with 4294967296.
    replace ((N.of_nat (S b) + 4294967296 - 1) mod 4294967296) with (N.of_nat b) by dlia.
    replace ((l + 4294967296 - 1 - N.of_nat (S b)) mod 4294967296) with (l - 1 - N.of_nat (S b)) by dlia.
    rewrite <- (IH f) by dlia. f_equal.
    replace (N.to_nat l - b - 1)%nat with (S (N.to_nat l - S b - 1)) by dlia. cbn [brevN].
    replace (N.of_nat (N.to_nat l - S b - 1)) with (l - 1 - N.of_nat (S b)) by dlia.
    replace (N.of_nat b + 1) with (N.of_nat (S b)) by dlia.
    rewrite N.div_div; [|apply N.pow_nonzero; dlia|dlia].
    replace (2 ^ N.of_nat (S b) * 2) with (2 ^ (N.of_nat (S b) + 1)) by (rewrite N.pow_add_r; reflexivity).
    apply lor_shift_add.
    pose proof (brevN_lt (N.to_nat l - S b - 1) (x / 2 ^ (N.of_nat (S b) + 1))).
    now replace (N.of_nat (N.to_nat l - S b - 1)) with (l - 1 - N.of_nat (S b)) in H by dlia.
Qed.

Lemma reverse_bitwise_brevN l x : l < 32 -> x < 2 ^ l -> reverse_bitwise x (2 ^ l) l = brevN (N.to_nat l) x.
Proof.
  intros Hl Hx. unfold reverse_bitwise.
  cbn [rev_loop]. assert (P : 2 ^ l <> 0) by (apply N.pow_nonzero; dlia).
  destruct (N.eqb_spec (2 ^ l) 0); [dlia|].
  rewrite land_pow2_shift. rewrite N.div_small by auto. change (0 mod 2) with 0. rewrite N.shiftl_0_l. change (N.lor 0 0) with 0.
  destruct (N.eq_dec l 0) as [->|Hn]; [reflexivity|].
  replace (N.div2 (2 ^ l)) with (2 ^ N.of_nat (N.to_nat l - 1)).
  2:{ rewrite N.div2_div. replace l with (N.succ (N.of_nat (N.to_nat l - 1))) at 2 by dlia.
      rewrite N.pow_succ_r'. rewrite N.mul_comm, N.div_mul; dlia. }
  unfold wrap. change (2 ^ 32) with 4294967296.
  replace ((l + 4294967296 - 1) mod 4294967296) with (N.of_nat (N.to_nat l - 1)) by dlia.
  rewrite <- (rev_loop_spec l x Hl (N.to_nat l - 1) (S (N.to_nat l))) by dlia.
  replace (N.to_nat l - (N.to_nat l - 1) - 1)%nat with 0%nat by dlia. reflexivity.
Qed.

Lemma log2_loop_spec fuel : forall n r, n <> 0 -> (N.to_nat (N.size n) <= S fuel)%nat ->
  log2_loop fuel n r = r + N.log2 n.
Proof.
  induction fuel as [|f IH]; intros n r Hn Hs; cbn [log2_loop].
  - assert (n = 1). { rewrite N.size_log2 in Hs by auto. assert (N.log2 n = 0) by dlia.
      apply N.log2_null in H. dlia. }
    subst. cbn. dlia.
  - destruct (N.ltb_spec 1 n).
    + assert (n / 2 <> 0) by dlia.
      assert (E : N.log2 n = N.succ (N.log2 (n / 2))).
      { destruct (N.eq_dec (n mod 2) 0).
        - replace n with (2 * (n / 2)) at 1 by dlia. apply N.log2_double; dlia.
        - replace n with (2 * (n / 2) + 1) at 1 by dlia. apply N.log2_succ_double; dlia. }
      rewrite IH; auto; [dlia|]. rewrite N.size_log2 in * by auto. dlia.
    + assert (n = 1) by dlia. subst. cbn. dlia.
Qed.

Lemma log2_correct n : n <> 0 -> log2 n = Some (N.log2 n).
Proof.
  intros Hn. unfold log2. destruct (N.eqb_spec n 0); [dlia|].
  destruct (N.eqb_spec n 1); [subst; reflexivity|].
  rewrite log2_loop_spec; auto; dlia.
Qed.

Lemma init_bitrev_spec L : (L < 32)%nat ->
  length (init_bitrev (2 ^ L)) = (2 ^ L)%nat /\
  forall i, (i < 2 ^ L)%nat -> nth i (init_bitrev (2 ^ L)) 0%nat = N.to_nat (brevN L (N.of_nat i)).
Proof.
  intros HL. unfold init_bitrev.
  assert (E : N.of_nat (2 ^ L) = 2 ^ N.of_nat L) by (rewrite Nnat.Nat2N.inj_pow; reflexivity).
  rewrite E. rewrite log2_correct by (apply N.pow_nonzero; dlia).
  rewrite N.log2_pow2 by dlia. split; [now rewrite map_length, seq_length|].
  intros i Hi. rewrite nth_map_seq by auto. rewrite reverse_bitwise_brevN; [now rewrite Nnat.Nat2N.id|dlia|].
  rewrite <- E. dlia.
Qed.

(** The bits of [brevN l x] are the [l] low bits of [x] in reverse order. *)
Lemma testbit_mix l b r i : b < 2 -> r < 2 ^ l ->
  N.testbit (b * 2 ^ l + r) i = if i =? l then N.testbit b 0 else if i <? l then N.testbit r i else false.
Proof.
  intros Hb Hr. rewrite <- lor_shift_add by auto. rewrite N.lor_spec.
  destruct (N.eqb_spec i l) as [->|Hne].
  - rewrite N.shiftl_spec_high' by dlia. rewrite N.sub_diag.
    replace (N.testbit r l) with false; [reflexivity|].
    rewrite N.testbit_eqb. rewrite N.div_small by auto. reflexivity.
  - destruct (N.ltb_spec i l) as [Hl|Hl].
    + rewrite N.shiftl_spec_low by auto. apply orb_false_r.
    + rewrite N.shiftl_spec_high' by dlia.
      rewrite !N.testbit_eqb. rewrite (N.div_small r).
      2:{ apply N.lt_le_trans with (2 ^ l); auto. apply N.pow_le_mono_r; dlia. }
      rewrite (N.div_small b); [reflexivity|].
      apply N.lt_le_trans with (2 ^ 1); auto. apply N.pow_le_mono_r; dlia.
Qed.

Lemma brevN_bits l : forall x i, i < N.of_nat l -> N.testbit (brevN l x) i = N.testbit x (N.of_nat l - 1 - i).
Proof.
  induction l as [|l IH]; intros x i Hi; [dlia|]. cbn [brevN].
  rewrite testbit_mix; [|apply N.mod_upper_bound; dlia|apply brevN_lt].
  destruct (N.eqb_spec i (N.of_nat l)) as [->|Hne].
  - replace (N.of_nat (S l) - 1 - N.of_nat l) with 0 by dlia. rewrite !N.testbit_eqb, N.pow_0_r, !N.div_1_r.
    rewrite N.mod_mod by dlia. reflexivity.
  - destruct (N.ltb_spec i (N.of_nat l)); [|dlia]. rewrite IH by auto.
    replace (N.of_nat (S l) - 1 - i) with (N.succ (N.of_nat l - 1 - i)) by dlia.
    rewrite N.testbit_succ_r_div2 by dlia. rewrite N.div2_div. reflexivity.
Qed.

Lemma brevN_invol l x : x < 2 ^ N.of_nat l -> brevN l (brevN l x) = x.
Proof.
  intros Hx. apply N.bits_inj. intros i. destruct (N.lt_ge_cases i (N.of_nat l)) as [Hi|Hi].
  - rewrite !brevN_bits by dlia. f_equal. dlia.
  - assert (B := brevN_lt l (brevN l x)). assert (2 ^ N.of_nat l <= 2 ^ i) by (apply N.pow_le_mono_r; dlia).
    rewrite !N.testbit_eqb. rewrite !N.div_small by dlia. reflexivity.
Qed.
