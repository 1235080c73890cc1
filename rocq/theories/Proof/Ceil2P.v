(** Powers of two (arith.h:201-255). *)
From Coq Require Import List NArith ZArith Bool.
From Verif.Model Require Import Common Arith.
From Verif.Proof Require Import Tac BitRev.
Open Scope N_scope.

Lemma is_power_of_2_spec n : is_power_of_2 n = true <-> exists k, n = 2 ^ k.
Proof.
  unfold is_power_of_2. rewrite andb_true_iff, N.ltb_lt, N.eqb_eq. split.
  - intros [Hn HL]. exists (N.log2 n).
    destruct (N.log2_spec n Hn) as [H1 H2].
    destruct (N.eq_dec n (2 ^ N.log2 n)) as [|Hne]; [auto|exfalso].
    assert (B : N.testbit (N.land n (n - 1)) (N.log2 n) = true).
    { rewrite N.land_spec, N.bit_log2 by lia.
      replace (N.log2 n) with (N.log2 (n - 1)).
      - rewrite N.bit_log2; auto. assert (0 < 2 ^ N.log2 n) by (apply N.neq_0_lt_0, N.pow_nonzero; lia). lia.
      - rewrite N.pow_succ_r' in H2. apply (N.log2_unique (n - 1)); [lia|]. rewrite N.pow_succ_r'. lia. }
    rewrite HL, N.bits_0 in B. discriminate.
  - intros [k ->]. assert (2 ^ k <> 0) by (apply N.pow_nonzero; lia).
    split; [lia|]. rewrite N.sub_1_r. rewrite <- N.ones_equiv, N.land_ones. apply N.mod_same; auto.
Qed.

Lemma ceil2_spec n : n <> 0 ->
  exists e, ceil2 n = Some (2 ^ e) /\ n <= 2 ^ e /\ 2 ^ e < 2 * n.
Proof.
  intros Hn. unfold ceil2. destruct (is_power_of_2 n) eqn:E.
  - apply is_power_of_2_spec in E. destruct E as [k ->]. exists k. repeat split; lia.
  - rewrite log2_correct by auto. exists (N.log2 n + 1).
    destruct (N.log2_spec n ltac:(lia)) as [H1 H2].
    rewrite N.add_1_r. unfold exp2. rewrite N.shiftl_1_l.
    split; [auto|]. split; [lia|]. rewrite N.pow_succ_r'.
    assert (n <> 2 ^ N.log2 n); [|lia].
    intros X. assert (is_power_of_2 n = true) by (apply is_power_of_2_spec; eauto). congruence.
Qed.
