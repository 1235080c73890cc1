(** Correctness of the integer helpers of arith.h. *)
From Coq Require Import List NArith ZArith Bool Znumtheory.
From Verif.Model Require Import Common Arith.
From Verif.Proof Require Import Tac.
Import ListNotations.
Open Scope N_scope.

Lemma wrap_small w x : x < 2 ^ w -> wrap w x = x.
Proof. intros H. unfold wrap. now apply N.mod_small. Qed.

(** ** Square root *)
Lemma pow2_pos j : 0 < 2 ^ j.
Proof. apply N.neq_0_lt_0, N.pow_nonzero. lia. Qed.

Lemma sqrt_loop_spec w : forall j fuel s n N0, (S j < fuel)%nat ->
  let P := 2 ^ N.of_nat j in
  N0 = n + s * s -> N0 < (s + 2 * P) * (s + 2 * P) -> (s + 2 * P) * (s + 2 * P) <= 2 ^ w ->
  let r := sqrt_loop fuel w (P * P) n (s * (2 * P)) in r * r <= N0 /\ N0 < (r + 1) * (r + 1).
Proof.
  induction j as [|j IH]; intros fuel s n N0 Hf P E H1 H2.
  - destruct fuel as [|[|f]]; try lia. cbn [sqrt_loop].
    subst P. change (2 ^ N.of_nat 0) with 1 in *. change (1 * 1 =? 0) with false. change (1 * 1 / 4) with 0. rewrite N.eqb_refl. cbv iota.
    rewrite !(wrap_small w) by nia.
    destruct (N.leb_spec (s * (2 * 1) + 1 * 1) n).
    + rewrite (wrap_small w (1 * 1 * 2)) by nia. rewrite (wrap_small w) by nia.
      replace ((s * (2 * 1) + 1 * 1 * 2) / 2) with (s + 1) by (clear; dlia). nia.
    + replace (s * (2 * 1) / 2) with s by (clear; dlia). nia.
  - destruct fuel as [|f]; try lia. cbn [sqrt_loop].
    assert (Hp := pow2_pos (N.of_nat j)). set (Q := 2 ^ N.of_nat j) in *.
    assert (EP : P = 2 * Q) by (unfold P, Q; rewrite Nnat.Nat2N.inj_succ, N.pow_succ_r'; auto).
    clearbody P Q. subst P.
    destruct (N.eqb_spec (2 * Q * (2 * Q)) 0); [nia|].
    replace (2 * Q * (2 * Q) / 4) with (Q * Q) by (rewrite <- (N.div_mul (Q * Q) 4) by lia; f_equal; lia).
    assert (Hb : s * (2 * (2 * Q)) + 2 * Q * (2 * Q) * 2 < 2 ^ w).
    { clear - H2 Hp. nia. }
    rewrite !(wrap_small w) by lia.
    destruct (N.leb_spec (s * (2 * (2 * Q)) + 2 * Q * (2 * Q)) n) as [Hle|Hgt].
    + rewrite (wrap_small w (2 * Q * (2 * Q) * 2)) by lia. rewrite (wrap_small w) by lia.
      replace ((s * (2 * (2 * Q)) + 2 * Q * (2 * Q) * 2) / 2) with ((s + 2 * Q) * (2 * Q)).
      2:{ rewrite <- (N.div_mul ((s + 2 * Q) * (2 * Q)) 2) by lia. f_equal. lia. }
      apply (IH f (s + 2 * Q)); [lia| |nia|nia].
      rewrite E. nia.
    + replace (s * (2 * (2 * Q)) / 2) with (s * (2 * Q)).
      2:{ rewrite <- (N.div_mul (s * (2 * Q)) 2) by lia. f_equal. lia. }
      apply (IH f s); [lia|auto|nia|nia].
Qed.

Lemma sqrt_shrink_spec n : forall j fuel, (S j < fuel)%nat -> n < (2 * 2 ^ N.of_nat j) * (2 * 2 ^ N.of_nat j) ->
  (n = 0 /\ sqrt_shrink fuel (2 ^ N.of_nat j * 2 ^ N.of_nat j) n = 0) \/
  exists i, (i <= j)%nat /\ sqrt_shrink fuel (2 ^ N.of_nat j * 2 ^ N.of_nat j) n = 2 ^ N.of_nat i * 2 ^ N.of_nat i /\
            n < (2 * 2 ^ N.of_nat i) * (2 * 2 ^ N.of_nat i).
Proof.
  induction j as [|j IH]; intros fuel Hf H.
  - destruct fuel as [|[|f]]; try lia. cbn [sqrt_shrink]. change (2 ^ N.of_nat 0 * 2 ^ N.of_nat 0) with 1.
    destruct (N.ltb_spec n 1).
    + left. change (1 / 4) with 0. destruct (N.ltb_spec n 0); [lia|]. lia.
    + right. exists 0%nat. auto.
  - destruct fuel as [|f]; try lia. cbn [sqrt_shrink].
    destruct (N.ltb_spec n (2 ^ N.of_nat (S j) * 2 ^ N.of_nat (S j))) as [Hlt|Hge].
    + assert (Ep : 2 ^ N.of_nat (S j) = 2 * 2 ^ N.of_nat j) by (rewrite Nnat.Nat2N.inj_succ, N.pow_succ_r'; auto).
      rewrite Ep in *. set (Q := 2 ^ N.of_nat j) in *.
      replace (2 * Q * (2 * Q) / 4) with (Q * Q) by (rewrite <- (N.div_mul (Q * Q) 4) by lia; f_equal; lia).
      destruct (IH f ltac:(lia) Hlt) as [Hz|[i [Hi Hx]]]; [left; auto|right]. exists i. split; [lia|auto].
    + right. exists (S j). auto.
Qed.

Theorem sqrt_spec h n : 0 < h -> n < 2 ^ (2 * h) -> sqrt (2 * h) n * sqrt (2 * h) n <= n < (sqrt (2 * h) n + 1) * (sqrt (2 * h) n + 1).
Proof.
  intros Hh Hn. unfold sqrt.
  set (j := N.to_nat (h - 1)). assert (Hj : N.of_nat j = h - 1) by (unfold j; lia).
  assert (E0 : 2 ^ (2 * h - 2) = 2 ^ N.of_nat j * 2 ^ N.of_nat j).
  { rewrite <- N.pow_add_r. f_equal. lia. }
  assert (E1 : 2 ^ (2 * h) = (2 * 2 ^ N.of_nat j) * (2 * 2 ^ N.of_nat j)).
  { rewrite <- N.pow_succ_r', <- N.pow_add_r. f_equal. lia. }
  rewrite E0.
  destruct (sqrt_shrink_spec n j (N.to_nat (2 * h)) ltac:(lia) ltac:(lia)) as [[Hz ->]|[i [Hi [-> Hlt]]]].
  - assert (X : forall f w n, sqrt_loop f w 0 n 0 = 0) by (intros [|f] w' n'; reflexivity).
    rewrite X. lia.
  - change 0 with (0 * (2 * 2 ^ N.of_nat i)). apply sqrt_loop_spec; try lia.
    rewrite E1. assert (2 ^ N.of_nat i <= 2 ^ N.of_nat j) by (apply N.pow_le_mono_r; lia). nia.
Qed.

Lemma sqrt_is_N_sqrt h n : 0 < h -> n < 2 ^ (2 * h) -> sqrt (2 * h) n = N.sqrt n.
Proof.
  intros Hh Hn. symmetry. apply N.sqrt_unique. pose proof (sqrt_spec h n Hh Hn).
  rewrite <- N.add_1_r. auto.
Qed.

(** ** Exponentiation *)
Lemma exp_loop_spec w : forall fuel r b e, e <> 0 -> (N.to_nat (N.size e) <= fuel)%nat -> r < 2 ^ w ->
  exp_loop fuel w r b e = wrap w (r * b ^ e).
Proof.
  induction fuel as [|f IH]; intros r b e He Hf Hr.
  - rewrite N.size_log2 in Hf by auto. lia.
  - cbn [exp_loop].
    assert (Hw : 2 ^ w <> 0) by (apply N.pow_nonzero; lia).
    set (r' := if e mod 2 =? 1 then wrap w (r * b) else r).
    assert (Hr' : r' < 2 ^ w) by (unfold r'; destruct (_ =? _); auto; apply N.mod_upper_bound; auto).
    assert (E : wrap w (r * b ^ e) = wrap w (r' * (b * b) ^ (e / 2))).
    { assert (Ee : b ^ e = (b * b) ^ (e / 2) * b ^ (e mod 2)).
      { rewrite <- N.pow_2_r, <- N.pow_mul_r, <- N.pow_add_r. f_equal. dlia. }
      unfold r'. destruct (N.eqb_spec (e mod 2) 1) as [E1|E1].
      - rewrite Ee, E1, N.pow_1_r. unfold wrap. rewrite N.mul_mod_idemp_l by auto. f_equal. lia.
      - rewrite Ee. replace (e mod 2) with 0 by dlia. rewrite N.pow_0_r. f_equal. lia. }
    destruct (N.eqb_spec (e / 2) 0) as [E0|E0].
    + rewrite E, E0, N.pow_0_r, N.mul_1_r. symmetry. now apply wrap_small.
    + rewrite IH; auto.
      * rewrite E. unfold wrap. rewrite <- (N.mul_mod_idemp_r r' ((b * b) ^ (e / 2))) by auto.
        rewrite <- (N.mul_mod_idemp_r r' ((((b * b) mod 2 ^ w)) ^ (e / 2))) by auto. f_equal. f_equal.
        clear - Hw. generalize (e / 2). intros k. induction k using N.peano_ind; [reflexivity|].
        rewrite !N.pow_succ_r'. rewrite N.mul_mod by auto. rewrite IHk, N.mod_mod, <- N.mul_mod by auto. reflexivity.
      * rewrite N.size_log2 in * by auto.
        assert (N.log2 e = N.succ (N.log2 (e / 2))); [|lia].
        destruct (N.eq_dec (e mod 2) 0).
        -- replace e with (2 * (e / 2)) at 1 by dlia. apply N.log2_double; lia.
        -- replace e with (2 * (e / 2) + 1) at 1 by dlia. apply N.log2_succ_double; lia.
Qed.

Theorem exp_spec w b e : 0 < w -> exp w b e = wrap w (b ^ e).
Proof.
  intros Hw. assert (H1 : 1 < 2 ^ w) by (apply N.pow_gt_1; lia).
  unfold exp. destruct (N.eqb_spec e 0) as [->|He].
  - rewrite N.pow_0_r, wrap_small; auto.
  - rewrite exp_loop_spec, N.mul_1_l; auto.
Qed.

Lemma exp_mod_loop_spec w m : 1 < m -> m * m <= 2 ^ w -> forall fuel r b e,
  (N.to_nat (N.size e) < fuel)%nat -> r < m -> b < m ->
  exp_mod_loop fuel w r b e m = (r * b ^ e) mod m.
Proof.
  intros Hm Hw. induction fuel as [|f IH]; intros r b e Hf Hr Hb; [lia|]. cbn [exp_mod_loop].
  destruct (N.eqb_spec e 0) as [->|He]; [rewrite N.pow_0_r, N.mul_1_r; symmetry; now apply N.mod_small|].
  rewrite !(wrap_small w) by nia.
  set (r' := if e mod 2 =? 1 then (r * b) mod m else r).
  assert (Hr' : r' < m) by (unfold r'; destruct (_ =? _); auto; apply N.mod_upper_bound; lia).
  rewrite IH; auto.
  - assert (Ee : b ^ e = (b * b) ^ (e / 2) * b ^ (e mod 2)).
    { rewrite <- N.pow_2_r, <- N.pow_mul_r, <- N.pow_add_r. f_equal. dlia. }
    assert (Pm : forall k, ((b * b) mod m) ^ k mod m = (b * b) ^ k mod m).
    { intros k. induction k using N.peano_ind; [reflexivity|].
      rewrite !N.pow_succ_r'. rewrite N.mul_mod by lia. rewrite IHk, N.mod_mod, <- N.mul_mod by lia. reflexivity. }
    rewrite Ee. rewrite <- (N.mul_mod_idemp_r r') by lia. rewrite Pm, N.mul_mod_idemp_r by lia.
    unfold r'. destruct (N.eqb_spec (e mod 2) 1) as [E1|E1].
    + rewrite E1, N.pow_1_r. rewrite N.mul_mod_idemp_l by lia. f_equal. lia.
    + replace (e mod 2) with 0 by dlia. rewrite N.pow_0_r. f_equal. lia.
  - destruct (N.eq_dec (e / 2) 0) as [->|E0]; [rewrite N.size_log2 in Hf by auto; cbn; lia|].
    rewrite N.size_log2 in * by auto.
    assert (N.log2 e = N.succ (N.log2 (e / 2))); [|lia].
    destruct (N.eq_dec (e mod 2) 0).
    + replace e with (2 * (e / 2)) at 1 by dlia. apply N.log2_double; lia.
    + replace e with (2 * (e / 2) + 1) at 1 by dlia. apply N.log2_succ_double; lia.
  - apply N.mod_upper_bound; lia.
Qed.

Theorem exp_mod_spec w b e m : m <> 0 -> m * m <= 2 ^ w -> exp_mod w b e m = (b ^ e) mod m.
Proof.
  intros Hm Hw. unfold exp_mod. destruct (N.eqb_spec m 1) as [->|H1]; [symmetry; apply N.mod_1_r|].
  rewrite exp_mod_loop_spec by (try apply N.mod_upper_bound; lia).
  rewrite N.mul_1_l. clear - Hm. induction e using N.peano_ind; [reflexivity|].
  rewrite !N.pow_succ_r'. rewrite N.mul_mod by lia. rewrite IHe, N.mod_mod, <- N.mul_mod by lia. reflexivity.
Qed.
