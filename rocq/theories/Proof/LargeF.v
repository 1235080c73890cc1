(** The transforms of fft::Large (Model/Large.v). *)
Set Warnings "-notation-overridden,-ambiguous-paths".
From Coq Require Import NArith ZArith.
From Coq Require List.
From mathcomp Require Import all_ssreflect ssralg zmodp.
From mathcomp Require Import zify.
From Verif.Model Require Import Common Arith Ring Large.
From Verif.Spec Require Import Modular.
From Verif.Proof Require Import ArithP ListP LargeB LargeP.
Import GRing.Theory.
Local Open Scope ring_scope.

Lemma pow2n k : N.to_nat (2 ^ N.of_nat k) = (2 ^ k)%N.
Proof.
elim: k => [//|k IH]; rewrite Nat2N.inj_succ N.pow_succ_r' expnS -IH; lia.
Qed.

Lemma table_nth l n f i j : (1 <= i <= l)%N -> (j < n)%N ->
  lnth j (lnth i (large_table l n f) List.nil) 0%num = f i (N.of_nat j).
Proof.
move=> /andP [i1 il] jn; rewrite /large_table; case: i i1 il => [//|i] _ il /=.
rewrite (List.nth_indep _ _ (List.map (fun j0 => f 0%N (N.of_nat j0)) (List.seq 0 n))).
  rewrite (List.map_nth (fun i0 => List.map (fun j0 => f i0 (N.of_nat j0)) (List.seq 0 n)) _ 0%N).
  rewrite List.seq_nth; last by apply/ltP.
  by rewrite nth_map_seq //; apply/ltP.
by rewrite List.map_length List.seq_length; apply/ltP.
Qed.

Section Large.
Variables (tw m : N) (l : nat) (L : large).
Hypothesis m1 : (1 < m)%num.
Hypothesis mw : (m < 2 ^ tw)%num.
Hypothesis l0 : (0 < l)%N.
Hypothesis lw : (N.of_nat l <= tw)%num.

Notation n := (2 ^ l)%N.
Hypothesis Ll : lg_l L = l.
Hypothesis Ln : lg_n L = n.
Hypothesis L2 : lg_tmp2 L = large_table l n (large_tmp2 tw l).
Hypothesis L3 : lg_tmp3 L = large_table l n (large_tmp3 tw l).
Hypothesis L4 : lg_tmp4 L = large_table l n (large_tmp4 tw l).
Hypothesis L5 : lg_tmp5 L = List.map (fun i => large_tmp5 tw l (N.of_nat i)) (List.seq 0 n).

Variables (r u : N).
Hypothesis rm : (r < m)%num.
Notation zphi := (zphi m).
Hypothesis r1 : zphi r ^+ n = 1.
Notation W := (List.app (compute_omegas (prime_ops tw m) n r) (List.cons u List.nil)).

Lemma at_W e : (e < 2 ^ N.of_nat l)%num -> at_ W e = (r ^ e mod m)%num.
Proof.
move=> He; have Hn : (N.to_nat e < n)%N by rewrite -pow2n; lia.
rewrite /at_ List.app_nth1; last by rewrite List.map_length List.seq_length; apply/ltP.
rewrite /compute_omegas nth_map_seq; last by apply/ltP.
by rewrite N2Nat.id /= zexp.
Qed.

Variable x : list N.
Hypothesis xw : forall i, (lnth i x 0 < 2 ^ tw)%num.

Definition Fsum (i : nat) (j : N) : Zm m :=
  \sum_(t < 2 ^ i) zphi (lnth (t * 2 ^ (l - i) + N.to_nat (j mod 2 ^ N.of_nat (l - i))) x 0%num)
    * zphi r ^+ (2 ^ (l - i) * t * N.to_nat (rtop l i j)).

Definition row_ok (i : nat) (phi : list N) : Prop :=
  (forall k, (at_ phi k < 2 ^ tw)%num) /\
  forall k, (k < 2 ^ N.of_nat l)%num -> zphi (at_ phi k) = Fsum i k.

Lemma row0 : row_ok 0 (List.map (fun i => lnth i x 0%num) (List.seq 0 (lg_n L))).
Proof.
rewrite Ln; split=> k.
  rewrite /at_; case: (ltnP (N.to_nat k) n) => H; first by rewrite nth_map_seq //; apply/ltP.
  rewrite List.nth_overflow; first by lia.
  by rewrite List.map_length List.seq_length; apply/leP.
move=> Hk; have Hn : (N.to_nat k < n)%N by rewrite -pow2n; lia.
rewrite /at_ nth_map_seq; last by apply/ltP.
by rewrite /Fsum expn0 big_ord1 ?(mul0n, add0n, subn0, muln0) expr0 mulr1 N.mod_small.
Qed.

Lemma rowS i phi : (1 <= i <= l)%N -> row_ok i.-1 phi -> row_ok i (large_row tw m L W phi i).
Proof.
move=> Hi [B E]; have [i1 il] := andP Hi.
have P0 : (0 < 2 ^ tw)%num by lia.
split=> k.
  rewrite /at_ /large_row Ln; case: (ltnP (N.to_nat k) n) => H.
    rewrite nth_map_seq; last by apply/ltP.
    by apply: N.mod_upper_bound; lia.
  rewrite List.nth_overflow; first by lia.
  by rewrite List.map_length List.seq_length; apply/leP.
move=> Hk; have Hn : (N.to_nat k < n)%N by rewrite -pow2n; lia.
rewrite {1}/at_ /large_row Ln nth_map_seq; last by apply/ltP.
rewrite L2 L3 L4 !table_nth // N2Nat.id.
have il' : (i <= l)%coq_nat by apply/leP.
have i1' : (1 <= i)%coq_nat /\ (i <= l)%coq_nat by split; apply/leP.
have T4 := tmp4_lt tw l lw i k il'.
rewrite (at_W _ T4).
have T3 := other_lt tw l lw true i k i1'; have T2 := other_lt tw l lw false i k i1'.
change (large_tmp3 tw l i k) with (other tw l true i k); change (large_tmp2 tw l i k) with (other tw l false i k).
have := B (other tw l true i k); have := B (other tw l false i k).
have := N.mod_upper_bound (r ^ large_tmp4 tw l i k) m ltac:(lia).
set A := (_ mod m)%num; set b3 := at_ phi (other tw l true i k); set b2 := at_ phi (other tw l false i k) => HA H2 H3.
rewrite (wrap_small (2 * tw)); last first.
  rewrite (_ : 2 * tw = tw + tw)%num; last lia.
  rewrite N.pow_add_r; move: (2 ^ tw)%num A b2 b3 mw H2 H3 HA => q A' b2' b3'; clear; nia.
rewrite wrap_small; last by have := N.mod_upper_bound (A * b3 + b2) m ltac:(lia); lia.
rewrite zphi_mod // zphi_add zphi_mul /A zphi_mod // zphi_pow /b3 /b2 !E //.
case: i Hi i1 il il' i1' E T4 T3 T2 @A @b3 @b2 HA H2 H3 => [//|i] Hi i1 il il' i1' E T4 T3 T2 A b3 b2 HA H2 H3.
rewrite /Fsum /=.
have [d Ed] : exists d, (i.+1 + d = l)%N by exists (l - i.+1)%N; lia.
have -> : (l - i = d.+1)%N by lia.
have -> : (l - i.+1 = d)%N by lia.
have R3 := other_rtop tw l lw true i.+1 k i1'; have R2 := other_rtop tw l lw false i.+1 k i1'.
rewrite (_ : (i.+1 - 1)%coq_nat = i) in R3 R2; last by lia.
rewrite R3 R2.
have M3 := other_mod tw l lw true i.+1 k i1'; have M2 := other_mod tw l lw false i.+1 k i1'.
move: M3 M2; rewrite (_ : (l - i.+1 = d)%coq_nat); last by lia.
rewrite (_ : (d + 1)%coq_nat = d.+1); last by lia.
move=> -> ->.
symmetry; rewrite (row_step (Zm m) (zphi r) l (fun q => zphi (lnth q x 0%num)) i d _ (N.to_nat (rtop l i k)) (N.to_nat (N.b2n (N.testbit k (N.of_nat d))))) //.
  congr (_ * _ + _).
  - congr (_ ^+ _); rewrite tmp4E // (_ : (l - i.+1)%coq_nat = d); last by lia.
    by rewrite N2Nat.inj_mul pow2n.
  - apply: eq_bigr => t _; congr (zphi (lnth _ _ _) * _); cbn [N.b2n]; rewrite N2Nat.inj_add N.mul_1_l pow2n; lia.
rewrite (rtopS tw l lw) (_ : (l - i.+1)%coq_nat = d); last by lia.
by rewrite N2Nat.inj_add N2Nat.inj_mul pow2n.
Qed.

Lemma rows k : (k <= l)%N ->
  row_ok k (List.fold_left (large_row tw m L W) (List.seq 1 k) (List.map (fun i => lnth i x 0%num) (List.seq 0 (lg_n L)))).
Proof.
elim: k => [_|k IH Hk]; first exact: row0.
rewrite List.seq_S List.fold_left_app /=; apply: (rowS k.+1) => /=; first by lia.
by apply: IH; lia.
Qed.

Lemma run_nth j : (j < n)%N -> lnth j (large_run tw m L W x) 0%num = dft_mod m r n x j.
Proof.
move=> Hj; rewrite /large_run Ll.
have [_ E] := rows l (leqnn l).
set ph := List.fold_left _ _ _ in E *.
have lt_ph : forall k, (k < 2 ^ N.of_nat l)%num -> (at_ ph k < m)%num.
  move=> k Hk; rewrite /ph -{2}(prednK l0) List.seq_S List.fold_left_app /= {1}/at_ /large_row Ln nth_map_seq; last first.
    by apply/ltP; rewrite -pow2n; lia.
  apply: N.le_lt_trans (N.mod_le _ _ _) _; first by apply: N.pow_nonzero.
  by apply: N.mod_upper_bound; lia.
rewrite Ln L5 nth_map_seq; last by apply/ltP.
rewrite nth_map_seq; last by apply/ltP.
rewrite tmp5E //.
have B5 : (rtop l l (N.of_nat j) < 2 ^ N.of_nat l)%num by apply: bsum_lt.
apply: (zphi_inj m m1); [exact: lt_ph|by apply: N.mod_upper_bound; lia|].
rewrite (E _ B5) zphi_dft // /Fsum /rdft; apply: eq_bigr => t _.
rewrite (rtop_invol tw l lw); last by move: Hj; rewrite -pow2n; lia.
by rewrite subnn expn0 muln1 N.mod_1_r addn0 mul1n Nat2N.id.
Qed.

Lemma run_length : length (large_run tw m L W x) = n.
Proof. by rewrite /large_run List.map_length List.seq_length. Qed.
End Large.
