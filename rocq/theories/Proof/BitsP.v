(** Bits of numbers as polynomials over F2. *)
Set Warnings "-notation-overridden,-ambiguous-paths".
From Coq Require Import NArith.
From mathcomp Require Import all_ssreflect ssralg poly polydiv zmodp.
From mathcomp Require Import zify.
From Verif.Spec Require Import Gf2n.
Import GRing.Theory.
Local Open Scope ring_scope.

Notation P := bits_poly.
Notation bit b := ((nat_of_bool b)%:R : 'F_2).

Lemma testbit_size a i : (N.size_nat a <= i)%N -> N.testbit a (N.of_nat i) = false.
Proof.
  move=> H; case: a H => [|p] H; first by rewrite N.bits_0.
  have E : N.of_nat (N.size_nat (N.pos p)) = N.size (N.pos p).
    by rewrite /=; elim: p {H} => [p IH|p IH|] //=; lia.
  by apply: N.bits_above_log2; have := N.size_log2 (N.pos p) ltac:(done); lia.
Qed.

Lemma coefP a i : (P a)`_i = bit (N.testbit a (N.of_nat i)).
Proof. by rewrite /P coef_poly; case: ltnP => // H; rewrite testbit_size. Qed.

Lemma bit_xor x y : bit (xorb x y) = bit x + bit y.
Proof. by case: x; case: y; apply/val_inj. Qed.
Lemma bit_inj x y : bit x = bit y -> x = y.
Proof. by case: x; case: y => // /(congr1 val). Qed.

Lemma P_xor a b : P (N.lxor a b) = P a + P b.
Proof. by apply/polyP => i; rewrite coefD !coefP N.lxor_spec bit_xor. Qed.
Lemma P0 : P 0%num = 0.
Proof. by apply/polyP => i; rewrite coefP N.bits_0 coef0. Qed.
Lemma P1 : P 1%num = 1.
Proof. by apply/polyP => -[|i]; rewrite coefP coef1. Qed.
Lemma P_double a : P (a * 2)%num = 'X * P a.
Proof.
  apply/polyP => -[|i]; rewrite coefP coefXM /=; first by rewrite N.mul_comm N.testbit_even_0.
  have -> : N.pos (Pos.of_succ_nat i) = N.succ (N.of_nat i) by lia.
  by rewrite coefP N.mul_comm N.testbit_even_succ; last lia.
Qed.
Lemma P_pow i : P (2 ^ N.of_nat i)%num = 'X^i.
Proof.
  elim: i => [|i IH]; first by rewrite P1 expr0.
  by rewrite Nat2N.inj_succ N.pow_succ_r' N.mul_comm P_double IH exprS.
Qed.
Lemma P_inj a b : P a = P b -> a = b.
Proof.
  move=> E; apply: N.bits_inj => i; rewrite -(N2Nat.id i); apply: bit_inj.
  by rewrite -!coefP E.
Qed.
Lemma P_size a n : (a < 2 ^ N.of_nat n)%num <-> (size (P a) <= n)%N.
Proof.
  split=> [H|H].
  - apply/leq_sizeP => i Hi; rewrite coefP; case: (N.eq_dec a 0) => [->|a0]; first by rewrite N.bits_0.
    rewrite N.bits_above_log2 //; apply/N.log2_lt_pow2; first by lia.
    apply: N.lt_le_trans H _; apply: N.pow_le_mono_r; lia.
  - case: (N.eq_dec a 0) => [->|a0]; first by have := N.pow_nonzero 2 (N.of_nat n); lia.
    apply/N.log2_lt_pow2; first by lia. apply/N.nle_gt => Hl.
    have := N.bit_log2 a a0; rewrite -(N2Nat.id (N.log2 a)) => B.
    have := coefP a (N.to_nat (N.log2 a)); rewrite B nth_default; last by apply: leq_trans H _; lia.
    by move/(congr1 val).
Qed.
Lemma pp (p : {poly 'F_2}) : p + p = 0.
Proof. by apply/polyP => i; rewrite coefD coef0; move: (p`_i) => x; case: x => -[|[|//]] H; apply/val_inj. Qed.
Lemma oppP (p : {poly 'F_2}) : - p = p.
Proof. by apply/eqP; rewrite eq_sym -addr_eq0 pp. Qed.

Lemma P_surj (p : {poly 'F_2}) n : (size p <= n)%N -> exists a, (a < 2 ^ N.of_nat n)%num /\ P a = p.
Proof.
  elim: n p => [|n IH] p Hp.
  - exists 0%num; split=> //; rewrite P0; apply/esym/eqP; by rewrite -size_poly_leq0.
  - case: (IH (\poly_(i < n) p`_i)) => [|a [Ha E]]; first exact: size_poly.
    have Ep : p = P a + p`_n *: 'X^n.
      apply/polyP => i; rewrite coefD E coef_poly coefZ coefXn; case: ltngtP => H; rewrite ?mulr1 ?mulr0 ?addr0 ?add0r //.
        by apply: nth_default; apply: leq_trans Hp _; rewrite H.
      by rewrite H.
    have [c0|c1] : p`_n = 0 \/ p`_n = 1 by case: (p`_n) => -[|[|//]] H; [left|right]; apply/val_inj.
    + exists a; rewrite [in RHS]Ep c0 scale0r addr0; split=> //; apply: N.lt_le_trans Ha _; apply: N.pow_le_mono_r; lia.
    + exists (N.lxor a (2 ^ N.of_nat n)); rewrite P_xor P_pow [in RHS]Ep c1 scale1r; split=> //.
      apply/P_size; rewrite P_xor P_pow; apply: leq_trans (size_add _ _) _; rewrite size_polyXn geq_max leqnn andbT.
      by apply: leqW; apply/P_size.
Qed.
