(** The additive transform evaluates a polynomial at the points of a subspace, and back. *)
Set Warnings "-notation-overridden,-ambiguous-paths".
From Coq Require Import NArith Arith.
From Coq Require List.
From Verif.Model Require Import Common Arith Ring Views Additive.
From Verif.Proof Require Import ListP MatrixL.
From mathcomp Require Import all_ssreflect ssralg poly.
From mathcomp Require Import zify.
From Verif.Spec Require Import Mixed Additive.
From Verif.Proof Require Import Pres MixedL AddL AddT AddI AddG.
Import GRing.Theory.
Local Open Scope ring_scope.

Section Points.
Variable F : fieldType.
Hypothesis ch2 : forall u : F, u + u = 0.
Implicit Types (b : nat -> F).
Notation point := (point F).

Lemma point_low b m i : (i < 2 ^ m)%N -> point b m.+1 i = point b m i.
Proof. by move=> H; rewrite /Additive.point big_ord_recr /= divn_small // addr0. Qed.
Lemma point_high b m i : (i < 2 ^ m)%N -> point b m.+1 (2 ^ m + i) = point b m i + b m.
Proof.
  move=> H; rewrite /Additive.point big_ord_recr /=; congr (_ + _).
    apply: eq_bigr => j _; have Hj := ltn_ord j.
    rewrite (_ : (2 ^ m)%N = (2 ^ (m - j) * 2 ^ j)%N); last by rewrite -expnD subnK // ltnW.
    rewrite divnMDl ?expn_gt0 // oddD oddX (_ : (m - j == 0)%N = false) //; apply/eqP; lia.
  by rewrite -{1}[(2 ^ m)%N]mul1n divnMDl ?expn_gt0 // divn_small.
Qed.
Lemma point_scale b c m i : point (fun j => c * b j) m i = c * point b m i.
Proof. by rewrite /Additive.point mulr_sumr; apply: eq_bigr => j _; case: ifP; rewrite ?mulr0. Qed.
Lemma point_ext b b' m i : (forall j, (j < m)%N -> b j = b' j) -> point b m i = point b' m i.
Proof. by move=> H; apply: eq_bigr => j _; rewrite H. Qed.
Lemma sqrD2 (x y : F) : (x + y) ^+ 2 + (x + y) = (x ^+ 2 + x) + (y ^+ 2 + y).
Proof. by rewrite sqrrD mulr2n ch2 addr0 addrACA. Qed.
Lemma point_sq b m i : point (fun j => b j ^+ 2 + b j) m i = point b m i ^+ 2 + point b m i.
Proof.
  rewrite /Additive.point; elim: m => [|m IH]; first by rewrite !big_ord0 expr2 mul0r addr0.
  by rewrite !big_ord_recr /= sqrD2 IH; case: ifP => _ //; rewrite [0 ^+ 2]expr2 mul0r !addr0.
Qed.

Lemma neg2 (x y : F) : x + y = 0 -> x = y.
Proof. by move=> H; rewrite -[x]addr0 -(ch2 y) addrA H add0r. Qed.

Lemma indep_top b m : independent F b m.+1 -> b m != 0.
Proof.
  move=> I; apply/eqP => E; have := I (2 ^ m)%N.
  rewrite -{2}[(2 ^ m)%N]addn0 point_high ?expn_gt0 // E addr0.
  have -> : point b m 0 = 0 by rewrite /Additive.point big1 // => j _; rewrite div0n.
  by rewrite ltn_exp2l // ltnSn => /(_ isT erefl) /eqP; rewrite expn_eq0.
Qed.
Lemma indep_next b m : independent F b m.+1 -> independent F (fun j => (b j / b m) ^+ 2 + b j / b m) m.
Proof.
  move=> I i Hi; have b0 := indep_top b m I; rewrite point_sq.
  rewrite (point_ext (fun j => b j / b m) (fun j => (b m)^-1 * b j)); last by move=> j _; rewrite mulrC.
  rewrite point_scale; set x := _ * _ => /eqP.
  have H2 : (2 ^ m.+1 = 2 ^ m + 2 ^ m)%N by rewrite expnS; lia.
  rewrite -[X in _ + X]mulr1 expr2 -mulrDr mulf_eq0 => /orP [|/eqP /neg2 X1].
    rewrite mulf_eq0 invr_eq0 (negbTE b0) => /eqP E; apply: I; first by lia.
    by rewrite point_low.
  have : (2 ^ m + i = 0)%N.
    apply: I; first by lia.
    by rewrite point_high // (neg2 (point b m i) (b m)) // -[point b m i](mulVKf b0) -/x X1 mulr1 ch2.
  by have := expn_gt0 2 m; lia.
Qed.
Lemma indep_inj b m i j : independent F b m -> (i < 2 ^ m)%N -> (j < 2 ^ m)%N -> point b m i = point b m j -> i = j.
Proof.
  move=> I Hi Hj E.
  have P2 : (2 ^ N.of_nat m)%num = N.of_nat (2 ^ m) by rewrite -pow2E Nnat.Nat2N.inj_pow.
  have := I (N.to_nat (N.lxor (N.of_nat i) (N.of_nat j))).
  have L : (N.lxor (N.of_nat i) (N.of_nat j) < 2 ^ N.of_nat m)%num.
    case: (N.eq_dec (N.lxor (N.of_nat i) (N.of_nat j)) 0) => [->|nz]; first by lia.
    case: (posnP m) => [m0|m0]; first by move: Hi Hj nz; rewrite m0 expn0 => Hi Hj; have -> : i = 0%N by [lia]; have -> : j = 0%N by [lia].
    apply/N.log2_lt_pow2; first by lia.
    apply: N.le_lt_trans (N.log2_lxor _ _) _.
    have B k : (k < 2 ^ m)%N -> (N.log2 (N.of_nat k) < N.of_nat m)%num.
      case: k => [|k] Hk; first by rewrite [N.log2 _]/=; lia.
      by apply/N.log2_lt_pow2; lia.
    by have := B i Hi; have := B j Hj; lia.
  rewrite -/(pt F b m _) pt_xor // /pt !Nnat.Nat2N.id E ch2 => /(_ _ erefl) X.
  have /N.lxor_eq : N.lxor (N.of_nat i) (N.of_nat j) = 0%num by have := X; lia.
  by lia.
Qed.
End Points.

Section Trans.
Variables (F : fieldType) (G : gfops) (phi : N -> F).
Hypothesis Pr : gf_pres F G phi.
Notation ok := (gvalid G).
Notation cf := (cf F phi).
Notation vok := (vok G).
Notation point := (point F).
Notation pof := (poly_of F phi).

(** ** Vectors *)
Lemma hadamard_ok l v : size l = size v -> vok l -> vok v ->
  exists l', [/\ hadamard_mul G l v = Some l', size l' = size l, vok l' & forall i, (i < size l)%N -> cf l' i = cf l i * cf v i].
Proof.
  move=> S V Vv; rewrite /hadamard_mul -![length _]/(size _) S Nat.eqb_refl /check -S.
  have [||S' R'] := loop_up (fun l i => g_mul G (at_ l i) (at_ v i)) 0 0 (size l) l; first by lia.
    by move=> j l1 Hj _ R; rewrite R //; lia.
  have M i := gp_mul _ _ _ Pr _ _ (V i) (Vv i).
  eexists; split; [exact: erefl|by []| |] => i.
    by rewrite R' subn0; case: ifP => // _; case: (M i).
  by move=> Hi; rewrite !cfE R' subn0 !add0n Hi /=; case: (M i).
Qed.
Lemma vadd_ok l v : size l = size v -> vok l -> vok v ->
  exists l', [/\ vadd G l v = Some l', size l' = size l, vok l' & forall i, (i < size l)%N -> cf l' i = cf l i + cf v i].
Proof.
  move=> S V Vv; rewrite /vadd -![length _]/(size _) S Nat.eqb_refl /check -S.
  have [||S' R'] := loop_up (fun l i => g_add G (at_ l i) (at_ v i)) 0 0 (size l) l; first by lia.
    by move=> j l1 Hj _ R; rewrite R //; lia.
  have M i := gp_add _ _ _ Pr _ _ (V i) (Vv i).
  eexists; split; [exact: erefl|by []| |] => i.
    by rewrite R' subn0; case: ifP => // _; case: (M i).
  by move=> Hi; rewrite !cfE R' subn0 !add0n Hi /=; case: (M i).
Qed.
Lemma vadd_at_ok l v d : (size v + d <= size l)%N -> vok l -> vok v ->
  exists l', [/\ vadd_at G l v d = Some l', size l' = size l, vok l' &
    forall i, (i < size l)%N -> cf l' i = if (d <= i < d + size v)%N then cf l i + cf v (i - d) else cf l i].
Proof.
  move=> S V Vv; rewrite /vadd_at -![length _]/(size _).
  have -> : Nat.leb (size v + d)%coq_nat (size l) by lia.
  rewrite /check.
  have [||S' R'] := loop_up (fun l i => g_add G (at_ l (d + i)) (at_ v i)) d 0 (size v) l; first by lia.
    by move=> j l1 Hj _ R; rewrite R //; lia.
  have M i j := gp_add _ _ _ Pr _ _ (V i) (Vv j).
  eexists; split; [exact: erefl|by []| |] => i.
    by rewrite R'; case: ifP => // _; case: (M (d + (i - d))%N (i - d)%N).
  move=> Hi; rewrite !cfE R' addn0; case: ifP => // h.
  by case: (M (d + (i - d))%N (i - d)%N) => _ ->; rewrite subnKC //; lia.
Qed.
Lemma mul_beta_ok l beta : vok l -> ok beta ->
  [/\ size (mul_beta G l beta) = size l, vok (mul_beta G l beta) & forall i, cf (mul_beta G l beta) i = cf l i * phi beta ^+ i].
Proof.
  move=> V Vb; rewrite /mul_beta; set f := (X in List.fold_left X).
  suff H n : (n <= size l - 1)%N -> let s := List.fold_left f (List.seq 1 n) (l, beta) in
     [/\ size s.1 = size l, vok s.1, ok s.2, phi s.2 = phi beta ^+ n.+1 &
         forall i, cf s.1 i = if (0 < i <= n)%N then cf l i * phi beta ^+ i else cf l i].
    have [S1 V1 _ _ R1] := H (size l - 1)%N (leqnn _); split=> // i.
    rewrite R1; case: ifP => // h; case: i h => [|i] h; first by rewrite expr0 mulr1.
    by rewrite (cf_out _ _ _ Pr) ?mul0r //; lia.
  elim: n => [|n IH] Hn; first by split=> // i; case: ifP => //; lia.
  have {IH} := IH (ltnW Hn); rewrite List.seq_S List.fold_left_app; case: (List.fold_left _ _ _) => l1 c /= [S1 V1 Vc Ec R1].
  have [M1 M2] := gp_mul _ _ _ Pr _ _ (V1 n.+1) Vc.
  have [M3 M4] := gp_mul _ _ _ Pr _ _ Vc Vb.
  split=> //; [by rewrite set_size|exact: vok_set|by rewrite M4 Ec -exprSr|] => i.
  rewrite cfE at_set; last by lia.
  case: eqP => [<-|ne]; first by rewrite M2 Ec -cfE R1 !ltnSn ltnn andbF.
  by rewrite -cfE R1; case: ifP => h1; case: ifP => h2 //; lia.
Qed.
End Trans.
