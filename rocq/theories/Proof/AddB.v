(** The powers of a generator are independent, so is the basis made without [betas]. *)
Set Warnings "-notation-overridden,-ambiguous-paths".
From Coq Require Import NArith Arith.
From Coq Require List.
From Verif.Model Require Import Common Arith Ring Views Additive.
From Verif.Proof Require Import ListP MatrixL.
From mathcomp Require Import all_ssreflect ssralg poly.
From mathcomp Require Import zify.
From Verif.Spec Require Import Mixed Additive.
From Verif.Proof Require Import Pres MixedL AddL AddT AddI AddG AddF AddX AddY MixedT.
Import GRing.Theory.
Local Open Scope ring_scope.

Lemma pow2N m : (2 ^ N.of_nat m)%num = N.of_nat (2 ^ m).
Proof. by rewrite -pow2E Nnat.Nat2N.inj_pow. Qed.
Lemma lxor_lt a b m : (a < 2 ^ m)%num -> (b < 2 ^ m)%num -> (N.lxor a b < 2 ^ m)%num.
Proof.
  move=> Ha Hb; rewrite -(N.mod_small a (2 ^ m)) // -(N.mod_small b (2 ^ m)) //.
  have -> : N.lxor (a mod 2 ^ m) (b mod 2 ^ m) = (N.lxor a b mod 2 ^ m)%num.
    apply: N.bits_inj => k; rewrite N.lxor_spec; case: (N.lt_ge_cases k m) => h.
      by rewrite !N.mod_pow2_bits_low // N.lxor_spec.
    by rewrite !N.mod_pow2_bits_high.
  exact: N.mod_lt (N.pow_nonzero 2 m ltac:(done)).
Qed.

Section Basis.
Variables (F : fieldType) (G : gfops) (phi : N -> F) (junk : N).
Hypothesis Pr : gf_pres F G phi.
Hypothesis ch2 : forall u : F, u + u = 0.
Variable n : nat.
Hypothesis Hcard : g_card G = (2 ^ N.of_nat n)%num.
Variable r : N.
Hypothesis Vr : gvalid G r.
Hypothesis Hr : (N.to_nat (g_card G - 1)).-primitive_root (phi r).
Notation ok := (gvalid G).
Notation cf := (cf F phi).
Notation vok := (vok G).
Notation b := (phi r).
Notation pw := (fun j : nat => phi r ^+ j).

Lemma span_all m : (exists2 i, (i < 2 ^ m)%N & pw m = point F pw m i) -> (2 ^ n <= 2 ^ m)%N.
Proof.
  move=> [i0 Hi0 E0].
  pose W x := exists2 i, (i < 2 ^ N.of_nat m)%num & x = pt F pw m i.
  have WD x y : W x -> W y -> W (x + y).
    move=> [i Hi ->] [j Hj ->]; exists (N.lxor i j); first exact: lxor_lt.
    by rewrite pt_xor.
  have W0 : W 0 by exists 0%num; [have := N.pow_nonzero 2 (N.of_nat m); lia|rewrite pt_0].
  have Wb j : (j <= m)%N -> W (pw j).
    rewrite leq_eqVlt => /orP [/eqP ->|Hj].
      by exists (N.of_nat i0); [rewrite pow2N; lia|rewrite /pt Nnat.Nat2N.id].
    by exists (2 ^ N.of_nat j)%num; [apply: N.pow_lt_mono_r; lia|rewrite pt_pow].
  have WM x : W x -> W (x * b).
    move=> [i _ ->]; rewrite ptE mulr_suml; apply: (big_ind W) => // j _.
    by case: (N.testbit _ _); rewrite ?mul0r // -exprSr; apply: Wb.
  have WP k : W (b ^+ k).
    by elim: k => [|k IH]; [exact: (Wb 0%N)|rewrite exprSr; exact: WM].
  have WA a : ok a -> W (phi a).
    move=> Va; case: (N.eq_dec a 0) => [->|nz]; first by rewrite (gp_0 _ _ _ Pr).
    by have [k ->] := prim_rootP Hr (pres_fermat F G phi Pr a Va nz).
  have := @uniq_leq_size F [seq phi (N.of_nat a) | a <- iota 0 (2 ^ n)] [seq point F pw m i | i <- iota 0 (2 ^ m)].
  rewrite !size_map !size_iota; apply.
    rewrite map_inj_in_uniq ?iota_uniq // => x y; rewrite !mem_iota !add0n => Hx Hy /(gp_inj _ _ _ Pr) H.
    by have := H _ _; rewrite /gvalid Hcard pow2N => X; have := X ltac:(lia) ltac:(lia); lia.
  move=> x /mapP [a]; rewrite mem_iota add0n => Ha ->.
  have [|i Hi ->] := WA (N.of_nat a); first by rewrite /gvalid Hcard pow2N; lia.
  by apply/mapP; exists (N.to_nat i) => //; rewrite mem_iota add0n; move: Hi; rewrite pow2N; lia.
Qed.

Lemma pow_indep m : (m <= n)%N -> independent F pw m.
Proof.
  elim: m => [|m IH] Hm i; first by rewrite expn0; lia.
  move=> Hi; case: (ltnP i (2 ^ m)) => h.
    by rewrite point_low //; apply: IH; lia.
  have Hj : (i - 2 ^ m < 2 ^ m)%N by move: Hi; rewrite expnS; lia.
  rewrite -(subnKC h) point_high // => /(neg2 F ch2) E.
  have X : exists2 i, (i < 2 ^ m)%N & pw m = point F pw m i by exists (i - 2 ^ m)%N.
  by have := span_all m X; rewrite leq_exp2l //; lia.
Qed.

Lemma rot_indep k (bs : nat -> F) : (k < n)%N -> (forall j, (j < k)%N -> bs j = b ^+ j.+1) -> bs k = 1 -> independent F bs k.+1.
Proof.
  move=> Hk H1 H2 i Hi.
  pose c := (2 ^ k <= i)%N; pose i0 := (i - c * 2 ^ k)%N.
  have Hi0 : (i0 < 2 ^ k)%N by rewrite /i0 /c; move: Hi; rewrite expnS; case: (leqP (2 ^ k) i) => ?; lia.
  have E : point F bs k.+1 i = point F pw k.+1 (c + i0.*2).
    rewrite {2}/point big_ord_recl /= expn0 divn1 oddD odd_double addbF oddb.
    have -> : \sum_(j < k) (if odd ((c + i0.*2) %/ 2 ^ bump 0 j) then b ^+ bump 0 j else 0) = point F bs k i0.
      apply: eq_bigr => j _; rewrite /bump add1n expnS divnMA H1 // (_ : ((c + i0.*2) %/ 2)%N = i0) //.
      by case: (c); rewrite -muln2; lia.
    rewrite expr0 /i0 /c; case: (leqP (2 ^ k) i) => h.
      by rewrite -{1}(subnKC h) point_high ?H2 ?mul1n 1?addrC //; move: Hi; rewrite expnS; lia.
    by rewrite point_low // mul0n subn0 add0r.
  have := pow_indep k.+1 Hk (c + i0.*2)%N; rewrite -E => X P0.
  have := X _ P0; rewrite expnS /i0 /c -muln2; move: Hi Hi0; rewrite expnS /i0 /c; case: (leqP (2 ^ k) i) => h Hi Hi0 Y; have := Y ltac:(lia); lia.
Qed.

Theorem default_ok m : (0 < m <= n)%N -> let betas := default_betas G junk r m in
  [/\ size betas = m, vok betas, independent F (cf betas) m &
      forall j, (j < m)%N -> cf betas j = if j == m.-1 then 1 else b ^+ j.+1].
Proof.
  move=> /andP [m0 mn] betas.
  pose l0 := Common.set (vnew junk m) 0 r.
  have S0 : size l0 = m by rewrite set_size vnew_size.
  have [||S1 R1] := loop_up (fun _ i => g_exp G r (N.of_nat (i + 1))) 0 1 (m - 1 - 1) (if (1 < m)%N then l0 else List.repeat 0%num 2).
  - by case: ifP => h; rewrite ?S0 ?size_rep; lia.
  - by [].
  pose l1 := List.fold_left (fun l i => Common.set l i (g_exp G r (N.of_nat (i + 1)%coq_nat))) (List.seq 1 (m - 1 - 1)%coq_nat) l0.
  have [S2 R2] : size l1 = m /\ forall a, at_ l1 a = if (1 <= a < 1 + (m - 1 - 1))%N then g_exp G r (N.of_nat (a + 1)) else at_ l0 a.
    case: (ltnP 1 m) => h; first by rewrite h in S1 R1; split=> [|a]; [rewrite [LHS]S1|rewrite [LHS]R1 !add0n subn0].
    have e : m = 1%N by lia.
    have -> : l1 = l0 by rewrite /l1; have -> : (m - 1 - 1)%coq_nat = 0%N by lia.
    by split=> // a; case: ifP => //; lia.
  have Eb : betas = Common.set l1 (m - 1)%coq_nat 1%num by [].
  have Sb : size betas = m by rewrite Eb set_size.
  have E j : (j < m)%N -> ok (at_ betas j) /\ cf betas j = if j == m.-1 then 1 else b ^+ j.+1.
    move=> Hj; rewrite cfE Eb.
    rewrite at_set ?S2 minusE; last by lia.
    have -> : ((m - 1)%N == j) = (j == m.-1) by apply/eqP/eqP; lia.
    case: eqP => [_|ne]; first by rewrite (gp_1 _ _ _ Pr); split=> //; exact: (ok1 _ _ _ Pr).
    rewrite R2; case: ifP => h.
      have [|V X] := gp_exp _ _ _ Pr r (N.of_nat (j + 1)) Vr.
        by rewrite Hcard pow2N; have := ltn_expl n (isT : (1 < 2)%N); lia.
      by split=> //; rewrite X Nnat.Nat2N.id addn1.
    have -> : j = 0%N by lia.
    by rewrite at_set ?vnew_size // expr1.
  split=> //.
  - by apply: (vokP F G phi Pr) => j; rewrite Sb => /E [].
  - case: m m0 mn @betas E Sb {Eb S2 R2 S1 R1 l1 S0 l0} => // k _ kn betas E Sb; apply: rot_indep => //.
      by move=> j Hj; case: (E j) => [|_ ->]; [lia|case: eqP => //= e; lia].
    by case: (E k) => // _ ->; rewrite eqxx.
  by move=> j /E [].
Qed.
End Basis.
