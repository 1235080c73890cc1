(** Construction of the codes with a multiplicative transform. *)
Set Warnings "-notation-overridden,-ambiguous-paths".
From Coq Require Import NArith ZArith Arith.
From Coq Require List.
From Verif.Model Require Import Common Arith Ring Fft2n Radix2 Poly Props Views Gf2n MixedFft Fnt FftCodes.
From Verif.Spec Require Import Primes.
From Verif.Proof Require Import ListP ArithP PrimeP.
From mathcomp Require Import all_ssreflect ssralg poly.
From mathcomp Require Import zify.
From Verif.Spec Require Import Dft Mixed.
From Verif.Proof Require Import Pres Radix2P DftInv RootP MixedL MixedT FftC.
Import GRing.Theory.
Local Open Scope ring_scope.
Notation lnth := List.nth.

(** A factor too large for the matrix of the naive transform. *)
Lemma naive_large G n wr : (46341 < N.of_nat n)%num -> new_naive G n wr = None.
Proof.
  move=> H; rewrite /new_naive /compute_W; case: N.ltb_spec => // L; exfalso.
  have : (46341 * 46341 <= N.of_nat (n - 1) * N.of_nat (n - 1))%num by apply: N.mul_le_mono; lia.
  by lia.
Qed.
Lemma new_ct_large G fs : forall heap n wr, List.Forall (fun f => 0 < f)%N fs -> List.fold_right muln 1%N fs = n ->
  List.Exists (fun f => (46341 < N.of_nat f)%num) fs -> new_ct G fs heap n wr = None.
Proof.
  elim: fs => [|n1 fs IH] heap n wr F En X /=; first by inversion X.
  case: Nat.eqb_spec => // n10.
  case: (N.lt_ge_cases 46341 (N.of_nat n1)) => H1.
    by case: Nat.eqb_spec => [E|_]; [move: H1; rewrite E|rewrite naive_large].
  have X' : List.Exists (fun f => (46341 < N.of_nat f)%num) fs by inversion X; subst => //; lia.
  case: (if _ then _ else _) => // outer.
  inversion_clear F as [|? ? _ F'].
  rewrite /= in En; set n2 := List.fold_right _ _ _ in En.
  have -> : Nat.div n n1 = n2 by rewrite -En -[(n1 * n2)%N]/(Nat.mul n1 n2) Nat.mul_comm Nat.div_mul.
  have L : (46341 < N.of_nat n2)%num.
    rewrite /n2; clear -F' X'; elim: fs F' X' => [|f fs IH] F X; first by inversion X.
    inversion_clear F as [|? ? F0 F']; rewrite /=.
    have P : (0 < List.fold_right muln 1%N fs)%N.
      by clear -F'; elim: F' => //= f l F0 _ H; rewrite muln_gt0 F0.
    inversion_clear X as [? ? X'|? ? X'].
      by apply: (N.lt_le_trans _ _ _ X'); have := leq_pmulr f P; lia.
    by have := IH F' X'; have := leq_pmull (List.fold_right muln 1%N fs) F0; lia.
  case: Nat.ltb_spec => [_|]; last by move: L; clear; lia.
  by rewrite (IH heap n2 _ F' erefl X').
Qed.
Lemma new_tc_large hw G p root n f : (0 < hw)%num -> (0 < N.of_nat n < 2 ^ (2 * hw))%num -> primeN f -> N.divide f (N.of_nat n) ->
  (46341 < f)%num -> new_tc (2 * hw) G p root 0 n = None.
Proof.
  move=> hw0 [n0 nw] Pf Df Lf; rewrite /new_tc /new_cooley_tukey.
  have [l [E [Pl [El _]]]] := get_prime_factors_spec hw hw0 (N.of_nat n) ltac:(lia) nw.
  rewrite E [List.skipn 0 _]/= new_ct_large //.
  - by apply/List.Forall_map/List.Forall_forall => x Hx; case: (proj1 (List.Forall_forall _ _) Pl x Hx) => ? _; lia.
  - by rewrite prod_nat El Nnat.Nat2N.id.
  - have [x [Hx Lx]] : exists x, List.In x l /\ (46341 < x)%num.
      exists f; split=> //; rewrite -El in Df; move: Df; clear -Pf Pl.
      elim: Pl => {l} [|q l Pq _ IH]; first by move/N.divide_1_r => E; case: Pf; rewrite E.
      move/(prime_divides_mul f q _ Pf) => [D|/IH]; [left|by right].
      by case: (proj2 Pq f D) => // E; case: Pf; rewrite E.
    by apply/List.Exists_exists; exists (N.to_nat x); split; [exact: List.in_map|rewrite Nnat.N2Nat.id].
Qed.

(** ** Transforms *)
Section Construct.
Variables (F : fieldType) (G : gfops) (phi : N -> F).
Hypothesis Pr : gf_pres F G phi.
Variable hw : N.
Hypothesis hw0 : (0 < hw)%num.
Notation w := (2 * hw)%num.
Hypothesis hq : (g_card G <= 2 ^ w)%num.
Variable root : N.
Hypothesis Hroot : find_primitive_root w G = Some root.
Notation rt n := (phi (get_nth_root G root (N.of_nat n))).

Lemma new_tc_ok n p : (1 < n)%N -> N.divide (N.of_nat n) (g_card G - 1) -> gvalid G (get_inv_n_mod_p G p (N.of_nat n)) ->
  (if (1 <? get_inv_n_mod_p G p (N.of_nat n))%num then phi (get_inv_n_mod_p G p (N.of_nat n)) = n%:R^-1 else n%:R = 1 :> F) ->
  (forall f, primeN f -> N.divide f (N.of_nat n) -> (f <= 46341)%num) ->
  exists t, new_tc w G p root 0 n = Some t /\ tfm_ok w F G phi t n (rt n).
Proof.
  move=> n1 nq Vinv Einv Hf.
  have [|c [h [E [_ [T1 T2 T3]]]]] := ct_top F G phi Pr hw hw0 hq root Hroot n n1 nq p Vinv Einv 0.
    move=> f Pf Df; have L := Hf f Pf Df; apply: (N.le_lt_trans _ (46340 * 46340)); last by [].
    by apply: N.mul_le_mono; lia.
  by rewrite /new_tc E; eexists; split; first reflexivity; exact: tc_ok.
Qed.

(** ** Codes *)
Lemma fcode_make_ok p limit had k m t_n t_2k n l2 f f2 :
  (0 < k)%N -> (0 < m)%N -> (k + m <= n)%N -> (2 * k <= l2)%N -> (N.of_nat n < 2 ^ 31)%num -> (N.of_nat l2 < 2 ^ 31)%num ->
  N.divide (N.of_nat n) (g_card G - 1) -> N.divide (N.of_nat l2) (g_card G - 1) ->
  ring_code_len_high_compo w (g_card G) (N.of_nat (k + m)) = Some (N.of_nat n) ->
  ring_code_len_high_compo w (g_card G) (N.of_nat (2 * k)) = Some (N.of_nat l2) ->
  t_n n = Some f -> t_2k l2 = Some f2 -> tfm_ok w F G phi f n (rt n) -> tfm_ok w F G phi f2 l2 (rt l2) ->
  (0 < p <= g_card G)%num -> (forall i, phi (N.of_nat i mod p)%num = i%:R) ->
  (forall x y, size x = l2 -> size y = l2 -> els G x -> els G y -> had x y = map2 (g_mul G) x y) ->
  exists c, [/\ fcode_make w G p limit had root k m t_n t_2k = Some c, fcode_ok F phi c (rt n) (rt l2) &
    [/\ f_k c = k, f_len c = (k + m)%N, f_n c = n, f_l2 c = l2 &
     [/\ f_G c = G, f_w c = w & f_limit c = limit]]].
Proof.
  move=> k0 m0 kmn kl n31 l31 nq lq E1 E2 Ef Ef2 T1 T2 Hp Hch Hh.
  have [V P] := top_root F G phi Pr hw hw0 hq root Hroot n ltac:(lia) nq.
  have [V2 P2] := top_root F G phi Pr hw hw0 hq root Hroot l2 ltac:(lia) lq.
  rewrite /fcode_make -[(k + m)%coq_nat]/(k + m)%N -[(2 * k)%coq_nat]/(2 * k)%N E1 E2 /int_len.
  case: N.ltb_spec; last by lia. move=> _; case: N.ltb_spec; last by lia.
  move=> _; rewrite !Nnat.Nat2N.id Ef Ef2; eexists; split; first reflexivity; last by split=> //=; split.
  split=> //=; first by lia.
  move=> i Hi; rewrite nth_map_seq; last by apply/ltP.
  have Lq : (N.of_nat n < g_card G)%num by have := N.divide_pos_le _ _ _ nq; have := gp_card _ _ _ Pr; lia.
  by have [A B] := gp_exp _ _ _ Pr _ (N.of_nat i) V ltac:(lia); rewrite B Nnat.Nat2N.id.
Qed.
End Construct.
