(** The Reed-Solomon codes with a multiplicative transform: properties C43, over GF(2^n), and C42, over prime fields. *)
Set Warnings "-notation-overridden,-ambiguous-paths".
From Coq Require Import NArith ZArith Arith.
From Coq Require List.
From Verif.Model Require Import Common Arith Ring Fft2n Radix2 Poly Props Views Gf2n MixedFft Fnt FftCodes.
From Verif.Spec Require Import Primes.
From Verif.Proof Require Import ListP ArithP PrimeP CodeLenP Smooth.
From mathcomp Require Import all_ssreflect ssralg finalg poly.
From mathcomp Require Import zify.
From Verif.Spec Require Import Gf2n.
From Verif.Proof Require Import Pres MatrixB RootP MixedT FermatDiv FftC FftB.
From Verif.Thm Require Import Gf2nThm AdditiveThm.
Import GRing.Theory.
Local Open Scope ring_scope.

(** A vector of [n] symbols of [b] bits. *)
Definition symbols (b n : nat) (l : list N) : Prop := size l = n /\ List.Forall (fun x => (x < 2 ^ N.of_nat b)%num) l.
(** The symbols of the fragments [ids]. *)
Definition pick (ids : list nat) (cw : list N) : list N := List.map (fun i => List.nth i cw 0%num) ids.

(** ** Encoding then decoding, over any field *)
Section Recover.
Variables (F : fieldType) (phi : N -> F) (c : fcode) (r r2 : F).
Hypothesis ok : fcode_ok F phi c r r2.
Notation G := (f_G c).
Notation k := (f_k c).
Let P : gf_pres F G phi := fk_P _ _ _ _ _ ok.

Lemma els_forall l : els G l -> List.Forall (fun x => (x < g_card G)%num) l.
Proof. by move=> H; apply/List.Forall_forall => x /(List.In_nth _ _ 0%num) [i [_ <-]]; exact: H. Qed.
Lemma forall_els l : List.Forall (fun x => (x < g_card G)%num) l -> els G l.
Proof.
  move=> /List.Forall_forall H; apply: (els_in F G phi P) => i Hi; apply: H; apply: List.nth_In.
  by apply/ltP.
Qed.

Lemma recover ids pv1 out1 pv2 out2 : size ids = k -> List.NoDup ids -> (forall i, List.In i ids -> (i < f_n c)%N) ->
  size out1 = f_n c -> size out2 = f_l2 c ->
  exists x, [/\ fctx_new c ids pv1 out1 pv2 out2 = Some x, x_ids x = ids &
  forall pv out words, size words = k -> els G words -> size out = f_n c ->
  exists cw, [/\ f_transform c pv out words = Some cw, size cw = f_n c, els G cw &
  forall pv3 pv4 pv5 vs, vs_len c vs ->
  exists vs', fdecode_apply c x pv3 pv4 pv5 vs (pick ids cw) = Some (vs', words) /\ vs_len c vs']].
Proof.
  move=> Si ND Hb S1 S2; have Hids : ids_ok c ids by split.
  have [x [Ex Xo]] := fctx_new_ok F phi c r r2 ok ids Hids pv1 out1 pv2 out2 S1 S2.
  exists x; split; [exact: Ex|by case: Xo|]. clear Ex.
  move=> pv out words Sw Vw So.
  pose Q : {poly F} := \poly_(j < k) phi (List.nth j words 0%num).
  have sQ : (size Q <= k)%N by exact: size_poly.
  have Qj j : (j < k)%N -> phi (List.nth j words 0%num) = Q`_j by move=> Hj; rewrite coef_poly Hj.
  have [cw [E [Sc Vc Ec]]] := f_transform_ok F phi c r r2 ok pv out words Q sQ So Sw Vw Qj.
  exists cw; split=> // pv3 pv4 pv5 vs Hv.
  have Np i : (i < k)%N -> List.nth i (pick ids cw) 0%num = List.nth (List.nth i ids 0%N) cw 0%num.
    move=> Hi; rewrite /pick (List.nth_indep _ 0%num (List.nth 0 cw 0%num)); last by rewrite List.map_length -[length _]/(size _) Si; apply/ltP.
    exact: (List.map_nth (fun i => List.nth i cw 0%num)).
  have Sp : size (pick ids cw) = k by rewrite size_map Si.
  have [||vs' [o [Eo Hv' [So' Vo Eo']]]] := fdecode_apply_ok F phi c r r2 ok ids Hids x pv3 pv4 pv5 vs (pick ids cw) Q Xo Hv sQ Sp.
  - by apply: (els_in F G phi P); rewrite Sp => i Hi; rewrite Np //; exact: Vc.
  - by move=> i Hi; rewrite Np // Ec //; apply: Hb; apply: List.nth_In; rewrite -[length _]/(size _) Si; apply/ltP.
  exists vs'; split=> //; rewrite Eo; congr (Some (_, _)).
  apply: (List.nth_ext _ _ 0%num 0%num); first by rewrite -![length _]/(size _) So' Sw.
  move=> i; rewrite -[length _]/(size _) So' => /ltP Hi.
  by apply: (gp_inj _ _ _ P); [exact: Vo|exact: Vw|rewrite Eo' // Qj].
Qed.
End Recover.

(** ** C43: fields of [2 ^ n] elements *)

(** The product of the prime factors of [2 ^ (8 ws) - 1], 3, 5, 17, 257 and 641, for which the matrix of the transform of
    this length is computed without overflow. *)
Definition smooth_part (ws : nat) : N :=
  match ws with 1 => 255%num | 2 => 65535%num | 4 => 65535%num | 8 => 42007935%num | 16 => 42007935%num | _ => 0%num end%N.
Definition rough_part (ws : nat) : N :=
  match ws with 1 => 1%num | 2 => 1%num | 4 => 65537%num | 8 => (65537 * 6700417)%num
  | 16 => (65537 * 6700417 * (2 ^ 64 + 1))%num | _ => 0%num end%N.

Lemma small_le p a : primeN p -> N.divide p a -> (0 < a <= 46341)%num -> (p <= 46341)%num.
Proof. by move=> _ D [a0 L]; have := N.divide_pos_le _ _ a0 D; lia. Qed.

Section Binary.
Variables (junk w : N) (ws k m : nat).
Hypothesis sup : supported w (8 * N.of_nat ws).

Lemma ws_cases : (ws = 1 \/ ws = 2 \/ ws = 4 \/ ws = 8 \/ ws = 16)%N.
Proof. by case: sup => [_ [Hs _]]; clear -Hs; do ! (case: Hs => [Hs|Hs]; first by lia). Qed.
Lemma half : exists hw, (w = 2 * hw /\ 0 < hw)%num.
Proof. by clear -sup; exists (w / 2)%num; case: sup => Hw _; do ! (case: Hw => [<-|Hw]; first by []); case: Hw. Qed.

Lemma smooth_facts : [/\ (2 ^ (8 * N.of_nat ws) - 1 = smooth_part ws * rough_part ws)%num,
  (smooth_part ws <= 42007935)%num,
  forall p, primeN p -> N.divide p (smooth_part ws) -> (p <= 46341)%num &
  forall p, primeN p -> N.divide p (rough_part ws) -> (46341 < p)%num].
Proof.
  have one p : primeN p -> N.divide p 1 -> (46341 < p)%num by move=> Pp /N.divide_1_r E; case: Pp; rewrite E.
  have s2 p : primeN p -> N.divide p 65535 -> (p <= 46341)%num.
    by move=> Pp; rewrite -[65535%num]/(255 * 257)%num => /(prime_divides_mul _ _ _ Pp) [] D; apply: (small_le p _ Pp D).
  have s3 p : primeN p -> N.divide p 42007935 -> (p <= 46341)%num.
    move=> Pp; rewrite -[42007935%num]/(65535 * 641)%num => /(prime_divides_mul _ _ _ Pp) [/(s2 p Pp) //|D].
    exact: (small_le p _ Pp D).
  have b2 p : primeN p -> N.divide p (65537 * 6700417) -> (46341 < p)%num.
    by move=> Pp /(prime_divides_mul _ _ _ Pp) [D|D]; [exact: large_65537|exact: large_F5].
  case: ws_cases => [->|[->|[->|[->| ->]]]]; split=> //.
  - by move=> p Pp D; apply: (small_le p _ Pp D).
  - exact: large_65537.
  - move=> p Pp; rewrite -[rough_part 16]/(65537 * 6700417 * (2 ^ 64 + 1))%num.
    by move=> /(prime_divides_mul _ _ _ Pp) [/(b2 p Pp) //|D]; exact: large_F6.
Qed.

Hypothesis Hk : (0 < k)%N.
Hypothesis Hm : (0 < m)%N.

(** Division by the length: nothing to do, lengths are odd. *)
Lemma two_inv (F : finFieldType) G (h : N -> F) d n : gf_pres F G h -> (forall u : F, u + u = 0) -> g_card G = (2 ^ d)%num -> (0 < d)%num ->
  N.divide (N.of_nat n) (g_card G - 1) -> gvalid G (get_inv_n_mod_p G 2 (N.of_nat n)) /\
  (if (1 <? get_inv_n_mod_p G 2 (N.of_nat n))%num then h (get_inv_n_mod_p G 2 (N.of_nat n)) = n%:R^-1 else n%:R = 1 :> F).
Proof.
  move=> Pr ch2 C d0; rewrite C => nq.
  have M : (get_inv_n_mod_p G 2 (N.of_nat n) < 2)%num by apply: N.mod_lt.
  split.
    by rewrite /gvalid C; apply: (N.lt_le_trans _ _ _ M); rewrite -{1}[2%num]N.pow_1_r; apply: N.pow_le_mono_r; lia.
  case: N.ltb_spec => [H|_]; first by exfalso; move: M H; clear; lia.
  have odd : (odd n).
    case Eo: (odd n) => //; exfalso; have := odd_double_half n; rewrite Eo add0n => e.
    have : N.divide 2 (2 ^ d - 1) by apply: (N.divide_trans _ (N.of_nat n)) => //; exists (N.of_nat n./2); rewrite -{1}e -muln2; lia.
    case=> c; have -> : d = N.succ (d - 1) by lia.
    by rewrite N.pow_succ_r'; have := N.pow_nonzero 2 (d - 1); lia.
  by rewrite -[n]odd_double_half odd natrD -mul2n natrM (natrD _ 1 1) ch2 mul0r addr0.
Qed.

(** The constructor. *)
Lemma gf2n_build : (N.of_nat (k + m) <= smooth_part ws)%num -> (N.of_nat (2 * k) <= smooth_part ws)%num ->
  exists c (F : finFieldType) (h : N -> F) r r2, [/\ gf2n_new junk w ws k m = Some c, fcode_ok F h c r r2,
    f_k c = k, f_len c = (k + m)%N & g_card (f_G c) = (2 ^ (8 * N.of_nat ws))%num].
Proof.
  move=> H1 H2; have [X [E _]] := C32_construct junk w _ sup.
  have En : (8 * N.of_nat ws)%num = N.of_nat (8 * ws) by lia.
  have ws16 : (ws <= 16)%N by have := ws_cases; clear; lia.
  have ws0 : (0 < ws)%N by have := ws_cases; clear; lia.
  have sup' := sup; rewrite En in sup'.
  have [F [h [Pr Hc ch2 _]]] : exists (F : finFieldType) (h : N -> F), [/\ gf_pres F (bin_ops X) h,
      g_card (bin_ops X) = (2 ^ N.of_nat (8 * ws))%num, forall u : F, u + u = 0 & True].
    have E' := E; rewrite En in E'; have [F [h [Pr Hc ch2 _]]] := bin_facts junk w (8 * ws) X sup' E'.
    by exists F, h; split.
  have [hw [Ew hw0]] := half.
  have nw := proj1 (proj2 (proj2 sup')).
  have hq : (g_card (bin_ops X) <= 2 ^ (2 * hw))%num by rewrite Hc -Ew; apply: N.pow_le_mono_r.
  have [root [Er _ _ _]] := find_primitive_root_spec F _ h Pr (pres_fermat F _ h Pr) hw hw0 hq.
  have [oE sM small large] := smooth_facts; rewrite En in oE.
  have ow : (g_card (bin_ops X) - 1 < 2 ^ (2 * hw))%num by have := gp_card _ _ _ Pr; lia.
  have o0 : (0 < g_card (bin_ops X) - 1)%num by have := gp_card _ _ _ Pr; lia.
  have oE' : (g_card (bin_ops X) - 1 = smooth_part ws * rough_part ws)%num by rewrite Hc.
  have Eq : (g_card (bin_ops X) - 1 + 1 = g_card (bin_ops X))%num by have := gp_card _ _ _ Pr; lia.
  have len n : (2 <= N.of_nat n)%num -> (N.of_nat n <= smooth_part ws)%num -> exists r,
      [/\ ring_code_len_high_compo (2 * hw) (g_card (bin_ops X)) (N.of_nat n) = Some (N.of_nat r), (n <= r)%N,
          N.divide (N.of_nat r) (g_card (bin_ops X) - 1), (N.of_nat r < 2 ^ 31)%num &
          exists t, new_tc (2 * hw) (bin_ops X) 2 root 0 r = Some t /\
            tfm_ok (2 * hw) F (bin_ops X) h t r (h (get_nth_root (bin_ops X) root (N.of_nat r)))].
    move=> n2 nM.
    have Mo : (smooth_part ws <= g_card (bin_ops X) - 1)%num.
      by apply: N.divide_pos_le => //; rewrite oE'; exact: N.divide_factor_l.
    have [r [El [nr [rq [rM _]]]]] := code_len_smooth hw _ 46341 _ _ hw0 ow o0 oE' small large (N.of_nat n) n2 ltac:(lia).
    rewrite Eq in El; move/(_ nM) in rM.
    have rl : (r <= smooth_part ws)%num by apply: N.divide_pos_le => //; lia.
    exists (N.to_nat r); rewrite Nnat.N2Nat.id; split=> //; [lia|lia|].
    have rq' : N.divide (N.of_nat (N.to_nat r)) (g_card (bin_ops X) - 1) by rewrite Nnat.N2Nat.id.
    have [V I] := two_inv F (bin_ops X) h _ (N.to_nat r) Pr ch2 Hc ltac:(lia) rq'.
    have [||t [Et Tt]] := new_tc_ok F (bin_ops X) h Pr hw hw0 hq root Er (N.to_nat r) 2 _ rq' V I; first by lia.
      by move=> f Pf; rewrite Nnat.N2Nat.id => Df; apply: small => //; exact: (N.divide_trans _ _ _ Df rM).
    by exists t; split=> //; move: Tt; rewrite Nnat.N2Nat.id.
  have [r [El kr rq r31 [t [Et Tt]]]] := len (k + m)%N ltac:(lia) H1.
  have [l2 [El2 kl lq l31 [t2 [Et2 Tt2]]]] := len (2 * k)%N ltac:(lia) H2.
  have gc : (0 < 2 <= g_card (bin_ops X))%num by have := gp_card _ _ _ Pr; lia.
  have ch i : h (N.of_nat i mod 2)%num = i%:R.
    have -> : (N.of_nat i mod 2)%num = N.of_nat (odd i).
      rewrite -{1}[i]odd_double_half -muln2 Nnat.Nat2N.inj_add Nnat.Nat2N.inj_mul N.mod_add // N.mod_small //.
      by case: (odd i).
    rewrite -{2}[i]odd_double_half natrD -mul2n natrM (natrD _ 1 1) ch2 mul0r addr0.
    by case: (odd i); [exact: (gp_1 _ _ _ Pr)|exact: (gp_0 _ _ _ Pr)].
  have [c [Ec ok [ck cl cn cl2 [cG cw _]]]] := fcode_make_ok F (bin_ops X) h Pr hw hw0 hq root Er 2 0 (map2 (g_mul (bin_ops X))) k m
     (new_tc (2 * hw) (bin_ops X) 2 root 0) (new_tc (2 * hw) (bin_ops X) 2 root 0) r l2 t t2
     Hk Hm kr kl r31 l31 rq lq El El2 Et Et2 Tt Tt2 gc ch (fun _ _ _ _ _ _ => erefl).
  exists c, F, h, (h (get_nth_root (bin_ops X) root (N.of_nat r))), (h (get_nth_root (bin_ops X) root (N.of_nat l2))).
  split; [|exact: ok|exact: ck|exact: cl|by rewrite cG Hc En].
  rewrite /gf2n_new; case: Nat.ltb_spec; first by lia. move=> _.
  by rewrite E Ew Er; exact: Ec.
Qed.

(** Encoding then decoding from any [k] of the [k + m] fragments. *)
Theorem C43_rs_gf2n_fft_partial : (N.of_nat (k + m) <= smooth_part ws)%num -> (N.of_nat (2 * k) <= smooth_part ws)%num ->
  exists c, [/\ gf2n_new junk w ws k m = Some c, f_k c = k, (k + m <= f_n c)%N &
  forall ids pv1 out1 pv2 out2, size ids = k -> List.NoDup ids -> (forall i, List.In i ids -> (i < k + m)%N) ->
    size out1 = f_n c -> size out2 = f_l2 c ->
  exists x, fctx_new c ids pv1 out1 pv2 out2 = Some x /\
  forall pv out words, symbols (8 * ws) k words -> size out = f_n c ->
  exists cw, [/\ f_transform c pv out words = Some cw, symbols (8 * ws) (f_n c) cw &
  forall pv3 pv4 pv5 vs, vs_len c vs ->
  exists vs', fdecode_apply c x pv3 pv4 pv5 vs (pick ids cw) = Some (vs', words) /\ vs_len c vs']].
Proof.
  move=> H1 H2; have [c [F [h [r [r2 [Ec ok ck cl cG]]]]]] := gf2n_build H1 H2.
  have kn := fk_n _ _ _ _ _ ok; rewrite cl in kn.
  exists c; split; [exact: Ec|exact: ck|exact: kn|]; clear Ec => ids pv1 out1 pv2 out2 Si ND Hb S1 S2.
  have [||x [Ex _ Hx]] := recover F h c r r2 ok ids pv1 out1 pv2 out2 _ ND _ S1 S2; [by rewrite ck|by move=> i /Hb; lia|].
  have gE : (2 ^ N.of_nat (8 * ws))%num = g_card (f_G c) by rewrite cG; congr (_ ^ _)%num; lia.
  exists x; split; [exact: Ex|]; clear Ex => pv out words [Sw Vw] So; rewrite gE in Vw.
  have [||cw [E Sc Vc D]] := Hx pv out words _ _ So; [by rewrite ck|exact: (forall_els F h c r r2 ok)|].
  by exists cw; split=> //; split=> //; rewrite gE; exact: els_forall.
Qed.

(** No other code is built: either the group is too small or a matrix is too large. *)
Theorem C43_domain : gf2n_new junk w ws k m <> None <->
  (N.of_nat (k + m) <= smooth_part ws)%num /\ (N.of_nat (2 * k) <= smooth_part ws)%num.
Proof.
  split; last by case=> H1 H2; have [c [F [h [r [r2 [Ec _ _ _ _]]]]]] := gf2n_build H1 H2; rewrite Ec.
  have [X [E _]] := C32_construct junk w _ sup.
  have En : (8 * N.of_nat ws)%num = N.of_nat (8 * ws) by lia.
  have ws0 : (0 < ws)%N by have := ws_cases; clear; lia.
  have Hc : g_card (bin_ops X) = (2 ^ N.of_nat (8 * ws))%num.
    have E' := E; have sup' := sup; rewrite En in E' sup'; by have [F [h [Pr Hc ch2 _]]] := bin_facts junk w (8 * ws) X sup' E'.
  have [hw [Ew hw0]] := half.
  have nw : (N.of_nat (8 * ws) <= 2 * hw)%num by rewrite -En -Ew; exact: (proj1 (proj2 (proj2 sup))).
  have [oE sM small large] := smooth_facts; rewrite En in oE.
  have q2 : (1 < g_card (bin_ops X))%num.
    by rewrite Hc; apply: (N.lt_le_trans _ (2 ^ 1)) => //; apply: N.pow_le_mono_r => //; lia.
  have hq : (g_card (bin_ops X) <= 2 ^ (2 * hw))%num by rewrite Hc; apply: N.pow_le_mono_r.
  have ow : (g_card (bin_ops X) - 1 < 2 ^ (2 * hw))%num by lia.
  have o0 : (0 < g_card (bin_ops X) - 1)%num by lia.
  have oE' : (g_card (bin_ops X) - 1 = smooth_part ws * rough_part ws)%num by rewrite Hc.
  have Eq : (g_card (bin_ops X) - 1 + 1 = g_card (bin_ops X))%num by lia.
  have bad n root : (2 <= N.of_nat n)%num -> (smooth_part ws < N.of_nat n)%num ->
      match ring_code_len_high_compo (2 * hw) (g_card (bin_ops X)) (N.of_nat n) with
      | Some r => match int_len r with Some l => new_tc (2 * hw) (bin_ops X) 2 root 0 l | None => None end | None => None end = None.
    move=> n2 nM; case: (N.le_gt_cases (N.of_nat n) (g_card (bin_ops X) - 1)) => Hn; last first.
      by rewrite /ring_code_len_high_compo; case: N.ltb_spec => //; lia.
    have [r [El [nr [rq [_ rB]]]]] := code_len_smooth hw _ 46341 _ _ hw0 ow o0 oE' small large (N.of_nat n) n2 Hn.
    rewrite Eq in El; rewrite El /int_len; case: N.ltb_spec => // _; have [f [Pf [Df Lf]]] := rB nM.
    have rl : (r <= g_card (bin_ops X) - 1)%num by apply: N.divide_pos_le.
    by apply: (new_tc_large hw _ _ _ _ f) => //; rewrite Nnat.N2Nat.id //; lia.
  move=> H; split; rewrite N.le_ngt => L; apply: H; rewrite /gf2n_new; case: Nat.ltb_spec => // _; rewrite E Ew;
    case: (find_primitive_root _ _) => // root; rewrite /fcode_make -[(k + m)%coq_nat]/(k + m)%N -[(2 * k)%coq_nat]/(2 * k)%N.
  - have := bad (k + m)%N root ltac:(lia) L; case: (ring_code_len_high_compo _ _ _) => [r|//]; case: (int_len r) => [l|_].
      by move=> ->; case: (ring_code_len_high_compo _ _ _) => // r2; case: (int_len r2).
    by case: (ring_code_len_high_compo _ _ _) => // r2; case: (int_len r2).
  - case: (ring_code_len_high_compo _ _ (N.of_nat (k + m))) => [r|//].
    have := bad (2 * k)%N root ltac:(lia) L; case: (ring_code_len_high_compo _ _ _) => [r2|//]; case: (int_len r) => [l|//].
    by case: (int_len r2) => // l2 ->; case: (new_tc _ _ _ _ _ _).
Qed.
End Binary.

(** ** What fails *)
(** 65536 symbols over GF(2^32), far from the [2 ^ 32 - 1] of the field: the transform has the length 65537, a prime. *)
Theorem C43_refuted : exists w ws k m, [/\ supported w (8 * N.of_nat ws), (0 < k)%N /\ (0 < m)%N,
  (N.of_nat (k + m) <= 2 ^ (8 * N.of_nat ws) - 1)%num, (N.of_nat (2 * k) <= 2 ^ (8 * N.of_nat ws) - 1)%num &
  forall junk, gf2n_new junk w ws k m = None].
Proof.
  have [m Em] : exists m, N.of_nat m = 65535%num by exists (N.to_nat 65535); rewrite Nnat.N2Nat.id.
  exists 64%num, 4%N, 1%N, m; have S : supported 64 (8 * N.of_nat 4) by rewrite /supported /=; lia.
  have m0 : (0 < m)%N by lia.
  have e : (2 ^ (8 * N.of_nat 4) = 4294967296)%num by [].
  split; [exact: S|by split|by rewrite e; lia|by rewrite e; lia|].
  move=> junk; have := proj1 (C43_domain junk 64 4 1 m S isT m0).
  case: (gf2n_new junk 64 4 1 m) => [c|] H; last by [].
  have [|H' _] := H; first by discriminate.
  by exfalso; move: H'; rewrite [smooth_part 4]/=; lia.
Qed.

(** ** Cases *)
(** Three data and two parities over GF(256): fragments 4, 0 and 2. *)
Example C43_case : supported 32 (8 * 1) /\ match gf2n_new 7 32 1 3 2 with
  | Some c => f_n c = 5%N /\ f_l2 c = 15%N /\
    match fctx_new c [:: 4; 0; 2]%N (fun _ => 9%num) (List.repeat 1%num 5) (fun _ => 3%num) (List.repeat 2%num 15),
          f_transform c (fun _ => 5%num) (List.repeat 6%num 5) [:: 17; 200; 3]%num with
    | Some x, Some cw => cw = [:: 218; 94; 28; 126; 247]%num /\ exists vs,
        fdecode_apply c x (fun _ => 8%num) (fun _ => 9%num) (fun _ => 4%num)
          (mkVscratch (List.repeat 1%num 5) (List.repeat 2%num 15) (List.repeat 3%num 15)) [:: 247; 218; 28]%num =
            Some (vs, [:: 17; 200; 3]%num)
    | _, _ => False end
  | None => False end.
Proof. split; [by rewrite /supported /=; lia|vm_compute; do ! split=> //; eexists; reflexivity]. Qed.

Print Assumptions C43_rs_gf2n_fft_partial.
Print Assumptions C43_domain.
Print Assumptions C43_refuted.
