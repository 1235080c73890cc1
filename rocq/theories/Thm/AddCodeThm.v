(** The Reed-Solomon code over GF(2^n) with the additive transform: property C44. *)
Set Warnings "-notation-overridden,-ambiguous-paths".
From Coq Require Import NArith ZArith Arith.
From Coq Require List.
From Verif.Model Require Import Common Arith Ring Poly Views Gf2n Additive Fnt AddCode.
From Verif.Proof Require Import ListP PrimeP CodeLenP BitRev Ceil2P.
From mathcomp Require Import all_ssreflect ssralg finalg poly.
From mathcomp Require Import zify.
From Verif.Spec Require Import Gf2n Additive.
From Verif.Proof Require Import Pres MatrixB RootP MixedT AddL AddT AddI AddG AddF AddX AddY AddB AddC.
From Verif.Thm Require Import Gf2nThm AdditiveThm.
Import GRing.Theory.
Local Open Scope ring_scope.

(** A vector of [n] symbols of [b] bits. *)
Definition symbols (b n : nat) (l : list N) : Prop := size l = n /\ List.Forall (fun x => (x < 2 ^ N.of_nat b)%num) l.

Section Construct.
Variables (junk w : N) (ws k m : nat).
Hypothesis sup : supported w (8 * N.of_nat ws).
Hypothesis Hk : (0 < k)%N.
Hypothesis Hm : (0 < m)%N.
Hypothesis Hn : (N.of_nat (k + m) <= 2 ^ (8 * N.of_nat ws))%num.

(** The constructor, without a condition on the length of the products. *)
Lemma acode_build : exists c (F : finFieldType) (h : N -> F) (pt : nat -> F),
  [/\ acode_new junk w ws k m = Some c, gf_pres F (a_G c) h, forall u : F, u + u = 0 &
      [/\ a_k c = k, a_w c = w, g_card (a_G c) = (2 ^ (8 * N.of_nat ws))%num,
          exists e, a_n c = (2 ^ e)%N /\ (k + m <= 2 ^ e < 2 * (k + m))%N &
          (exists l2, ring_code_len_high_compo w (g_card (a_G c)) (2 * N.of_nat k) = Some l2) -> acode_ok F (a_G c) h junk c pt]].
Proof.
have [X [E _]] := C32_construct junk w _ sup.
have En : (8 * N.of_nat ws)%num = N.of_nat (8 * ws) by lia.
have ws16 : (ws <= 16)%N.
  by clear -sup; case: sup => [_ [Hs _]]; do ! (case: Hs => [Hs|Hs]; first by lia).
have sup' := sup; rewrite En in sup'; have Hn' := Hn; rewrite En in E Hn' *.
have [F [h [Pr Hc ch2 AX]]] := bin_facts junk w (8 * ws) X sup' E.
have [hw [Ew hw0]] : exists hw, (w = 2 * hw /\ 0 < hw)%num.
  by clear -sup; exists (w / 2)%num; case: sup => Hw _; do ! (case: Hw => [<-|Hw]; first by []); case: Hw.
have nw := proj1 (proj2 (proj2 sup')).
have hq : (g_card (bin_ops X) <= 2 ^ (2 * hw))%num by rewrite Hc -Ew; apply: N.pow_le_mono_r.
have [r [Er Hr r0 Hp]] := find_primitive_root_spec F _ h Pr (pres_fermat F _ h Pr) hw hw0 hq; rewrite -Ew in Er.
have [e [Ec [C1 C2]]] := ceil2_spec (N.of_nat (k + m)) ltac:(lia).
pose d := N.to_nat e.
have Ed : (2 ^ e)%num = N.of_nat (2 ^ d) by rewrite -pow2N /d Nnat.N2Nat.id.
have d1 : (0 < d)%N by case: (posnP d) => // d0; move: C1; rewrite Ed d0; lia.
have dn : (d <= 8 * ws)%N.
  rewrite leqNgt; apply/negP => Hd.
  have : (2 ^ (N.of_nat (8 * ws) + 1) <= 2 ^ e)%num by apply: N.pow_le_mono_r => //; rewrite /d in Hd; lia.
  by rewrite N.pow_add_r N.pow_1_r; lia.
have [Sb Vb Ib _] := default_ok F _ h junk Pr ch2 (8 * ws) Hc r Hr Hp d ltac:(lia).
have [a [Ea Ra]] := right_gen junk w (8 * ws) X F h d (default_betas (bin_ops X) junk r d) Pr Hc ch2 AX ltac:(lia) Vb Ib.
have [||s [Es Ss Vs Rs]] := compute_subspace_ok F _ h Pr ch2 AX (default_betas (bin_ops X) junk r d) Vb _ (vnew junk (2 ^ d)).
- by rewrite Sb Hc; apply: N.pow_le_mono_r => //; lia.
- by rewrite Sb vnew_size.
rewrite Sb in Ss Rs.
exists (mkAcode w (bin_ops X) k (2 ^ d) a s), F, h, (point F (cf F h (default_betas (bin_ops X) junk r d)) d); split=> //.
- rewrite /acode_new; case: Nat.ltb_spec; first by lia. move=> _.
  rewrite En E Ec Er log2_correct ?N.log2_pow2; [|lia|by apply: N.pow_nonzero].
  by rewrite -/d Ea Ed Nnat.Nat2N.id Es.
- split=> //=; first by exists d; split=> //; lia.
  move=> Hl2; split=> //=.
  + lia.
  + by move: Hc; rewrite [g_card _]/= => ->; rewrite -pow2N; apply: N.pow_le_mono_r => //; lia.
  + by move=> i Hi; split; [exact: Vs|exact: Rs].
  + by move=> i j; exact: (indep_inj F ch2).
  + move=> out l So Sl Vl; have [[o [E1 E2 E3 _]] _] := Ra out l So (vok_elements _ _ _ Sl Vl).
    by have [S3 V3] := elements_vok F _ h _ o Pr E2; exists o; split.
Qed.

(** Encoding then decoding from any [k] of the [n] symbols of a codeword. *)
Theorem C44_rs_gf2n_fft_add : (2 * N.of_nat k <= 2 ^ (8 * N.of_nat ws) - 1)%num ->
  exists c, [/\ acode_new junk w ws k m = Some c, a_k c = k, exists e, a_n c = (2 ^ e)%N /\ (k + m <= 2 ^ e < 2 * (k + m))%N &
  forall ids out0, size ids = k -> List.NoDup ids -> (forall i, List.In i ids -> (i < a_n c)%N) -> size out0 = a_n c ->
  exists x, actx_new junk c ids out0 = Some x /\
  forall words out, symbols (8 * ws) k words -> size out = a_n c ->
  exists cw, [/\ aencode junk c out words = Some cw, symbols (8 * ws) (a_n c) cw &
  forall S, size (p_buf S) = k ->
  exists S', adecode c x S (List.map (fun i => List.nth i cw 0%num) ids) = Some (S', words) /\ size (p_buf S') = k]].
Proof.
move=> H2k; have [c [F [h [pt [Ec Pr ch2 [Ek Ew Hc En ok]]]]]] := acode_build.
have Hl : exists l2, ring_code_len_high_compo w (g_card (a_G c)) (2 * N.of_nat k) = Some l2.
  have [hw [Eh hw0]] : exists hw, (w = 2 * hw /\ 0 < hw)%num.
    by clear -sup; exists (w / 2)%num; case: sup => Hw _; do ! (case: Hw => [<-|Hw]; first by []); case: Hw.
  have nw := proj1 (proj2 (proj2 sup)).
  have [|r [E _]] := ring_code_len_ok hw (g_card (a_G c)) (2 * N.of_nat k) hw0 _ ltac:(lia) ltac:(by rewrite Hc).
    by rewrite Hc -Eh; apply: N.pow_le_mono_r.
  by exists r; rewrite Eh.
move/(_ Hl) in ok.
exists c; split=> // ids out0 Si ND Hb So0; rewrite -Ek in Si.
have [x [Ex Xo]] := actx_new_ok F (a_G c) h Pr ch2 junk c pt ok ids Si ND Hb out0 So0.
exists x; split=> // words out [Sw /List.Forall_forall Vw] So.
have En8 : (8 * N.of_nat ws)%num = N.of_nat (8 * ws) by lia.
have gE : (2 ^ N.of_nat (8 * ws))%num = g_card (a_G c) by rewrite Hc En8.
have Vw' : vok (a_G c) words.
  by apply: (vokP F _ h Pr) => i Hi; rewrite /ok /gvalid -gE; apply: Vw; apply: List.nth_In; apply/ltP.
rewrite -Ek in Sw.
have [cw [E1 S1 V1 R1]] := encode_ok F (a_G c) h Pr junk c pt ok out words So Sw Vw'.
exists cw; split=> //.
  split=> //; apply/List.Forall_forall => y /(List.In_nth _ _ 0%num) [i [_ <-]]; rewrite gE; exact: V1.
move=> S; rewrite -Ek => LS.
have [|i Hi|S' [o [E2 L2 So2 R2]]] := decode_ok F (a_G c) h Pr ch2 junk c pt ok ids Si ND Hb x S (poly_of F h (a_k c) words)
  (List.map (fun i => List.nth i cw 0%num) ids) Xo LS.
- exact: size_poly.
- rewrite (List.nth_indep _ 0%num (List.nth 0 cw 0%num)); last by rewrite List.map_length -[length _]/(size _) Si; lia.
  rewrite (List.map_nth (fun i => List.nth i cw 0%num)); split; first exact: V1.
  by rewrite -[h _]/(cf F h cw _) R1 //; apply: Hb; apply: List.nth_In; rewrite -[length _]/(size _) Si; lia.
exists S'; split=> //; rewrite E2; congr (Some (_, _)).
apply: (List.nth_ext _ _ 0%num 0%num); first by rewrite -![length _]/(size _) So2 Sw.
move=> i; rewrite -[length _]/(size _) So2 => /ltP Hi; have [V E] := R2 i Hi.
by apply: (gp_inj _ _ _ Pr) => //; [exact: Vw'|rewrite E coef_poly Hi].
Qed.
End Construct.

(** ** What fails *)
(** 128 data and 128 parities over GF(256), a code that the constructor accepts: no decoding context, whatever the
    fragments, since 2 k is more than the order of the multiplicative group. *)
Theorem C44_context_refuted : exists c, acode_new 0 32 1 128 128 = Some c /\ a_n c = 256%N /\
  forall ids out, actx_new 0 c ids out = None.
Proof.
have [|//|//||c [F [h [pt [Ec Pr ch2 [Ek Ew Hc [e [En He]] ok]]]]]] := acode_build 0 32 1 128 128.
- by rewrite /supported /=; lia.
- by rewrite -[(2 ^ _)%num]/256%num.
exists c; split; first exact: Ec. clear Ec ok; split.
  rewrite En; have : (e < 9)%N by rewrite -(ltn_exp2l _ _ (isT : (1 < 2)%N)); lia.
  by clear -He; move: He; case: e => [|[|[|[|[|[|[|[|[|]]]]]]]]] //.
by move=> ids out; rewrite /actx_new Ek Ew Hc; rewrite [ring_code_len_high_compo _ _ _]/=.
Qed.

(** ** Cases *)
(** Three data and two parities: eight symbols, of which 6, 1 and 3 are used, the second being that of the point zero. *)
Example C44_case : supported 32 (8 * 1) /\ match acode_new 7 32 1 3 2 with
  | Some c => match actx_new 7 c [:: 6; 0; 3]%N (List.repeat 9%num 8), aencode 7 c (List.repeat 5%num 8) [:: 17; 200; 3]%num with
    | Some x, Some cw => [/\ cw = [:: 17; 144; 38; 167; 218; 91; 237; 108]%num, ax_zero x = Some 1%N &
        exists S, adecode c x (poly_zero 3) [:: 237; 17; 167]%num = Some (S, [:: 17; 200; 3]%num)]
    | _, _ => False end
  | None => False end.
Proof. split; [by rewrite /supported /=; lia|vm_compute; split=> //; eexists; reflexivity]. Qed.

Print Assumptions C44_rs_gf2n_fft_add.
Print Assumptions C44_context_refuted.
