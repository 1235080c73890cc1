(** Correctness of the vector functions of the Fermat-field code, over any presented field. *)
Set Warnings "-notation-overridden,-ambiguous-paths".
From Coq Require Import NArith ZArith.
From Coq Require List.
From mathcomp Require Import all_ssreflect ssralg poly.
From mathcomp Require Import zify.
From Verif.Model Require Import Common Arith Ring Fft2n Radix2 Poly Props Fnt.
From Verif.Spec Require Import Dft.
From Verif.Proof Require Import ListP PolyL Pres Fft2nP Radix2P PolyP DftInv Interp Kern Build FntP.
Import GRing.Theory.
Local Open Scope ring_scope.
Notation lnth := List.nth.

Section Vec.
Variables (F : fieldType) (phi : N -> F) (L L2 e : nat) (c : fnt).
Hypothesis ok : fnt_ok F phi L L2 e c.
Hypothesis bo : build_ok c.
Let G := c_G c.
Let P : gf_pres F G phi := fo_P _ _ _ _ _ _ ok.
Let S := sym_vec G.
Let SV := sym_vec_pres F G phi P.
Let k := c_k c.
Let w : F := phi (r_w (c_fft c)).
Let w2 : F := phi (r_w (c_fft2k c)).
Let n := (2 ^ L)%N.
Let n2 := (2 ^ L2)%N.
Let kn := kn F phi L L2 e c ok.
Let k_n2 := k_n2 F phi L L2 e c ok.

(** Evaluation of a polynomial by the transform of the code. *)
Lemma fft_eval_vec out v (Q : {poly F}) : (size Q <= k)%N -> List.length out = n -> List.length v = k ->
  (forall j, (j < k)%N -> gvalid G (lnth j v 0%num) /\ phi (lnth j v 0%num) = Q`_j) ->
  reads S (gvalid G) phi n (r2_fft_vec S (c_fft c) out v) (fun i => Q.[w ^+ i]).
Proof.
move=> sQ Ho Hv Hc.
have [R1 R2] := r2_fft_vec_reads F G phi N S _ _ SV L _ (fo_fft _ _ _ _ _ _ ok) e v out (fo_e _ _ _ _ _ _ ok)
  ltac:(by rewrite Hv (fo_dl _ _ _ _ _ _ ok); have := fo_ke _ _ _ _ _ _ ok; rewrite -/k; move: (2 ^ e)%N k; clear; lia) Ho
  ltac:(by rewrite Hv => i Hi; case: (Hc i Hi)).
split=> // i Hi; have [R3 R4] := R2 i Hi; split=> //; rewrite R4 dft_horner; congr (_.[_]).
apply/polyP => j; rewrite coef_poly; case: ltnP => Hj.
  case: (ltnP j k) => Hjk; first by case: (Hc j Hjk).
  rewrite List.nth_overflow ?(gp_0 _ _ _ P) ?nth_default //; first exact: leq_trans sQ Hjk.
  by rewrite Hv; move: Hjk; clear; lia.
rewrite nth_default //; apply: leq_trans Hj; exact: leq_trans sQ (ltnW kn).
Qed.

Definition vs_len (vs : vscratch) : Prop :=
  [/\ List.length (v_n2 vs) = n, List.length (v_2k1 vs) = n2 & List.length (v_2k2 vs) = n2].

Theorem decode_apply_vec_spec ids x vs words (Q : {poly F}) : ids_ok L c ids -> ctx_ok F phi L2 c ids x -> vs_len vs ->
  (size Q <= k)%N -> List.length words = k ->
  (forall i, (i < k)%N -> gvalid G (lnth i words 0%num) /\ phi (lnth i words 0%num) = Q.[xpt F phi c ids i]) ->
  let r := decode_apply_vec c x vs words in
  [/\ vs_len (fst r), List.length (snd r) = k &
    forall j, (j < k)%N -> gvalid G (lnth j (snd r) 0%num) /\ phi (lnth j (snd r) 0%num) = Q`_j].
Proof.
move=> Hids [X1 X2 X3 X4 X5] [Hv1 Hv2 Hv3] sQ Lw Hw.
rewrite /decode_apply_vec (fo_n _ _ _ _ _ _ ok) (c_l2E F phi L L2 e c ok) X1 -/n -/n2 -/k -/G -/S.
set src := map2 _ words _.
have Ls : List.length src = k by rewrite map2_length ?Lw ?X2.
have Es i : (i < k)%N -> gvalid G (lnth i src 0%num) /\ phi (lnth i src 0%num) =
   ((deriv (Apoly F (xpt F phi c ids) k)).[xpt F phi c ids i] * xpt F phi c ids i)^-1 * Q.[xpt F phi c ids i].
  move=> Hi; rewrite (map2_nth _ _ _ _ 0%num 0%num) ?Lw ?X2 //.
  have [W1 W2] := Hw i Hi; have [I1 I2] := X4 i Hi.
  by have [M1 M2] := gp_mul _ _ _ P _ _ W1 I1; split=> //; rewrite M2 W2 I2 mulrC.
have [S1 [S2 S3]] := shuffle_spec L L2 c ids Hids N 0%num src Ls.
rewrite -/n in S1 S2 S3.
set n1 := shuffle _ _ _ _ in S1 S2 S3 *.
have inV i : (i < List.length n1)%N -> gvalid G (lnth i n1 0%num).
  move=> _; case: (List.in_dec Nat.eq_dec i ids) => Hi; last by rewrite S3 //; exact: (gvalid0 F G phi P).
  have [t [Ht Et]] := List.In_nth ids i 0%N Hi.
  have Htk : (t < k)%N by move: Ht; case: Hids => ->; clear; lia.
  by rewrite -Et S2 //; case: (Es t Htk).
have [V1 V2] := r2_fft_inv_vec_reads F G phi N S _ _ SV L _ (fo_fft _ _ _ _ _ _ ok) n1 (v_n2 vs) Hv1
   ltac:(by rewrite S1) inV.
rewrite -/n in V1 V2.
set y2 := r2_fft_inv_vec _ _ _ _ in V1 V2 *.
pose QQ := Qpoly F k (xpt F phi c ids) (fun i => Q.[xpt F phi c ids i]).
have Hj j : (j < k)%N -> gvalid G (lnth j y2 0%num) /\ phi (lnth j y2 0%num) = QQ`_j.
  move=> Hjk; have [V3 V4] := V2 j (ltn_trans Hjk kn); split=> //; rewrite V4.
  apply: (fftinv_Q F phi L c ids Hids) => // [l Hl Hni|i Hi]; first by rewrite S3 //; exact: (gp_0 _ _ _ P).
  by rewrite S2 //; have [_ ->] := Es i Hi.
set q := (_ ++ _)%list.
have Lf : List.length (List.firstn k y2) = k by rewrite List.firstn_length V1; move: kn; rewrite -/k -/n; clear; lia.
have Lq : List.length q = n2.
  by rewrite /q List.app_length List.repeat_length Lf; move: k_n2; rewrite -/k -/n2; clear; lia.
have Nq i : lnth i q 0%num = if (i < k)%N then lnth i y2 0%num else 0%num.
  rewrite /q; case: ltnP => Hi.
    rewrite List.app_nth1 ?Lf; last by apply/ltP.
    by rewrite nth_firstn; case: Nat.ltb_spec => //; move: Hi; clear; lia.
  by rewrite List.app_nth2 ?Lf ?List.nth_repeat //; apply/leP.
set a0 := r2_fft_vec _ _ _ _.
have [B1 B2] : reads S (gvalid G) phi n2 a0 (dft F w2 n2 (fun l => QQ`_l)).
  have [R1 R2] := r2_fft_vec_reads F G phi N S _ _ SV L2 _ (fo_fft2k _ _ _ _ _ _ ok) L2 q (v_2k1 vs) (leqnn _)
   ltac:(by rewrite Lq (fo_dl2 _ _ _ _ _ _ ok) -/n2; clear; lia) Hv2
   ltac:(by move=> i _; rewrite [s_zero _]/= Nq; case: ltnP => Hi; [case: (Hj i Hi)|exact: (gvalid0 F G phi P)]).
  split=> // i Hi; have [R3 R4] := R2 i Hi; split=> //; rewrite R4; apply: dft_ext => l _.
  rewrite [s_zero _]/= Nq; case: ltnP => Hl; first by case: (Hj l Hl).
  by rewrite (gp_0 _ _ _ P) nth_default //; apply: leq_trans Hl; exact: size_Qpoly.
rewrite (bo_had _ bo n2); first last.
- split=> //; apply/(List.Forall_nth _ _) => i d; rewrite X3 => Hi; rewrite (List.nth_indep _ _ 0%num) ?X3 //.
  by move/ltP: Hi => Hi; case: (X5 i Hi).
- split=> //; apply/(List.Forall_nth _ _) => i d; rewrite B1 => Hi; rewrite (List.nth_indep _ _ 0%num) ?B1 //.
  by move/ltP: Hi => Hi; case: (B2 i Hi).
set a := map2 _ _ _.
have La : List.length a = n2 by rewrite /a map2_length ?B1 ?X3.
have Ea i : (i < n2)%N -> gvalid G (lnth i a 0%num) /\ phi (lnth i a 0%num) =
   dft F w2 n2 (fun l => (Apoly F (xpt F phi c ids) k)`_l) i * dft F w2 n2 (fun l => QQ`_l) i.
  move=> Hi; rewrite /a (map2_nth _ _ _ _ 0%num 0%num) ?B1 ?X3 //.
  have [W1 W2] := B2 i Hi; have [I1 I2] := X5 i Hi; rewrite [s_zero _]/= in W1 W2.
  by have [M1 M2] := gp_mul _ _ _ P _ _ W1 I1; split=> //; rewrite M2 W2 I2 mulrC.
have [I1 I2] := r2_ifft_vec_reads F G phi P L2 _ (fo_fft2k _ _ _ _ _ _ ok) a (v_2k2 vs) Hv3
   ltac:(by rewrite La) ltac:(by rewrite La => i Hi; case: (Ea i Hi)).
rewrite -/n2 in I1 I2.
set iv := r2_ifft_vec _ _ _ _ in I1 I2 *.
have Lk : List.length (List.firstn k (List.map (g_neg G) iv)) = k.
  by rewrite List.firstn_length List.map_length I1; move: k_n2; rewrite -/k -/n2; clear; lia.
split=> //=; first by split=> //=; rewrite List.map_length.
move=> j Hjk; have Hj2 := ltn_trans Hjk k_n2.
have -> : lnth j (List.firstn k (List.map (g_neg G) iv)) 0%num = g_neg G (lnth j iv 0%num).
  rewrite nth_firstn; case: Nat.ltb_spec; last by move: Hjk; rewrite -/k; clear; lia.
  move=> _; rewrite (List.nth_indep _ 0%num (g_neg G 0%num)) ?List.map_nth //.
  by rewrite List.map_length I1; move: Hj2; clear; lia.
have [I3 I4] := I2 j Hj2; rewrite [s_zero _]/= in I3 I4.
have [N1 N2] := gp_neg _ _ _ P _ I3; split=> //; rewrite N2 I4.
rewrite (dft_ext _ _ _ _ (fun i => dft F w2 n2 (fun l => (Apoly F (xpt F phi c ids) k)`_l) i * dft F w2 n2 (fun l => QQ`_l) i));
  last by move=> i Hi; case: (Ea i Hi).
apply: (conv_identity F k (xpt F phi c ids) _ _ Q n2 w2 j) => //; first exact: (xpt_inj F phi L L2 e c ok ids Hids).
- by move=> i Hi; exact: (xpt_neq0 F phi L L2 e c ok).
- exact: (fo_k2 _ _ _ _ _ _ ok).
- exact: (w2prim F phi L L2 e c ok).
Qed.
End Vec.
