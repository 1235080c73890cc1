(** Property C65 for the codes over GF(2^n). *)
Set Warnings "-notation-overridden,-ambiguous-paths".
From Coq Require Import NArith ZArith Arith.
From Coq Require List.
From Verif.Model Require Import Common Arith Ring Radix2 Poly Gf2n Props Fnt Matrix MixedFft FftCodes Additive AddCode HCodes Header Cached Driver.
From Verif.Spec Require Import Session HStreams Inter.
From Verif.Proof Require Import ListP MatrixL HCodesP DriverH AgreeN.
From Verif.Thm Require Import DriverThm DriverHThm InterThm.
From mathcomp Require Import all_ssreflect ssralg finalg poly.
From mathcomp Require Import zify.
From Verif.Spec Require Import Gf2n Matrix.
From Verif.Proof Require Import Pres MatrixB MatrixI MatrixC MatrixK MatrixE FftC AddL AddI AddC Agree.
From Verif.Spec Require Import Additive.
From Verif.Proof Require Import RootP MixedT AddT AddG AddF AddX AddY AddB BitRev Ceil2P.
From Verif.Thm Require Import Gf2nThm AdditiveThm MatrixThm FftCodesThm AddCodeThm HCodesThm DriverCodesThm.
Set Implicit Arguments.
Unset Strict Implicit.
Unset Printing Implicit Defensive.

Lemma sup_card w n : supported w n -> exists h, [/\ w = (2 * h)%num, (0 < h)%num & (2 ^ n <= 2 ^ (2 * h))%num].
Proof.
  move=> [Hw [_ [Hn _]]]; exists (w / 2)%num; have Ew : w = (2 * (w / 2))%num by do ! (case: Hw => [<-|Hw]; first by []); case: Hw.
  split=> //; first by do ! (case: Hw => [<-|Hw]; first by []); case: Hw.
  by apply: N.pow_le_mono_r; lia.
Qed.

(** ** RsGf2nFft *)
Section Gf2n.
Variables (w0 : N) (ws k m : nat).
Hypothesis sup0 : supported w0 (8 * N.of_nat ws).
Hypothesis Hk : (0 < k)%N.
Hypothesis Hm : (0 < m)%N.

Lemma gf2n_new_w junk junk' w w' c c' : supported w (8 * N.of_nat ws) -> supported w' (8 * N.of_nat ws) ->
  gf2n_new junk w ws k m = Some c -> gf2n_new junk' w' ws k m = Some c' ->
  f_n c = f_n c' /\ f_rpow c = f_rpow c' /\ AgreeN.agree (f_G c) (f_G c').
Proof.
  move=> s s'; rewrite /gf2n_new; case: (Nat.ltb _ _) => //.
  case EX: (new_bin_ext junk _ _) => [X|] //; case EX': (new_bin_ext junk' _ _) => [X'|] //.
  case ER: (find_primitive_root w _) => [root|] //; case ER': (find_primitive_root w' _) => [root'|] //.
  have A := bin_agree _ _ _ _ _ _ _ s s' EX EX'.
  have [F [h [Pr C _ _ _]]] := bin_all _ _ _ _ s EX.
  have [h1 [E1 h10 L1]] := sup_card s; have [h2 [E2 h20 L2]] := sup_card s'.
  rewrite E1 in ER *; rewrite E2 in ER' * => M1 M2.
  have L1' : (g_card (bin_ops X) <= 2 ^ (2 * h1))%num by rewrite C.
  have L2' : (g_card (bin_ops X) <= 2 ^ (2 * h2))%num by rewrite C.
  have km : (2 <= k + m)%coq_nat by lia.
  by have [R1 [R2 [_ R3]]] := make_w _ _ _ _ _ _ _ _ _ _ _ _ _ _ _ _ _ _ _ A h10 h20 L1' L2' ER ER' M1 M2 km.
Qed.

(** [E], [D]: any types of the elements that are wide enough, any contents of the memory. *)
Theorem C65_rs_gf2n_fft : (N.of_nat (k + m) <= smooth_part ws)%num -> (N.of_nat (2 * k) <= smooth_part ws)%num ->
  let E := fun e => exists junk w c epv dm, [/\ supported w (8 * N.of_nat ws), gf2n_new junk w ws k m = Some c & e = gf2n_v c ws m epv dm] in
  let D := fun d => exists junk w c epv dm, [/\ supported w (8 * N.of_nat ws), gf2n_new junk w ws k m = Some c, dmem_ok c dm & d = gf2n_v c ws m epv dm] in
  interchangeable false ws k m E D (fun _ => True) /\
  files_back false ws k m E D (fun _ => True) /\ files_emptied false k m E D.
Proof.
  move=> H1 H2 E D.
  pose z : nat -> nat -> N := fun _ _ => 0%num.
  pose dm0 (c : fcode) := mkDmem (fun _ => 0%num) (List.repeat 0%num (f_n c)) (fun _ => 0%num) (List.repeat 0%num (f_l2 c))
    (mkVscratch (List.repeat 0%num (f_n c)) (List.repeat 0%num (f_l2 c)) (List.repeat 0%num (f_l2 c)))
    (fun _ => (fun _ => 0%num, fun _ => 0%num, fun _ => 0%num)).
  have dm0_ok c : dmem_ok c (dm0 c) by split; rewrite //= -?[size _]/(length _) ?List.repeat_length //; split=> /=; rewrite -?[size _]/(length _) ?List.repeat_length.
  have W8 := sup_words sup0.
  have ws0 : (0 < ws)%N by case: (ws) W8.
  have Obj junk w c : supported w (8 * N.of_nat ws) -> gf2n_new junk w ws k m = Some c -> exists (F : finFieldType) (h : N -> F) r r2,
      [/\ fcode_ok F h c r r2, f_k c = k, f_len c = (k + m)%N, g_card (f_G c) = (2 ^ (8 * N.of_nat ws))%num &
       (forall epv, let D := fun d => exists dm, dmem_ok c dm /\ d = gf2n_v c ws m epv dm in
         forall e, D e -> streams_back false ws k m e D (fun _ => True) /\ forall d, D d -> streams_too_few false k m d)].
    move=> s Ec; have [c0 [F [h [r [r2 [Ec0 ok ck cl gc]]]]]] := gf2n_build junk w ws k m s Hk Hm H1 H2.
    have [c' [Ec' HC]] := C54_rs_gf2n_fft junk s Hk Hm H1 H2.
    have ? : c0 = c by move: Ec0; rewrite Ec => -[].
    have ? : c' = c by move: Ec'; rewrite Ec => -[].
    by subst c0 c'; exists F, h, r, r2.
  have [c [_ [_ [_ [_ [Ec _ _ _ _]]]]]] := gf2n_build 0 w0 ws k m sup0 Hk Hm H1 H2.
  have [F [h [r [r2 [ok ck cl gc HC]]]]] := Obj _ _ _ sup0 Ec.
  pose Fn := fun (ps : list props) (off : N) words =>
    (if f_transform c (fun _ => 0%num) (List.repeat 0%num (f_n c)) words is Some o then o else [::], ps).
  have Ev junk w c1 : supported w (8 * N.of_nat ws) -> gf2n_new junk w ws k m = Some c1 -> E (gf2n_v c1 ws m z (dm0 c1)).
    by move=> s E1; exists junk, w, c1, z, (dm0 c1).
  have SB c1 epv (Q : forall epv, let D := fun d => exists dm, dmem_ok c1 dm /\ d = gf2n_v c1 ws m epv dm in
         forall e, D e -> streams_back false ws k m e D (fun _ => True) /\ forall d, D d -> streams_too_few false k m d) :=
    Q epv (gf2n_v c1 ws m epv (dm0 c1)) (ex_intro _ (dm0 c1) (conj (dm0_ok c1) erefl)).
  apply: (@inter_code false ws k m (f_n c) Fn E D (fun _ => True) (gf2n_v c ws m z (dm0 c)) _ _ _ _ _ (proj1 (SB c z HC))) => //; try exact/ltP.
  - move=> e [junk [w [c1 [epv [dm [s E1 ->]]]]]].
    have [F1 [h1 [r1 [r21 [ok1 ck1 cl1 gc1 _]]]]] := Obj _ _ _ s E1.
    have [En [Er A]] := gf2n_new_w sup0 s Ec E1.
    split; first by do ! split; rewrite /v_nout /= ?ck1 -?En.
    move=> t out ps off words So Sp /symbols_bytes [Sw /List.Forall_forall Vw].
    have Vw' : els (f_G c) words.
      apply: (els_in F _ h (fk_P _ _ _ _ _ ok)) => i Hi; rewrite /gvalid gc; have -> : (8 * N.of_nat ws)%num = N.of_nat (8 * ws) by lia.
      by apply: Vw; apply: List.nth_In; apply/ltP.
    have [o [F1o F2o So1]] := f_transform_same _ _ _ _ _ _ _ _ _ _ (fun _ => 0%num) (List.repeat 0%num (f_n c)) (epv t) out words ok ok1 A
      (etrans ck (esym ck1)) En Er (etrans Sw (esym ck)) Vw' (List.repeat_length 0%num (f_n c)) So.
    by rewrite /Fn /= F1o F2o; split=> //; split=> //; split=> // q p; left.
  - exact: Ev sup0 Ec.
  - move=> d [junk [w [c1 [epv [dm [s E1 O ->]]]]]].
    have [F1 [h1 [r1 [r21 [ok1 ck1 cl1 gc1 HC1]]]]] := Obj _ _ _ s E1.
    split; last by do ! split; rewrite /v_nout /= ?ck1.
    have [S1 T1] := SB c1 z HC1.
    exists (gf2n_v c1 ws m z (dm0 c1)), (fun d => exists dm, dmem_ok c1 dm /\ d = gf2n_v c1 ws m z dm), (gf2n_v c1 ws m z dm).
    have Dd : exists dm', dmem_ok c1 dm' /\ gf2n_v c1 ws m z dm = gf2n_v c1 ws m z dm' by exists dm.
    split; first exact: Ev s E1.
    by split=> //; split=> //; split; [exact: T1|move=> *; apply: dec_noenc].
Qed.
End Gf2n.

(** ** RsGf2nFftAdd *)
Lemma aencode_n (F : finFieldType) phi junk c pt out words : gf_pres F (a_G c) phi -> acode_ok F (a_G c) phi junk c pt ->
  size out = a_n c -> size words = a_k c -> vok (a_G c) words ->
  aencode junk c out words = Some (List.map (fun i => horner_n (a_G c) words (List.nth i (a_pts c) 0%num)) (List.seq 0 (a_n c))).
Proof.
  move=> Pr ok So Sw Vw; have [o [E S V R]] := encode_ok F (a_G c) phi Pr junk c pt ok out words So Sw Vw.
  rewrite E; congr Some; apply: (List.nth_ext _ _ 0%num 0%num); first by rewrite List.map_length List.seq_length.
  move=> i; rewrite -[length _]/(size _) S => /ltP Hi; rewrite nth_map_seq; last exact/ltP.
  have [Vp Ep] := ao_pts _ _ _ _ _ _ ok i Hi.
  have [Vh Eh] := horner_phi F _ phi Pr words _ Vw Vp.
  apply: (gp_inj _ _ _ Pr); [exact: V|exact: Vh|].
  by rewrite (Eh (a_k c)) ?Sw // Ep; exact: R.
Qed.

Section Add.
Variables (w0 : N) (ws k m : nat).
Hypothesis sup0 : supported w0 (8 * N.of_nat ws).
Hypothesis Hk : (0 < k)%N.
Hypothesis Hm : (0 < m)%N.
Hypothesis Hn : (N.of_nat (k + m) <= 2 ^ (8 * N.of_nat ws))%num.

Lemma acode_new_w junk junk' w w' c c' : supported w (8 * N.of_nat ws) -> supported w' (8 * N.of_nat ws) ->
  acode_new junk w ws k m = Some c -> acode_new junk' w' ws k m = Some c' ->
  [/\ a_n c = a_n c', forall i, (i < a_n c)%N -> List.nth i (a_pts c) 0%num = List.nth i (a_pts c') 0%num & AgreeN.agree (a_G c) (a_G c')].
Proof.
  move=> s s'; rewrite /acode_new; case: (Nat.ltb _ _) => //.
  case EX: (new_bin_ext junk _ _) => [X|] //; case EX': (new_bin_ext junk' _ _) => [X'|] //.
  have A := bin_agree _ _ _ _ _ _ _ s s' EX EX'.
  have [F [h [[Pr Pr' C C'] [_ _ opp AX AX']]]] := bin_two _ _ _ _ _ _ _ s s' EX EX'.
  have ch2 (u : F) : (u + u = 0)%R by rewrite -{2}(opp u) GRing.subrr.
  have [h1 [E1 h10 L1]] := sup_card s; have [h2 [E2 h20 L2]] := sup_card s'.
  have L1' : (g_card (bin_ops X) <= 2 ^ (2 * h1))%num by rewrite C.
  have L2' : (g_card (bin_ops X) <= 2 ^ (2 * h2))%num by rewrite C.
  have Er := root_w _ _ _ _ A h10 h20 L1' L2'; rewrite -E1 -E2 in Er; rewrite -Er.
  have [r [Er1 Hr r0 Hp]] := find_primitive_root_spec F _ h Pr (pres_fermat F _ h Pr) h1 h10 L1'; rewrite -E1 in Er1.
  have [e [Ec [C1 C2]]] := ceil2_spec (N.of_nat (k + m)) ltac:(lia).
  rewrite Ec Er1 log2_correct ?N.log2_pow2; [|lia|by apply: N.pow_nonzero].
  pose d := N.to_nat e; rewrite -/d.
  have Ed : (2 ^ e)%num = N.of_nat (2 ^ d) by rewrite -pow2N /d Nnat.N2Nat.id.
  have En : (8 * N.of_nat ws)%num = N.of_nat (8 * ws) by lia.
  have d1 : (0 < d)%N by case: (posnP d) => // d0; move: C1; rewrite Ed d0; lia.
  have dn : (d <= 8 * ws)%N.
    rewrite leqNgt; apply/negP => Hd.
    have : (2 ^ (N.of_nat (8 * ws) + 1) <= 2 ^ e)%num by apply: N.pow_le_mono_r => //; rewrite /d in Hd; lia.
    by rewrite N.pow_add_r N.pow_1_r -En; lia.
  have Cn : g_card (bin_ops X) = (2 ^ N.of_nat (8 * ws))%num by rewrite C En.
  have Cn' : g_card (bin_ops X') = (2 ^ N.of_nat (8 * ws))%num by rewrite C' En.
  have Hr' : gvalid (bin_ops X') r by rewrite /gvalid C' -C.
  have Hp' : ((N.to_nat (g_card (bin_ops X') - 1)).-primitive_root (h r))%R by rewrite C' -C.
  have [Sb Vb Ib Rb] := default_ok F _ h junk Pr ch2 (8 * ws) Cn r Hr Hp d ltac:(lia).
  have [Sb' Vb' Ib' Rb'] := default_ok F _ h junk' Pr' ch2 (8 * ws) Cn' r Hr' Hp' d ltac:(lia).
  have dc : (2 ^ N.of_nat d <= 2 ^ N.of_nat (8 * ws))%num by apply: N.pow_le_mono_r => //; lia.
  have [||s1 [Es Ss Vs Rs]] := compute_subspace_ok F _ h Pr ch2 AX (default_betas (bin_ops X) junk r d) Vb _ (vnew junk (2 ^ d)).
  - by rewrite Sb Cn.
  - by rewrite Sb vnew_size.
  have [||s1' [Es' Ss' Vs' Rs']] := compute_subspace_ok F _ h Pr' ch2 AX' (default_betas (bin_ops X') junk' r d) Vb' _ (vnew junk' (2 ^ d)).
  - by rewrite Sb' Cn'.
  - by rewrite Sb' vnew_size.
  rewrite Sb in Ss Rs; rewrite Sb' in Ss' Rs'.
  rewrite Ed Nnat.Nat2N.id Es Es'; case: (new_additive _ _ _ _) => // a; case: (new_additive _ _ _ _) => // a' [<-] [<-] /=.
  split=> // i Hi; apply: (gp_inj _ _ _ Pr); [exact: Vs|by move: (Vs' i); rewrite /AddL.vok /gvalid C' -C|].
  apply: (etrans (Rs i Hi)); apply: (etrans _ (esym (Rs' i Hi))).
  by apply: point_ext => j Hj; rewrite Rb // Rb'.
Qed.

Theorem C65_rs_gf2n_fft_add : (2 * N.of_nat k <= 2 ^ (8 * N.of_nat ws) - 1)%num ->
  let E := fun e => exists junk w c out0 pS, [/\ supported w (8 * N.of_nat ws), acode_new junk w ws k m = Some c & e = add_v junk c ws m out0 pS] in
  let D := fun d => exists junk w c out0 pS, [/\ supported w (8 * N.of_nat ws), acode_new junk w ws k m = Some c &
    [/\ size out0 = a_n c, size (p_buf pS) = k & d = add_v junk c ws m out0 pS]] in
  interchangeable false ws k m E D (fun _ => True) /\
  files_back false ws k m E D (fun _ => True) /\ files_emptied false k m E D.
Proof.
  move=> H2 E D.
  have Obj junk w c : supported w (8 * N.of_nat ws) -> acode_new junk w ws k m = Some c -> exists (F : finFieldType) (h : N -> F) pt,
      [/\ gf_pres F (a_G c) h, acode_ok F (a_G c) h junk c pt, a_k c = k, g_card (a_G c) = (2 ^ (8 * N.of_nat ws))%num &
       (let D := fun d => exists out0 pS, [/\ size out0 = a_n c, size (p_buf pS) = k & d = add_v junk c ws m out0 pS] in
         forall e, D e -> streams_back false ws k m e D (fun _ => True) /\ forall d, D d -> streams_too_few false k m d)].
    move=> s Ec; have [c0 [F [h [pt [Ec0 Pr ch2 [ck Ew gc _ ok]]]]]] := acode_build junk w ws k m s Hk Hm Hn.
    have [c' [Ec' HC]] := C54_rs_gf2n_fft_add junk s Hk Hm Hn H2.
    have ? : c0 = c by move: Ec0; rewrite Ec => -[].
    have ? : c' = c by move: Ec'; rewrite Ec => -[].
    subst c0 c'; exists F, h, pt; split=> //; apply: ok.
    have [hw [Eh hw0 L]] := sup_card s.
    have [|r [Er _]] := CodeLenP.ring_code_len_ok hw (g_card (a_G c)) (2 * N.of_nat k) hw0 _ ltac:(lia) ltac:(by rewrite gc); first by rewrite gc.
    by exists r; rewrite Eh.
  have [c [_ [_ [_ [Ec _ _ _]]]]] := acode_build 0 w0 ws k m sup0 Hk Hm Hn.
  have [F [h [pt [Pr ok ck gc HC]]]] := Obj _ _ _ sup0 Ec.
  pose o0 (c : acode) := List.repeat 0%num (a_n c); pose p0 := Poly.poly_zero k.
  have Sp0 : size (p_buf p0) = k by rewrite -[size _]/(length _) /p0 /Poly.poly_zero /= List.repeat_length.
  have So0 c1 : size (o0 c1) = a_n c1 by rewrite -[size _]/(length _) List.repeat_length.
  have W8 := sup_words sup0.
  have ws0 : (0 < ws)%N by case: (ws) W8.
  pose Fn := fun (ps : list props) (off : N) words => (if aencode 0 c (o0 c) words is Some o then o else [::], ps).
  have Ev junk w c1 : supported w (8 * N.of_nat ws) -> acode_new junk w ws k m = Some c1 -> E (add_v junk c1 ws m (o0 c1) p0).
    by move=> s E1; exists junk, w, c1, (o0 c1), p0.
  have De junk c1 : exists out0 pS, [/\ size out0 = a_n c1, size (p_buf pS) = k & add_v junk c1 ws m (o0 c1) p0 = add_v junk c1 ws m out0 pS] by exists (o0 c1), p0.
  apply: (@inter_code false ws k m (a_n c) Fn E D (fun _ => True) (add_v 0 c ws m (o0 c) p0) _ _ _ _ _ (proj1 (HC _ (De 0%num c)))) => //; try exact/ltP.
  - move=> e [junk [w [c1 [out0 [pS [s E1 ->]]]]]].
    have [F1 [h1 [pt1 [Pr1 ok1 ck1 gc1 _]]]] := Obj _ _ _ s E1.
    have [En Ep A] := acode_new_w sup0 s Ec E1.
    split; first by do ! split; rewrite /v_nout /= ?ck1 -?En.
    move=> t out ps off words So Sp /symbols_bytes [Sw /List.Forall_forall Vw].
    have Vw' : vok (a_G c) words.
      apply: (vokP F _ h Pr) => i Hi; rewrite /gvalid gc; have -> : (8 * N.of_nat ws)%num = N.of_nat (8 * ws) by lia.
      by apply: Vw; apply: List.nth_In; apply/ltP.
    have Vw1 : vok (a_G c1) words by move=> i; rewrite /gvalid gc1 -gc; exact: Vw'.
    have Z0 := @aencode_n F h 0%num c pt (o0 c) words Pr ok (So0 c) (etrans Sw (esym ck)) Vw'.
    have Z1 := @aencode_n F1 h1 junk c1 pt1 out words Pr1 ok1 (etrans So En) (etrans Sw (esym ck1)) Vw1.
    rewrite /Fn /= Z0 Z1 -En.
    rewrite /= List.map_length List.seq_length; split; last by split=> //; split=> // q p; left.
    congr (Some (_, _)); apply: List.map_ext_in => i /List.in_seq Hi.
    have Hi' : (i < a_n c)%N by lia.
    rewrite -Ep //; symmetry; apply: (proj1 (horner_agree _ _ _ _ A _ _)).
      by apply/List.Forall_forall => a /(List.In_nth _ _ 0%num) [j [_ <-]]; exact: Vw'.
    by case: (ao_pts _ _ _ _ _ _ ok i Hi').
  - exact: Ev sup0 Ec.
  - move=> d [junk [w [c1 [out0 [pS [s E1 [S1 S2 ->]]]]]]].
    have [F1 [h1 [pt1 [Pr1 ok1 ck1 gc1 HC1]]]] := Obj _ _ _ s E1.
    split; last by do ! split; rewrite /v_nout /= ?ck1.
    have [B1 T1] := HC1 _ (De junk c1).
    exists (add_v junk c1 ws m (o0 c1) p0), (fun d => exists out0 pS, [/\ size out0 = a_n c1, size (p_buf pS) = k & d = add_v junk c1 ws m out0 pS]), (add_v junk c1 ws m out0 pS).
    have Dd : exists out1 pS1, [/\ size out1 = a_n c1, size (p_buf pS1) = k & add_v junk c1 ws m out0 pS = add_v junk c1 ws m out1 pS1] by exists out0, pS.
    split; first exact: Ev s E1.
    by split=> //; split=> //; split=> //; exact: T1.
Qed.
End Add.

(** ** RsGf2n *)
Lemma row_agree G G' k M M' v i : AgreeN.agree G G' -> (forall j, (j < k)%N -> mget M i j = mget M' i j /\ (mget M i j < g_card G)%num) ->
  (forall j, (j < k)%N -> (List.nth j v 0 < g_card G)%num) -> row_val G k M v i = row_val G' k M' v i.
Proof.
  move=> A HM Hv; rewrite /row_val.
  set f := fun acc j => _; set f' := fun acc j => _.
  have Step j acc : (j < k)%N -> (acc < g_card G)%num -> f acc j = f' acc j /\ (f acc j < g_card G)%num.
    move=> Hj Ha; have [E V] := HM j Hj; have [Em Vm] := ag_mul _ _ A _ _ V (Hv j Hj).
    by rewrite /f /f' /get -E -Em; case: (Nat.eqb _ _) => //; exact: (ag_add _ _ A acc _ Ha Vm).
  suff H l acc : (forall j, List.In j l -> (j < k)%N) -> (acc < g_card G)%num -> List.fold_left f l acc = List.fold_left f' l acc.
    by apply: H => [j /List.in_seq|]; [lia|have := ag_one _ _ A; lia].
  elim: l acc => [//|j l IH] acc Hs Ha; cbn [List.fold_left].
  have [E V] := Step j acc (Hs j (or_introl erefl)) Ha; rewrite -E; apply: IH => // j' Hj'; apply: Hs; right.
  exact: Hj'.
Qed.

Section Mat.
Variables (w0 : N) (ws k m : nat).
Hypothesis sup0 : supported w0 (8 * N.of_nat ws).
Hypothesis Hk : (0 < k)%N.
Hypothesis Hm : (0 < m)%N.
Hypothesis Hn : (N.of_nat (k + m) <= 2 ^ (8 * N.of_nat ws))%num.
Notation gdiv X := (fun a b => odef (x_div X a b)).

Lemma matrix_w junk junk' w w' X X' j1 j2 vdm : supported w (8 * N.of_nat ws) -> supported w' (8 * N.of_nat ws) ->
  new_bin_ext junk w (8 * N.of_nat ws) = Some X -> new_bin_ext junk' w' (8 * N.of_nat ws) = Some X' ->
  let M := code_matrix (bin_ops X) (gdiv X) j1 vdm k m in let M' := code_matrix (bin_ops X') (gdiv X') j2 vdm k m in
  [/\ mwf m k M, mwf m k M' & forall i j, (i < m)%N -> (j < k)%N -> mget M i j = mget M' i j /\ (mget M i j < g_card (bin_ops X))%num].
Proof.
  move=> s s' EX EX' M M'.
  have [F [h [[Pr Pr' C C'] [Hd Hd' opp AX AX']]]] := bin_two _ _ _ _ _ _ _ s s' EX EX'.
  have km : (N.of_nat (k + m) <= g_card (bin_ops X))%num by rewrite C.
  have km' : (N.of_nat (k + m) <= g_card (bin_ops X'))%num by rewrite C'.
  suff [V V' H] : [/\ mvd (bin_ops X) m k M, mvd (bin_ops X') m k M' & forall i j, (i < m)%N -> (j < k)%N -> en F h M i j = en F h M' i j].
    split; [exact: (proj1 V)|exact: (proj1 V')|] => i j Hi Hj; have V1 := proj2 V i j Hi Hj; split=> //.
    by apply: (gp_inj _ _ _ Pr) => //; [move: (proj2 V' i j Hi Hj); rewrite /gvalid C' -C|exact: H].
  rewrite /M /M' /code_matrix; case: vdm M M' => _ _.
  - have [V [p [Hs [Hz He]]]] := vdm_spec F _ h Pr k m Hk km j1 j1.
    have [V' [p' [Hs' [Hz' He']]]] := vdm_spec F _ h Pr' k m Hk km' j2 j2.
    split=> // i j Hi Hj; rewrite He // He' //; congr (_.[_])%R.
    apply/eqP; rewrite -GRing.subr_eq0; apply/eqP.
    apply: (MatrixC.poly_zero F _ h Pr k m Hk km _ (iota 0 k)); first exact: iota_uniq.
    + by move=> r; rewrite mem_iota => Hr; split; [lia|rewrite hornerD hornerN Hz ?Hz' ?GRing.subrr //; lia].
    + by rewrite size_iota (leq_trans (size_add _ _)) // size_opp geq_max Hs // Hs'.
  - have [V E] := cauchy_F F _ h (gdiv X) Pr Hd opp k m j1 Hk Hm km.
    have [V' E'] := cauchy_F F _ h (gdiv X') Pr' Hd' opp k m j2 Hk Hm km'.
    by split=> // i j Hi Hj; rewrite E // E'.
Qed.

(** [cauchy_pattern]: see C54_rs_gf2n. *)
Theorem C65_rs_gf2n (vdm : bool) :
  let V := fun X junk' => mat_v (bin_ops X) (gdiv X) junk' ws k m (code_matrix (bin_ops X) (gdiv X) junk' vdm k m) in
  let E := fun e => exists junk w X junk' D0, [/\ supported w (8 * N.of_nat ws), new_bin_ext junk w (8 * N.of_nat ws) = Some X & e = V X junk' D0] in
  let D := fun d => exists junk w X junk' D0, [/\ supported w (8 * N.of_nat ws), new_bin_ext junk w (8 * N.of_nat ws) = Some X,
    mat_ok (2 ^ (8 * N.of_nat ws)) k k D0 & d = V X junk' D0] in
  let pat := fun missing => if vdm then True else cauchy_pattern k m missing in
  interchangeable true ws k m E D pat /\ files_back true ws k m E D pat /\ files_emptied true k m E D.
Proof.
  move=> V E D pat.
  have [X [EX _]] := Gf2nThm.C32_construct 0 w0 _ sup0.
  pose Z := new_matrix 0 k k; have Zok : mat_ok (2 ^ (8 * N.of_nat ws)) k k Z.
    rewrite /Z /new_matrix /=; do 2 (split; first by []); split; first by rewrite List.repeat_length.
    by apply/List.Forall_forall => a Ha; rewrite (List.repeat_spec _ _ _ Ha); have := N.pow_nonzero 2 (8 * N.of_nat ws); lia.
  have W8 := sup_words sup0.
  have ws0 : (0 < ws)%N by case: (ws) W8.
  have gc : g_card (bin_ops X) = (2 ^ (8 * N.of_nat ws))%num by have [F [h [_ C _ _ _]]] := bin_all _ _ _ _ sup0 EX.
  pose M := code_matrix (bin_ops X) (gdiv X) 0 vdm k m.
  pose Fn := fun (ps : list props) (off : N) words => (List.map (row_val (bin_ops X) k M words) (List.seq 0 m), ps).
  have C54 junk w X1 junk' D0 (s : supported w (8 * N.of_nat ws)) (E1 : new_bin_ext junk w (8 * N.of_nat ws) = Some X1)
      (O : mat_ok (2 ^ (8 * N.of_nat ws)) k k D0) := @C54_rs_gf2n junk w ws k m X1 junk' s E1 Hk Hm Hn vdm (V X1 junk' D0) (ex_intro _ D0 (conj O erefl)).
  apply: (@inter_code true ws k m m Fn E D pat (V X 0%num Z) _ _ _ _ _ (proj1 (C54 _ _ _ 0%num _ sup0 EX Zok))) => //; try exact/ltP.
  - move=> e [junk [w [X1 [junk' [D0 [s E1 ->]]]]]]; split=> //.
    move=> t out ps off words So Sp /symbols_bytes [Sw /List.Forall_forall Vw]; have k0 : (0 < k)%coq_nat by lia.
    have [W W1 Hc] := matrix_w 0 junk' vdm sup0 s EX E1.
    have EM := mmul_spec (bin_ops X1) m k _ out words W1 k0 Sw So; rewrite /Fn /= /rs_encode EM.
    rewrite List.map_length List.seq_length; split; last by split=> //; split=> // q p; left.
    congr (Some (_, _)); apply: List.map_ext_in => i /List.in_seq Hi; symmetry.
    apply: (row_agree (bin_agree _ _ _ _ _ _ _ sup0 s EX E1)) => j Hj; first by apply: Hc; lia.
    rewrite gc; have -> : (8 * N.of_nat ws)%num = N.of_nat (8 * ws) by lia.
    by apply: Vw; apply: List.nth_In; rewrite -[length _]/(size _) Sw; apply/ltP.
  - by exists 0%num, w0, X, 0%num, Z.
  - move=> d [junk [w [X1 [junk' [D0 [s E1 O ->]]]]]]; split=> //.
    have [S1 T1] := C54 _ _ _ junk' _ s E1 O.
    exists (V X1 junk' D0), (fun d => exists D0, mat_ok (2 ^ (8 * N.of_nat ws)) k k D0 /\ d = V X1 junk' D0), (V X1 junk' D0).
    have Dd : exists D1, mat_ok (2 ^ (8 * N.of_nat ws)) k k D1 /\ V X1 junk' D0 = V X1 junk' D1 by exists D0.
    split; first by exists junk, w, X1, junk', D0.
    by split=> //; split=> //; split=> //; exact: T1.
Qed.
End Mat.

Print Assumptions C65_rs_gf2n_fft.
Print Assumptions C65_rs_gf2n_fft_add.
Print Assumptions C65_rs_gf2n.
