(** Property C63 with the codes over GF(2^n): the driver with rs-gf2n-fft, rs-gf2n-fft-add, rs-gf2n-v and rs-gf2n-c. *)
Set Warnings "-notation-overridden,-ambiguous-paths".
From Coq Require Import NArith ZArith Arith.
From Coq Require List.
From Verif.Model Require Import Common Arith Ring Radix2 Poly Gf2n Props Fnt Matrix MixedFft FftCodes Additive AddCode HCodes Header Cached Driver.
From Verif.Spec Require Import Session HStreams.
From Verif.Proof Require Import MatrixL HCodesP DriverH.
From Verif.Thm Require Import DriverThm DriverHThm.
From mathcomp Require Import all_ssreflect ssralg finalg poly.
From mathcomp Require Import zify.
From Verif.Spec Require Import Gf2n Matrix.
From Verif.Proof Require Import Pres MatrixB MatrixI MatrixC MatrixK MatrixE FftC AddL AddI AddC.
From Verif.Thm Require Import MatrixThm FftCodesThm AddCodeThm HCodesThm.
Set Implicit Arguments.
Unset Strict Implicit.
Unset Printing Implicit Defensive.

(** Two vectors with the same elements. *)
Lemma same_gives (F : fieldType) G phi (P : gf_pres F G phi) n f o o' : gives F G phi o n f -> gives F G phi o' n f -> o = o'.
Proof.
  move=> [S1 V1 E1] [S2 V2 E2]; apply: (List.nth_ext _ _ 0%num 0%num); first by rewrite -![length _]/(size _) S1 S2.
  move=> i; rewrite -[length _]/(size _) S1 => /ltP Hi.
  by apply: (gp_inj _ _ _ P); [exact: V1|exact: V2|rewrite E1 // E2].
Qed.

(** The transform does not depend on what is in the memory. *)
Lemma f_transform_det (F : fieldType) phi c r r2 pv out pv' out' words : fcode_ok F phi c r r2 ->
  size words = f_k c -> els (f_G c) words -> size out = f_n c -> size out' = f_n c ->
  exists o, [/\ f_transform c pv out words = Some o, f_transform c pv' out' words = Some o & size o = f_n c].
Proof.
  move=> ok Sw Vw So So'.
  pose Q : {poly F} := (\poly_(j < f_k c) phi (List.nth j words 0%num))%R.
  have sQ : (size Q <= f_k c)%N by exact: size_poly.
  have Qj j : (j < f_k c)%N -> phi (List.nth j words 0%num) = (Q`_j)%R by move=> Hj; rewrite coef_poly Hj.
  have [o [E Go]] := f_transform_ok F phi c r r2 ok pv out words Q sQ So Sw Vw Qj.
  have [o' [E' Go']] := f_transform_ok F phi c r r2 ok pv' out' words Q sQ So' Sw Vw Qj.
  by exists o; split=> //; [rewrite E'; congr Some; apply: (same_gives (fk_P _ _ _ _ _ ok)); eassumption|case: Go].
Qed.

(** ** RsGf2nFft *)
Section Gf2n.
Variables (junk w : N) (ws k m : nat).
Hypothesis sup : supported w (8 * N.of_nat ws).
Hypothesis Hk : (0 < k)%N.
Hypothesis Hm : (0 < m)%N.

Theorem C63_rs_gf2n_fft : (N.of_nat (k + m) <= smooth_part ws)%num -> (N.of_nat (2 * k) <= smooth_part ws)%num ->
  exists c, gf2n_new junk w ws k m = Some c /\
  let E := fun e => exists epv dm, e = gf2n_v c ws m epv dm in
  let D := fun d => exists epv dm, dmem_ok c dm /\ d = gf2n_v c ws m epv dm in
  files_back false ws k m E D (fun _ => True) /\ files_emptied false k m E D.
Proof.
  move=> H1 H2; have [c [F [h [r [r2 [Ec ok ck cl gc]]]]]] := gf2n_build junk w ws k m sup Hk Hm H1 H2.
  have [c' [Ec' HC]] := C54_rs_gf2n_fft junk sup Hk Hm H1 H2.
  have ? : c' = c by move: Ec'; rewrite Ec => -[].
  subst c'; exists c; split; [exact: Ec|clear Ec Ec' => E D].
  pose z : nat -> nat -> N := fun _ _ => 0%num.
  pose dm0 := mkDmem (fun _ => 0%num) (List.repeat 0%num (f_n c)) (fun _ => 0%num) (List.repeat 0%num (f_l2 c))
    (mkVscratch (List.repeat 0%num (f_n c)) (List.repeat 0%num (f_l2 c)) (List.repeat 0%num (f_l2 c)))
    (fun _ => (fun _ => 0%num, fun _ => 0%num, fun _ => 0%num)).
  have dm0_ok : dmem_ok c dm0 by split; rewrite //= -?[size _]/(length _) ?List.repeat_length //; split=> /=; rewrite -?[size _]/(length _) ?List.repeat_length.
  have W8 := sup_words sup.
  have ws0 : (0 < ws)%N by case: (ws) W8.
  pose Fn := fun (ps : list props) (off : N) words =>
    (if f_transform c (fun _ => 0%num) (List.repeat 0%num (f_n c)) words is Some o then o else [::], ps).
  have [HS HF] := HC z (gf2n_v c ws m z dm0) (ex_intro _ dm0 (conj dm0_ok erefl)).
  apply: (@driver_code false ws k m (f_n c) Fn E D _ (fun _ => True) (gf2n_v c ws m z dm0) _ _ _ _ _ HS HF) => //; try exact/ltP.
  - move=> e [epv [dm ->]]; split; first by do ! split; rewrite /v_nout /= ?ck.
    move=> t out ps off words So Sp /symbols_bytes [Sw /List.Forall_forall Vw].
    have Vw' : els (f_G c) words.
      apply: (els_in F _ h (fk_P _ _ _ _ _ ok)) => i Hi; rewrite /gvalid gc; have -> : (8 * N.of_nat ws)%num = N.of_nat (8 * ws) by lia.
      by apply: Vw; apply: List.nth_In; apply/ltP.
    have [o [E1 E2 So1]] := f_transform_det (epv t) (fun _ => 0%num) ok (etrans Sw (esym ck)) Vw' So (List.repeat_length 0%num (f_n c)).
    by rewrite /Fn /= E1 E2; split=> //; split=> //; split=> // q p; left.
  - by exists z, dm0.
  - move=> d [epv [dm [O ->]]]; split; last by do ! split; rewrite /v_nout /= ?ck.
    by exists (gf2n_v c ws m z dm); split; [exact: (ex_intro _ dm (conj O erefl))|move=> *; apply: dec_noenc].
Qed.
End Gf2n.

(** ** RsGf2nFftAdd *)
Section Add.
Variables (junk w : N) (ws k m : nat).
Hypothesis sup : supported w (8 * N.of_nat ws).
Hypothesis Hk : (0 < k)%N.
Hypothesis Hm : (0 < m)%N.
Hypothesis Hn : (N.of_nat (k + m) <= 2 ^ (8 * N.of_nat ws))%num.

Theorem C63_rs_gf2n_fft_add : (2 * N.of_nat k <= 2 ^ (8 * N.of_nat ws) - 1)%num ->
  exists c, acode_new junk w ws k m = Some c /\
  let E := fun e => exists out0 pS, e = add_v junk c ws m out0 pS in
  let D := fun d => exists out0 pS, [/\ size out0 = a_n c, size (p_buf pS) = k & d = add_v junk c ws m out0 pS] in
  files_back false ws k m E D (fun _ => True) /\ files_emptied false k m E D.
Proof.
  move=> H2; have [c [F [h [pt [Ec Pr ch2 [ck Ew gc _ ok]]]]]] := acode_build junk w ws k m sup Hk Hm Hn.
  have [c' [Ec' HC]] := C54_rs_gf2n_fft_add junk sup Hk Hm Hn H2.
  have ? : c' = c by move: Ec'; rewrite Ec => -[].
  have Hl : exists l2, ring_code_len_high_compo w (g_card (a_G c)) (2 * N.of_nat k) = Some l2.
    have [hw [Eh hw0]] : exists hw, (w = 2 * hw /\ 0 < hw)%num := half w ws sup.
    have nw := proj1 (proj2 (proj2 sup)).
    have [|r [E _]] := CodeLenP.ring_code_len_ok hw (g_card (a_G c)) (2 * N.of_nat k) hw0 _ ltac:(lia) ltac:(by rewrite gc).
      by rewrite gc -Eh; apply: N.pow_le_mono_r.
    by exists r; rewrite Eh.
  move/(_ Hl) in ok; clear Hl.
  subst c'; exists c; split; [exact: Ec|clear Ec Ec' => E D].
  pose o0 := List.repeat 0%num (a_n c); pose p0 := Poly.poly_zero k.
  have Sp0 : size (p_buf p0) = k by rewrite -[size _]/(length _) /p0 /Poly.poly_zero /= List.repeat_length.
  have So0 : size o0 = a_n c by rewrite -[size _]/(length _) List.repeat_length.
  have W8 := sup_words sup.
  have ws0 : (0 < ws)%N by case: (ws) W8.
  pose Fn := fun (ps : list props) (off : N) words => (if aencode junk c o0 words is Some o then o else [::], ps).
  have De : exists out0 pS, [/\ size out0 = a_n c, size (p_buf pS) = k & add_v junk c ws m o0 p0 = add_v junk c ws m out0 pS] by exists o0, p0.
  have [HS HF] := HC _ De.
  apply: (@driver_code false ws k m (a_n c) Fn E D _ (fun _ => True) (add_v junk c ws m o0 p0) _ _ _ _ _ HS HF) => //; try exact/ltP.
  - move=> e [out0 [pS ->]]; split; first by do ! split; rewrite /v_nout /= ?ck.
    move=> t out ps off words So Sp /symbols_bytes [Sw /List.Forall_forall Vw].
    have Vw' : vok (a_G c) words.
      apply: (vokP F _ h Pr) => i Hi; rewrite /gvalid gc; have -> : (8 * N.of_nat ws)%num = N.of_nat (8 * ws) by lia.
      by apply: Vw; apply: List.nth_In; apply/ltP.
    have [o [E1 S1 V1 R1]] := encode_ok F (a_G c) h Pr junk c pt ok out words So (etrans Sw (esym ck)) Vw'.
    have [o' [E1' S1' V1' R1']] := encode_ok F (a_G c) h Pr junk c pt ok o0 words So0 (etrans Sw (esym ck)) Vw'.
    have Eo : o' = o.
      apply: (List.nth_ext _ _ 0%num 0%num); first by rewrite -![length _]/(size _) S1 S1'.
      move=> i; rewrite -[length _]/(size _) S1' => /ltP Hi.
      by apply: (gp_inj _ _ _ Pr); [exact: V1'|exact: V1|exact: (etrans (R1' i Hi) (esym (R1 i Hi)))].
    by rewrite /Fn /= E1 E1' Eo; split=> //; split=> //; split=> // q p; left.
  - by exists o0, p0.
  - move=> d [out0 [pS [S1 S2 ->]]]; split; last by do ! split; rewrite /v_nout /= ?ck.
    by exists (add_v junk c ws m out0 pS); split=> //; apply: (ex_intro _ out0 (ex_intro _ pS _)).
Qed.
End Add.

(** ** RsGf2n *)
Section Mat.
Variables (junk w : N) (ws k m : nat) (X : bin_ext) (junk' : N).
Hypothesis sup : supported w (8 * N.of_nat ws).
Hypothesis EX : new_bin_ext junk w (8 * N.of_nat ws) = Some X.
Hypothesis Hk : (0 < k)%N.
Hypothesis Hm : (0 < m)%N.
Hypothesis Hn : (N.of_nat (k + m) <= 2 ^ (8 * N.of_nat ws))%num.
Notation gdiv := (fun a b => odef (x_div X a b)).

(** [cauchy_pattern]: see C54_rs_gf2n. *)
Theorem C63_rs_gf2n (vdm : bool) :
  let V := mat_v (bin_ops X) gdiv junk' ws k m (code_matrix (bin_ops X) gdiv junk' vdm k m) in
  let E := fun e => exists D0, e = V D0 in
  let D := fun d => exists D0, mat_ok (2 ^ (8 * N.of_nat ws)) k k D0 /\ d = V D0 in
  files_back true ws k m E D (fun missing => if vdm then True else cauchy_pattern k m missing) /\ files_emptied true k m E D.
Proof.
  move=> V E D.
  have [F [h [Pr cq Hd opp hx]]] := bin_all junk w _ X sup EX.
  have km' : (N.of_nat (k + m) <= g_card (bin_ops X))%num by rewrite cq.
  have HV : mvd (bin_ops X) m k (code_matrix (bin_ops X) gdiv junk' vdm k m).
    rewrite /code_matrix; case: (vdm); first exact: (proj1 (vdm_spec F _ h Pr k m Hk km' junk' junk')).
    exact: (proj1 (cauchy_F F _ h gdiv Pr Hd opp k m junk' Hk Hm km')).
  pose Z := new_matrix 0 k k; have Zok : mat_ok (2 ^ (8 * N.of_nat ws)) k k Z.
    rewrite /Z /new_matrix /=; do 2 (split; first by []); split; first by rewrite List.repeat_length.
    by apply/List.Forall_forall => a Ha; rewrite (List.repeat_spec _ _ _ Ha); have := N.pow_nonzero 2 (8 * N.of_nat ws); lia.
  have W8 := sup_words sup.
  have ws0 : (0 < ws)%N by case: (ws) W8.
  pose Fn := fun (ps : list props) (off : N) words => (List.map (row_val (bin_ops X) k (code_matrix (bin_ops X) gdiv junk' vdm k m) words) (List.seq 0 m), ps).
  have [HS HF] := @C54_rs_gf2n junk w ws k m X junk' sup EX Hk Hm Hn vdm _ (ex_intro _ Z (conj Zok erefl)).
  apply: (@driver_code true ws k m m Fn E D _ _ (V Z) _ _ _ _ _ HS HF) => //; try exact/ltP.
  - move=> e [D0 ->]; split=> //.
    move=> t out ps off words So Sp [Sw _]; have k0 : (0 < k)%coq_nat by lia.
    have EM := mmul_spec (bin_ops X) m k _ out words (proj1 HV) k0 Sw So; rewrite /Fn /= /rs_encode EM.
    by rewrite List.map_length List.seq_length; split=> //; split=> //; split=> // q p; left.
  - by exists Z.
  - move=> d [D0 [O ->]]; split=> //; by exists (V D0); split; first exact: (ex_intro _ D0 (conj O erefl)).
Qed.
End Mat.

(** ** Cases *)
(** Three data files of two bytes and two parities.  The kept files: with the not systematic codes the fragments 0, 2, 4 and
    their records; with the systematic one the data file 1 and both parities.  All the files come back, and with only two
    fragments all are emptied. *)
Definition h_pfx : text := [:: 102; 47; 103]%num.
Definition h_data : files := List.map (fun i => (data_name h_pfx 3 i, List.nth i [:: [:: 17; 1]; [:: 200; 0]; [:: 3; 255]]%num [::])) (List.seq 0 3).
Definition h_only (l : list text) (fs : option files) : files :=
  if fs is Some fs then List.filter (fun f => List.existsb (text_eqb (fst f)) l) fs else [::].
Definition h_show (no : nat) (o : option files) : list (option text) :=
  if o is Some fs then List.map (find_file fs) (names h_pfx 3 no) else [::].
Definition h_kept (sys : bool) (l : list nat) : list text :=
  (if sys then [:: data_name h_pfx 3 1] else [::]) ++
  List.concat (List.map (fun q => [:: code_name h_pfx (n_outs sys 3 2) q; props_name h_pfx (n_outs sys 3 2) q]) l).
Definition h_case (sys : bool) (v : vcode) (l : list nat) : Prop :=
  let run := run_fec v v (List.repeat 6%num 3) (List.repeat 7%num (v_out v)) h_pfx in
  let fs1 := run false h_data in
  let no := n_outs sys 3 2 in
  [/\ List.nth 3 (h_show no fs1) None <> None /\ List.nth 3 (h_show no fs1) None <> Some [::],
      fragments sys h_pfx 3 2 (h_only (h_kept sys l) fs1) = 3,
      h_show no (run true (h_only (h_kept sys l) fs1)) = h_show no fs1 &
      List.firstn 3 (h_show no (run true (h_only (h_kept false (List.tl l)) fs1))) = List.repeat (Some [::]) 3].

Example C63_gf2n_case : match gf2n_new 7 32 1 3 2 with
  | Some c => h_case false (gf2n_v c 1 2 (fun _ _ => 5%num) (mkDmem (fun _ => 9%num) (List.repeat 1%num 5) (fun _ => 3%num) (List.repeat 2%num 15)
        (mkVscratch (List.repeat 1%num 5) (List.repeat 2%num 15) (List.repeat 3%num 15))
        (fun _ => (fun _ => 8%num, fun _ => 9%num, fun _ => 4%num)))) [:: 0; 2; 4]
  | None => False end.
Proof. by vm_compute; do ! split. Qed.

Example C63_add_case : match acode_new 7 32 1 3 2 with
  | Some c => h_case false (add_v 7 c 1 2 (List.repeat 9%num 8) (Poly.poly_zero 3)) [:: 0; 2; 4]
  | None => False end.
Proof. by vm_compute; do ! split. Qed.

Example C63_mat_case : match new_bin_ext 0 16 8 with
  | Some X => let gdiv := fun a b => odef (x_div X a b) in let G := bin_ops X in
      let v vdm := mat_v G gdiv 7 1 3 2 (code_matrix G gdiv 7 vdm 3 2) (new_matrix 1 3 3) in
      h_case true (v true) [:: 0; 1] /\ h_case true (v false) [:: 0; 1]
  | None => False end.
Proof. by vm_compute; do ! split. Qed.

Print Assumptions C63_rs_gf2n_fft.
Print Assumptions C63_rs_gf2n_fft_add.
Print Assumptions C63_rs_gf2n.
