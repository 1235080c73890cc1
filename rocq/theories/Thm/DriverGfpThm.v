(** Property C63 with the code over a prime field with a mixed transform: the driver with rs-gfp-fft. *)
Set Warnings "-notation-overridden,-ambiguous-paths".
From Coq Require Import NArith ZArith Arith Lia.
From Coq Require List.
From Verif.Model Require Import Common Arith Ring Radix2 Poly Props Fnt FftCodes HCodes Header Cached Driver.
From Verif.Spec Require Import Session HStreams.
From Verif.Proof Require Import ListP HCodesP HCodesR DriverH DriverR.
From Verif.Thm Require Import FftCodesThm GfpThm HCodesThm HCodesGfpThm DriverThm DriverHThm DriverCodesThm DriverNf4Thm.
From Verif.Proof Require Import Pres MatrixB FftC.
Import List List.ListNotations.
Open Scope nat_scope.

Theorem C63_rs_gfp_fft nh w ws k m : gfp_build_ok nh w ws k -> gfp_width w ws -> gfp_sizes ws k m ->
  exists c, gfp_new nh w ws k m = Some c /\
  let E := fun e => exists epv dm, e = gfp_v c ws m epv dm in
  let D := fun d => exists epv dm, dmem_ok c dm /\ d = gfp_v c ws m epv dm in
  files_back false ws k m E D (fun _ => True) /\ files_emptied false k m E D.
Proof.
  intros Hb Hw Hs. destruct (C54_rs_gfp_fft nh w ws k m Hb Hw Hs) as (c & Ec & HC). exists c. split; [exact Ec|].
  destruct (gfp_build nh w ws k m Hb Hw Hs) as (c0 & [Ec0 [K [h [r [r2 ok]]]] [Ek El Em] [G1 G2 G3]]).
  rewrite Ec in Ec0. injection Ec0 as <-. clear Ec. intros E D.
  assert (K0 : 0 < k) by (destruct Hs as [K' _ _]; revert K'; destruct k; [discriminate|lia]).
  assert (W0 : 0 < ws /\ word_size_ok ws = true) by (destruct Hw as [[-> _]|[[-> _]|[-> _]]]; cbn; auto with arith).
  set (z := fun _ _ : nat => 0%N). set (z1 := repeat 0%N (f_n c)). set (z2 := repeat 0%N (f_l2 c)).
  set (dm0 := mkDmem (fun _ => 0%N) z1 (fun _ => 0%N) z2 (mkVscratch z1 z2 z2) (fun _ => (fun _ => 0%N, fun _ => 0%N, fun _ => 0%N))).
  assert (De : exists dm, dmem_ok c dm /\ gfp_v c ws m z dm0 = gfp_v c ws m z dm).
  { exists dm0. split; [|reflexivity]. split; [apply (repeat_length 0%N)|apply (repeat_length 0%N)|].
    split; [apply (repeat_length 0%N)|apply (repeat_length 0%N)|apply (repeat_length 0%N)]. }
  destruct (HC z _ De) as (HS1 & HF1).
  set (F := fun (ps : list props) off words =>
    gfp_post c off (match f_transform c (fun _ => 0%N) z1 words with Some o => o | None => [] end) ps).
  eapply (driver_code false ws k m (f_n c) F E D _ (fun _ => True) (gfp_v c ws m z dm0)); [apply W0|exact K0|..|exact HS1|exact HF1|auto].
  - intros e (epv & dm & ->). split; [unfold v_nout; cbn; rewrite Ek; auto|].
    intros t out ps off words Lo Lp Hsy. cbn [v_encode gfp_v]. unfold gfp_encode. apply symbols_bytes in Hsy. destruct Hsy as (Sw & Vw).
    assert (Vw' : els (f_G c) words).
    { apply (forall_els K h c r r2 ok). eapply Forall_impl; [|exact Vw]. cbv beta. intros a Ha. eapply N.lt_le_trans; [|exact G1].
      rewrite Em. replace (8 * N.of_nat ws)%N with (N.of_nat (8 * ws)) by lia. exact Ha. }
    destruct (@f_transform_det K h c r r2 (epv t) out (fun _ => 0%N) z1 words ok (eq_trans Sw (eq_sym Ek)) Vw' Lo (repeat_length _ _)) as (o & [E1 E2 So]).
    unfold F. rewrite E1, E2. cbn [option_map]. split; [reflexivity|]. destruct (gfp_post_recs c off o ps) as (X1 & X2 & _).
    rewrite X1, X2. split; [exact So|]. split; [exact Lp|]. intros q p. apply gfp_post_in.
  - now exists z, dm0.
  - intros d (epv & dm & O & ->). split; [|unfold v_nout; cbn [v_k v_sys v_m v_ws gfp_v]; rewrite Ek; repeat split; apply W0].
    exists (gfp_v c ws m z dm). split; [now exists dm|]. intros. apply dec_noenc.
Qed.

(** Two data files of three bytes over GF(257); the fragment 0 has a record.  Both data files and two fragments are lost. *)
Definition p_data : files := [(data_name q_pfx 2 0, [17; 255; 0]%N); (data_name q_pfx 2 1, [1; 1; 9]%N)].
Example C63_gfp_case : gfp_build_ok 2 32 1 2 /\ gfp_width 32 1 /\ gfp_sizes 1 2 2 /\ match gfp_new 2 32 1 2 2 with
  | Some c =>
      let dm := mkDmem (fun _ => 9%N) (repeat 1%N 4) (fun _ => 3%N) (repeat 2%N 4)
        (mkVscratch (repeat 1%N 4) (repeat 2%N 4) (repeat 3%N 4)) (fun _ => (fun _ => 8%N, fun _ => 9%N, fun _ => 4%N)) in
      let v := gfp_v c 1 2 (fun _ _ => 5%N) dm in
      let run := run_fec v v [5; 5]%N (repeat 6%N 4) q_pfx in
      let fs1 := run false p_data in
      dmem_ok c dm /\ nth 2 (q_show fs1) None = Some [18; 0; 9]%N /\
      fragments false q_pfx 2 2 (q_only q_kept fs1) = 2 /\
      q_show (run true (q_only q_kept fs1)) = q_show fs1 /\
      firstn 6 (q_show (run true (q_only (firstn 2 q_kept) fs1))) = repeat (Some []) 6
  | None => False end.
Proof. split; [split; [reflexivity|intros _ _; right; reflexivity]|]. split; [left; split; [reflexivity|cbn; auto]|split; [constructor; [reflexivity|reflexivity|vm_compute; split; discriminate]|]]. vm_compute. repeat split. Qed.

Print Assumptions C63_rs_gfp_fft.
