(** Property C63 with the code over NF4: the driver with rs-nf4. *)
From Coq Require Import List NArith ZArith Arith Bool Lia.
From Verif.Model Require Import Common Arith Ring Radix2 Poly Props Fnt Nf4 HCodes Header Cached Driver.
From Verif.Spec Require Import Primes Blocks Nf4 Code Session HStreams.
From Verif.Proof Require Import ListP HCodesP HCodesR Nf4L Nf4Sim Nf4Code Nf4New DriverH DriverR.
From Verif.Thm Require Import Nf4CodeThm HCodesNf4Thm DriverThm DriverHThm.
Import ListNotations.
Open Scope nat_scope.

Theorem C63_rs_nf4 B w ws k m : In ws [2; 4; 8] -> nf4_type B w (ws / 2) -> In w [32; 64; 128]%N -> nf4_sizes k m ->
  exists c, nf4_new B w ws k m = Some c /\
  let E := fun e => exists j1 j2 vs, e = nf4_v c ws m j1 j2 vs in
  let D := fun d => exists j1 j2 vs, length j1 = nf_n c /\ length j2 = nf_l2 c /\ nvs_len c vs /\ d = nf4_v c ws m j1 j2 vs in
  files_back false ws k m E D (fun _ => True) /\ files_emptied false k m E D.
Proof.
  intros Hws HT Hw Hs. assert (R : 2 <= ws <= 8) by (cbn in Hws; lia).
  destruct (C54_rs_nf4 B w ws k m Hws HT Hw Hs) as (c & Ec & HC). exists c. split; [exact Ec|].
  destruct (nf4_new_sim B w ws k m R HT Hw Hs) as (c0 & c' & cw & L & L2 & d & Ec0 & HS & EB & Ew & Ee & Ek & El & Hn).
  rewrite Ec in Ec0. injection Ec0 as <-. clear Ec. intros E D.
  set (z1 := repeat 0%N (nf_n c)). set (z2 := repeat 0%N (nf_l2 c)). set (vz := mkVscratch z1 z2 z2).
  assert (De : exists j1 j2 vs, length j1 = nf_n c /\ length j2 = nf_l2 c /\ nvs_len c vs /\ nf4_v c ws m z1 z2 vz = nf4_v c ws m j1 j2 vs).
  { exists z1, z2, vz. unfold vz, nvs_len, z1, z2. cbn [v_n2 v_2k1 v_2k2]. repeat split; apply repeat_length. }
  destruct (HC _ De) as (HS1 & HF1).
  set (F := fun (ps : list props) off words => nf4_encode c z1 ps off words).
  assert (E8 : (256 ^ N.of_nat ws = 2 ^ N.of_nat (16 * (ws / 2)))%N) by (destruct Hws as [<-|[<-|[<-|[]]]]; reflexivity).
  eapply (driver_code false ws k m (nf_n c) F E D _ (fun _ => True) (nf4_v c ws m z1 z2 vz)); [lia|destruct Hs; assumption|..|exact HS1|exact HF1|auto].
  - intros e (j1 & j2 & vs & ->). split; [unfold v_nout; cbn; rewrite Ek; auto|].
    intros t out ps off words Lo Lp (Sw & Vw). cbn [v_encode nf4_v]. rewrite E8 in Vw. destruct (words16_of (ws / 2) _ Vw) as (S & HSn & Es).
    assert (Ls : length S = nf_k c) by (rewrite Ek, <- Sw, Es; now rewrite map_length).
    assert (HSe : Forall (elements (nf_e c)) S) by (rewrite Ee; eapply Forall_impl; [|exact HSn]; apply numbers_el).
    assert (Ep : map (pack (nf_B c) (nf_w c) (nf_e c)) words = map word32 S).
    { rewrite Es, map_map, EB, Ew, Ee. apply map_ext_in. intros h Hh. rewrite Forall_forall in HSn. apply pack_word; auto. }
    assert (TE := fun o => transform_eq c c' cw L L2 d HS ltac:(lia) S o Ls HSe).
    assert (Lz : length z1 = nf_n c) by apply repeat_length.
    assert (EF : nf4_encode c out ps off words = F ps off words).
    { unfold F, nf4_encode. rewrite Ep. rewrite (TE out Lo), (TE z1 Lz). reflexivity. }
    rewrite EF. split; [reflexivity|]. unfold F, nf4_encode.
    match goal with |- context [nf4_post c off ?v ps] => destruct (nf4_post_recs c off v ps) as (X1 & X2 & _); set (vv := v) in * end.
    rewrite X1, X2. split; [unfold vv; rewrite Ep, (TE z1 Lz); now rewrite map_length, seq_length|].
    split; [exact Lp|]. intros q p. apply nf4_post_in. rewrite Ee. destruct Hws as [<-|[<-|[<-|[]]]]; cbn; lia.
  - now exists z1, z2, vz.
  - intros d0 (j1 & j2 & vs & J1 & J2 & V & ->). split; [|unfold v_nout; cbn; rewrite Ek; repeat split; destruct Hws as [<-|[<-|[<-|[]]]]; reflexivity].
    exists (nf4_v c ws m j1 j2 vs). split; [exists j1, j2, vs; auto|reflexivity].
Qed.

(** Two data files of two words; the fragment 0 has a record.  Both data files and two fragments are lost. *)
Definition q_pfx : text := [102]%N.
Definition q_data : files := [(data_name q_pfx 2 0, [255; 255; 5; 1]%N); (data_name q_pfx 2 1, [1; 0; 9; 200]%N)].
Definition q_only (l : list text) (fs : option files) : files :=
  match fs with Some fs => filter (fun f => existsb (text_eqb (fst f)) l) fs | None => [] end.
Definition q_show (o : option files) : list (option text) := match o with Some fs => map (find_file fs) (names q_pfx 2 4) | None => [] end.
Definition q_kept : list text := [code_name q_pfx 4 0; props_name q_pfx 4 0; code_name q_pfx 4 3; props_name q_pfx 4 3].
Example C63_nf4_case : In 2 [2; 4; 8] /\ nf4_type Plain 32 (2 / 2) /\ In 32%N [32; 64; 128]%N /\ nf4_sizes 2 2 /\
  match nf4_new Plain 32 2 2 2 with
  | Some c =>
      let v := nf4_v c 2 2 (repeat 9%N (nf_n c)) (repeat 9%N (nf_l2 c))
        (mkVscratch (repeat 1%N (nf_n c)) (repeat 2%N (nf_l2 c)) (repeat 3%N (nf_l2 c))) in
      let run := run_fec v v [5; 5]%N (repeat 6%N (nf_n c)) q_pfx in
      let fs1 := run false q_data in
      nth 2 (q_show fs1) None = Some [0; 0; 14; 201]%N /\
      fragments false q_pfx 2 2 (q_only q_kept fs1) = 2 /\
      q_show (run true (q_only q_kept fs1)) = q_show fs1 /\
      firstn 6 (q_show (run true (q_only (firstn 2 q_kept) fs1))) = repeat (Some []) 6
  | None => False end.
Proof. split; [cbn; auto|]. split; [unfold nf4_type; cbn; lia|]. split; [cbn; auto|]. split; [unfold nf4_sizes; cbn; lia|]. vm_compute. repeat split. Qed.

Print Assumptions C63_rs_nf4.
