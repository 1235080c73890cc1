(** Property C65 for rs-nf4: any way to store the elements of GF(65537) in a word, any scratch memory. *)
From Coq Require Import List NArith ZArith Arith Bool Lia.
From Verif.Model Require Import Common Arith Ring Radix2 Poly Props Fnt Nf4 HCodes Header Cached Driver.
From Verif.Spec Require Import Primes Blocks Nf4 Code Session HStreams Inter.
From Verif.Proof Require Import ListP HCodesP HCodesR Nf4L Nf4Sim Nf4Code Nf4New DriverH DriverR.
From Verif.Thm Require Import Nf4CodeThm HCodesNf4Thm DriverThm DriverHThm InterThm.
Import ListNotations.
Open Scope nat_scope.

Lemma nf4_sim_code c c' cw cw' L L2 d : nf4_sim c c' cw L L2 d -> code_spec c' cw' -> nf4_sim c c' cw' L L2 d.
Proof. intros [] H. constructor; assumption. Qed.

(** The elements of the output words are stored alike: the words and the records are. *)
Lemma post_same c1 c2 off (v : nat -> list N) o ps : nf4_type (nf_B c1) (nf_w c1) (nf_e c1) -> nf4_type (nf_B c2) (nf_w c2) (nf_e c2) ->
  nf_e c1 = nf_e c2 -> nf_len c1 = nf_len c2 -> (forall j, j < nf_len c1 -> elements (nf_e c1) (v j) /\ nth j o 0%N = word32 (v j)) ->
  nf4_post c1 off o ps = nf4_post c2 off o ps.
Proof.
  intros T1 T2 Ee El H. unfold nf4_post. rewrite <- El. rewrite <- Ee in *.
  match goal with |- fold_left ?f _ _ = fold_left ?g _ _ => set (f1 := f); set (f2 := g) end.
  assert (X : forall n s o ps, (forall j, s <= j < s + n -> elements (nf_e c1) (v j) /\ nth j o 0%N = word32 (v j)) ->
    fold_left f1 (seq s n) (o, ps) = fold_left f2 (seq s n) (o, ps)).
  { clear o ps H. induction n as [|n IH]; intros s o ps H; [reflexivity|]. cbn [seq fold_left].
    destruct (H s ltac:(lia)) as (Hv & Ho).
    assert (E1 : f1 (o, ps) s = f2 (o, ps) s).
    { unfold f1, f2, get. rewrite Ho, (unpack_word _ _ _ _ T1 Hv), (unpack_word _ _ _ _ T2 Hv). reflexivity. }
    rewrite E1. assert (E2 : exists ps', f2 (o, ps) s = (set o s (word16 (map low (v s))), ps')).
    { unfold f2, get. rewrite Ho, (unpack_word _ _ _ _ T2 Hv). eexists. reflexivity. }
    destruct E2 as (ps' & ->). apply IH. intros j Hj.
    destruct (H j ltac:(lia)) as (Hvj & Hoj). split; [exact Hvj|]. rewrite <- Hoj. apply nth_set_neq. lia. }
  apply X. intros j Hj. apply H. lia.
Qed.

Theorem C65_rs_nf4 B0 w0 ws k m : In ws [2; 4; 8] -> nf4_type B0 w0 (ws / 2) -> In w0 [32; 64; 128]%N -> nf4_sizes k m ->
  let E := fun e => exists B w c j1 j2 vs, nf4_type B w (ws / 2) /\ In w [32; 64; 128]%N /\ nf4_new B w ws k m = Some c /\ e = nf4_v c ws m j1 j2 vs in
  let D := fun d => exists B w c j1 j2 vs, nf4_type B w (ws / 2) /\ In w [32; 64; 128]%N /\ nf4_new B w ws k m = Some c /\
    length j1 = nf_n c /\ length j2 = nf_l2 c /\ nvs_len c vs /\ d = nf4_v c ws m j1 j2 vs in
  interchangeable false ws k m E D (fun _ => True) /\
  files_back false ws k m E D (fun _ => True) /\ files_emptied false k m E D.
Proof.
  intros Hws HT0 Hw0 Hs E D. assert (R : 2 <= ws <= 8) by (cbn in Hws; lia).
  set (z1 := fun c => repeat 0%N (nf_n c)). set (z2 := fun c => repeat 0%N (nf_l2 c)). set (vz := fun c => mkVscratch (z1 c) (z2 c) (z2 c)).
  assert (De : forall c, exists j1 j2 vs, length j1 = nf_n c /\ length j2 = nf_l2 c /\ nvs_len c vs /\ nf4_v c ws m (z1 c) (z2 c) (vz c) = nf4_v c ws m j1 j2 vs).
  { intros c. exists (z1 c), (z2 c), (vz c). unfold vz, nvs_len, z1, z2. cbn [v_n2 v_2k1 v_2k2]. repeat split; apply repeat_length. }
  destruct (nf4_new_scalar B0 w0 ws k m R HT0 Hw0 Hs) as (c & c' & cw & L & L2 & d & Ec' & Ec & HS & EB & Ew & Ee & Ek & El & Hn).
  assert (Obj : forall B w c1, nf4_type B w (ws / 2) -> In w [32; 64; 128]%N -> nf4_new B w ws k m = Some c1 ->
    exists L L2 d, nf4_sim c1 c' cw L L2 d /\ nf_B c1 = B /\ nf_w c1 = w /\ nf_e c1 = ws / 2 /\ nf_k c1 = k /\ nf_len c1 = k + m /\ k + m <= nf_n c1 /\
      let D := fun d => exists j1 j2 vs, length j1 = nf_n c1 /\ length j2 = nf_l2 c1 /\ nvs_len c1 vs /\ d = nf4_v c1 ws m j1 j2 vs in
      streams_back false ws k m (nf4_v c1 ws m (z1 c1) (z2 c1) (vz c1)) D (fun _ => True) /\ forall d, D d -> streams_too_few false k m d).
  { intros B w c1 HT Hw Ec1. destruct (C54_rs_nf4 B w ws k m Hws HT Hw Hs) as (c2 & Ec2 & HC).
    destruct (nf4_new_scalar B w ws k m R HT Hw Hs) as (c3 & c3' & cw3 & L3 & L23 & d3 & Ec3' & Ec3 & HS3 & H1 & H2 & H3 & H4 & H5 & H6).
    rewrite Ec1 in Ec2, Ec3. injection Ec2 as <-. injection Ec3 as <-. rewrite Ec' in Ec3'. injection Ec3' as <-.
    exists L3, L23, d3. split; [exact (nf4_sim_code _ _ _ _ _ _ _ HS3 (ns_code _ _ _ _ _ _ HS))|]. do 6 (split; [assumption|]). exact (HC _ (De c1)). }
  destruct (Obj B0 w0 c HT0 Hw0 Ec) as (_ & _ & _ & _ & _ & _ & _ & _ & _ & _ & HS1 & _).
  set (F := fun (ps : list props) off words => nf4_encode c (z1 c) ps off words).
  assert (E8 : (256 ^ N.of_nat ws = 2 ^ N.of_nat (16 * (ws / 2)))%N) by (destruct Hws as [<-|[<-|[<-|[]]]]; reflexivity).
  eapply (inter_code false ws k m (nf_n c) F E D (fun _ => True) (nf4_v c ws m (z1 c) (z2 c) (vz c))); [lia|destruct Hs; assumption|..|exact HS1| |auto].
  - intros e (B & w & c1 & j1 & j2 & vs & HT & Hw & Ec1 & ->).
    destruct (Obj B w c1 HT Hw Ec1) as (L1 & L21 & d1 & HSc & EB1 & Ew1 & Ee1 & Ek1 & El1 & Hn1 & _).
    assert (En : nf_n c1 = nf_n c) by (rewrite (ns_n _ _ _ _ _ _ HSc), (ns_n _ _ _ _ _ _ HS); reflexivity).
    split; [unfold v_nout; cbn; rewrite Ek1; auto|].
    intros t out ps off words Lo Lp (Sw & Vw). cbn [v_encode nf4_v]. rewrite E8 in Vw. destruct (words16_of (ws / 2) _ Vw) as (S & HSn & Es).
    assert (HSe' : Forall (elements (ws / 2)) S) by (eapply Forall_impl; [|exact HSn]; apply numbers_el).
    assert (Ls : length S = k) by (rewrite <- Sw, Es; now rewrite map_length).
    assert (Ep : map (pack (nf_B c) (nf_w c) (nf_e c)) words = map word32 S).
    { rewrite Es, map_map, EB, Ew, Ee. apply map_ext_in. intros h Hh. rewrite Forall_forall in HSn. apply pack_word; auto. }
    assert (Ep1 : map (pack (nf_B c1) (nf_w c1) (nf_e c1)) words = map word32 S).
    { rewrite Es, map_map, EB1, Ew1, Ee1. apply map_ext_in. intros h Hh. rewrite Forall_forall in HSn. apply pack_word; auto. }
    assert (TE : r2_fft_vec (sym_vec (nf_G c)) (nf_fft c) (z1 c) (map word32 S) = map (fun j => word32 (frag c cw S j)) (seq 0 (nf_n c))).
    { apply (transform_eq c c' cw L L2 d HS); [lia|now rewrite Ek|now rewrite Ee|apply repeat_length]. }
    assert (TE1 : r2_fft_vec (sym_vec (nf_G c1)) (nf_fft c1) out (map word32 S) = map (fun j => word32 (frag c cw S j)) (seq 0 (nf_n c))).
    { rewrite <- En. unfold frag. rewrite Ee, <- Ee1. apply (transform_eq c1 c' cw L1 L21 d1 HSc); [lia|now rewrite Ek1|now rewrite Ee1|congruence]. }
    set (vv := map (fun j => word32 (frag c cw S j)) (seq 0 (nf_n c))) in *.
    assert (EF : nf4_encode c1 out ps off words = F ps off words).
    { unfold F, nf4_encode. rewrite Ep, Ep1, TE, TE1. apply (post_same c1 c off (frag c cw S)).
      - apply (ns_T _ _ _ _ _ _ HSc).
      - apply (ns_T _ _ _ _ _ _ HS).
      - congruence.
      - congruence.
      - intros j Hj. split; [rewrite Ee1, <- Ee; apply (frag_el c c' cw L L2 d HS)|]. unfold vv.
        rewrite (nth_indep _ 0%N (word32 (frag c cw S 0))) by (rewrite map_length, seq_length; lia).
        rewrite (map_nth (fun j => word32 (frag c cw S j))), seq_nth by lia. reflexivity. }
    rewrite EF. split; [reflexivity|]. unfold F, nf4_encode. rewrite Ep, TE. destruct (nf4_post_recs c off vv ps) as (X1 & X2 & _).
    rewrite X1, X2. split; [unfold vv; now rewrite map_length, seq_length|].
    split; [exact Lp|]. intros q p. apply nf4_post_in. rewrite Ee. destruct Hws as [<-|[<-|[<-|[]]]]; cbn; lia.
  - exists B0, w0, c, (z1 c), (z2 c), (vz c). auto.
  - intros d0 (B & w & c1 & j1 & j2 & vs & HT & Hw & Ec1 & J1 & J2 & V & ->).
    destruct (Obj B w c1 HT Hw Ec1) as (L1 & L21 & d1 & HSc & EB1 & Ew1 & Ee1 & Ek1 & El1 & Hn1 & HS2 & HF2).
    split; [|unfold v_nout; cbn; rewrite Ek1; repeat split; destruct Hws as [<-|[<-|[<-|[]]]]; reflexivity].
    eexists (nf4_v c1 ws m (z1 c1) (z2 c1) (vz c1)), _, (nf4_v c1 ws m j1 j2 vs).
    assert (Dd : exists j1' j2' vs', length j1' = nf_n c1 /\ length j2' = nf_l2 c1 /\ nvs_len c1 vs' /\ nf4_v c1 ws m j1 j2 vs = nf4_v c1 ws m j1' j2' vs')
      by (exists j1, j2, vs; auto).
    split; [exists B, w, c1, (z1 c1), (z2 c1), (vz c1); auto|]. split; [exact HS2|]. split; [exact Dd|]. split; [now apply HF2|]. intros. reflexivity.
Qed.

Print Assumptions C65_rs_nf4.
