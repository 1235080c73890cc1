(** Property C65 for rs-gfp-fft: any type of the elements that is wide enough, any build without or with SIMD. *)
Set Warnings "-notation-overridden,-ambiguous-paths".
From Coq Require Import NArith ZArith Arith Lia Bool.
From Coq Require List.
From Verif.Model Require Import Common Arith Ring Packets Radix2 Poly Props Fnt FftCodes HCodes Header Cached Driver.
From Verif.Spec Require Import Primes Session HStreams Inter.
From Verif.Proof Require Import ListP HCodesP HCodesR DriverH DriverR FntInst BigPrime AgreeN Agree.
From Verif.Thm Require Import FftCodesThm GfpThm HCodesThm HCodesGfpThm DriverThm DriverHThm DriverCodesThm InterThm.
From Verif.Proof Require Import Pres MatrixB FftC.
Import List List.ListNotations.
Open Scope nat_scope.

Lemma gfp_fields w ws : gfp_width w ws -> exists h p, w = (2 * h)%N /\ (0 < h)%N /\ primeN p /\ (2 * p <= 2 ^ w)%N /\
  p = (if (ws <? 4)%nat then 2 ^ (8 * N.of_nat ws) + 1 else 4294991873)%N /\ wrap w p = p /\
  wrap w (if (ws <? 4)%nat then 2 ^ (8 * N.of_nat ws) else 4294967296) = (if (ws <? 4)%nat then 2 ^ (8 * N.of_nat ws) else 4294967296)%N.
Proof.
  intros [[-> H]|[[-> H]|[-> ->]]].
  - exists (w / 2)%N, 257%N. destruct H as [<-|[<-|[<-|[]]]]; repeat split; try reflexivity; try apply prime257; discriminate.
  - exists (w / 2)%N, 65537%N. destruct H as [<-|[<-|[]]]; repeat split; try reflexivity; try apply prime65537; discriminate.
  - exists 32%N, 4294991873%N. repeat split; try reflexivity; try apply prime_big; discriminate.
Qed.

Lemma gfp_new_inv nh w ws k m c : gfp_width w ws -> gfp_new nh w ws k m = Some c -> exists h p root tn t2,
  w = (2 * h)%N /\ (0 < h)%N /\ primeN p /\ (2 * p <= 2 ^ w)%N /\ p = (if (ws <? 4)%nat then 2 ^ (8 * N.of_nat ws) + 1 else 4294991873)%N /\
  find_primitive_root w (prime_ops w p) = Some root /\
  fcode_make w (prime_ops w p) p (if (ws <? 4)%nat then 2 ^ (8 * N.of_nat ws) else 4294967296)%N (ring_hadamard nh w p (prime_ops w p)) root k m tn t2 = Some c.
Proof.
  intros Hw. destruct (gfp_fields w ws Hw) as (h & p & E1 & E2 & E3 & E4 & E5 & E6 & E7). unfold gfp_new.
  destruct (4 <? ws); [discriminate|]. rewrite E7. rewrite <- E5, E6. cbv zeta. destruct (_ && _); [|discriminate].
  destruct (find_primitive_root w (prime_ops w p)) as [root|] eqn:R; [|discriminate].
  destruct (jacobi _ _ _) as [[|q|q]|]; try discriminate. destruct q; try discriminate. intros E.
  eexists h, p, root, _, _. exact (conj E1 (conj E2 (conj E3 (conj E4 (conj eq_refl (conj R E)))))).
Qed.

Lemma gfp_new_w nh nh' w w' ws k m c c' : gfp_width w ws -> gfp_width w' ws -> 2 <= k + m ->
  gfp_new nh w ws k m = Some c -> gfp_new nh' w' ws k m = Some c' ->
  f_n c = f_n c' /\ f_rpow c = f_rpow c' /\ f_limit c = f_limit c' /\ AgreeN.agree (f_G c) (f_G c').
Proof.
  intros Hw Hw' km E E'. destruct (gfp_new_inv _ _ _ _ _ _ Hw E) as (h & p & root & tn & t2 & -> & H0 & Pp & Hp & Ep & R & M).
  destruct (gfp_new_inv _ _ _ _ _ _ Hw' E') as (h' & p' & root' & tn' & t2' & -> & H0' & Pp' & Hp' & Ep' & R' & M').
  rewrite <- Ep in Ep'. subst p'.
  assert (Hc : (g_card (prime_ops (2 * h) p) <= 2 ^ (2 * h))%N) by (cbn [g_card prime_ops]; lia).
  assert (Hc' : (g_card (prime_ops (2 * h) p) <= 2 ^ (2 * h'))%N) by (cbn [g_card prime_ops]; lia).
  exact (make_w _ _ _ _ _ _ _ _ _ _ _ _ _ _ _ _ _ _ _ (prime_agree _ _ p Pp Hp Hp') H0 H0' Hc Hc' R R' M M' km).
Qed.

Theorem C65_rs_gfp_fft w0 ws k m : gfp_width w0 ws -> gfp_sizes ws k m ->
  let E := fun e => exists nh w c epv dm, gfp_build_ok nh w ws k /\ gfp_width w ws /\ gfp_new nh w ws k m = Some c /\ e = gfp_v c ws m epv dm in
  let D := fun d => exists nh w c epv dm, gfp_build_ok nh w ws k /\ gfp_width w ws /\ gfp_new nh w ws k m = Some c /\ dmem_ok c dm /\ d = gfp_v c ws m epv dm in
  interchangeable false ws k m E D (fun _ => True) /\
  files_back false ws k m E D (fun _ => True) /\ files_emptied false k m E D.
Proof.
  intros Hw Hs E D.
  assert (K0 : 0 < k) by (destruct Hs as [K' _ _]; revert K'; destruct k; [discriminate|lia]).
  assert (M0 : 0 < m) by (destruct Hs as [_ K' _]; revert K'; destruct m; [discriminate|lia]).
  assert (KM : 2 <= k + m) by lia.
  assert (W0 : 0 < ws /\ word_size_ok ws = true) by (destruct Hw as [[-> _]|[[-> _]|[-> _]]]; cbn; auto with arith).
  set (z := fun _ _ : nat => 0%N). set (z1 := fun c => repeat 0%N (f_n c)). set (z2 := fun c => repeat 0%N (f_l2 c)).
  set (dm0 := fun c => mkDmem (fun _ => 0%N) (z1 c) (fun _ => 0%N) (z2 c) (mkVscratch (z1 c) (z2 c) (z2 c)) (fun _ => (fun _ => 0%N, fun _ => 0%N, fun _ => 0%N))).
  assert (De : forall c, exists dm, dmem_ok c dm /\ gfp_v c ws m z (dm0 c) = gfp_v c ws m z dm).
  { intros c. exists (dm0 c). split; [|reflexivity]. split; [apply (repeat_length 0%N)|apply (repeat_length 0%N)|].
    split; [apply (repeat_length 0%N)|apply (repeat_length 0%N)|apply (repeat_length 0%N)]. }
  assert (Obj : forall nh w c, gfp_build_ok nh w ws k -> gfp_width w ws -> gfp_new nh w ws k m = Some c ->
    exists (K : ssralg.GRing.Field.type) (h : N -> ssralg.GRing.Field.sort K) r r2, fcode_ok K h c r r2 /\ f_k c = k /\ f_len c = k + m /\ f_limit c = (2 ^ (8 * N.of_nat ws))%N /\
      (f_limit c <= g_card (f_G c))%N /\
      let D := fun d => exists dm, dmem_ok c dm /\ d = gfp_v c ws m z dm in
      streams_back false ws k m (gfp_v c ws m z (dm0 c)) D (fun _ => True) /\ forall d, D d -> streams_too_few false k m d).
  { intros nh w c Hb Hw' Ec. destruct (C54_rs_gfp_fft nh w ws k m Hb Hw' Hs) as (c1 & Ec1 & HC).
    destruct (gfp_build nh w ws k m Hb Hw' Hs) as (c0 & [Ec0 [K [h [r [r2 ok]]]] [Ek El Em] [G1 G2 G3]]).
    rewrite Ec in Ec0, Ec1. injection Ec0 as <-. injection Ec1 as <-. exists K, h, r, r2. do 5 (split; [assumption|]). exact (HC z _ (De c)). }
  assert (B0 : gfp_build_ok 0 w0 ws k) by (split; [reflexivity|intros _ _; left; reflexivity]).
  destruct (gfp_build 0 w0 ws k m B0 Hw Hs) as (c & [Ec _ _ _]).
  destruct (Obj 0 w0 c B0 Hw Ec) as (K & h & r & r2 & ok & Ek & El & Em & G1 & HS & _).
  set (F := fun (ps : list props) off words =>
    gfp_post c off (match f_transform c (fun _ => 0%N) (z1 c) words with Some o => o | None => [] end) ps).
  eapply (inter_code false ws k m (f_n c) F E D (fun _ => True) (gfp_v c ws m z (dm0 c))); [apply W0|exact K0|..|exact HS| |auto].
  - intros e (nh & w & c1 & epv & dm & Hb & Hw' & Ec1 & ->). destruct (Obj nh w c1 Hb Hw' Ec1) as (K1 & h1 & r1 & r21 & ok1 & Ek1 & El1 & Em1 & _).
    destruct (gfp_new_w _ _ _ _ _ _ _ _ _ Hw Hw' KM Ec Ec1) as (En & Er & Elim & A).
    split; [unfold v_nout; cbn; rewrite Ek1; auto|].
    intros t out ps off words Lo Lp Hsy. cbn [v_encode gfp_v]. unfold gfp_encode. apply symbols_bytes in Hsy. destruct Hsy as (Sw & Vw).
    assert (Vw' : els (f_G c) words).
    { apply (forall_els K h c r r2 ok). eapply Forall_impl; [|exact Vw]. cbv beta. intros a Ha. eapply N.lt_le_trans; [|exact G1].
      rewrite Em. replace (8 * N.of_nat ws)%N with (N.of_nat (8 * ws)) by lia. exact Ha. }
    destruct (f_transform_same K K1 h h1 c c1 r r2 r1 r21 (fun _ => 0%N) (z1 c) (epv t) out words ok ok1 A (eq_trans Ek (eq_sym Ek1)) En Er
      (eq_trans Sw (eq_sym Ek)) Vw' (repeat_length _ _) Lo) as (o & [E1 E2 So]).
    unfold F. rewrite E1, E2. cbn [option_map].
    assert (EP : gfp_post c1 off o ps = gfp_post c off o ps) by (unfold gfp_post; rewrite El, El1, Elim; reflexivity).
    rewrite EP. split; [reflexivity|]. destruct (gfp_post_recs c off o ps) as (X1 & X2 & _).
    rewrite X1, X2. split; [exact So|]. split; [exact Lp|]. intros q p. apply gfp_post_in.
  - exists 0, w0, c, z, (dm0 c). auto.
  - intros d (nh & w & c1 & epv & dm & Hb & Hw' & Ec1 & O & ->). destruct (Obj nh w c1 Hb Hw' Ec1) as (K1 & h1 & r1 & r21 & ok1 & Ek1 & El1 & Em1 & _ & HS1 & HF1).
    split; [|unfold v_nout; cbn [v_k v_sys v_m v_ws gfp_v]; rewrite Ek1; repeat split; apply W0].
    exists (gfp_v c1 ws m z (dm0 c1)), (fun d => exists dm, dmem_ok c1 dm /\ d = gfp_v c1 ws m z dm), (gfp_v c1 ws m z dm).
    assert (Dd : exists dm', dmem_ok c1 dm' /\ gfp_v c1 ws m z dm = gfp_v c1 ws m z dm') by now exists dm.
    split; [exists nh, w, c1, z, (dm0 c1); auto|]. split; [exact HS1|]. split; [exact Dd|]. split; [now apply HF1|]. intros. apply dec_noenc.
Qed.

Print Assumptions C65_rs_gfp_fft.
