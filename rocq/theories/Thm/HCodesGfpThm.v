(** Horizontal streams with the Reed-Solomon code over prime fields with a mixed transform: property C54. *)
Set Warnings "-notation-overridden,-ambiguous-paths".
From Coq Require Import NArith ZArith Arith Lia.
From Coq Require List Sorted Permutation.
From Verif.Model Require Import Common Arith Ring Radix2 Poly Props Fnt FftCodes HCodes.
From Verif.Spec Require Import Session HStreams.
From Verif.Proof Require Import ListP HCodesP HCodesW HCodesR.
From Verif.Thm Require Import FftCodesThm GfpThm HCodesThm HCodesNf4Thm.
From Verif.Proof Require Import FftC.
Import List List.ListNotations.
Open Scope nat_scope.

Section Sessions.
Variables (c : fcode) (ws m : nat) (epv : nat -> nat -> N) (dm : dmem).
Notation V := (gfp_v c ws m epv dm).
Hypothesis HL : forall t out ps off words cw ps', length out = f_n c -> symbols_of ws (f_k c) words ->
  gfp_encode c (epv t) out words ps off = Some (cw, ps') -> length cw = f_n c.

Lemma venc_session W : forall t out ps cws ps', venc V t out ps W = Some (cws, ps') -> length out = f_n c ->
  Forall (symbols_of ws (f_k c)) W ->
  exists l, map e_words l = W /\ map e_off l = map N.of_nat (seq t (length W)) /\
    Forall (fun e => symbols_of ws (f_k c) (e_words e) /\ length (e_out e) = f_n c) l /\ enc_session c l ps = Some (cws, ps') /\
    length cws = length W.
Proof.
  induction W as [|w W IH]; intros t out ps cws ps' E Lo HW; cbn [venc] in E.
  - injection E as <- <-. exists []. repeat split; auto.
  - inversion HW as [|? ? Hw HW']; subst. cbn [gfp_v v_encode] in E.
    destruct (gfp_encode c (epv t) out w ps (N.of_nat t)) as [[cw p1]|] eqn:E1; [|discriminate].
    pose proof (HL _ _ _ _ _ _ _ Lo Hw E1) as Lc.
    destruct (venc V (t + 1) cw p1 W) as [[cws1 p2]|] eqn:E2; [|discriminate]. injection E as <- <-.
    destruct (IH _ _ _ _ _ E2 Lc HW') as (l & H1 & H2 & H3 & H4 & H5). exists (EWord (N.of_nat t) w (epv t) out :: l).
    cbn [map e_words e_off length seq enc_session e_out e_pv]. rewrite H1, H2, E1, H4, H5, Nat.add_1_r. repeat split; auto.
Qed.

Fixpoint dwords (t : nat) (R : list (list N)) : list dword :=
  match R with
  | [] => []
  | r :: R' => let '(p1, p2, p3) := dm_pv dm t in DWord (N.of_nat t) r p1 p2 p3 :: dwords (t + 1) R'
  end.
Lemma dwords_off R : forall t, map d_off (dwords t R) = map N.of_nat (seq t (length R)).
Proof.
  induction R as [|r R IH]; intros t; [reflexivity|]. cbn [dwords]. destruct (dm_pv dm t) as [[p1 p2] p3]. cbn [map d_off length seq].
  now rewrite IH, Nat.add_1_r.
Qed.
Lemma dwords_words R : forall t, map d_words (dwords t R) = R.
Proof.
  induction R as [|r R IH]; intros t; [reflexivity|]. cbn [dwords]. destruct (dm_pv dm t) as [[p1 p2] p3]. cbn [map d_words]. now rewrite IH.
Qed.

Lemma vdec_session x ps ps' : length (x_ids x) = f_k c -> (forall q, In q (x_ids x) -> nth q ps' [] = nth q ps []) ->
  forall R t cur vs out, vdec V (x, vs, cur) t out ps' R = dec_session c x ps (dwords t R) cur vs.
Proof.
  intros Li Hq. induction R as [|r R IH]; intros t cur vs out; [reflexivity|].
  cbn [vdec gfp_v v_decode dwords]. destruct (dm_pv dm t) as [[p1 p2] p3]. cbn [dec_session d_pv1 d_pv2 d_pv3 d_off d_words]. unfold gfp_decode.
  rewrite (gfp_prepare_ext c (x_ids x) ps' ps) by auto.
  destruct (gfp_prepare c (x_ids x) ps (N.of_nat t) cur r) as [cur1 r1]. destruct (fdecode_apply c x p1 p2 p3 vs r1) as [[vs1 o]|]; [|reflexivity].
  specialize (IH (t + 1) cur1 vs1 o). cbn [gfp_v v_state] in IH. rewrite IH.
  destruct (dec_session c x ps (dwords (t + 1) R) cur1 vs1); reflexivity.
Qed.
End Sessions.

(** Words of 1, 2 or 4 bytes, with the types, the sizes and the builds of C42. *)
Theorem C54_rs_gfp_fft nh w ws k m : gfp_build_ok nh w ws k -> gfp_width w ws -> gfp_sizes ws k m ->
  exists c, gfp_new nh w ws k m = Some c /\ forall epv,
  let D := fun d => exists dm, dmem_ok c dm /\ d = gfp_v c ws m epv dm in
  forall e, D e -> streams_back false ws k m e D (fun _ => True) /\ forall d, D d -> streams_too_few false k m d.
Proof.
  intros Hb Hw Hs. destruct (C42_rs_gfp_fft_partial nh w ws k m Hb Hw Hs) as [c [Ec Ek Hn H]]. exists c. split; [exact Ec|]. clear Ec. intros epv D e De.
  assert (K0 : 0 < k) by (destruct Hs as [K _ _]; revert K; destruct k; [discriminate|lia]).
  apply (streams_of_words false ws k m e D _ (fun _ _ => True)); auto.
  { destruct Hw as [[-> _]|[[-> _]|[-> _]]]; reflexivity. }
  intros d (dm & [J1 J2 V] & ->). destruct De as (dm' & _ & ->).
  do 4 (split; [cbn; auto|]). split; [reflexivity|]. split; [|now apply encode_ext].
  assert (HE : forall t out ps off words, length out = f_n c -> symbols_of ws (f_k c) words -> exists cw ps',
    gfp_encode c (epv t) out words ps off = Some (cw, ps') /\ length cw = f_n c /\
    forall q, q < k + m -> (nth q cw 0 < 256 ^ N.of_nat ws)%N).
  { intros t out ps off words Lo Sw.
    destruct (H (seq 0 k) (dm_pv1 dm) (dm_out1 dm) (dm_pv2 dm) (dm_out2 dm) (seq_length _ _) (seq_NoDup _ _)) as (x & _ & X); auto.
    { intros i Hi. apply in_seq in Hi. apply (ssrbool.introT ssrnat.ltP). rewrite <- ssrnat.plusE. lia. }
    destruct (X [EWord off words (epv t) out]) as (cws & ps' & [E F _]).
    - constructor; [|constructor]. cbn [e_words e_out]. split; [|exact Lo]. rewrite <- Ek. apply symbols_bytes. exact Sw.
    - repeat constructor.
    - cbn [enc_session e_words e_out e_off e_pv] in E. unfold gfp_encode in *.
      destruct (f_transform c (epv t) out words) as [v|]; [|discriminate]. cbn [option_map] in *.
      match type of E with context [gfp_post c off ?v ?p] => pose proof (gfp_post_fst c off v ps p) as Ef; destruct (gfp_post c off v p) as [cw p1] end.
      destruct (gfp_post c off v ps) as [cw2 p2]. cbn [fst] in Ef. subst cw2. injection E as <- <-. exists cw, p2. split; [reflexivity|].
      inversion F as [|? ? [F1 F2] _]; subst. split; [exact F1|]. intros q Hq. rewrite pow_bytes. apply F2.
      apply (ssrbool.introT ssrnat.ltP). rewrite <- ssrnat.plusE. exact Hq. }
  assert (HL : forall t out ps off words cw ps', length out = f_n c -> symbols_of ws (f_k c) words ->
    gfp_encode c (epv t) out words ps off = Some (cw, ps') -> length cw = f_n c).
  { intros t out ps off words cw ps' Lo Sw E. destruct (HE t out ps off words Lo Sw) as (cw' & p' & E' & L & _).
    rewrite E in E'. injection E' as <- <-. exact L. }
  apply remembering.
  - reflexivity.
  - apply gfp_appends.
  - intros t out words ps off Lo Sw. cbn [gfp_v v_encode v_out v_ws v_k] in *. destruct (HE t out ps off words Lo Sw) as (cw & p1 & H1 & H2 & H3).
    exists cw, p1. split; [exact H1|]. split; [exact H2|]. intros q Hq. apply H3. unfold v_nout in Hq. cbn in Hq. rewrite Ek in Hq. exact Hq.
  - intros output W cws ps data par rps Lo HW E Li Lr. set (V0 := gfp_v c ws m epv dm) in *. cbn [V0 v_k v_out v_ws gfp_v] in Li, Lo, HW.
    assert (En : v_nout V0 = k + m) by (unfold v_nout; cbn; now rewrite Ek). rewrite En in *.
    assert (ES : v_sys V0 = false) by reflexivity.
    destruct (H (v_ids V0 data par) (dm_pv1 dm) (dm_out1 dm) (dm_pv2 dm) (dm_out2 dm)) as (x & Ex & X); auto.
    { now rewrite <- Ek. }
    { rewrite ns_ids by auto. apply v_ap_NoDup. }
    { intros i. rewrite ns_ids by auto. intros Hi. apply v_ap_lt in Hi. apply (ssrbool.introT ssrnat.ltP). rewrite <- ssrnat.plusE, <- En. exact Hi. }
    destruct (venc_session c ws m epv dm HL W 0 output _ cws ps E Lo HW) as (l & W1 & W2 & W3 & W4 & Lw).
    destruct (X l) as (cws' & ps' & [E' _ Y]).
    { eapply Forall_impl; [|exact W3]. cbv beta. intros a [A1 A2]. split; [|exact A2]. rewrite <- Ek. apply symbols_bytes. exact A1. }
    { rewrite W2. apply offs_sorted. }
    pose proof (eq_trans (eq_sym W4) E') as X2. injection X2 as <- <-.
    exists (x, dm_vs dm, repeat 0 (k + m)). split; [cbn [V0 v_begin gfp_v]; now rewrite Ex, Lr|].
    intros out' ps' Hq. pose proof (fctx_ids _ _ _ _ _ _ _ Ex) as Xi. unfold V0 at 1. rewrite (vdec_session c ws m epv dm x ps ps') by (rewrite ?Xi; auto).
    rewrite <- W1. apply Y; auto.
    + rewrite dwords_off, map_length, Lw. now rewrite W2.
    + apply dwords_words.
Qed.

(** Two streams of three bytes over GF(257): the fragment 0 has a value out of range at the offset 1, and the fragments 1 and 2
    are lost.  The outputs hold a byte before; the second one is not wanted. *)
Example C54_gfp_case : gfp_build_ok 2 32 1 2 /\ gfp_width 32 1 /\ gfp_sizes 1 2 2 /\ match gfp_new 2 32 1 2 2 with
  | Some c =>
      let dm := mkDmem (fun _ => 9%N) (repeat 1%N 4) (fun _ => 3%N) (repeat 2%N 4)
        (mkVscratch (repeat 1%N 4) (repeat 2%N 4) (repeat 3%N 4)) (fun _ => (fun _ => 8%N, fun _ => 9%N, fun _ => 4%N)) in
      let v := gfp_v c 1 2 (fun _ _ => 5%N) dm in
      dmem_ok c dm /\ match encode_vstreams v (repeat 6%N 4) [[17; 255; 0]; [1; 1; 9]]%N (repeat [] 4) (repeat [] 4) with
      | Some (frags, ps) => frags = [[18; 0; 9]; [1; 239; 113]; [16; 254; 248]; [33; 14; 144]]%N /\ ps = [[(1, 1)]; []; []; []]%N /\
          option_map fst (decode_vstreams v [0; 0]%N [] [[18; 0; 9]; []; []; [33; 14; 144]]%N ps [false; true; true; false] [true; false]
            [[7]; [8]]%N) = Some (true, [[7; 17; 255; 0]; [8]]%N)
      | None => False end
  | None => False end.
Proof. split; [split; [reflexivity|intros _ _; right; reflexivity]|]. split; [left; split; [reflexivity|cbn; auto]|split; [constructor; [reflexivity|reflexivity|vm_compute; split; discriminate]|]]. vm_compute. repeat split. Qed.

Print Assumptions C54_rs_gfp_fft.
