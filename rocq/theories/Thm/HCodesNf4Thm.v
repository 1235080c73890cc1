(** Horizontal streams with the Reed-Solomon code over NF4: property C54. *)
From Coq Require Import List NArith ZArith Arith Bool Lia Sorted Permutation.
From Verif.Model Require Import Common Arith Ring Fft2n Radix2 Poly Props Fnt Nf4 HCodes.
From Verif.Spec Require Import Primes Blocks Nf4 Code Session HStreams.
From Verif.Proof Require Import ListP HCodesP HCodesW HCodesR Nf4Sim Nf4Code Nf4New.
From Verif.Thm Require Import Nf4CodeThm.
Import ListNotations.
Open Scope nat_scope.

Lemma offs_sorted t n : StronglySorted N.lt (map N.of_nat (seq t n)).
Proof.
  revert t. induction n as [|n IH]; intros t; cbn [seq map]; constructor; [apply IH|].
  apply Forall_forall. intros x Hx. apply in_map_iff in Hx. destruct Hx as (i & <- & Hi). apply in_seq in Hi. lia.
Qed.

Section Sessions.
Variables (c : nf4code) (ws m : nat) (j1 j2 : list N) (vs0 : vscratch).
Notation V := (nf4_v c ws m j1 j2 vs0).
Hypothesis HL : forall out ps off words, length out = nf_n c -> symbols_of ws (nf_k c) words ->
  length (fst (nf4_encode c out ps off words)) = nf_n c.

Lemma venc_session W : forall t out ps cws ps', venc V t out ps W = Some (cws, ps') -> length out = nf_n c ->
  Forall (symbols_of ws (nf_k c)) W ->
  exists l, map e_words l = W /\ map e_off l = map N.of_nat (seq t (length W)) /\
    Forall (fun e => symbols_of ws (nf_k c) (e_words e) /\ length (e_out e) = nf_n c) l /\ enc_session c l ps = (cws, ps').
Proof.
  induction W as [|w W IH]; intros t out ps cws ps' E Lo HW; cbn [venc] in E.
  - injection E as <- <-. exists []. repeat split; auto.
  - inversion HW as [|? ? Hw HW']; subst. cbn [nf4_v v_encode] in E. pose proof (HL out ps (N.of_nat t) w Lo Hw) as Lc.
    destruct (nf4_encode c out ps (N.of_nat t) w) as [cw p1] eqn:E1. cbn [fst] in Lc.
    destruct (venc V (t + 1) cw p1 W) as [[cws1 p2]|] eqn:E2; [|discriminate]. injection E as <- <-.
    destruct (IH _ _ _ _ _ E2 Lc HW') as (l & H1 & H2 & H3 & H4). exists (EWord (N.of_nat t) w out :: l).
    cbn [map e_words e_off length seq enc_session e_out]. rewrite H1, H2, E1, H4, Nat.add_1_r. repeat split; auto.
Qed.

Lemma vdec_session x ps ps' : length (x_ids x) = nf_k c -> (forall q, In q (x_ids x) -> nth q ps' [] = nth q ps []) ->
  forall R t cur vs out, vdec V (x, vs, cur) t out ps' R =
    Some (dec_session c x ps (combine (map N.of_nat (seq t (length R))) R) cur vs).
Proof.
  intros Li Hq. induction R as [|r R IH]; intros t cur vs out; [reflexivity|].
  cbn [vdec nf4_v v_decode length seq map combine dec_session]. unfold nf4_decode.
  rewrite (nf4_prepare_ext c (x_ids x) ps' ps) by auto.
  destruct (nf4_prepare c (x_ids x) ps (N.of_nat t) cur r) as [cur1 r1]. destruct (nf4_apply c x vs r1) as [vs1 o].
  specialize (IH (t + 1) cur1 vs1). rewrite Nat.add_1_r in *. rewrite IH. reflexivity.
Qed.
End Sessions.

Lemma map_fst_combine A B (l : list A) (r : list B) : length l = length r -> map fst (combine l r) = l.
Proof. revert r. induction l as [|a l IH]; intros [|b r] E; try discriminate; [reflexivity|]. injection E as E. cbn. now rewrite IH. Qed.
Lemma map_snd_combine A B (l : list A) (r : list B) : length l = length r -> map snd (combine l r) = r.
Proof. revert r. induction l as [|a l IH]; intros [|b r] E; try discriminate; [reflexivity|]. injection E as E. cbn. now rewrite IH. Qed.

(** Words of 2, 4 or 8 bytes; see [C41_odd_refuted] for the odd sizes, and [word_size_ok] for 6. *)
Theorem C54_rs_nf4 B w ws k m : In ws [2; 4; 8] -> nf4_type B w (ws / 2) -> In w [32; 64; 128]%N -> nf4_sizes k m ->
  exists c, nf4_new B w ws k m = Some c /\
  let D := fun d => exists j1 j2 vs, length j1 = nf_n c /\ length j2 = nf_l2 c /\ nvs_len c vs /\ d = nf4_v c ws m j1 j2 vs in
  forall e, D e -> streams_back false ws k m e D (fun _ => True) /\ forall d, D d -> streams_too_few false k m d.
Proof.
  intros Hws HT Hw Hs.
  assert (R : 2 <= ws <= 8) by (cbn in Hws; lia).
  destruct (C41_rs_nf4_partial B w ws k m R HT Hw Hs) as (c & Ec & Ek & Hn & H). exists c. split; [exact Ec|]. intros D e De.
  assert (E8 : (256 ^ N.of_nat ws = 2 ^ N.of_nat (16 * (ws / 2)))%N) by (destruct Hws as [<-|[<-|[<-|[]]]]; reflexivity).
  assert (K0 : 0 < k) by (destruct Hs; assumption).
  apply (streams_of_words false ws k m e D _ (fun _ _ => True)); auto.
  { destruct Hws as [<-|[<-|[<-|[]]]]; reflexivity. }
  intros d (j1 & j2 & vs & J1 & J2 & V & ->). destruct De as (i1 & i2 & us & _ & _ & _ & ->).
  do 4 (split; [cbn; auto|]). split; [reflexivity|]. split; [|now apply encode_ext].
  assert (HE : forall out ps off words, length out = nf_n c -> symbols_of ws (nf_k c) words ->
    length (fst (nf4_encode c out ps off words)) = nf_n c /\
    forall q, q < k + m -> (nth q (fst (nf4_encode c out ps off words)) 0 < 256 ^ N.of_nat ws)%N).
  { intros out ps off words Lo Sw.
    destruct (H (seq 0 k) j1 j2 (seq_length _ _) (seq_NoDup _ _) ltac:(intros i Hi; apply in_seq in Hi; lia) J1 J2) as (x & _ & X).
    destruct (X [EWord off words out]) as (cws & ps' & E & F & _).
    - constructor; [|constructor]. cbn [e_words e_out]. split; [|exact Lo]. unfold symbols_of in Sw. rewrite E8, Ek in Sw. exact Sw.
    - repeat constructor.
    - cbn [enc_session e_words e_out e_off] in E. unfold nf4_encode in *.
      match type of E with context [nf4_post c off ?v ?p] => rewrite (nf4_post_fst c off v ps p); destruct (nf4_post c off v p) as [cw p1] end.
      injection E as <- <-. inversion F as [|? ? F1 _]; subst. rewrite E8. exact F1. }
  apply remembering.
  - reflexivity.
  - apply nf4_appends.
  - intros t out words ps off Lo Sw. cbn [nf4_v v_encode v_out v_ws v_k] in *. destruct (HE out ps off words Lo Sw) as [H1 H2].
    destruct (nf4_encode c out ps off words) as [cw p1]. exists cw, p1. split; [reflexivity|]. split; [exact H1|].
    intros q Hq. apply H2. unfold v_nout in Hq. cbn in Hq. rewrite Ek in Hq. exact Hq.
  - intros output W cws ps data par rps Lo HW E Li Lr. set (V0 := nf4_v c ws m j1 j2 vs) in *. cbn [V0 v_k v_out v_ws nf4_v] in Li, Lo, HW.
    assert (En : v_nout V0 = k + m) by (unfold v_nout; cbn; now rewrite Ek). rewrite En in *.
    assert (ES : v_sys V0 = false) by reflexivity.
    destruct (H (v_ids V0 data par) j1 j2) as (x & Ex & X); auto.
    { now rewrite Li. }
    { rewrite ns_ids by auto. apply v_ap_NoDup. }
    { intros i. rewrite ns_ids by auto. rewrite <- En. apply v_ap_lt. }
    destruct (venc_session c ws m j1 j2 vs (fun o p f ww A B => proj1 (HE o p f ww A B)) W 0 output _ cws ps E Lo HW) as (l & W1 & W2 & W3 & W4).
    destruct (X l) as (cws' & ps' & E' & _ & Y).
    { eapply Forall_impl; [|exact W3]. cbv beta. intros a [A1 A2]. split; [|exact A2]. unfold symbols_of in A1. rewrite E8, Ek in A1. exact A1. }
    { rewrite W2. apply offs_sorted. }
    rewrite W4 in E'. injection E' as <- <-.
    exists (x, vs, repeat 0 (k + m)). split; [cbn [V0 v_begin nf4_v]; now rewrite Ex, Lr|].
    intros out' ps' Hq. pose proof (nf4_ids _ _ _ _ _ Ex) as Xi. unfold V0 at 1. rewrite (vdec_session c ws m j1 j2 vs x ps ps') by (rewrite ?Xi; auto).
    f_equal. rewrite <- W1. 
    assert (Lw : length cws = length W).
    { rewrite <- W1, map_length. clear -W4. revert W4. match goal with |- enc_session _ _ ?P = _ -> _ => generalize P as p end. revert cws.
      induction l as [|a l IH]; intros cws p E; cbn [enc_session] in E; [now injection E as <- _|].
      destruct (nf4_encode c (e_out a) p (e_off a) (e_words a)) as [cw p1]. destruct (enc_session c l p1) as [cs p2] eqn:E1.
      injection E as <- <-. cbn. f_equal. eapply IH, E1. }
    apply Y; auto.
    + rewrite map_fst_combine by (now rewrite !map_length, seq_length). rewrite map_length, Lw. now rewrite W2.
    + rewrite map_snd_combine by (now rewrite !map_length, seq_length). reflexivity.
Qed.

(** One number per word, two data fragments out of four; five bytes are two words, and the last byte is not encoded. *)
Example C54_nf4_case : In 2 [2; 4; 8] /\ nf4_type Plain 32 (2 / 2) /\ In 32%N [32; 64; 128]%N /\ nf4_sizes 2 2 /\
  match nf4_new Plain 32 2 2 2 with
  | Some c =>
      let v := nf4_v c 2 2 (repeat 9%N (nf_n c)) (repeat 9%N (nf_l2 c))
        (mkVscratch (repeat 1%N (nf_n c)) (repeat 2%N (nf_l2 c)) (repeat 3%N (nf_l2 c))) in
      match encode_vstreams v (repeat 6%N (nf_n c)) [[255; 255; 5; 1; 77]; [1; 0; 9; 200; 78]]%N (repeat [] 4) (repeat [] 4) with
      | Some (frags, ps) => nth 0 frags [] = [0; 0; 14; 201]%N /\ ps = [[(0, 1)]; []; []; []]%N /\
          option_map fst (decode_vstreams v [0; 0]%N [] frags ps [false; true; true; false] [true; false] [[7]; [8]]%N) =
            Some (true, [[7; 255; 255; 5; 1]; [8]]%N)
      | None => False end
  | None => False end.
Proof. split; [cbn; auto|]. split; [unfold nf4_type; cbn; lia|]. split; [cbn; auto|]. split; [unfold nf4_sizes; cbn; lia|]. vm_compute. repeat split. Qed.

Print Assumptions C54_rs_nf4.
