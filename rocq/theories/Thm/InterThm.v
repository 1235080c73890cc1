(** Property C65: objects of the same code are interchangeable.  The part common to the codes. *)
From Coq Require Import List NArith ZArith Arith Bool Lia.
From Verif.Model Require Import Common Props HCodes Driver.
From Verif.Spec Require Import Blocks Session HStreams Inter.
From Verif.Proof Require Import ListP HCodesP DriverH.
From Verif.Thm Require Import DriverThm DriverHThm.
Import ListNotations.
Open Scope nat_scope.

(** [E] and [D]: the objects as encoders and as decoders.  For each of them C54 holds with some encoder [e1]. *)
Lemma inter_code sys ws k m vo F (E D : vcode -> Prop) pat e0 D0 : 0 < ws -> 0 < k ->
  (forall e, E e -> plain_encode ws k (n_outs sys k m) vo F e) -> E e0 -> streams_back sys ws k m e0 D0 pat ->
  (forall d, D d -> (exists e1 D1 d', E e1 /\ streams_back sys ws k m e1 D1 pat /\ D1 d' /\ streams_too_few sys k m d' /\
       forall o a p r ms wd old, decode_vstreams d' o a p r ms wd old = decode_vstreams d o a p r ms wd old) /\
     v_k d = k /\ v_sys d = sys /\ v_nout d = n_outs sys k m /\ word_size_ok (v_ws d) = true) ->
  (sys = false -> forall l, pat l) ->
  interchangeable sys ws k m E D pat /\ files_back sys ws k m E D pat /\ files_emptied sys k m E D.
Proof.
  intros W0 K0 HE E0 HS0 HD Hp.
  assert (Vo : forall e, E e -> v_out e = vo) by (intros e He; apply (HE e He)).
  assert (Same : forall e e' output output' data old ps L, E e -> E e' -> length output = v_out e -> length output' = v_out e' ->
    blocks k L data -> encode_vstreams e output data old ps = encode_vstreams e' output' data old ps).
  { intros e e' output output' data old ps L He He' Lo Lo' Hd. rewrite Vo in Lo by exact He. rewrite Vo in Lo' by exact He'.
    apply (encode_plain ws k (n_outs sys k m) vo F W0 K0 data L Hd e e' output output' old ps (HE e He) (HE e' He') Lo Lo'). }
  assert (Back : forall e, E e -> streams_back sys ws k m e D pat).
  { intros e He output data old ps L Lo Hd Lold Lps.
    assert (L0 : length (repeat 0%N (v_out e0)) = v_out e0) by apply repeat_length.
    destruct (HS0 _ data old ps L L0 Hd Lold Lps) as (frags & ps' & R & B & Lr & _).
    exists frags, ps'. rewrite (Same e e0 output (repeat 0%N (v_out e0)) data old ps L He E0 Lo L0 Hd).
    split; [exact R|]. split; [exact B|]. split; [exact Lr|].
    intros d missing wanted rdata rpar rps old' out' Dd. destruct (proj1 (HD d Dd)) as (e1 & D1 & d' & He1 & HS1 & Dd' & _ & Ed).
    assert (L1 : length (repeat 0%N (v_out e1)) = v_out e1) by apply repeat_length.
    destruct (HS1 _ data old ps L L1 Hd Lold Lps) as (frags1 & ps1 & R1 & B1 & _ & Dec).
    rewrite (Same e1 e0 _ (repeat 0%N (v_out e0)) data old ps L He1 E0 L1 L0 Hd), R in R1. injection R1 as Ef Ep. subst ps1.
    assert (frags1 = frags).
    { apply nth_ext with (d := []) (d' := []); [rewrite (proj1 B1), (proj1 B); reflexivity|]. intros i Hi. rewrite (proj1 B1) in Hi.
      assert (X := f_equal (fun l => nth i l []) Ef). cbv beta in X. rewrite !nth_map_seq in X by exact Hi.
      apply app_inv_head in X. now symmetry. }
    subst frags1. rewrite <- Ed. now apply Dec. }
  split; [split; [|exact Back]|].
  - intros e e' output output' data old ps L He He' Lo Lo' Hd Lold Lps.
    destruct (Back e He output data old ps L Lo Hd Lold Lps) as (frags & ps' & R & _).
    rewrite <- (Same e e' output output' data old ps L He He' Lo Lo' Hd). eauto.
  - apply (driver_code sys ws k m vo F E D D pat e0); auto.
    + intros d Dd. split; [exists d; auto|apply (HD d Dd)].
    + intros d Dd missing wanted data par ps old out'. destruct (proj1 (HD d Dd)) as (e1 & D1 & d' & _ & _ & _ & HF & Ed). rewrite <- Ed. now apply HF.
Qed.

Print Assumptions inter_code.
