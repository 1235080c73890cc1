(** Horizontal streams of any code: when words survive. *)
From Coq Require Import List NArith ZArith Arith Bool Lia Permutation Sorted.
From Verif.Model Require Import Common Props Bytes Streams Horizontal HCodes.
From Verif.Spec Require Import Modular Code Blocks Session HStreams.
From Verif.Proof Require Import ListP BytesP PropsP HorizontalP HCodesP.
Import ListNotations.
Open Scope nat_scope.

Lemma filter_all (f : nat -> bool) l : (length (filter f l) =? length l) = forallb f l.
Proof.
  induction l as [|x l IH]; [reflexivity|]. cbn. destruct (f x); cbn; [exact IH|]. apply Nat.eqb_neq.
  assert (X : length (filter f l) <= length l) by (clear; induction l as [|y l IH]; cbn; [lia|]; destruct (f y); cbn; lia). lia.
Qed.

Lemma encode_ext c d : v_ws c = v_ws d -> v_k c = v_k d -> v_nout c = v_nout d ->
  (forall t out ps off words, v_encode c t out ps off words = v_encode d t out ps off words) ->
  forall output data outs ps, encode_vstreams c output data outs ps = encode_vstreams d output data outs ps.
Proof.
  intros Ew Ek En Ee output data outs ps. unfold encode_vstreams. rewrite Ew, Ek, En. destruct (_ && _); [|reflexivity].
  set (fuel := S _). clearbody fuel. set (ins := map _ data). clearbody ins. set (pp := map _ ps). clearbody pp. clear data ps.
  generalize 0 as o. revert output outs pp ins.
  induction fuel as [|fuel IH]; intros output outs pp ins o; [reflexivity|]. cbn [vencode_loop]. rewrite Ew, En.
  destruct (readw_all (v_ws d) ins) as [ins' [words|]]; [|reflexivity]. rewrite Ee.
  destruct (v_encode d o output pp (N.of_nat o) words) as [[o1 p1]|]; [apply IH|reflexivity].
Qed.

Lemma streams_of_words sys ws k m (e : vcode) (D : vcode -> Prop) (pat : list bool -> Prop) (patf : (nat -> bool) -> (nat -> bool) -> Prop) :
  0 < k -> word_size_ok ws = true -> D e ->
  (forall d, D d -> v_sys d = sys /\ v_ws d = ws /\ v_k d = k /\ v_m d = m /\ v_out d = v_out e /\ words_back d patf /\
     forall output data outs ps, encode_vstreams d output data outs ps = encode_vstreams e output data outs ps) ->
  (forall missing, pat missing -> patf (fun i => negb (nth i missing true)) (fun i => negb (nth (if sys then k + i else i) missing true))) ->
  streams_back sys ws k m e D pat /\ forall d, D d -> streams_too_few sys k m d.
Proof.
  intros K0 Hw De HD Hpat. split.
  - intros output data old ps L Lout Hb Lo Lp.
    destruct (HD e De) as (E1 & E2 & E3 & E4 & _ & E6 & _). 
    pose proof (nout_eq e) as En. rewrite E1, E3, E4 in En.
    destruct (vstreams_roundtrip e patf E6 ltac:(rewrite E3; exact K0) ltac:(rewrite E2; exact Hw) output data old ps L Lout
      ltac:(rewrite E3; exact Hb) ltac:(rewrite En; exact Lo) ltac:(rewrite En; exact Lp)) as (frags & ps' & X1 & X2 & X3 & _).
    rewrite En, E2 in *. exists frags, ps'. split; [exact X1|]. split; [exact X2|]. split; [exact X3|].
    intros d missing wanted rdata rpar rps old' out' Dd R Lr Lo' Lout' Hen Hp.
    destruct (HD d Dd) as (F1 & F2 & F3 & F4 & F5 & F6 & F7).
    pose proof (nout_eq d) as Fn. rewrite F1, F3, F4 in Fn.
    destruct (vstreams_roundtrip d patf F6 ltac:(rewrite F3; exact K0) ltac:(rewrite F2; exact Hw) output data old ps L ltac:(congruence)
      ltac:(rewrite F3; exact Hb) ltac:(rewrite Fn; exact Lo) ltac:(rewrite Fn; exact Lp)) as (frags' & ps2 & Y1 & Y2 & Y3 & Y).
    rewrite F7, X1, Fn in Y1. injection Y1 as Y1 <-.
    assert (Ef : frags' = frags).
    { rewrite Fn in Y2. apply (list_ext _ []); [rewrite (proj1 Y2), (proj1 X2); reflexivity|]. rewrite (proj1 Y2). intros q Hq.
      pose proof (f_equal (fun l => nth q l []) Y1) as X. cbv beta in X. rewrite !nth_map_seq in X by auto. apply app_inv_head in X. congruence. }
    subst frags'. rewrite F1, F2, F3, F4 in *.
    destruct (Y missing wanted rdata rpar rps old' out' R Lr Lo' Lout' Hen) as (outs & ps'' & Z1 & Z2 & Z3).
    { unfold isd, isp. rewrite F1, F3. apply Hpat, Hp. }
    exists outs, ps''. split; [exact Z1|]. split; [exact Z2|]. intros j Hj. rewrite (Z3 j Hj). f_equal.
    pose proof (filter_all (isd missing) (seq 0 k)) as X. rewrite seq_length in X. rewrite X. reflexivity.
  - intros d Dd missing wanted data par ps old out' Hf Ld Lp Lps Lo. destruct (HD d Dd) as (F1 & F2 & F3 & F4 & _).
    pose proof (nout_eq d) as Fn. rewrite F1, F3, F4 in Fn.
    apply vstreams_few; rewrite ?F1, ?F2, ?F3, ?F4, ?Fn; auto.
Qed.

(** ** Codes without records *)
Lemma memoryless c (pat : (nat -> bool) -> (nat -> bool) -> Prop) :
  (forall t out words ps off, length out = v_out c -> symbols_of (v_ws c) (v_k c) words ->
     exists cw, v_encode c t out ps off words = Some (cw, ps) /\ length cw = v_out c /\
       forall q, q < v_nout c -> (nth q cw 0 < 256 ^ N.of_nat (v_ws c))%N) ->
  (forall data par rps, length (v_ids c data par) = v_k c -> length (v_ad c data) < v_k c -> pat data par ->
     exists x ps' (Inv : v_state c -> Prop), v_begin c data par (v_ids c data par) rps = Some (x, ps') /\ Inv x /\
     forall x t out1 p1 o1 words cw p2 t' out' ps off, Inv x -> symbols_of (v_ws c) (v_k c) words -> length out1 = v_out c ->
       v_encode c t out1 p1 o1 words = Some (cw, p2) -> length out' = v_k c ->
       exists x', v_decode c x t' out' ps off (v_recv c data par words cw) = Some (x', words) /\ Inv x') ->
  words_back c pat.
Proof.
  intros HE HD output W Lo HW.
  assert (X : forall W t out ps, length out = v_out c -> length ps = v_nout c -> Forall (symbols_of (v_ws c) (v_k c)) W -> exists cws,
    venc c t out ps W = Some (cws, ps) /\
    Forall2 (fun w cw => symbols_of (v_ws c) (v_k c) w /\ (forall q, q < v_nout c -> (nth q cw 0 < 256 ^ N.of_nat (v_ws c))%N) /\
      exists t out ps off, length out = v_out c /\ v_encode c t out ps off w = Some (cw, ps)) W cws).
  { clear W HW. induction W as [|w W IH]; intros t out ps Lout Lps HW; [exists []; split; [reflexivity|constructor]|].
    inversion HW as [|? ? Hw HW']; subst. destruct (HE t out w ps (N.of_nat t) Lout Hw) as (cw & E & Lc & B).
    destruct (IH (t + 1) cw ps Lc Lps HW') as (cws & E2 & F). exists (cw :: cws). cbn [venc]. rewrite E, E2. split; [reflexivity|].
    constructor; [|exact F]. split; [exact Hw|]. split; [exact B|]. eauto 6. }
  destruct (X W 0 output (repeat [] (v_nout c)) Lo (repeat_length _ _) HW) as (cws & E & F). exists cws, (repeat [] (v_nout c)).
  split; [exact E|]. split; [apply repeat_length|]. split.
  - clear -F. induction F as [|w cw W cws (_ & H & _) _ IH]; constructor; auto.
  - intros data par rps out' Li La Hp Lout' _ _. destruct (HD data par rps Li La Hp) as (x & ps' & Inv & Eb & I0 & H).
    exists x, ps'. split; [exact Eb|]. clear E Eb X HW Lo. generalize 0. revert x I0 out' Lout'.
    induction F as [|w cw W cws (Hw & _ & t1 & o1 & p1 & f1 & Lo1 & Ec) _ IH]; intros x I0 out' Lout' t; [reflexivity|].
    cbn [combine map vdec fst snd]. destruct (H x t1 o1 p1 f1 w cw _ t out' ps' (N.of_nat t) I0 Hw Lo1 Ec Lout') as (x' & Ed & I1).
    rewrite Ed, (IH x' I1 w (proj1 Hw)). reflexivity.
Qed.

(** ** Records *)
Definition sorted_rec (r : props) : Prop := StronglySorted N.lt (map fst r).

Lemma sorted_sort r : sorted_rec r -> props_sort r = r.
Proof.
  unfold sorted_rec. induction r as [|x r IH]; intros H; [reflexivity|]. cbn [map] in H. apply StronglySorted_inv in H. destruct H as [H1 H2].
  cbn [props_sort]. rewrite IH by exact H1. destruct r as [|y r]; [reflexivity|]. cbn [props_insert]. cbn [map] in H2.
  apply Forall_inv in H2. unfold pair_leb. destruct x as [a b], y as [a' b']. cbn [fst snd] in *.
  destruct (N.ltb_spec a a'); [reflexivity|lia].
Qed.

Lemma sorted_snoc r off mk : sorted_rec r -> Forall (fun p => (fst p < off)%N) r -> sorted_rec (r ++ [(off, mk)]).
Proof.
  unfold sorted_rec. induction r as [|x r IH]; intros H F; cbn [map app] in *; [repeat constructor|].
  apply StronglySorted_inv in H. destruct H as [H1 H2]. inversion F; subst. constructor; [now apply IH|].
  rewrite map_app. apply Forall_app. split; [exact H2|]. constructor; [assumption|constructor].
Qed.

Definition appends (c : vcode) : Prop := forall t out ps off words cw ps', v_encode c t out ps off words = Some (cw, ps') ->
  length ps = v_nout c -> length ps' = v_nout c /\
  forall q, nth q ps' [] = nth q ps [] \/ exists mk, nth q ps' [] = nth q ps [] ++ [(off, mk)].

Lemma venc_sorted c : appends c -> forall W t out ps cws ps', venc c t out ps W = Some (cws, ps') -> length ps = v_nout c ->
  (forall q, sorted_rec (nth q ps []) /\ Forall (fun p => (fst p < N.of_nat t)%N) (nth q ps [])) ->
  length ps' = v_nout c /\ forall q, sorted_rec (nth q ps' []).
Proof.
  intros HA. induction W as [|w W IH]; intros t out ps cws ps' E Lp Hq; cbn [venc] in E.
  - injection E as <- <-. split; [exact Lp|]. intros q. apply Hq.
  - destruct (v_encode c t out ps (N.of_nat t) w) as [[o p]|] eqn:E1; [|discriminate].
    destruct (venc c (t + 1) o p W) as [[cw p2]|] eqn:E2; [|discriminate]. injection E as <- <-.
    destruct (HA _ _ _ _ _ _ _ E1 Lp) as [L1 H1]. apply (IH _ _ _ _ _ E2 L1). intros q. destruct (Hq q) as [S1 S2].
    destruct (H1 q) as [->|[mk ->]].
    + split; [exact S1|]. eapply Forall_impl; [|exact S2]. cbv beta. intros; lia.
    + split; [now apply sorted_snoc|]. apply Forall_app. split.
      * eapply Forall_impl; [|exact S2]. cbv beta. intros; lia.
      * constructor; [cbn [fst]; lia|constructor].
Qed.

(** The records as the context leaves them. *)
Lemma received_sorted c W output cws ps rps q : appends c -> venc c 0 output (repeat [] (v_nout c)) W = Some (cws, ps) ->
  q < length rps -> Permutation (nth q rps []) (nth q ps []) -> nth q (map props_sort rps) [] = nth q ps [].
Proof.
  intros HA E Hq P. destruct (venc_sorted c HA _ _ _ _ _ _ E (repeat_length _ _)) as [_ S].
  { intros j. rewrite nth_repeat. split; constructor. }
  etransitivity; [apply (nth_indep (map props_sort rps) [] (props_sort [])); rewrite map_length; exact Hq|].
  etransitivity; [apply (map_nth props_sort)|]. etransitivity; [exact (sort_perm _ _ P)|]. apply sorted_sort, S.
Qed.

(** ** Fragments in use of a code that is not systematic *)
Lemma NoDup_firstn A n (l : list A) : NoDup l -> NoDup (firstn n l).
Proof.
  revert n. induction l as [|x l IH]; intros [|n] H; cbn; try constructor; inversion H as [|? ? H1 H2]; subst.
  - intros X. apply H1. rewrite <- (firstn_skipn n l). apply in_or_app. now left.
  - now apply IH.
Qed.
Lemma v_ap_NoDup c data par : NoDup (v_ap c data par).
Proof.
  apply NoDup_firstn, NoDup_filter, seq_NoDup.
Qed.
Lemma v_ap_lt c data par q : In q (v_ap c data par) -> q < v_nout c.
Proof.
  unfold v_ap. intros H. assert (X : In q (filter par (seq 0 (v_nout c)))).
  { rewrite <- (firstn_skipn (v_k c - length (v_ad c data))). apply in_or_app. now left. }
  apply filter_In in X. destruct X as [X _]. apply in_seq in X. lia.
Qed.
Lemma ns_ids c data par : v_sys c = false -> v_ids c data par = v_ap c data par.
Proof. intros E. unfold v_ids, v_ad. rewrite E. reflexivity. Qed.
Lemma ns_recv c data par w cw : v_sys c = false -> v_recv c data par w cw = map (fun i => nth i cw 0%N) (v_ids c data par).
Proof. intros E. rewrite ns_ids by auto. unfold v_recv, v_ad. rewrite E. reflexivity. Qed.
