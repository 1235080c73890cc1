(** Records of the codes RsGfpFft and RsNf4: what encoding one word adds, and which ones decoding reads. *)
From Coq Require Import List NArith ZArith Arith Bool Lia Permutation.
From Verif.Model Require Import Common Arith Ring Radix2 Poly Props Fnt FftCodes Nf4 HCodes.
From Verif.Proof Require Import ListP HCodesP HCodesW.
Import ListNotations.
Open Scope nat_scope.

Section Fold.
Variables (A : list N -> nat -> list N) (P : list N -> nat -> bool) (K : list N -> nat -> N) (off : N).
Hypothesis HA : forall o i, length (A o i) = length o.
Definition rec_step (st : list N * list props) (i : nat) : list N * list props :=
  let '(o, ps) := st in (A o i, if P o i then set ps i (get [] ps i ++ [(off, K o i)]) else ps).

Lemma fold_recs n o ps : let r := fold_left rec_step (seq 0 n) (o, ps) in
  length (fst r) = length o /\ length (snd r) = length ps /\
  forall q, (n <= q -> nth q (snd r) [] = nth q ps []) /\
    (nth q (snd r) [] = nth q ps [] \/ exists mk, nth q (snd r) [] = nth q ps [] ++ [(off, mk)]).
Proof.
  induction n as [|n IH]; cbn zeta; [cbn; auto|]. rewrite seq_S, fold_left_app. cbn [fold_left Nat.add].
  cbn zeta in IH. destruct (fold_left rec_step (seq 0 n) (o, ps)) as [o1 p1]. cbn [fst snd] in IH. destruct IH as (L1 & L2 & H).
  cbn [rec_step fst snd]. rewrite HA. split; [exact L1|].
  destruct (P o1 n); [|split; [exact L2|]; intros q; destruct (H q) as [H1 H2]; split; [intros; apply H1; lia|exact H2]].
  rewrite set_length. split; [exact L2|]. intros q. destruct (H q) as [H1 H2]. split.
  - intros Hq. rewrite nth_set_neq by lia. apply H1. lia.
  - destruct (Nat.eq_dec q n) as [->|Hne]; [|rewrite nth_set_neq by auto; exact H2].
    specialize (H1 (le_n n)). destruct (Nat.lt_ge_cases n (length p1)) as [Hl|Hl].
    + right. exists (K o1 n). etransitivity; [apply nth_set_eq; exact Hl|]. exact (f_equal (fun z => z ++ [(off, K o1 n)]) H1).
    + rewrite set_oob by exact Hl. now left.
Qed.

Lemma fold_fst n o ps ps' : fst (fold_left rec_step (seq 0 n) (o, ps)) = fst (fold_left rec_step (seq 0 n) (o, ps')).
Proof.
  induction n as [|n IH]; [reflexivity|]. rewrite seq_S, !fold_left_app. cbn [fold_left Nat.add].
  destruct (fold_left rec_step (seq 0 n) (o, ps)) as [o1 p1], (fold_left rec_step (seq 0 n) (o, ps')) as [o2 p2]. cbn in *. now subst o2.
Qed.
End Fold.

Lemma gfp_post_step c off o ps : gfp_post c off o ps =
  fold_left (rec_step (fun o i => if (f_limit c <=? get 0%N o i)%N then set o i (get 0%N o i mod f_limit c)%N else o)
    (fun o i => (f_limit c <=? get 0%N o i)%N) (fun _ _ => OOR_MARK) off) (seq 0 (f_len c)) (o, ps).
Proof.
  unfold gfp_post. apply fold_left_ext_in. intros [o1 p1] i _. cbn. unfold props_add.
  now destruct (f_limit c <=? get 0%N o1 i)%N.
Qed.

Lemma gfp_post_recs c off o ps : let r := gfp_post c off o ps in
  length (fst r) = length o /\ length (snd r) = length ps /\
  forall q, nth q (snd r) [] = nth q ps [] \/ exists mk, nth q (snd r) [] = nth q ps [] ++ [(off, mk)].
Proof.
  cbn zeta. rewrite gfp_post_step. match goal with |- context [rec_step ?A ?P ?K _] => pose proof (fold_recs A P K off) as H end.
  specialize (H ltac:(intros o1 i; cbv beta; destruct (_ <=? _)%N; now rewrite ?set_length) (f_len c) o ps). cbn zeta in H.
  destruct H as (H1 & H2 & H3). split; [exact H1|]. split; [exact H2|]. intros q. apply H3.
Qed.

Lemma nf4_post_step c off o ps : nf4_post c off o ps =
  fold_left (rec_step (fun o i => set o i (fst (unpack (nf_B c) (nf_w c) (nf_e c) (get 0%N o i))))
    (fun o i => (0 <? snd (unpack (nf_B c) (nf_w c) (nf_e c) (get 0%N o i)))%N)
    (fun o i => snd (unpack (nf_B c) (nf_w c) (nf_e c) (get 0%N o i))) off) (seq 0 (nf_len c)) (o, ps).
Proof.
  unfold nf4_post. apply fold_left_ext_in. intros [o1 p1] i _. cbn. unfold props_add.
  now destruct (unpack (nf_B c) (nf_w c) (nf_e c) (get 0%N o1 i)) as [v fl].
Qed.
Lemma nf4_post_fst c off o ps ps' : fst (nf4_post c off o ps) = fst (nf4_post c off o ps').
Proof. rewrite !nf4_post_step. apply fold_fst. Qed.
Lemma nf4_post_recs c off o ps : let r := nf4_post c off o ps in
  length (fst r) = length o /\ length (snd r) = length ps /\
  forall q, nth q (snd r) [] = nth q ps [] \/ exists mk, nth q (snd r) [] = nth q ps [] ++ [(off, mk)].
Proof.
  cbn zeta. rewrite nf4_post_step. match goal with |- context [rec_step ?A ?P ?K _] => pose proof (fold_recs A P K off) as H end.
  specialize (H ltac:(intros o1 i; cbv beta; now rewrite ?set_length) (nf_len c) o ps). cbn zeta in H.
  destruct H as (H1 & H2 & H3). split; [exact H1|]. split; [exact H2|]. intros q. apply H3.
Qed.

(** Only the records of the fragments in use are read. *)
Lemma gfp_prepare_ext c ids ps ps' off cur words : length ids = f_k c -> (forall q, In q ids -> nth q ps [] = nth q ps' []) ->
  gfp_prepare c ids ps off cur words = gfp_prepare c ids ps' off cur words.
Proof.
  intros L H. unfold gfp_prepare. apply fold_left_ext_in. intros [c1 w1] i Hi. apply in_seq in Hi. unfold get. cbv zeta.
  change (@nth props) with (@nth (list (N * N))). rewrite H by (apply nth_In; lia). reflexivity.
Qed.
Lemma nf4_prepare_ext c ids ps ps' off cur words : length ids = nf_k c -> (forall q, In q ids -> nth q ps [] = nth q ps' []) ->
  nf4_prepare c ids ps off cur words = nf4_prepare c ids ps' off cur words.
Proof.
  intros L H. unfold nf4_prepare. apply fold_left_ext_in. intros [c1 w1] i Hi. apply in_seq in Hi. unfold get. cbv zeta.
  change (@nth props) with (@nth (list (N * N))). rewrite H by (apply nth_In; lia). reflexivity.
Qed.

Lemma gfp_post_fst c off o ps ps' : fst (gfp_post c off o ps) = fst (gfp_post c off o ps').
Proof. rewrite !gfp_post_step. apply fold_fst. Qed.

Lemma fctx_ids c ids pv1 out1 pv2 out2 x : fctx_new c ids pv1 out1 pv2 out2 = Some x -> x_ids x = ids.
Proof.
  unfold fctx_new. cbv zeta. repeat match goal with |- context [match ?e with Some _ => _ | None => _ end] => destruct e; [|discriminate] end.
  intros E. injection E as <-. reflexivity.
Qed.
Lemma nf4_ids c ids j1 j2 x : nf4_ctx c ids j1 j2 = Some x -> x_ids x = ids.
Proof.
  unfold nf4_ctx. cbv zeta. repeat match goal with |- context [match ?e with Some _ => _ | None => _ end] => destruct e; [|discriminate] end.
  intros E. injection E as <-. reflexivity.
Qed.

(** ** Codes with records *)
Section Remember.
Variable c : vcode.
Hypothesis NS : v_sys c = false.
Hypothesis HA : appends c.
Hypothesis HE : forall t out words ps off, length out = v_out c -> symbols_of (v_ws c) (v_k c) words ->
  exists cw ps', v_encode c t out ps off words = Some (cw, ps') /\ length cw = v_out c /\
    forall q, q < v_nout c -> (nth q cw 0 < 256 ^ N.of_nat (v_ws c))%N.

Lemma venc_some W : forall t out ps, length out = v_out c -> length ps = v_nout c -> Forall (symbols_of (v_ws c) (v_k c)) W ->
  exists cws ps', venc c t out ps W = Some (cws, ps') /\ length cws = length W /\ length ps' = v_nout c /\
    Forall (fun cw => forall q, q < v_nout c -> (nth q cw 0 < 256 ^ N.of_nat (v_ws c))%N) cws.
Proof.
  induction W as [|w W IH]; intros t out ps Lo Lp HW; [exists [], ps; repeat split; auto; constructor|].
  inversion HW as [|? ? Hw HW']; subst. destruct (HE t out w ps (N.of_nat t) Lo Hw) as (cw & ps1 & E & Lc & B).
  destruct (HA _ _ _ _ _ _ _ E Lp) as [L1 _]. destruct (IH (t + 1) cw ps1 Lc L1 HW') as (cws & ps2 & E2 & H1 & H2 & H3).
  exists (cw :: cws), ps2. cbn [venc length]. rewrite E, E2. repeat split; auto.
Qed.

Lemma remembering :
  (forall output W cws ps data par rps, length output = v_out c -> Forall (symbols_of (v_ws c) (v_k c)) W ->
     venc c 0 output (repeat [] (v_nout c)) W = Some (cws, ps) ->
     length (v_ids c data par) = v_k c -> length rps = v_nout c ->
     exists x, v_begin c data par (v_ids c data par) rps = Some (x, map props_sort rps) /\
       forall out' ps', (forall q, In q (v_ids c data par) -> nth q ps' [] = nth q ps []) ->
         vdec c x 0 out' ps' (map (fun cw => map (fun i => nth i cw 0%N) (v_ids c data par)) cws) = Some W) ->
  words_back c (fun _ _ => True).
Proof.
  intros HD output W Lo HW. destruct (venc_some W 0 output (repeat [] (v_nout c)) Lo (repeat_length _ _) HW) as (cws & ps & E & Lc & Lp & B).
  exists cws, ps. split; [exact E|]. split; [exact Lp|]. split; [exact B|]. intros data par rps out' Li _ _ _ Lr Hp.
  destruct (HD output W cws ps data par rps Lo HW E Li Lr) as (x & Eb & H). exists x, (map props_sort rps). split; [exact Eb|].
  rewrite <- (H out' (map props_sort rps)).
  - f_equal. clear -Lc NS. revert W Lc. induction cws as [|cw cws IH]; intros [|w W] L; try discriminate; [reflexivity|].
    injection L as L. cbn [combine map fst snd]. now rewrite ns_recv, IH by auto.
  - intros q Hq. rewrite ns_ids in Hq by auto. apply (received_sorted c W output cws ps rps q HA E).
    + rewrite Lr. eapply v_ap_lt, Hq.
    + apply Hp, Hq.
Qed.
End Remember.

Lemma gfp_appends c ws m epv dm : appends (gfp_v c ws m epv dm).
Proof.
  intros t out ps off words cw ps' E Lp. cbn [gfp_v v_encode] in E. unfold gfp_encode in E.
  destruct (f_transform c (epv t) out words) as [v|]; [|discriminate]. cbn [option_map] in E. injection E as E.
  destruct (gfp_post_recs c off v ps) as (_ & H2 & H3). rewrite E in H2, H3. cbn [snd] in H2, H3. rewrite H2. auto.
Qed.
Lemma nf4_appends c ws m j1 j2 vs : appends (nf4_v c ws m j1 j2 vs).
Proof.
  intros t out ps off words cw ps' E Lp. cbn [nf4_v v_encode] in E. unfold nf4_encode in E. injection E as E.
  match type of E with nf4_post _ _ ?v _ = _ => destruct (nf4_post_recs c off v ps) as (_ & H2 & H3) end.
  rewrite E in H2, H3. cbn [snd] in H2, H3. rewrite H2. auto.
Qed.
