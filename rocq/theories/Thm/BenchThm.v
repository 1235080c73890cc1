(** Properties C66 and C67: the benchmark program, its parameters, its statistics, and its runs with rs-fnt, rs-fnt-sys and
    rs-nf4. *)
From Coq Require Import List NArith ZArith Arith Bool Lia Permutation.
From Verif.Model Require Import Common Arith Ring Fft2n Radix2 Poly Props Fnt Nf4 Header Streams HCodes VCodes Prng Bench.
From Verif.Spec Require Import Modular Code Blocks Widths Session HStreams VCodes Nf4 Bench.
From Verif.Proof Require Import ListP BlocksF Nf4L Nf4Sim Nf4Code Nf4New HCodesR BenchP.
From Verif.Thm Require Import BlocksThm StreamsThm VCodesThm Nf4CodeThm HCodesNf4Thm PrngThm.
Import ListNotations.
Open Scope nat_scope.

(** ** Codes that give the data back *)
Lemma app_nil_map no (frags : list (list N)) : length frags = no -> map (fun q => nth q (repeat [] no) [] ++ nth q frags []) (seq 0 no) = frags.
Proof.
  intros E. apply nth_ext with (d := []) (d' := []); [now rewrite map_length, seq_length|].
  intros i Hi. rewrite map_length, seq_length in Hi. rewrite nth_map_seq by exact Hi. now rewrite nth_repeat.
Qed.
Lemma wanted_all k j : j < k -> nth j (repeat true k) false = true.
Proof. intros H. rewrite (nth_indep _ false true) by (now rewrite repeat_length). apply nth_repeat. Qed.

Lemma h_runs sys ws k m (e d : nat -> vcode) (oute outd : nat -> list N) L (D : nat -> vcode -> Prop) pat : 0 < ws -> 0 < L -> L mod ws = 0 ->
  (forall t, streams_back sys ws k m (e t) (D t) pat) -> (forall t, length (oute t) = v_out (e t)) -> (forall t, length (outd t) = k) ->
  (forall t t', exists d', D t d' /\ forall o a p r ms wd old, decode_vstreams d' o a p r ms wd old = decode_vstreams (d t') o a p r ms wd old) ->
  runs_well (h_coder sys k m e d oute outd) L pat.
Proof.
  intros W0 HL EL HS Lo Lo' HD. apply runs; [|exact HL]. intros t data Hd. cbn [cd_k cd_enc cd_dec h_coder cd_sys cd_m] in *.
  change (cd_nc (h_coder sys k m e d oute outd)) with (n_outs sys k m).
  destruct (HS t (oute t) data (repeat [] (n_outs sys k m)) (repeat [] (n_outs sys k m)) L (Lo t) Hd (repeat_length _ _) (repeat_length _ _))
    as (frags & recs & R & (B1 & B2) & Lr & Dec).
  assert (EL2 : L / ws * ws = L) by (pose proof (Nat.div_mod L ws ltac:(lia)); lia). rewrite EL2 in *. rewrite (app_nil_map _ frags B1) in R.
  exists frags, recs. split; [exact R|]. split; [split; [exact B1|intros i Hi; now apply B2]|].
  intros t' missing rdata rpar rps Hr Lrd Hn Hm Hp. destruct (HD t t') as (d' & Dd & Ed).
  destruct (Dec d' missing (repeat true k) rdata rpar rps (repeat [] k) (outd t') Dd Hr (fun _ => Lrd) (repeat_length _ _) (Lo' t') Hn Hp)
    as (outs & ps'' & R' & Lou & O).
  rewrite <- Ed, R'. cbn [option_map fst]. do 2 f_equal. apply nth_ext with (d := []) (d' := []); [rewrite Lou; symmetry; apply Hd|].
  intros j Hj. rewrite Lou in Hj. rewrite (O j Hj), nth_repeat, wanted_all by exact Hj. cbn [andb app].
  replace (sys && forallb (fun i => negb (nth i missing true)) (seq 0 k)) with false.
  - cbn [negb]. apply firstn_all2. rewrite (proj1 (proj2 Hd j Hj)). lia.
  - destruct sys; [|reflexivity]. cbn [andb]. symmetry. apply not_true_is_false. intros X. destruct (Hm eq_refl) as (i & Hi & Hmi).
    rewrite forallb_forall in X. specialize (X i ltac:(apply in_seq; lia)). rewrite Hmi in X. discriminate.
Qed.

(** ** C66: rs-fnt and rs-fnt-sys, on packets *)
Theorem C66_rs_fnt w sys ws k m pkt c xe es wc out j1 j2 wc1 ds L : fnt_object w sys ws k m pkt c ->
  (forall t, encoder_buffers c xe (es t) (wc t) (out t) /\ length (wc t) = k) ->
  (forall t, decoder_buffers c (j1 t) (j2 t) (wc1 t) (ds t) /\ length (wc1 t) = k) ->
  0 < L -> L mod ws = 0 -> runs_well (fnt_coder c xe es wc out j1 j2 wc1 ds) L (fun _ => True).
Proof.
  intros HO He Hd HL EL. assert (Hw : fnt_width w ws) by apply HO. assert (Hs : fnt_sizes ws k m) by apply HO.
  destruct (object_made w sys ws k m Hw Hs) as (cw & r & n & HP & _ & _ & H).
  destruct (made_parts _ _ _ _ _ _ _ _ _ (H _ _ HO)) as (CS & En & Esys & E1 & E2 & E3 & E4 & E5 & E6 & E7).
  apply runs; [|exact HL]. intros t data Hda. cbn [cd_k cd_enc cd_dec fnt_coder cd_sys cd_m] in *.
  assert (Enc : cd_nc (fnt_coder c xe es wc out j1 j2 wc1 ds) = n_outs sys k m) by (unfold cd_nc; cbn; rewrite Esys, E2, E3; reflexivity).
  rewrite Enc. rewrite Esys, E2, E3 in *.
  assert (R : exists P, streams_recovered sys P /\ forall missing, (sys = true -> exists j, j < k /\ nth j missing true = true) -> P k missing).
  { destruct sys.
    - exists (fun k missing => exists j, j < k /\ nth j missing true = true). split; [exact C03_systematic_partial|intros missing X; now apply X].
    - exists (fun _ _ => True). split; [exact C03_nonsystematic|intros; exact I]. }
  destruct R as (P & R & HPk). destruct (He t) as (He1 & Lwc).
  destruct (R w ws k m pkt pkt c c xe (es t) (wc t) (out t) data (repeat [] (n_outs sys k m)) (repeat [] (n_outs sys k m)) L HO HO He1 Lwc EL Hda
    (repeat_length _ _) (repeat_length _ _)) as (es' & frags & recs & RE & (B1 & B2) & Dec).
  rewrite (app_nil_map _ frags B1) in RE. exists frags, recs. rewrite RE. split; [reflexivity|].
  split; [split; [exact B1|intros i Hi; now apply B2]|]. intros t' missing rdata rpar rps Hr Lrd Hn Hm _. destruct (Hd t') as (Hd1 & Lwc1).
  destruct (Dec missing (repeat true k) rdata rpar rps (repeat [] k) (wc1 t') (ds t') (j1 t') (j2 t') Hd1 Lwc1 Hr (fun _ => Lrd)
    (repeat_length _ _) (HPk missing Hm) Hn) as (outs & ps'' & R' & Lou & O).
  rewrite R'. cbn [option_map fst]. do 2 f_equal. apply nth_ext with (d := []) (d' := []); [rewrite Lou; symmetry; apply Hda|].
  intros j Hj. rewrite Lou in Hj. rewrite (O j Hj), nth_repeat, wanted_all by exact Hj. reflexivity.
Qed.

(** ** C66: rs-nf4, on packets and on words *)
Theorem C66_rs_nf4 B w ws k m : In ws [2; 4; 8] -> nf4_type B w (ws / 2) -> In w [32; 64; 128]%N -> nf4_sizes k m ->
  exists c, nf4_new B w ws k m = Some c /\
  (forall nh pkt d b q L, nh <= 2 -> 0 < pkt -> 0 < L -> L mod ws = 0 -> (forall t, nf4_decoder c ws (d t)) ->
     (forall t, enc_buffers ws k (nf_n c) (nf4_penc nh c pkt ws) (b t)) -> (forall t, dec_buffers ws k (d t) (q t)) ->
     runs_well (p_coder k m (nf4_penc nh c pkt ws) d b q) L (fun _ => True)) /\
  let D := fun d => exists j1 j2 vs, length j1 = nf_n c /\ length j2 = nf_l2 c /\ nvs_len c vs /\ d = nf4_v c ws m j1 j2 vs in
  forall e d oute outd L, 0 < L -> L mod ws = 0 -> (forall t, D (e t) /\ D (d t) /\ length (oute t) = v_out (e t) /\ length (outd t) = k) ->
    runs_well (h_coder false k m e d oute outd) L (fun _ => True).
Proof.
  intros Hws HT Hw Hs. destruct (C55_nf4_partial B w ws k m Hws HT Hw Hs) as (c & Ec & HC). exists c. split; [exact Ec|].
  assert (W0 : 0 < ws) by (cbn in Hws; lia). split.
  - intros nh pkt d b q L Hnh Hpkt HL EL Dd Hb Hq. destruct (HC nh pkt Hnh Hpkt) as (_ & HS & _).
    apply runs; [|exact HL]. intros t data Hda. cbn [cd_k cd_enc cd_dec p_coder cd_sys cd_m] in *.
    change (cd_nc (p_coder k m (nf4_penc nh c pkt ws) d b q)) with (k + m).
    destruct (HS (b t) data (repeat [] (k + m)) (repeat [] (k + m)) L (Hb t) EL Hda (repeat_length _ _) (repeat_length _ _))
      as (frags & recs & RE & (B1 & B2) & Lr & Dec).
    rewrite (app_nil_map _ frags B1) in RE. exists frags, recs. rewrite RE. split; [reflexivity|].
    split; [split; [exact B1|intros i Hi; now apply B2]|]. intros t' missing rdata rpar rps Hr Lrd Hn Hm _.
    destruct (Dec (d t') (q t') missing (repeat true k) rpar rps (repeat [] k) rdata (Dd t') (Hq t') (repeat_length _ _) Hr Hn) as (ps'' & R').
    rewrite R'. cbn [option_map fst]. do 2 f_equal. apply nth_ext with (d := []) (d' := []); [rewrite map_length, seq_length; symmetry; apply Hda|].
    intros j Hj. rewrite map_length, seq_length in Hj. rewrite nth_map_seq by exact Hj. rewrite nth_repeat, wanted_all by exact Hj. reflexivity.
  - intros D e d oute outd L HL EL HD. destruct (C54_rs_nf4 B w ws k m Hws HT Hw Hs) as (c' & Ec' & HC'). rewrite Ec in Ec'. injection Ec' as <-.
    apply (h_runs false ws k m e d oute outd L (fun _ => D) (fun _ => True)); auto; try (intros t; apply HD).
    + intros t. apply HC'. apply HD.
    + intros t t'. exists (d t'). split; [apply HD|reflexivity].
Qed.

(** ** Cases *)
(** rs-nf4 with words of two bytes, two data chunks of six bytes and two parities, two samples: both decodings succeed.  With chunks
    of five bytes, that are accepted when the size of the packets is 0, the last byte is neither coded nor repaired, and decoding
    fails. *)
Definition b_vcode (c : nf4code) : vcode :=
  nf4_v c 2 2 (repeat 9%N (nf_n c)) (repeat 9%N (nf_l2 c)) (mkVscratch (repeat 1%N (nf_n c)) (repeat 2%N (nf_l2 c)) (repeat 3%N (nf_l2 c))).
Definition b_coder (c : nf4code) : coder :=
  h_coder false 2 2 (fun _ => b_vcode c) (fun _ => b_vcode c) (fun _ => repeat 6%N (nf_n c)) (fun _ => [5; 5]%N).
Definition b_shuf : list (list nat -> list nat) := [fun l => rev l; fun l => skipn 1 l ++ firstn 1 l; fun l => l].
Definition b_junk (n L : nat) : list (list N) := repeat (repeat 7%N L) n.

Example C66_case : In 2 [2; 4; 8] /\ nf4_type Plain 32 (2 / 2) /\ nf4_sizes 2 2 /\ shuffles b_shuf /\ possible false 2 4 b_shuf = 3 /\
  match nf4_new Plain 32 2 2 2 with
  | Some c =>
      match enc_dec (b_coder c) 6 2 (prng_new 12345 0) (bench_init (b_coder c) (b_junk 2 6) (b_junk 4 6) (b_junk 2 6) b_shuf) with
      | BTrue s => be_r s = be_d s /\ be_dec s = 2 /\ nth 0 (be_r s) [] <> nth 1 (be_r s) []
      | _ => False end
  | None => False end.
Proof.
  split; [cbn; auto|]. split; [unfold nf4_type; cbn; lia|]. split; [unfold nf4_sizes; cbn; lia|]. split; [|split; [reflexivity|]].
  - apply Forall_cons; [intros l; apply Permutation_rev|]. apply Forall_cons; [|apply Forall_cons; [reflexivity|constructor]].
    intros l. rewrite <- (firstn_skipn 1 l) at 1. apply Permutation_app_comm.
  - vm_compute. repeat split. discriminate.
Qed.

(** rs-fnt and rs-fnt-sys on packets of two words, with the object and the buffers of the cases of C01. *)
Example C66_fnt_case sys : shuffles b_shuf /\ possible sys 2 4 b_shuf = 3 /\
  let c := fnt_coder (case_fnt sys) (case_ctx sys) (fun _ => case_es) (fun _ => sevens 2 2) (fun _ => sevens (if sys then 2 else 4) 2)
             (fun _ => repeat 7%N 4) (fun _ => repeat 7%N 4) (fun _ => sevens 2 2) (fun _ => case_ds) in
  match dec_only c 6 3 (prng_new 12345 0) (bench_init c (b_junk 2 6) (b_junk (cd_nc c) 6) (b_junk 2 6) b_shuf) with
  | BTrue s => be_r s = be_d s /\ be_dec s = 3 | _ => False end.
Proof.
  split; [exact (proj1 (proj2 (proj2 (proj2 C66_case))))|]. destruct sys; vm_compute; auto.
Qed.

Theorem C66_tail_refuted : exists c L, on_packet TRsNf4 0 = false /\ check_params TRsNf4 4 2 4 0 (N.of_nat L) = Accepted (N.of_nat L) /\
  nf4_new Plain 32 2 2 2 = Some c /\
  exists s, enc_dec (b_coder c) L 1 (prng_new 12345 0) (bench_init (b_coder c) (b_junk 2 L) (b_junk 4 L) (b_junk 2 L) b_shuf) = BFalse s.
Proof.
  destruct (nf4_new Plain 32 2 2 2) as [c|] eqn:E; [|vm_compute in E; discriminate]. exists c, 5. split; [reflexivity|]. split; [reflexivity|].
  split; [reflexivity|]. vm_compute in E. injection E as <-. vm_compute. eexists. reflexivity.
Qed.

Print Assumptions C66_rs_fnt.
Print Assumptions C66_rs_nf4.
Print Assumptions C66_tail_refuted.
