(** Encoding and decoding packets with the code over NF4. *)
From Coq Require Import List NArith ZArith Arith Bool Lia.
From Verif.Model Require Import Common Arith Ring Fft2n Radix2 Poly Props Simd Fnt Nf4 VCodes.
From Verif.Spec Require Import Blocks Nf4 Code.
From Verif.Proof Require Import ListP Tac Kern SimdK Nf4L Param ParamO Nf4Sim Nf4Code Nf4Buf.
Import ListNotations.
Open Scope nat_scope.

Lemma fft_buf_len C T (S : symops C T) dC n dl rev W out input : length (fft_buf S dC n dl rev W out input) = length out.
Proof.
  assert (Hs : forall r a m b v, length (butterfly_ct_step S n r a m b v) = length v).
  { intros. unfold butterfly_ct_step. apply fold_length. intros. unfold butterfly_ct. now rewrite !set_length. }
  assert (Hc : forall fuel m v, length (snd (two_layers S dC fuel n W m v)) = length v).
  { induction fuel as [|f IH]; intros m v; cbn [two_layers]; auto. destruct (m <? n / 2); auto. rewrite IH.
    apply fold_length. intros v' j. unfold two_layers_step. cbv zeta. now rewrite !Hs. }
  unfold fft_buf. pose proof (Hc n (group_len n dl (length input)) (fft_scatter S n dl rev input out)) as H.
  destruct (two_layers _ _ _ _ _ _ _) as [m v]. cbn [snd] in H.
  assert (Hf : length (fft_scatter S n dl rev input out) = length out).
  { unfold fft_scatter. rewrite !fold_length; auto; intros; apply fold_length; intros; apply set_length. }
  destruct (m <? n); [|congruence]. rewrite fold_length; [congruence|]. intros. apply Hs.
Qed.

Lemma firstn_app_le A n (l m : list A) : n <= length l -> firstn n (l ++ m) = firstn n l.
Proof. intros H. rewrite firstn_app. replace (n - length l) with 0 by lia. cbn. apply app_nil_r. Qed.
Lemma mul_vec_len T (S : symops N T) h u src dest : length (mul_vec_to_vecp S h u src dest) = length dest.
Proof. unfold mul_vec_to_vecp. apply fold_length. intros. apply set_length. Qed.

Section Code.
Variables (c : nf4code) (c' : fnt) (cw : (nat -> N) -> nat -> N) (L L2 d : nat).
Hypothesis HS : nf4_sim c c' cw L L2 d.
Notation B := (nf_B c).
Notation w := (nf_w c).
Notation e := (nf_e c).
Notation k := (nf_k c).
Let HT := ns_T _ _ _ _ _ _ HS.
Let CS := ns_code _ _ _ _ _ _ HS.
Variables (nh pkt : nat).
Hypothesis Hnh : nh <= 2.
Hypothesis Hpkt : 0 < pkt.
Notation K := (nf4_kernels nh c pkt).
Notation S := (k_sym K).
Notation S1 := (sym_pkt F4 1).
Notation K1 := (plain S1).
Notation RP := (RP e pkt).

Lemma kern : kern_ok K /\ forall i t, i < e -> t < pkt -> psym e pkt i t S.
Proof.
  unfold nf4_kernels. destruct nh as [|n] eqn:En; [split; [apply plain_ok|intros; now apply psym_plain]|].
  destruct (N.eqb_spec w 32) as [Ew|Ew]; [|split; [apply plain_ok|intros; now apply psym_plain]].
  split; [apply simd_kern; auto; lia|]. intros i t Hi Ht. apply psym_simd; auto. lia.
Qed.
Let KO := proj1 kern.
Let PS := proj2 kern.

Section Lane.
Variables (i t : nat).
Hypothesis Hi : i < e.
Hypothesis Ht : t < pkt.
Let P := PS i t Hi Ht.
Let HR := py_rel _ _ _ _ _ P.
Notation R2 := (Forall2 (RP i t)).

Lemma rel_kfft f f' n D0 l l' out Lf ef : r2_rel e f f' -> r_n f' = n -> n = Nat.pow 2 Lf -> Lf < 32 -> ef <= Lf -> r_rev f' = init_bitrev n ->
  r_data_len f' = D0 -> Nat.max D0 (length l) = Nat.pow 2 ef -> length out = n -> R2 l l' ->
  R2 (k_fft K f out l) (k_fft K1 f' (repeat [0%N] n) l').
Proof.
  intros Hf En Ep HL He Er Ed Hm Lo Hr.
  rewrite (ko_fft K KO f Lf ef); [|rewrite (rr_n _ _ _ Hf); congruence|auto|rewrite (rr_dl _ _ _ Hf); congruence|congruence].
  cbn [k_fft plain]. unfold r2_fft_buf. rewrite (rr_n _ _ _ Hf), (rr_dl _ _ _ Hf), (rr_rev _ _ _ Hf), En, Er, Ed.
  assert (E : fft_buf S 0%N n D0 (init_bitrev n) (r_W f) out l = fft_buf S 0%N n D0 (init_bitrev n) (r_W f) (repeat (repeat 0%N pkt) n) l).
  { rewrite Ep. apply (fft_buf_out S 0%N Lf D0 ef); auto; rewrite ?repeat_length; congruence. }
  rewrite E. apply (rel_fft_buf (RC e) (RP i t) S S1 0%N 0%N (RC_0 e) HR); auto; [apply (rr_W _ _ _ Hf)|].
  apply rel_repeat. rewrite <- (py_zero _ _ _ _ _ P). apply (sr_zero _ _ _ _ HR).
Qed.
Lemma rel_kinv f f' n Lf out out' l l' : r2_rel e f f' -> r_n f' = n -> n = Nat.pow 2 Lf -> length out = n -> length out' = n -> length l = n -> R2 l l' ->
  R2 (k_fft_inv K f out l) (k_fft_inv K1 f' out' l').
Proof.
  intros Hf En Ep Lo Lo' Ll Hr. assert (Hp : 0 < Nat.pow 2 Lf) by (pose proof (Nat.pow_nonzero 2 Lf ltac:(discriminate)); lia).
  rewrite (ko_inv K KO f Lf); [|rewrite (rr_n _ _ _ Hf); congruence|congruence|lia]. cbn [k_fft_inv plain]. unfold r2_fft_inv_buf.
  rewrite (rr_n _ _ _ Hf), (rr_rev _ _ _ Hf), En. rewrite !fft_inv_full; auto; [|now rewrite <- (rel_len _ _ _ Hr)].
  apply rel_permute; [apply (sr_zero _ _ _ _ HR)|]. apply (rel_gs_layers (RC e) (RP i t) S S1 0%N 0%N (RC_0 e) HR); auto. apply (rr_iW _ _ _ Hf).
Qed.
Lemma kinv_len f out l : length out = r_n f -> length l = r_n f -> length (r2_fft_inv_buf S f out l) = r_n f.
Proof. intros Lo Ll. unfold r2_fft_inv_buf. rewrite fft_inv_full by auto. now rewrite permute_len, gs_layers_len. Qed.
Lemma rel_mulvec u u' src src' dst dst' : Forall2 (RC e) u u' -> R2 (firstn (length u) src) (firstn (length u) src') -> length u <= length dst -> length u <= length dst' ->
  R2 (firstn (length u) (mul_vec_to_vecp S (nf4_h w e) u src dst)) (firstn (length u) (mul_vec_to_vecp S1 65536 u' src' dst')).
Proof.
  intros Hu Hs Ld Ld'. pose proof (rel_len _ _ _ Hu) as Lu. rewrite (proj2 (mul_vec_rows _ S _ u src dst Ld)).
  rewrite Lu at 2. rewrite (proj2 (mul_vec_rows _ S1 _ u' src' dst' ltac:(lia))). rewrite <- Lu. apply rel_map. intros j Hj. apply in_seq in Hj.
  apply (mul_coef_rel B); auto; [apply rel_get; auto; apply RC_0|].
  assert (X : RP i t (get (s_zero S) (firstn (length u) src) j) (get (s_zero S1) (firstn (length u) src') j)).
  { apply rel_get; auto. apply (sr_zero _ _ _ _ HR). }
  unfold get in *. rewrite !nth_firstn in X. destruct (Nat.ltb_spec j (length u)); [exact X|lia].
Qed.
Lemma rel_negs l l' : R2 l l' -> R2 (neg_bufs S l) (neg_bufs S1 l').
Proof. intros H. unfold neg_bufs. apply (rel_maps (RP i t)); auto. apply (py_neg _ _ _ _ _ P). Qed.
End Lane.

(** The elements of symbol [t] of fragment [q], from those of the data. *)
Variable s : nat -> nat -> list N.
Hypothesis Hs : forall j t, j < k -> t < pkt -> elements e (s j t).
Definition lane (i t j : nat) : N := nth i (s j t) 0%N.
Definition pfrag (t q : nat) : list N := map (fun i => cw (lane i t) q) (seq 0 e).

Lemma lane_lt i t j : j < k -> t < pkt -> (lane i t j < 65537)%N.
Proof.
  intros Hj Ht. unfold lane. destruct (nth_in_or_default i (s j t) 0%N) as [Hin|E]; [|rewrite E; reflexivity].
  destruct (Hs j t Hj Ht) as [_ F]. rewrite Forall_forall in F. auto.
Qed.
Lemma card5 : g_card (c_G c') = 65537%N.
Proof. now rewrite (ns_G _ _ _ _ _ _ HS). Qed.
Lemma pfrag_el t q : elements e (pfrag t q).
Proof.
  split; [unfold pfrag; now rewrite map_length, seq_length|]. unfold pfrag. apply Forall_forall. intros x Hx. apply in_map_iff in Hx.
  destruct Hx as (i & <- & _). rewrite <- card5. apply (cs_lt _ _ CS).
Qed.

Lemma pencode_eq out : length out = nf_n c ->
  k_fft K (nf_fft c) out (pkts k pkt (fun j t => word32 (s j t))) = pkts (nf_n c) pkt (fun q t => word32 (pfrag t q)).
Proof.
  intros Lo. rewrite (ns_n _ _ _ _ _ _ HS) in *. destruct (ns_L _ _ _ _ _ _ HS) as [En HL]. destruct (ns_rn _ _ _ _ _ _ HS) as (N1 & N2 & N3).
  destruct (ns_d _ _ _ _ _ _ HS) as [Hd Hk]. pose proof (ns_k _ _ _ _ _ _ HS) as Ek.
  apply (lanes_pkts B w e pkt HT _ (fun i t q => cw (lane i t) q)); auto. intros i t Hi Ht.
  assert (Hf : frags c' (seq 0 (c_k c'))).
  { split; [apply seq_length|]. split; [apply seq_NoDup|]. intros q Hq. apply in_seq in Hq. pose proof (cs_n _ _ CS). pose proof (cs_m _ _ CS). lia. }
  destruct (cs_ctx _ _ CS _ (repeat 0%N (c_n c')) (repeat 0%N (c_l2 c')) Hf) as [xe Exe]; [apply repeat_length..|].
  assert (Ho : c_outlen c' = c_n c') by (unfold c_outlen; now rewrite (ns_sys _ _ _ _ _ _ HS)).
  destruct (cs_enc _ _ CS xe (repeat 0%N (c_n c')) (repeat 0%N (c_l2 c'))
    (mkEscratch (repeat [] (c_l2 c')) (repeat [] (c_max c')) (repeat [] (c_n c' - c_k c' - c_m c')))
    (repeat [0%N] (c_n c')) (fun j _ => lane i t j) Exe) as (es' & _ & E); auto using repeat_length.
  { split; [|split]; apply repeat_length. }
  { rewrite Ho. apply repeat_length. }
  { intros j _ Hj _. rewrite card5. apply lane_lt; auto. now rewrite (ns_k _ _ _ _ _ _ HS). }
  unfold encode_words in E. rewrite Ho in E. unfold out_pos in E. rewrite (ns_sys _ _ _ _ _ _ HS), (ns_K _ _ _ _ _ _ HS), (ns_pkt _ _ _ _ _ _ HS) in E.
  assert (E2 : k_fft K1 (c_fft c') (repeat [0%N] (c_n c')) (map (fun j => [lane i t j]) (seq 0 (c_k c'))) = map (fun q => [cw (lane i t) q]) (seq 0 (c_n c'))).
  { exact (f_equal (fun x => snd (fst x)) E). }
  rewrite <- E2. eapply (rel_kfft i t Hi Ht _ _ _ (Nat.pow 2 d) _ _ _ L d); eauto.
  - apply (ns_fft _ _ _ _ _ _ HS).
  - unfold pkts. rewrite map_length, seq_length. lia.
  - rewrite <- Ek. apply (pkts_rel e pkt i t _ s); auto.
Qed.

Section Dec.
Variables (ids : list nat) (junk1 junk2 : list N) (x : ctx).
Hypothesis Hf : frags c' ids.
Hypothesis J1 : length junk1 = nf_n c.
Hypothesis J2 : length junk2 = nf_l2 c.
Hypothesis Ex : nf4_ctx c ids junk1 junk2 = Some x.

Lemma invA_len x' j1 j2 : ctx_new c' ids j1 j2 = Some x' -> length (x_invA x') = c_k c'.
Proof.
  unfold ctx_new. cbv zeta. destruct (ctx_A _ _ _); [|discriminate]. destruct (poly_derivative _ _ _); [|discriminate].
  intros E. injection E as <-. cbn [x_invA]. rewrite map_length, combine_length, map_length. destruct Hf as [-> _]. apply Nat.min_id.
Qed.

Lemma pdecode_eq b1 mx : length b1 = nf_l2 c -> length mx = Nat.max (nf_n c) (nf_l2 c) ->
  exists b1' mx', nf4_apply_buf nh c pkt x b1 mx (pkts k pkt (fun j t => word32 (pfrag t (nth j ids 0)))) = (b1', mx') /\
    length b1' = nf_l2 c /\ length mx' = Nat.max (nf_n c) (nf_l2 c) /\ firstn k mx' = pkts k pkt (fun j t => word32 (s j t)).
Proof.
  intros Lb Lm. rewrite (l2_eq _ _ _ _ _ _ HS) in Lb, Lm, J2 |- *. rewrite (ns_n _ _ _ _ _ _ HS) in Lm, J1 |- *. rewrite (ns_k _ _ _ _ _ _ HS).
  destruct (ns_L _ _ _ _ _ _ HS) as [En HL]. destruct (ns_rn _ _ _ _ _ _ HS) as (N1 & N2 & N3).
  destruct (ns_L2 _ _ _ _ _ _ HS) as [En2 HL2]. destruct (ns_rn2 _ _ _ _ _ _ HS) as (M2 & M3). pose proof (ns_kl2 _ _ _ _ _ _ HS) as Hkl.
  pose proof (cs_n _ _ CS) as Hkn. pose proof (ns_fft _ _ _ _ _ _ HS) as Rf. pose proof (ns_fft2 _ _ _ _ _ _ HS) as Rf2.
  assert (Nf : r_n (nf_fft c) = c_n c') by (rewrite (rr_n _ _ _ Rf); exact N1).
  assert (Nf2 : r_n (nf_fft2k c) = c_l2 c') by (rewrite (rr_n _ _ _ Rf2); reflexivity).
  destruct (ctx_sim c c' cw L L2 d HS ids junk1 junk2 Hf J1 J2) as (x0 & x' & Ex0 & Ex' & X1 & X2 & X3).
  assert (x0 = x) by congruence. subst x0.
  assert (LI' : length (x_invA x') = c_k c') by exact (invA_len _ _ _ Ex').
  assert (LI : length (x_invA x) = c_k c') by (rewrite (rel_len _ _ _ X2); exact LI').
  assert (LA' : length (x_A2k x') = c_l2 c') by (rewrite (A2k_len c' _ _ _ _ Ex'); apply repeat_length).
  assert (LA : length (x_A2k x) = c_l2 c') by (rewrite (rel_len _ _ _ X3); exact LA').
  set (words := pkts (c_k c') pkt (fun j t => word32 (pfrag t (nth j ids 0)))).
  unfold nf4_apply_buf. cbv zeta. rewrite (l2_eq _ _ _ _ _ _ HS), (ns_n _ _ _ _ _ _ HS), (ns_k _ _ _ _ _ _ HS).
  set (b1a := mul_vec_to_vecp S (nf4_h w e) (x_invA x) words b1).
  set (sh := shuffle (s_zero S) (x_ids x) (c_n c') (firstn (c_k c') b1a)).
  set (fi := k_fft_inv K (nf_fft c) (firstn (c_n c') mx) sh).
  set (mx1 := fi ++ skipn (c_n c') mx).
  set (b2 := k_fft K (nf_fft2k c) b1a (firstn (c_k c') mx1)).
  set (b3 := mul_vec_to_vecp S (nf4_h w e) (x_A2k x) b2 b2).
  set (fv := r2_ifft_buf K (nf4_h w e) (nf_fft2k c) (firstn (c_l2 c') mx1) b3).
  set (mx2 := fv ++ skipn (c_l2 c') mx1).
  assert (Lb1a : length b1a = c_l2 c') by (unfold b1a; rewrite mul_vec_len; auto).
  assert (Lsh : length sh = c_n c').
  { unfold sh, shuffle. rewrite fold_set_len. apply repeat_length. }
  assert (Lfn : length (firstn (c_n c') mx) = c_n c') by (rewrite firstn_length; lia).
  assert (Lfi : length fi = c_n c').
  { unfold fi. rewrite (ko_inv K KO _ L) by (congruence || (rewrite Lsh; pose proof (cs_k _ _ CS); lia)). rewrite kinv_len; auto; congruence. }
  assert (Lmx1 : length mx1 = c_max c') by (unfold mx1, c_max; rewrite app_length, skipn_length; lia).
  assert (Lk : length (firstn (c_k c') mx1) = c_k c') by (rewrite firstn_length; unfold c_max in Lmx1; lia).
  assert (Lb2 : length b2 = c_l2 c').
  { unfold b2. rewrite (ko_fft K KO _ L2 L2).
    - unfold r2_fft_buf. rewrite fft_buf_len. exact Lb1a.
    - congruence.
    - lia.
    - rewrite (rr_dl _ _ _ Rf2), M3, Lk, <- En2. lia.
    - congruence. }
  assert (Lb3 : length b3 = c_l2 c') by (unfold b3; rewrite mul_vec_len; auto).
  assert (Ll2 : length (firstn (c_l2 c') mx1) = c_l2 c') by (rewrite firstn_length; unfold c_max in Lmx1; lia).
  set (fv0 := k_fft_inv K (nf_fft2k c) (firstn (c_l2 c') mx1) b3).
  assert (Lfv0 : length fv0 = c_l2 c').
  { unfold fv0. rewrite (ko_inv K KO _ L2) by (congruence || (rewrite Lb3; pose proof (cs_k _ _ CS); lia)). rewrite kinv_len; auto; congruence. }
  assert (Lrep : length (repeat (r_inv_n (nf_fft2k c)) (r_n (nf_fft2k c))) = c_l2 c') by (rewrite repeat_length; exact Nf2).
  assert (Lfv : length fv = c_l2 c').
  { unfold fv, r2_ifft_buf. cbv zeta. fold fv0. rewrite mul_vec_len. exact Lfv0. }
  assert (Lmx2 : length mx2 = c_max c') by (unfold mx2; rewrite app_length, skipn_length; unfold c_max in *; lia).
  eexists. eexists. split; [reflexivity|]. split; [exact Lb3|]. split.
  { rewrite app_length. unfold neg_bufs. rewrite map_length, firstn_length, skipn_length. unfold c_max in *. lia. }
  rewrite firstn_app_le by (unfold neg_bufs; rewrite map_length, firstn_length; unfold c_max in *; lia).
  rewrite firstn_all2 by (unfold neg_bufs; rewrite map_length, firstn_length; lia).
  unfold mx2. rewrite firstn_app_le by lia.
  assert (Fin : forall i t, i < e -> t < pkt -> Forall2 (RP i t) (neg_bufs S (firstn (c_k c') fv)) (map (fun j => [lane i t j]) (seq 0 (c_k c')))).
  { intros i t Hi Ht.
    set (ds := mkDscratch (repeat [0%N] (c_l2 c')) (repeat [0%N] (c_max c')) (repeat [0%N] (c_n c'))).
    destruct (cs_dec _ _ CS x' ids _ _ ds (fun j _ => lane i t j) Ex' Hf) as [Xi D]; auto using repeat_length.
    { split; [|split]; apply repeat_length. }
    { intros j _ Hj _. rewrite card5. apply lane_lt; auto. now rewrite (ns_k _ _ _ _ _ _ HS). }
    cbv zeta in D. destruct D as [_ D]. rewrite (ns_K _ _ _ _ _ _ HS), (ns_pkt _ _ _ _ _ _ HS) in D. unfold decode_words, decode_apply, decode_tail in D.
    cbv zeta in D. rewrite (ns_sys _ _ _ _ _ _ HS) in D. cbn [d_mx d_b1 ds k_sym k_fft k_fft_inv plain] in D. unfold c_h in D. rewrite card5 in D. change (65537 - 1)%N with 65536%N in D.
    set (words' := pkts (c_k c') 1 (fun j _ => cw (fun j => lane i t j) (nth j ids 0))) in D.
    set (b1a' := mul_vec_to_vecp S1 65536 (x_invA x') words' (repeat [0%N] (c_l2 c'))) in D.
    set (sh' := shuffle (s_zero S1) (x_ids x') (c_n c') (firstn (c_k c') b1a')) in D.
    set (fi' := r2_fft_inv_buf S1 (c_fft c') (firstn (c_n c') (repeat [0%N] (c_max c'))) sh') in D.
    set (mx1' := fi' ++ skipn (c_n c') (repeat [0%N] (c_max c'))) in D.
    set (b2' := r2_fft_buf S1 (c_fft2k c') b1a' (firstn (c_k c') mx1')) in D.
    set (b3' := mul_vec_to_vecp S1 65536 (x_A2k x') b2' b2') in D.
    set (fv' := r2_ifft_buf K1 65536 (c_fft2k c') (firstn (c_l2 c') mx1') b3') in D.
    set (mx2' := fv' ++ skipn (c_l2 c') mx1') in D.
    assert (Lb1a' : length b1a' = c_l2 c').
    { unfold b1a'. rewrite mul_vec_len. apply repeat_length. }
    assert (Hz : RP i t (s_zero S) (s_zero S1)) by apply (sr_zero _ _ _ _ (py_rel _ _ _ _ _ (PS i t Hi Ht))).
    assert (R1 : Forall2 (RP i t) (firstn (c_k c') b1a) (firstn (c_k c') b1a')).
    { rewrite <- LI. apply rel_mulvec; auto; [|lia|rewrite repeat_length; lia].
      apply rel_firstn. assert (Q := pkts_rel e pkt i t words (fun q t => pfrag t (nth q ids 0)) (c_k c') (fun q t _ _ => pfrag_el t _) Hi Ht eq_refl).
      replace words' with (map (fun q => [nth i (pfrag t (nth q ids 0)) 0%N]) (seq 0 (c_k c'))); [exact Q|].
      apply map_ext. intros q. unfold pfrag. rewrite nth_map_seq by auto. reflexivity. }
    assert (R2 : Forall2 (RP i t) sh sh') by (unfold sh, sh'; rewrite X1; now apply rel_shuffle).
    assert (Lf' : length (firstn (c_n c') (repeat [0%N] (c_max c'))) = c_n c') by (rewrite firstn_length, repeat_length; unfold c_max; lia).
    assert (R3 : Forall2 (RP i t) fi fi') by (apply (rel_kinv i t Hi Ht _ _ (c_n c') L); auto).
    assert (Lfi' : length fi' = c_n c') by (rewrite <- (rel_len _ _ _ R3); auto).
    assert (R4 : Forall2 (RP i t) (firstn (c_k c') mx1) (firstn (c_k c') mx1')).
    { unfold mx1, mx1'. rewrite !firstn_app_le by lia. now apply rel_firstn. }
    assert (Ed : b2' = r2_fft_buf S1 (c_fft2k c') (repeat [0%N] (c_l2 c')) (firstn (c_k c') mx1')).
    { unfold b2', r2_fft_buf. rewrite M2, M3. fold (c_l2 c'). rewrite En2. apply (fft_buf_out S1 0%N L2 _ L2); auto; rewrite ?repeat_length; auto; try congruence.
      rewrite <- (rel_len _ _ _ R4), Lk, <- En2. lia. }
    assert (R5 : Forall2 (RP i t) b2 b2').
    { rewrite Ed. apply (rel_kfft i t Hi Ht (nf_fft2k c) (c_fft2k c') (c_l2 c') (c_l2 c') _ _ _ L2 L2); auto. rewrite Lk, <- En2. lia. }
    assert (Lb2' : length b2' = c_l2 c') by (rewrite <- (rel_len _ _ _ R5); auto).
    assert (Lb3' : length b3' = c_l2 c') by (unfold b3'; rewrite mul_vec_len; auto).
    assert (R6 : Forall2 (RP i t) b3 b3').
    { rewrite <- (firstn_all b3), <- (firstn_all b3'), Lb3, Lb3', <- LA. apply rel_mulvec; auto; try lia. now apply rel_firstn. }
    assert (Lmx1' : length mx1' = c_max c').
    { unfold mx1'. rewrite app_length, skipn_length, repeat_length, Lfi'. unfold c_max. lia. }
    assert (R7 : Forall2 (RP i t) fv0 (r2_fft_inv_buf S1 (c_fft2k c') (firstn (c_l2 c') mx1') b3')).
    { apply (rel_kinv i t Hi Ht _ _ (c_l2 c') L2); auto. rewrite firstn_length, Lmx1'. unfold c_max. lia. }
    assert (R8 : Forall2 (RP i t) fv fv').
    { rewrite <- (firstn_all fv), Lfv, <- Lrep.
      assert (Lr' : length (repeat (r_inv_n (c_fft2k c')) (r_n (c_fft2k c'))) = c_l2 c') by (rewrite repeat_length; reflexivity).
      assert (Lfv0' : length (r2_fft_inv_buf S1 (c_fft2k c') (firstn (c_l2 c') mx1') b3') = c_l2 c') by (rewrite <- (rel_len _ _ _ R7); auto).
      assert (Lfv' : length fv' = c_l2 c').
      { unfold fv', r2_ifft_buf. cbv zeta. cbn [k_sym k_fft_inv plain]. rewrite mul_vec_len. exact Lfv0'. }
      rewrite <- (firstn_all fv'), Lfv', <- Lrep. unfold fv, fv', r2_ifft_buf. cbv zeta. cbn [k_sym k_fft_inv plain]. fold fv0.
      apply rel_mulvec; auto; try lia; [|now apply rel_firstn]. rewrite Nf2. apply rel_repeat. apply (rr_in _ _ _ Rf2). }
    assert (Lfv' : length fv' = c_l2 c') by (rewrite <- (rel_len _ _ _ R8); auto).
    assert (Lm2 : length mx2' = c_max c').
    { unfold mx2'. rewrite app_length, skipn_length, Lmx1', Lfv'. unfold c_max. lia. }
    rewrite firstn_app_le in D by (unfold neg_bufs; rewrite map_length, firstn_length; unfold c_max in *; lia).
    rewrite firstn_all2 in D by (unfold neg_bufs; rewrite map_length, firstn_length; lia).
    unfold mx2' in D. rewrite firstn_app_le in D by lia.
    change (map (fun j => [lane i t j]) (seq 0 (c_k c'))) with (pkts (c_k c') 1 (fun j _ => lane i t j)). rewrite <- D.
    apply rel_negs; auto. now apply rel_firstn. }
  rewrite (lanes_pkts B w e pkt HT _ (fun i t j => lane i t j) (c_k c') Hpkt Fin). unfold pkts. apply map_ext_in. intros j Hj. apply in_seq in Hj.
  apply map_ext_in. intros t Ht. apply in_seq in Ht. f_equal. unfold lane. rewrite <- (ns_k _ _ _ _ _ _ HS) in Hj.
  destruct (Hs j t ltac:(lia) ltac:(lia)) as [Le _]. apply (list_ext _ 0%N); [now rewrite map_length, seq_length|].
  intros i Hi. rewrite map_length, seq_length in Hi. now rewrite nth_map_seq.
Qed.
End Dec.
End Code.
