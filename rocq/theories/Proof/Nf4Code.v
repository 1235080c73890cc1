(** Decoding context and transforms of the code over NF4, from those of the code over GF(65537). *)
From Coq Require Import List NArith ZArith Arith Bool Lia.
From Verif.Model Require Import Common Arith Ring Fft2n Radix2 Poly Props Fnt Nf4.
From Verif.Spec Require Import Blocks Nf4 Code.
From Verif.Proof Require Import ListP Tac Nf4L Param ParamO Nf4Sim.
Import ListNotations.
Open Scope nat_scope.

Lemma fold_set_len A I (l : list I) (p : I -> nat) (v : list A -> I -> A) : forall b,
  length (fold_left (fun b i => set b (p i) (v b i)) l b) = length b.
Proof. induction l as [|i l IH]; intros b; cbn [fold_left]; auto. rewrite IH. apply set_length. Qed.
Lemma poly_set_len G q j c q' : poly_set G q j c = Some q' -> length (p_buf q') = length (p_buf q).
Proof. unfold poly_set. destruct (_ && _); [|discriminate]. intros E. injection E as <-. apply set_length. Qed.
Lemma mul_x_len G q c q' : poly_mul_to_x_plus_coef G q c = Some q' -> length (p_buf q') = length (p_buf q).
Proof.
  unfold poly_mul_to_x_plus_coef. cbv zeta. destruct (_ || _); [discriminate|]. intros E. apply poly_set_len in E. rewrite E.
  cbn [p_buf]. rewrite set_length. apply (fold_set_len _ _ _ (fun i => i)).
Qed.
Lemma derivative_len G p q q' : poly_derivative G p q = Some q' -> length (p_buf q') = length (p_buf q).
Proof.
  unfold poly_derivative. cbv zeta. destruct (_ <? _)%Z; [discriminate|]. intros E. injection E as <-. cbn [p_buf]. rewrite set_length.
  apply (fold_set_len _ _ _ (fun i => i - 1)).
Qed.
Lemma ctx_A_len G n vx q : ctx_A G n vx = Some q -> length (p_buf q) = n.
Proof.
  unfold ctx_A. assert (H0 : forall o, poly_set G (poly_zero n) 0 1 = o -> forall q', o = Some q' -> length (p_buf q') = n).
  { intros o E q' ->. apply poly_set_len in E. rewrite E. apply repeat_length. }
  specialize (H0 _ eq_refl). revert H0. generalize (poly_set G (poly_zero n) 0 1). induction vx as [|x vx IH]; intros o Ho E; cbn [fold_left] in E; auto.
  revert E. apply IH. intros q' E. destruct o as [q0|]; [|discriminate]. apply mul_x_len in E. rewrite E. auto.
Qed.
Lemma pow_split L d : d <= L -> Nat.pow 2 d <= Nat.pow 2 L.
Proof. apply Nat.pow_le_mono_r. discriminate. Qed.

Record nf4_sim (c : nf4code) (c' : fnt) (cw : (nat -> N) -> nat -> N) (L L2 d : nat) : Prop := Nf4Sim {
  ns_T : nf4_type (nf_B c) (nf_w c) (nf_e c);
  ns_k : nf_k c = c_k c';
  ns_n : nf_n c = c_n c';
  ns_G : c_G c' = F4;
  ns_r : RC (nf_e c) (nf_r c) (c_r c');
  ns_pow : c_rpow c' = map (fun i => g_exp F4 (c_r c') (N.of_nat i)) (seq 0 (c_n c'));
  ns_fft : r2_rel (nf_e c) (nf_fft c) (c_fft c');
  ns_fft2 : r2_rel (nf_e c) (nf_fft2k c) (c_fft2k c');
  ns_had : c_had c' = map2 (g_mul F4);
  ns_sys : c_sys c' = false;
  ns_L : c_n c' = Nat.pow 2 L /\ L < 32;
  ns_rn : r_n (c_fft c') = c_n c' /\ r_rev (c_fft c') = init_bitrev (c_n c') /\ r_data_len (c_fft c') = Nat.pow 2 d;
  ns_d : d <= L /\ c_k c' <= Nat.pow 2 d;
  ns_L2 : c_l2 c' = Nat.pow 2 L2 /\ L2 < 32;
  ns_rn2 : r_rev (c_fft2k c') = init_bitrev (c_l2 c') /\ r_data_len (c_fft2k c') = c_l2 c';
  ns_kl2 : c_k c' <= c_l2 c';
  ns_K : c_K c' = plain (sym_pkt F4 1);
  ns_pkt : c_pkt c' = 1;
  ns_code : code_spec c' cw
}.

Section Code.
Variables (c : nf4code) (c' : fnt) (cw : (nat -> N) -> nat -> N) (L L2 d : nat).
Hypothesis H : nf4_sim c c' cw L L2 d.
Notation B := (nf_B c).
Notation w := (nf_w c).
Notation e := (nf_e c).
Notation G := (nf_G c).
Notation RC := (RC e).
Notation RT := (RT e).
Let HT := ns_T _ _ _ _ _ _ H.

Lemma l2_eq : nf_l2 c = c_l2 c'.
Proof. unfold nf_l2, c_l2. apply (rr_n _ _ _ (ns_fft2 _ _ _ _ _ _ H)). Qed.
Lemma n_lt : (N.of_nat (c_n c') < 2 ^ 32)%N.
Proof.
  destruct (ns_L _ _ _ _ _ _ H) as [-> HL]. rewrite Nat2N.inj_pow. apply N.pow_lt_mono_r; lia.
Qed.

Section Rel.
Variable R : N -> N -> Prop.
Hypothesis HS : sym_rel RC R (sym_vec G) (sym_vec F4).
Let R0 : R 0%N 0%N. Proof. exact (sr_zero RC R _ _ HS). Qed.

(** The transforms, whatever the output holds before. *)
Lemma rel_fft1 out l l' : length out = c_n c' -> length l <= Nat.pow 2 d \/ length l = c_n c' -> Forall2 R l l' ->
  Forall2 R (r2_fft_vec (sym_vec G) (nf_fft c) out l) (r2_fft_vec (sym_vec F4) (c_fft c') (repeat 0%N (c_n c')) l').
Proof.
  intros Ho Hl Hr. destruct (ns_L _ _ _ _ _ _ H) as [En HL]. destruct (ns_rn _ _ _ _ _ _ H) as (N1 & N2 & N3).
  destruct (ns_d _ _ _ _ _ _ H) as [Hd Hk]. pose proof (ns_fft _ _ _ _ _ _ H) as Hf.
  assert (E : r2_fft_vec (sym_vec G) (nf_fft c) out l = r2_fft_vec (sym_vec G) (nf_fft c) (repeat 0%N (c_n c')) l).
  { unfold r2_fft_vec. rewrite (rr_n _ _ _ Hf), (rr_dl _ _ _ Hf), (rr_rev _ _ _ Hf), N1, N2, N3, En.
    pose proof (pow_split L d Hd). destruct Hl as [Hl|Hl].
    - apply (fft_vec_out _ _ _ _ _ _ d); auto; rewrite ?repeat_length; auto; try congruence. lia.
    - apply (fft_vec_out _ _ _ _ _ _ L); auto; rewrite ?repeat_length; auto; try congruence. rewrite Hl, En. lia. }
  rewrite E. apply (rel_r2_fft B w e); auto. apply rel_repeat. exact R0.
Qed.
Lemma rel_fft2 out l l' : length out = c_l2 c' -> length l = c_l2 c' -> Forall2 R l l' ->
  Forall2 R (r2_fft_vec (sym_vec G) (nf_fft2k c) out l) (r2_fft_vec (sym_vec F4) (c_fft2k c') (repeat 0%N (c_l2 c')) l').
Proof.
  intros Ho Hl Hr. destruct (ns_L2 _ _ _ _ _ _ H) as [En HL]. destruct (ns_rn2 _ _ _ _ _ _ H) as (N2 & N3).
  pose proof (ns_fft2 _ _ _ _ _ _ H) as Hf.
  assert (E : r2_fft_vec (sym_vec G) (nf_fft2k c) out l = r2_fft_vec (sym_vec G) (nf_fft2k c) (repeat 0%N (c_l2 c')) l).
  { unfold r2_fft_vec. rewrite (rr_n _ _ _ Hf), (rr_dl _ _ _ Hf), (rr_rev _ _ _ Hf), N2, N3. fold (c_l2 c'). rewrite En.
    apply (fft_vec_out _ _ _ _ _ _ L2); auto; rewrite ?repeat_length; auto; try congruence. rewrite Hl, En. lia. }
  rewrite E. apply (rel_r2_fft B w e); auto. apply rel_repeat. exact R0.
Qed.
End Rel.

(** ** Context *)
Definition ctx_rel (x x' : ctx) : Prop := x_ids x = x_ids x' /\ Forall2 RC (x_invA x) (x_invA x') /\ Forall2 RC (x_A2k x) (x_A2k x').

Lemma rel_combine ids : forall l l', Forall2 RC l l' -> Forall2 (fun (a b : nat * N) => fst a = fst b /\ RC (snd a) (snd b)) (combine ids l) (combine ids l').
Proof. induction ids as [|i ids IH]; intros l l' Hl; cbn [combine]; [constructor|]. destruct Hl; constructor; auto. Qed.

Lemma ctx_sim ids junk1 junk2 : frags c' ids -> length junk1 = c_n c' -> length junk2 = c_l2 c' ->
  exists x x', nf4_ctx c ids junk1 junk2 = Some x /\ ctx_new c' ids (repeat 0%N (c_n c')) (repeat 0%N (c_l2 c')) = Some x' /\ ctx_rel x x'.
Proof.
  intros Hf J1 J2. destruct (cs_ctx _ _ (ns_code _ _ _ _ _ _ H) ids (repeat 0%N (c_n c')) (repeat 0%N (c_l2 c'))) as [x' Ex']; auto using repeat_length.
  pose proof Ex' as E0. unfold ctx_new in Ex'. rewrite (ns_G _ _ _ _ _ _ H) in Ex'. cbv zeta in Ex'.
  assert (Hv : Forall2 RC (map (fun i => nf4_exp B w e (nf_r c) (replicate w e (N.of_nat i))) ids) (map (get 0%N (c_rpow c')) ids)).
  { apply rel_map. intros i Hi. destruct Hf as (_ & _ & Hf). specialize (Hf i Hi). rewrite (ns_pow _ _ _ _ _ _ H).
    unfold get. rewrite (nth_indep _ 0%N (g_exp F4 (c_r c') (N.of_nat 0))) by (now rewrite map_length, seq_length).
    rewrite (map_nth (fun i => g_exp F4 (c_r c') (N.of_nat i))), seq_nth by auto. cbn [Nat.add].
    apply exp_RC; [exact HT|exact (ns_r _ _ _ _ _ _ H)|]. pose proof n_lt. lia. }
  pose proof (rel_ctx_A B w e HT (c_n c') _ _ Hv) as HA. unfold nf4_ctx, nf4_ctx_A. cbv zeta. rewrite (ns_n _ _ _ _ _ _ H).
  set (vx := map (fun i => nf4_exp B w e (nf_r c) (replicate w e (N.of_nat i))) ids) in *.
  set (vy := map (get 0%N (c_rpow c')) ids) in *.
  change (nf_G c) with (nf4_ops B w e).
  destruct (fold_left _ vx _) as [A|] eqn:EA; destruct (ctx_A F4 (c_n c') vy) as [A'|] eqn:EA'; cbn [orel] in HA; try contradiction; [|discriminate].
  pose proof (rel_derivative B w e HT A A' HA) as HD. change (g_card F4) with 65537%N in Ex'.
  destruct (poly_derivative_nf4 B w e A) as [D|]; destruct (poly_derivative F4 65537 A') as [D'|] eqn:ED; cbn [orel] in HD; try contradiction; [|discriminate].
  injection Ex' as <-. eexists. eexists. split; [reflexivity|]. split; [exact E0|].
  pose proof (ctx_A_len _ _ _ _ EA') as LA. pose proof (derivative_len _ _ _ _ ED) as LD.
  destruct HA as [_ HA], HD as [_ HD]. split; [reflexivity|]. cbn [x_invA x_A2k]. split.
  - apply (rel_maps (fun (a b : nat * N) => fst a = fst b /\ RC (snd a) (snd b))); [|now apply rel_combine].
    intros [j x] [j' y] [E Hx]. cbn [fst snd] in *. subst j'. apply (inv_RC B w e HT). apply (mul_RC B w e HT); auto. apply rel_get; [apply RC_0|].
    apply rel_fft1; auto; [now apply sym_RC|]. right. rewrite (rel_len _ _ _ HD). congruence.
  - apply rel_fft2; auto; [now apply sym_RC|rewrite map_length, seq_length; apply l2_eq|]. rewrite l2_eq.
    apply rel_map. intros i _. apply rel_get; auto. apply RC_0.
Qed.

Lemma A2k_len ids junk1 junk2 x : ctx_new c' ids junk1 junk2 = Some x -> length (x_A2k x) = length junk2.
Proof.
  unfold ctx_new. cbv zeta. destruct (ctx_A _ _ _); [|discriminate]. destruct (poly_derivative _ _ _); [|discriminate].
  intros E. injection E as <-. apply fft_vec_length.
Qed.

(** ** Decoding *)
Lemma apply_sim i x x' vs vs' words words' : i < e -> ctx_rel x x' -> length (x_A2k x') = c_l2 c' ->
  length (v_n2 vs) = length (v_n2 vs') -> length (v_2k1 vs) = c_l2 c' -> length (v_2k2 vs) = length (v_2k2 vs') -> v_2k1 vs' = repeat 0%N (c_l2 c') ->
  vs_ok c' (fst (decode_apply_vec c' x' vs' words')) -> Forall2 (RT i) words words' ->
  let r := nf4_apply c x vs words in let r' := decode_apply_vec c' x' vs' words' in
  Forall2 (RT i) (snd r) (snd r') /\ vs_ok c' (fst r).
Proof.
  intros Hi (X1 & X2 & X3) LA L1 L22 L3 L4 Hv Hw. pose proof (sym_RT B w e HT i Hi) as HS.
  pose proof (fun n => rel_repeat (RT i) _ _ n (RT_0 e i Hi)) as HZ.
  assert (RR : forall a b, Forall2 RC a b -> Forall2 (RT i) a b) by (intros a b HR; induction HR; constructor; auto; now apply RC_RT).
  unfold decode_apply_vec in *. rewrite (ns_G _ _ _ _ _ _ H), (ns_had _ _ _ _ _ _ H) in *. cbv zeta in *. cbn [fst snd] in *. unfold nf4_apply. cbv zeta.
  rewrite l2_eq, (ns_n _ _ _ _ _ _ H), (ns_k _ _ _ _ _ _ H). change (nf_G c) with (nf4_ops B w e).
  set (n1 := shuffle 0%N (x_ids x) (c_n c') (map2 (g_mul (nf4_ops B w e)) words (x_invA x))).
  set (n1' := shuffle 0%N (x_ids x') (c_n c') (map2 (g_mul F4) words' (x_invA x'))) in *.
  assert (R1 : Forall2 (RT i) n1 n1').
  { unfold n1, n1'. rewrite X1. apply rel_shuffle; [now apply RT_0|]. apply (rel_map2 (RT i) (RT i)); auto. intros; now apply mul_RT. }
  set (n2 := r2_fft_inv_vec (sym_vec (nf4_ops B w e)) (nf_fft c) (v_n2 vs) n1).
  set (n2' := r2_fft_inv_vec (sym_vec F4) (c_fft c') (v_n2 vs') n1') in *.
  assert (R2 : Forall2 (RT i) n2 n2') by (apply (rel_r2_fft_inv B w e); auto; apply (ns_fft _ _ _ _ _ _ H)).
  set (q := firstn (c_k c') n2 ++ repeat 0%N (c_l2 c' - c_k c')).
  set (q' := firstn (c_k c') n2' ++ repeat 0%N (c_l2 c' - c_k c')) in *.
  assert (R3 : Forall2 (RT i) q q') by (apply rel_app; auto; now apply rel_firstn).
  destruct Hv as (V1 & V2 & V3). cbn [v_n2 v_2k1 v_2k2] in *.
  pose proof (cs_n _ _ (ns_code _ _ _ _ _ _ H)) as Hkn. pose proof (ns_kl2 _ _ _ _ _ _ H) as Hkl.
  assert (Lq : length q = c_l2 c').
  { unfold q. rewrite app_length, firstn_length, repeat_length, (rel_len _ _ _ R2), V1. lia. }
  set (a := nf4_hadamard B w e (r2_fft_vec (sym_vec (nf4_ops B w e)) (nf_fft2k c) (v_2k1 vs) q) (x_A2k x)).
  set (a' := map2 (g_mul F4) (r2_fft_vec (sym_vec F4) (c_fft2k c') (v_2k1 vs') q') (x_A2k x')) in *.
  assert (R4 : Forall2 (RT i) a a').
  { assert (R4 : Forall2 (RT i) (r2_fft_vec (sym_vec (nf4_ops B w e)) (nf_fft2k c) (v_2k1 vs) q) (r2_fft_vec (sym_vec F4) (c_fft2k c') (v_2k1 vs') q')).
    { rewrite L4. apply rel_fft2; auto. }
    unfold a. rewrite (nf4_hadamard_mul w e B).
    - apply (rel_map2 (RT i) (RT i)); auto. intros; now apply mul_RT.
    - exact HT.
    - clear -R4. induction R4; constructor; auto. eapply RT_valid; eauto.
    - clear -X3. induction X3; constructor; auto. eapply RC_valid; eauto.
    - unfold r2_fft_vec. rewrite fft_vec_length, (rel_len _ _ _ X3), LA. exact L22. }
  set (b := map (g_neg (nf4_ops B w e)) (r2_ifft_vec (nf4_ops B w e) (nf_fft2k c) (v_2k2 vs) a)).
  set (b' := map (g_neg F4) (r2_ifft_vec F4 (c_fft2k c') (v_2k2 vs') a')) in *.
  assert (R5 : Forall2 (RT i) b b').
  { apply (rel_maps (RT i)); [intros; now apply neg_RT|]. unfold r2_ifft_vec. apply (rel_maps (RT i)).
    - intros y y' Hy. apply mul_RT; auto. apply RC_RT; auto. apply (rr_in _ _ _ (ns_fft2 _ _ _ _ _ _ H)).
    - apply (rel_r2_fft_inv B w e); auto. apply (ns_fft2 _ _ _ _ _ _ H). }
  cbn [fst snd]. split; [now apply rel_firstn|]. split; [|split]; cbn [v_n2 v_2k1 v_2k2].
  - now rewrite (rel_len _ _ _ R2).
  - now rewrite (rel_len _ _ _ R4).
  - now rewrite (rel_len _ _ _ R5).
Qed.
End Code.
