(** The code over NF4 on packets does, at every place and in every lane, what the code over GF(65537) does. *)
From Coq Require Import List NArith ZArith Arith Bool Lia.
From Verif.Model Require Import Common Arith Ring Fft2n Radix2 Poly Props Simd Fnt Nf4 VCodes.
From Verif.Spec Require Import Blocks Nf4 Code.
From Verif.Proof Require Import ListP Tac Kern Build SimdL SimdR SimdP SimdK Nf4L Param ParamO Nf4Sim Nf4Code Nf4New.
Import ListNotations.
Open Scope nat_scope.

(** ** Transforms on buffers of related symbols *)
Section Sym.
Context {C C' T T' : Type} (RC : C -> C' -> Prop) (RT : T -> T' -> Prop).
Variables (S : symops C T) (S' : symops C' T') (dC : C) (dC' : C').
Hypothesis Hd : RC dC dC'.
Hypothesis HS : sym_rel RC RT S S'.
Notation R2 := (Forall2 RT).
Notation RC2 := (Forall2 RC).

Lemma rel_two_step n W W' m v v' start : RC2 W W' -> R2 v v' -> R2 (two_layers_step S dC n W m v start) (two_layers_step S' dC' n W' m v' start).
Proof. intros HW Hv. unfold two_layers_step. cbv zeta. repeat (apply (rel_ct_step RC RT S S' HS); [now apply rel_get|]). exact Hv. Qed.
Lemma rel_two_layers fuel n W W' : RC2 W W' -> forall m v v', R2 v v' ->
  fst (two_layers S dC fuel n W m v) = fst (two_layers S' dC' fuel n W' m v') /\
  R2 (snd (two_layers S dC fuel n W m v)) (snd (two_layers S' dC' fuel n W' m v')).
Proof.
  intros HW. induction fuel; intros m v v' Hv; cbn [two_layers]; auto. destruct (m <? n / 2); auto. apply IHfuel.
  apply (fold_rel _ _ _ R2); auto. intros. now apply rel_two_step.
Qed.
Lemma rel_fft_buf n dl rev W W' out out' input input' : RC2 W W' -> R2 input input' -> R2 out out' ->
  R2 (fft_buf S dC n dl rev W out input) (fft_buf S' dC' n dl rev W' out' input').
Proof.
  intros HW Hi Ho. unfold fft_buf. rewrite (rel_len RT _ _ Hi).
  pose proof (rel_two_layers n n W W' HW (group_len n dl (length input')) _ _ (rel_scatter RC RT S S' HS n dl rev _ _ _ _ Hi Ho)) as [E R].
  destruct (two_layers S _ _ _ _ _ _) as [m v], (two_layers S' _ _ _ _ _ _) as [m' v']. cbn [fst snd] in *. subst m'.
  destruct (m <? n); auto. apply (fold_rel _ _ _ R2); auto. intros a a' i _ Ha. apply (rel_ct_step RC RT S S' HS); auto. now apply rel_get.
Qed.
End Sym.

Section Full.
Context {C T : Type} (S : symops C T) (dC : C).
Lemma fft_buf_out L D0 e W input out out' : L < 32 -> e <= L ->
  Nat.max D0 (length input) = Nat.pow 2 e -> length out = Nat.pow 2 L -> length out' = Nat.pow 2 L ->
  fft_buf S dC (Nat.pow 2 L) D0 (init_bitrev (Nat.pow 2 L)) W out input =
  fft_buf S dC (Nat.pow 2 L) D0 (init_bitrev (Nat.pow 2 L)) W out' input.
Proof. intros H1 H2 H3 H4 H5. unfold fft_buf. now rewrite (scatter_out _ _ S L D0 e input out out' H1 H2 H3 H4 H5). Qed.

(** With as many inputs as outputs, what the output holds is overwritten. *)
Lemma fold_set_all (input out : list T) : length out = length input ->
  fold_left (fun v i => set v i (get (s_zero S) input i)) (seq 0 (length input)) out = input.
Proof.
  intros Lo. assert (X : forall t, t <= length input -> fold_left (fun v i => set v i (get (s_zero S) input i)) (seq 0 t) out = firstn t input ++ skipn t out).
  { induction t as [|t IH]; intros Ht; [reflexivity|]. rewrite seq_S, fold_left_app, IH by lia. cbn [fold_left Nat.add].
    apply (list_ext _ (s_zero S)).
    - rewrite set_length, !app_length, !firstn_length, !skipn_length. lia.
    - intros j Hj. rewrite set_length, app_length, firstn_length, skipn_length in Hj. destruct (Nat.eq_dec j t) as [->|ne].
      + rewrite nth_set_eq by (rewrite app_length, firstn_length, skipn_length; lia).
        rewrite app_nth1 by (rewrite firstn_length; lia). unfold get.
        rewrite <- (firstn_skipn (Datatypes.S t) input) at 1. rewrite app_nth1 by (rewrite firstn_length; lia). reflexivity.
      + rewrite nth_set_neq by auto. destruct (Nat.lt_ge_cases j t).
        * rewrite !app_nth1 by (rewrite firstn_length; lia). 
          assert (Y : forall n, j < n -> nth j (firstn n input) (s_zero S) = nth j input (s_zero S)).
          { intros n Hn. destruct (Nat.lt_ge_cases j (length input)) as [A|A].
            - rewrite <- (firstn_skipn n input) at 2. rewrite app_nth1; [reflexivity|]. rewrite firstn_length. lia.
            - rewrite !nth_overflow; auto. rewrite firstn_length. lia. }
          rewrite !Y by lia. reflexivity.
        * rewrite !app_nth2 by (rewrite firstn_length; lia). rewrite !firstn_length, !nth_skipn. f_equal. lia. }
  rewrite X, firstn_all, skipn_all2, app_nil_r by lia. reflexivity.
Qed.
Lemma permute_len (d : T) n rev v : length (bit_rev_permute d n rev v) = length v.
Proof. unfold bit_rev_permute. apply fold_length. intros v' i. destruct (_ <? _); auto. unfold swap. now rewrite !set_length. Qed.
Lemma fft_inv_full n rev W out input : length out = n -> length input = n ->
  fft_inv_buf S dC n rev W out input = bit_rev_permute (s_zero S) n rev (gs_layers S dC n n W (n / 2) input).
Proof.
  intros Lo Li. unfold fft_inv_buf. rewrite Li, Nat.ltb_irrefl. unfold fft_inv_load. rewrite Li, Nat.ltb_irrefl.
  do 2 f_equal. rewrite <- Li. apply fold_set_all. rewrite permute_len. congruence.
Qed.
Lemma gs_layers_len fuel n W : forall m v, length (gs_layers S dC fuel n W m v) = length v.
Proof.
  induction fuel as [|f IH]; intros m v; cbn [gs_layers]; auto. destruct (1 <=? m); auto. rewrite IH. unfold gs_layer.
  apply fold_length. intros v' j. apply fold_length. intros v2 i. unfold butterfly_gs. now rewrite !set_length.
Qed.
End Full.

Lemma mul_vec_rows T (S : symops N T) h u src dest : length u <= length dest ->
  length (mul_vec_to_vecp S h u src dest) = length dest /\
  firstn (length u) (mul_vec_to_vecp S h u src dest) =
    map (fun i => mul_coef S h (get 0%N u i) (get (s_zero S) src i) (get (s_zero S) dest i)) (seq 0 (length u)).
Proof.
  intros Ld. unfold mul_vec_to_vecp.
  set (g := fun d i => set d i (mul_coef S h (get 0%N u i) (get (s_zero S) src i) (get (s_zero S) d i))).
  assert (LL : forall t, length (fold_left g (seq 0 t) dest) = length dest) by (intros t; apply fold_length; intros; apply set_length).
  split; [apply LL|].
  assert (X : forall t, t <= length u -> forall i, i < length dest -> nth i (fold_left g (seq 0 t) dest) (s_zero S) =
     if i <? t then mul_coef S h (get 0%N u i) (get (s_zero S) src i) (get (s_zero S) dest i) else nth i dest (s_zero S)).
  { induction t as [|t IH]; intros Ht i Hi; [reflexivity|]. rewrite seq_S, fold_left_app. cbn [fold_left Nat.add]. unfold g at 1.
    destruct (Nat.eq_dec i t) as [->|ne].
    - rewrite nth_set_eq by (rewrite LL; lia). destruct (Nat.ltb_spec t (Datatypes.S t)); [|lia]. f_equal. unfold get at 1. rewrite IH by lia.
      now rewrite Nat.ltb_irrefl.
    - rewrite nth_set_neq by auto. rewrite IH by lia. destruct (Nat.ltb_spec i t), (Nat.ltb_spec i (Datatypes.S t)); auto; lia. }
  apply (list_ext _ (s_zero S)).
  - rewrite firstn_length, LL, map_length, seq_length. lia.
  - intros i Hi. rewrite firstn_length, LL in Hi. rewrite nth_map_seq by lia.
    transitivity (nth i (fold_left g (seq 0 (length u)) dest) (s_zero S)).
    + rewrite <- (firstn_skipn (length u) (fold_left g (seq 0 (length u)) dest)) at 2. rewrite app_nth1; [reflexivity|]. rewrite firstn_length, LL. lia.
    + rewrite X by lia. destruct (Nat.ltb_spec i (length u)); [reflexivity|lia].
Qed.

(** ** Packets *)

(** The SIMD operations on packets, for any field that counts modulo the number of the type. *)
Lemma simd_agree_any e nh p G pkt : e = 2 \/ e = 4 -> nh = 1 \/ nh = 2 -> p = vcard e -> g_card G = p ->
  (forall a b, a < p -> b < p -> g_add G a b = (a + b) mod p)%N ->
  (forall a b, a < p -> b < p -> g_sub G a b = (a + p - b) mod p)%N ->
  (forall a b, a < p -> b < p -> g_mul G a b = (a * b) mod p)%N ->
  sym_agree G pkt (sym_simd e nh G pkt) (sym_pkt G pkt).
Proof.
  intros He Hn Hp Hc radd rsub rmul. set (w := wbits e).
  pose proof (p_small e nh He Hn p Hp) as p_small. pose proof (p_pos e nh He Hn p Hp) as p_pos. pose proof (rlt e nh He Hn p Hp) as rlt.
  assert (pok_nth : forall a t, pok G pkt a -> t < pkt -> (nth t a 0 < p)%N).
  { intros a t [L F] H. rewrite <- Hc. apply (proj1 (Forall_forall _ _) F). apply nth_In. lia. }
  assert (pok_map2 : forall (f : N -> N -> N) a b, pok G pkt a -> pok G pkt b -> map2 f a b = tab pkt (fun t => f (nth t a 0%N) (nth t b 0%N))).
  { intros f a b [La _] [Lb _]. rewrite <- (tab_nth a), <- (tab_nth b), La, Lb at 1. unfold tab at 1 2. rewrite map2_map.
    apply tab_ext. intros t Ht. reflexivity. }
  assert (pok_map : forall (f : N -> N) a, pok G pkt a -> map f a = tab pkt (fun t => f (nth t a 0%N))).
  { intros f a [La _]. rewrite <- (tab_nth a), La at 1. unfold tab at 1. rewrite map_map. reflexivity. }
  split.
  - reflexivity.
  - intros r a b Hr Ha Hb. rewrite (simd_ct e nh He Hn). cbn [sym_pkt s_ct]. rewrite Hc in Hr.
    rewrite !pok_map2 by auto. unfold pairmap. f_equal; apply tab_ext; intros t Ht; unfold fct; rewrite ?Hc;
      destruct (t <? _); try reflexivity;
      pose proof (pok_nth _ t Ha Ht); pose proof (pok_nth _ t Hb Ht);
      rewrite !p_small, rmul by auto; rewrite ?radd, ?rsub by auto using rlt; rewrite Hp in *; now rewrite (lct_res e nh He Hn).
  - intros r a b Hr Ha Hb. rewrite (simd_gs e nh He Hn). cbn [sym_pkt s_gs]. rewrite Hc in Hr.
    rewrite !pok_map2 by auto. unfold pairmap. f_equal; apply tab_ext; intros t Ht; unfold fgs; rewrite ?Hc;
      destruct (t <? _); try reflexivity;
      pose proof (pok_nth _ t Ha Ht); pose proof (pok_nth _ t Hb Ht);
      rewrite !p_small by auto; rewrite ?radd, ?rsub by auto; rewrite ?rmul by auto using rlt; rewrite Hp in *; now rewrite (lgs_res e nh He Hn).
  - intros r a b Hr Ha. rewrite (simd_gss e nh He Hn). cbn [sym_pkt s_gss]. rewrite Hc in *.
    rewrite pok_map by auto. apply tab_ext; intros t Ht. destruct (t <? _); [|reflexivity].
    pose proof (pok_nth _ t Ha Ht). rewrite p_small, rmul by auto. rewrite Hp in *. now rewrite (lgss_res e nh He Hn).
  - intros r a b Hr Ha. cbn [sym_simd s_scale]. rewrite !row_tab, (mul_coef_eq e nh He Hn). cbn [sym_pkt s_scale]. rewrite Hc in *.
    rewrite pok_map by auto. apply tab_ext; intros t Ht. pose proof (pok_nth _ t Ha Ht). rewrite rmul by lia.
    destruct (t <? _); [|apply p_small, rlt]. rewrite !p_small by lia. rewrite Hp in *. apply (lmul_res e nh He Hn); lia.
  - intros a Ha. cbn [sym_simd s_neg]. rewrite row_tab, (neg_eq e nh He Hn). cbn [sym_pkt s_neg]. rewrite Hc in *.
    rewrite pok_map by auto. apply tab_ext; intros t Ht. pose proof (pok_nth _ t Ha Ht) as Hx. rewrite rsub by lia.
    rewrite N.add_0_l. destruct (t <? _).
    + rewrite p_small by auto. rewrite Hp in *. now rewrite (lneg_res e nh He Hn).
    + destruct (N.eqb_spec (nth t a 0%N) 0) as [->|]; [rewrite N.sub_0_r, N.mod_same; lia|]. rewrite N.mod_small; lia.
Qed.

Section Pkt.
Variables (B : build) (w : N) (e pkt : nat).
Hypothesis HT : nf4_type B w e.
Notation G := (nf4_ops B w e).
Notation S1 := (sym_pkt F4 1).

Definition RP (i t : nat) (P P' : list N) : Prop :=
  length P = pkt /\ Forall (valid e) P /\ exists y, P' = [y] /\ RT e i (nth t P 0%N) y.

Record psym (i t : nat) (S : symops N (list N)) : Prop := Psym {
  py_zero : s_zero S = repeat 0%N pkt;
  py_rel : sym_rel (RC e) (RP i t) S S1;
  py_scale : forall r y a z dst, RC e r y -> y <> 65536%N -> RP i t a [z] -> RP i t (s_scale S r a dst) [g_mul F4 y z];
  py_neg : forall a a', RP i t a a' -> RP i t (s_neg S a) (s_neg S1 a')
}.

Lemma valid_0 : valid e 0%N. Proof. apply (RC_valid e 0%N 0%N). apply RC_0. Qed.
Lemma valid_op f F : (forall x x' y y', RT e 0 x y -> RT e 0 x' y' -> RT e 0 (f x x') (F y y')) ->
  forall x x', valid e x -> valid e x' -> valid e (f x x').
Proof.
  intros H x x' (s & Hs & ->) (s' & Hs' & ->). apply (RT_valid e 0 _ (F (nth 0 s 0%N) (nth 0 s' 0%N))). apply H; eexists; eauto.
Qed.
Lemma valid_add x x' : valid e x -> valid e x' -> valid e (g_add G x x').
Proof. apply (valid_op _ (g_add F4)). intros; apply (add_RT B w e HT); auto. apply (e_pos B w e HT). Qed.
Lemma valid_sub x x' : valid e x -> valid e x' -> valid e (g_sub G x x').
Proof. apply (valid_op _ (g_sub F4)). intros; apply (sub_RT B w e HT); auto. apply (e_pos B w e HT). Qed.
Lemma valid_mul x x' : valid e x -> valid e x' -> valid e (g_mul G x x').
Proof. apply (valid_op _ (g_mul F4)). intros; apply (mul_RT B w e HT); auto. apply (e_pos B w e HT). Qed.

Lemma nth_map2' (f : N -> N -> N) : forall a b t, t < length a -> t < length b -> nth t (map2 f a b) 0%N = f (nth t a 0%N) (nth t b 0%N).
Proof.
  induction a as [|x a IH]; intros [|y b] t Ha Hb; cbn [length] in *; try lia. destruct t; [reflexivity|]. cbn [map2 nth]. apply IH; lia.
Qed.
Lemma RP_map2 i t f F a a' b b' : t < pkt -> (forall x x', valid e x -> valid e x' -> valid e (f x x')) ->
  (forall x x' y y', RT e i x y -> RT e i x' y' -> RT e i (f x x') (F y y')) -> RP i t a a' -> RP i t b b' -> RP i t (map2 f a b) (map2 F a' b').
Proof.
  intros Ht Hv HF (La & Va & y & -> & Ra) (Lb & Vb & y' & -> & Rb). split; [rewrite map2_length; lia|]. split.
  - revert a b La Lb Va Vb Ra Rb. intros a b La Lb Va Vb _ _. assert (La' : length a = length b) by congruence. clear La Lb.
    revert b Vb La'. induction Va as [|x a Hx Va IH]; intros [|x' b] Vb L; cbn [map2]; try constructor; try discriminate.
    + inversion Vb; auto.
    + inversion Vb; subst. apply IH; auto.
  - exists (F y y'). split; [reflexivity|]. rewrite nth_map2' by lia. auto.
Qed.
Lemma RP_map i t f F a a' : t < pkt -> (forall x, valid e x -> valid e (f x)) -> (forall x y, RT e i x y -> RT e i (f x) (F y)) ->
  RP i t a a' -> RP i t (map f a) (map F a').
Proof.
  intros Ht Hv HF (La & Va & y & -> & Ra). split; [now rewrite map_length|]. split.
  - apply Forall_map. eapply Forall_impl; [|exact Va]. auto.
  - exists (F y). split; [reflexivity|]. rewrite (nth_indep _ 0%N (f 0%N)) by (rewrite map_length; lia). rewrite map_nth. auto.
Qed.

Lemma psym_plain i t : i < e -> t < pkt -> psym i t (sym_pkt G pkt).
Proof.
  intros Hi Ht. split.
  - reflexivity.
  - split; cbn [sym_pkt s_zero s_ct s_gs fst snd].
    + split; [apply repeat_length|]. split; [apply Forall_forall; intros x Hx; apply repeat_spec in Hx; subst; apply valid_0|].
      exists 0%N. split; [reflexivity|]. rewrite nth_repeat. now apply RT_0.
    + intros r r' a a' b b' Hr Ha Hb. pose proof (RC_RT e i r r' Hi Hr) as Hr'. pose proof (RC_valid e r r' Hr) as Vr.
      split; apply RP_map2; auto; intros; auto using valid_add, valid_sub, valid_mul, add_RT, sub_RT, mul_RT.
    + intros r r' a a' b b' Hr Ha Hb. pose proof (RC_RT e i r r' Hi Hr) as Hr'. pose proof (RC_valid e r r' Hr) as Vr.
      split; apply RP_map2; auto; intros; auto using valid_add, valid_sub, valid_mul, add_RT, sub_RT, mul_RT.
  - intros r y a z dst Hr _ Ha. cbn [sym_pkt s_scale]. change [g_mul F4 y z] with (map (g_mul F4 y) [z]).
    pose proof (RC_RT e i r y Hi Hr) as Hr'. pose proof (RC_valid e r y Hr) as Vr. apply RP_map; auto; intros; auto using valid_mul, mul_RT.
  - intros a a' Ha. cbn [sym_pkt s_neg]. apply RP_map; auto; intros; [apply valid_sub; auto using valid_0|]. apply sub_RT; auto. now apply RT_0.
Qed.

(** One element in a type of 32 bits. *)
Lemma valid_one x : e = 1 -> valid e x -> (x < 65537)%N.
Proof.
  intros He (s & [Ls Hs] & ->). rewrite He in Ls. destruct s as [|y [|]]; try discriminate. inversion Hs; subst. unfold word32. rewrite digits_cons. cbn. lia.
Qed.
Lemma one_valid x : e = 1 -> (x < 65537)%N -> elements e [x] /\ word32 [x] = x.
Proof. intros He Hx. split; [split; [now rewrite He|constructor; auto]|]. unfold word32. rewrite digits_cons. cbn. lia. Qed.
Lemma psym_simd nh i t : w = 32%N -> nh = 1 \/ nh = 2 -> i < e -> t < pkt -> psym i t (sym_simd 4 nh G pkt).
Proof.
  intros Hw Hn Hi Ht.
  assert (He : e = 1).
  { destruct HT as [_ H2]. destruct B; [rewrite Hw in H2; lia|]. destruct H2 as [H2 _]. rewrite Hw in H2. discriminate. }
  assert (Ec : g_card G = 65537%N).
  { cbn [g_card nf4_ops]. unfold nf4_q. rewrite (replicate_word w e B) by (auto; reflexivity). rewrite He. reflexivity. }
  assert (Op : forall f g a b, (forall s s', elements e s -> elements e s' -> f (word32 s) (word32 s') = word32 (zip g s s')) ->
     (forall a b, a < 65537 -> b < 65537 -> g a b < 65537)%N -> (a < 65537)%N -> (b < 65537)%N -> f a b = g a b).
  { intros f g a b Hf Hg Ha Hb. destruct (one_valid a He Ha) as [Ea Wa], (one_valid b He Hb) as [Eb Wb].
    rewrite <- Wa at 1. rewrite <- Wb at 1. rewrite Hf by auto. cbn [zip combine map fst snd]. apply one_valid; auto. }
  assert (A : sym_agree G pkt (sym_simd 4 nh G pkt) (sym_pkt G pkt)).
  { apply (simd_agree_any 4 nh 65537%N); auto; intros a b Ha Hb.
    - apply (Op _ (fun a b => (a + b) mod 65537)%N); auto; intros; [now apply nf4_add_word|apply mod_el].
    - apply (Op _ (fun a b => (a + 65537 - b) mod 65537)%N); auto; intros; [now apply nf4_sub_word|apply mod_el].
    - apply (Op _ (fun a b => a * b mod 65537)%N); auto; intros; [now apply nf4_mul_word|apply mod_el]. }
  assert (Hpok : forall a a', RP i t a a' -> pok G pkt a).
  { intros a a' (La & Va & _). split; auto. rewrite Ec. eapply Forall_impl; [|exact Va]. intros x Hx. now apply valid_one. }
  assert (Hrc : forall r y, RC e r y -> r = y /\ (y < 65537)%N).
  { intros r y [Hy ->]. rewrite He. split; auto. now apply one_valid. }
  pose proof (psym_plain i t Hi Ht) as [P1 P2 P3 P4]. destruct P2 as [Z CT GS]. split.
  - reflexivity.
  - split.
    + rewrite (sa_zero _ _ _ _ A). exact Z.
    + intros r r' a a' b b' Hr Ha Hb. rewrite (sa_ct _ _ _ _ A); eauto. destruct (Hrc r r' Hr) as [-> Hl]. now rewrite Ec.
    + intros r r' a a' b b' Hr Ha Hb. rewrite (sa_gs _ _ _ _ A); eauto. destruct (Hrc r r' Hr) as [-> Hl]. now rewrite Ec.
  - intros r y a z dst Hr Hy Ha. rewrite (sa_scale _ _ _ _ A); eauto. destruct (Hrc r y Hr) as [-> Hl]. rewrite Ec. lia.
  - intros a a' Ha. rewrite (sa_neg _ _ _ _ A); eauto.
Qed.

(** Coefficients. *)
Lemma repeat_word y n : word32 (repeat y n) = (y * word32 (repeat 1 n))%N.
Proof. induction n as [|n IH]; [cbn; lia|]. cbn [repeat]. unfold word32 in *. rewrite !digits_cons, IH. lia. Qed.
Lemma ones_pos : (0 < word32 (repeat 1 e))%N /\ (word32 (repeat 1%N e) = 1%N -> e = 1).
Proof.
  pose proof (e_pos B w e HT). destruct e as [|[|n]]; [lia|split; [reflexivity|auto]|]. cbn [repeat]. unfold word32. rewrite !digits_cons. split; [lia|]. lia.
Qed.
Lemma mul_coef_rel i t S r y a a' dst dst' : i < e -> psym i t S -> RC e r y -> RP i t a a' ->
  RP i t (mul_coef S (nf4_h w e) r a dst) (mul_coef S1 65536 y a' dst').
Proof.
  intros Hi HS Hr Ha. unfold mul_coef. rewrite (h_word B w e HT). destruct ones_pos as [O1 O2]. pose proof Hr as [Hy Er]. rewrite repeat_word in Er.
  set (u := word32 (repeat 1%N e)) in *. destruct Ha as (La & Va & z & -> & Rz).
  assert (Ha : RP i t a [z]) by (split; auto; split; auto; exists z; auto).
  assert (Hz : (z < 65537)%N).
  { destruct Rz as (s & [Ls Hs] & _ & <-). apply (Forall_nth_in (fun x => (x < 65537)%N)); auto. congruence. }
  assert (Sc : (1 <? r)%N && (r <? 65536 * u)%N = true -> y <> 65536%N -> y <> 0%N -> RP i t
     (if ((1 <? r) && (r <? 65536 * u))%N then s_scale S r a dst else if (r =? 1)%N then a else if (r =? 0)%N then s_zero S
      else if (r =? 65536 * u)%N then s_neg S a else dst)
     (if ((1 <? y) && (y <? 65536))%N then s_scale S1 y [z] dst' else if (y =? 1)%N then [z] else if (y =? 0)%N then s_zero S1
      else if (y =? 65536)%N then s_neg S1 [z] else dst')).
  { intros -> N1 N0. pose proof (py_scale _ _ _ HS r y a z dst Hr N1 Ha) as Q.
    destruct (N.ltb_spec 1 y), (N.ltb_spec y 65536); cbn [andb]; try lia; [exact Q|].
    assert (y = 1)%N by lia. subst y. cbn [N.eqb Pos.eqb]. rewrite F4mul, N.mul_1_l, N.mod_small in Q by (auto; reflexivity). exact Q. }
  destruct (N.eq_dec y 65536) as [->|N1].
  - rewrite Er. clear Sc. assert (E1 : (65536 * u <? 65536 * u)%N = false) by apply N.ltb_irrefl. rewrite E1, andb_false_r.
    assert (E2 : (65536 * u =? 1)%N = false) by (apply N.eqb_neq; lia). assert (E3 : (65536 * u =? 0)%N = false) by (apply N.eqb_neq; lia).
    rewrite E2, E3, N.eqb_refl. exact (py_neg _ _ _ HS a [z] Ha).
  - destruct (N.eq_dec y 0) as [->|N0].
    + rewrite Er. exact (sr_zero _ _ _ _ (py_rel _ _ _ HS)).
    + destruct (N.eq_dec r 1) as [E1|E1].
      * assert (y = 1 /\ u = 1)%N as [-> Eu] by nia. rewrite E1. exact Ha.
      * apply Sc; auto. apply andb_true_intro. split; apply N.ltb_lt; nia.
Qed.

Lemma nth_rel A A' (R : A -> A' -> Prop) d d' l l' : forall q, Forall2 R l l' -> q < length l -> R (nth q l d) (nth q l' d').
Proof. intros q F. revert q. induction F; intros q Hq; cbn [length] in *; [lia|]. destruct q; [auto|]. cbn [nth]. apply IHF. lia. Qed.
(** Packets are known from their lanes. *)
Lemma lanes_pkts l (y : nat -> nat -> nat -> N) m : 0 < pkt ->
  (forall i t, i < e -> t < pkt -> Forall2 (RP i t) l (map (fun q => [y i t q]) (seq 0 m))) ->
  l = pkts m pkt (fun q t => word32 (map (fun i => y i t q) (seq 0 e))).
Proof.
  intros Hp H. pose proof (e_pos B w e HT) as He.
  assert (L : length l = m) by (rewrite (rel_len _ _ _ (H 0 0 He Hp)), map_length, seq_length; reflexivity).
  assert (Q : forall q i t, q < m -> i < e -> t < pkt -> RP i t (nth q l []) [y i t q]).
  { intros q i t Hq Hi Ht. pose proof (nth_rel _ _ _ [] [] _ _ q (H i t Hi Ht) ltac:(lia)) as X. rewrite nth_map_seq in X; auto. }
  unfold pkts. apply (list_ext _ []); [now rewrite map_length, seq_length|]. intros q Hq. rewrite L in Hq. rewrite nth_map_seq by auto.
  apply (list_ext _ 0%N); [rewrite map_length, seq_length; apply (Q q 0 0 Hq He Hp)|]. intros t Ht.
  destruct (Q q 0 0 Hq He Hp) as [Lr _]. rewrite Lr in Ht. rewrite nth_map_seq by auto.
  apply (lanes B w e HT _ (fun i => y i t q)). intros i Hi. destruct (Q q i t Hq Hi Ht) as (_ & _ & z & E & R). injection E as ->. exact R.
Qed.
Lemma pkts_rel i t l (s : nat -> nat -> list N) m : (forall q t, q < m -> t < pkt -> elements e (s q t)) -> i < e -> t < pkt ->
  l = pkts m pkt (fun q t => word32 (s q t)) -> Forall2 (RP i t) l (map (fun q => [nth i (s q t) 0%N]) (seq 0 m)).
Proof.
  intros Hs Hi Ht ->. unfold pkts. apply rel_map. intros q Hq. apply in_seq in Hq. split; [now rewrite map_length, seq_length|]. split.
  - apply Forall_map, Forall_forall. intros t' Ht'. apply in_seq in Ht'. exists (s q t'). split; auto. apply Hs; lia.
  - eexists. split; [reflexivity|]. rewrite nth_map_seq by auto. exists (s q t). split; [apply Hs; lia|]. auto.
Qed.
End Pkt.
