(** The code over NF4 does in every lane what the code over GF(65537) does. *)
From Coq Require Import List NArith ZArith Arith Bool Lia.
From Verif.Model Require Import Common Arith Ring Fft2n Radix2 Poly Props Fnt Nf4.
From Verif.Spec Require Import Blocks Nf4 Code.
From Verif.Proof Require Import ListP Tac Nf4L Param ParamO.
Import ListNotations.
Open Scope N_scope.

Lemma zip_repeat f a b n : zip f (repeat a n) (repeat b n) = repeat (f a b) n.
Proof. induction n; cbn; auto. unfold zip in IHn. now rewrite IHn. Qed.
Lemma F4neg a : a < 65537 -> g_neg F4 a = (65537 - a) mod 65537.
Proof.
  intros Ha. change (g_neg F4 a) with (g_sub F4 0 a). rewrite F4sub by (auto; reflexivity). reflexivity.
Qed.

Section Sim.
Variables (B : build) (w : N) (e : nat).
Hypothesis HT : nf4_type B w e.
Notation el := (elements e).
Notation G := (nf4_ops B w e).

(** The same element in all the lanes. *)
Definition RC (x y : N) : Prop := y < 65537 /\ x = word32 (repeat y e).
(** The element of lane [i]. *)
Definition RT (i : nat) (x y : N) : Prop := exists s, el s /\ x = word32 s /\ nth i s 0 = y.

Lemma e_pos : (0 < e)%nat. Proof. apply HT. Qed.

Lemma RC_RT i x y : (i < e)%nat -> RC x y -> RT i x y.
Proof.
  intros Hi [Hy ->]. exists (repeat y e). split; [now apply repeat_el|]. split; [reflexivity|]. rewrite (nth_indep _ 0 y) by (now rewrite repeat_length).
  apply nth_repeat.
Qed.
Lemma RC_valid x y : RC x y -> valid e x.
Proof. intros [Hy ->]. exists (repeat y e). split; [now apply repeat_el|reflexivity]. Qed.
Lemma RT_valid i x y : RT i x y -> valid e x.
Proof. intros (s & Hs & -> & _). exists s. auto. Qed.
Lemma RC_0 : RC 0 0.
Proof. split; [reflexivity|]. symmetry. apply digits_zeros. Qed.
Lemma RC_rep y : y < 65537 -> RC (replicate w e y) y.
Proof. intros Hy. split; auto. apply (replicate_word w e B); auto. lia. Qed.

(** Operations. *)
Lemma op_RC f g F x x' y y' : (forall s t, el s -> el t -> f (word32 s) (word32 t) = word32 (zip g s t)) ->
  (forall a b, a < 65537 -> b < 65537 -> F a b = g a b /\ g a b < 65537) -> RC x y -> RC x' y' -> RC (f x x') (F y y').
Proof.
  intros Hf HF [Hy ->] [Hy' ->]. destruct (HF y y' Hy Hy') as [-> Hl]. split; auto.
  rewrite Hf by (now apply repeat_el). now rewrite zip_repeat.
Qed.
Lemma op_RT i f g F x x' y y' : (i < e)%nat -> (forall s t, el s -> el t -> f (word32 s) (word32 t) = word32 (zip g s t)) ->
  (forall a b, a < 65537 -> b < 65537 -> F a b = g a b /\ g a b < 65537) -> RT i x y -> RT i x' y' -> RT i (f x x') (F y y').
Proof.
  intros Hi Hf HF (s & Hs & -> & <-) (t & Ht & -> & <-). exists (zip g s t). split; [|split].
  - apply (zip_el 0 e); auto. intros a b Ha Hb. now apply HF.
  - now apply Hf.
  - destruct Hs as [Ls Hs], Ht as [Lt Ht]. rewrite nth_zip by congruence. symmetry.
    apply HF; apply (Forall_nth_in (fun x => x < 65537)); auto; congruence.
Qed.
Ltac el_op := intros; first [now apply nf4_add_word|now apply nf4_sub_word|now apply nf4_mul_word
  |split; [first [now apply F4add|now apply F4sub|now apply F4mul]|apply mod_el]].
Lemma add_RC x x' y y' : RC x y -> RC x' y' -> RC (g_add G x x') (g_add F4 y y').
Proof. apply (op_RC _ (fun a b => (a + b) mod 65537)); el_op. Qed.
Lemma sub_RC x x' y y' : RC x y -> RC x' y' -> RC (g_sub G x x') (g_sub F4 y y').
Proof. apply (op_RC _ (fun a b => (a + 65537 - b) mod 65537)); el_op. Qed.
Lemma mul_RC x x' y y' : RC x y -> RC x' y' -> RC (g_mul G x x') (g_mul F4 y y').
Proof. apply (op_RC _ (fun a b => a * b mod 65537)); el_op. Qed.
Lemma inv_RC x y : RC x y -> RC (g_inv G x) (g_inv F4 y).
Proof.
  intros [Hy ->]. split; [now apply F4inv|]. cbn [g_inv nf4_ops]. rewrite nf4_inv_word by (auto; now apply repeat_el).
  f_equal. clear HT. induction e; cbn [repeat map]; congruence.
Qed.
Lemma exp_RC x y b : RC x y -> b < 2 ^ 32 -> RC (nf4_exp B w e x (replicate w e b)) (g_exp F4 y b).
Proof.
  intros [Hy ->] Hb. rewrite F4exp by auto. split; [apply mod_el|]. rewrite (replicate_word w e B) by auto.
  rewrite nf4_exp_word; auto; [now rewrite zip_repeat|now apply repeat_el|apply repeat_length|].
  apply Forall_forall. intros z Hz. apply repeat_spec in Hz. now subst.
Qed.

Section Lane.
Variable i : nat.
Hypothesis Hi : (i < e)%nat.
Lemma add_RT x x' y y' : RT i x y -> RT i x' y' -> RT i (g_add G x x') (g_add F4 y y').
Proof. apply (op_RT i _ (fun a b => (a + b) mod 65537)); auto; el_op. Qed.
Lemma sub_RT x x' y y' : RT i x y -> RT i x' y' -> RT i (g_sub G x x') (g_sub F4 y y').
Proof. apply (op_RT i _ (fun a b => (a + 65537 - b) mod 65537)); auto; el_op. Qed.
Lemma mul_RT x x' y y' : RT i x y -> RT i x' y' -> RT i (g_mul G x x') (g_mul F4 y y').
Proof. apply (op_RT i _ (fun a b => a * b mod 65537)); auto; el_op. Qed.
Lemma RT_0 : RT i 0 0. Proof. apply RC_RT; auto. apply RC_0. Qed.
Lemma neg_RT x y : RT i x y -> RT i (g_neg G x) (g_neg F4 y).
Proof. intros H. apply (sub_RT 0 x 0 y); auto. apply RT_0. Qed.
Lemma sym_RT : sym_rel RC (RT i) (sym_vec G) (sym_vec F4).
Proof.
  split; cbn [sym_vec s_zero s_ct s_gs fst snd].
  - apply RT_0.
  - intros r r' a a' b b' Hr Ha Hb. apply (RC_RT i) in Hr; auto. auto using add_RT, sub_RT, mul_RT.
  - intros r r' a a' b b' Hr Ha Hb. apply (RC_RT i) in Hr; auto. auto using add_RT, sub_RT, mul_RT.
Qed.
End Lane.
Lemma sym_RC : sym_rel RC RC (sym_vec G) (sym_vec F4).
Proof.
  split; cbn [sym_vec s_zero s_ct s_gs fst snd]; [apply RC_0|..]; auto using add_RC, sub_RC, mul_RC.
Qed.

(** A word is known from its lanes. *)
Lemma lanes x y : (forall i, (i < e)%nat -> RT i x (y i)) -> x = word32 (map y (seq 0 e)) /\ el (map y (seq 0 e)).
Proof.
  intros H. destruct (H 0%nat e_pos) as (s & Hs & -> & _).
  assert (E : s = map y (seq 0 e)).
  { apply (nth_ext _ _ 0 0); [rewrite map_length, seq_length; apply Hs|]. intros j Hj. destruct Hs as [Ls Hs]. rewrite Ls in Hj.
    destruct (H j Hj) as (t & [Lt Ht] & E & E2).
    apply digits_inj in E; [|reflexivity|congruence|now apply el_small|now apply el_small]. subst t.
    rewrite (nth_indep (map _ _) 0 (y 0%nat)) by (now rewrite map_length, seq_length). rewrite map_nth, seq_nth by auto. exact E2. }
  rewrite <- E. auto.
Qed.
Lemma lanes_list l (y : nat -> nat -> N) m : (forall i, (i < e)%nat -> Forall2 (RT i) l (map (y i) (seq 0 m))) ->
  l = map (fun j => word32 (map (fun i => y i j) (seq 0 e))) (seq 0 m).
Proof.
  intros H. assert (L : length l = m). { rewrite (rel_len _ _ _ (H 0%nat e_pos)), map_length, seq_length. reflexivity. }
  apply (nth_ext _ _ 0 (word32 (map (fun i => y i 0%nat) (seq 0 e)))); [now rewrite map_length, seq_length|].
  rewrite L. intros j Hj. rewrite map_nth with (f := fun j => word32 (map (fun i => y i j) (seq 0 e))), seq_nth by auto.
  cbn [Nat.add]. apply (lanes (nth j l 0) (fun i => y i j)). intros i Hi.
  pose proof (rel_get _ 0 0 _ _ j (RT_0 i Hi) (H i Hi)) as R. unfold get in R.
  rewrite (nth_indep (map _ _) 0 (y i 0%nat)), map_nth, seq_nth in R by (now rewrite ?map_length, ?seq_length). exact R.
Qed.

(** Comparisons. *)
Lemma RC_lt x y : RC x y -> x <? g_card G = true.
Proof.
  intros H. apply RC_valid in H. destruct H as (s & [Ls Hs] & ->). cbn [g_card nf4_ops]. unfold nf4_q.
  rewrite (replicate_word w e B) by (auto; reflexivity). pose proof e_pos as Hn. apply N.ltb_lt. rewrite <- Ls in *. clear Ls HT. revert Hn.
  induction Hs as [|x s Hx Hs IH]; intros Hn; [cbn in Hn; lia|]. cbn [length repeat]. unfold word32. rewrite !digits_cons.
  destruct s as [|y' s]; [cbn; lia|]. specialize (IH ltac:(cbn; lia)). unfold word32 in IH. lia.
Qed.
Lemma RC_zero x y : RC x y -> (0 <? x) = (0 <? y).
Proof.
  intros [Hy ->]. destruct (N.ltb_spec 0 y) as [H|H].
  - apply N.ltb_lt. pose proof e_pos. destruct e as [|e']; [lia|]. cbn [repeat]. unfold word32. rewrite digits_cons. lia.
  - assert (y = 0) by lia. subst y. unfold word32. rewrite digits_zeros. reflexivity.
Qed.

(** ** Polynomials *)
Definition poly_rel (q q' : poly) : Prop := p_deg q = p_deg q' /\ Forall2 RC (p_buf q) (p_buf q').
Definition orel {A A'} (R : A -> A' -> Prop) (o : option A) (o' : option A') : Prop :=
  match o, o' with Some a, Some a' => R a a' | None, None => True | _, _ => False end.

Lemma rel_poly_set q q' j c c' : poly_rel q q' -> RC c c' -> orel poly_rel (poly_set G q j c) (poly_set F4 q' j c').
Proof.
  intros [Hd Hb] Hc. unfold poly_set. rewrite (rel_len _ _ _ Hb), (RC_lt _ _ Hc), (RC_zero _ _ Hc), Hd.
  assert (E : (c' <? g_card F4) = true) by (apply N.ltb_lt; apply Hc). rewrite E.
  destruct (Nat.ltb _ _); cbn [andb orel]; auto. split; cbn [p_deg p_buf]; auto. now apply rel_set.
Qed.
Lemma rel_mul_x q q' c c' : poly_rel q q' -> RC c c' ->
  orel poly_rel (poly_mul_to_x_plus_coef G q c) (poly_mul_to_x_plus_coef F4 q' c').
Proof.
  intros [Hd Hb] Hc. unfold poly_mul_to_x_plus_coef. cbv zeta. rewrite (RC_lt _ _ Hc), Hd.
  assert (E : (c' <? g_card F4) = true) by (apply N.ltb_lt; apply Hc). rewrite E.
  destruct (p_deg q' <? 0)%Z; cbn [orb negb]; [exact I|].
  assert (Hf : Forall2 RC
     (fold_left (fun b i => set b i (g_add G (get 0 b (i - 1)) (g_mul G (get 0 b i) c))) (rev (seq 1 (Z.to_nat (p_deg q')))) (p_buf q))
     (fold_left (fun b i => set b i (g_add F4 (get 0 b (i - 1)) (g_mul F4 (get 0 b i) c'))) (rev (seq 1 (Z.to_nat (p_deg q')))) (p_buf q'))).
  { apply (fold_rel _ _ _ (Forall2 RC)); auto. intros. apply rel_set; auto. apply add_RC; [|apply mul_RC; auto]; apply rel_get; auto using RC_0. }
  apply rel_poly_set; [|apply rel_get; auto using RC_0]. split; [reflexivity|]. apply rel_set; auto. apply mul_RC; auto. apply rel_get; auto using RC_0.
Qed.
Lemma rel_derivative q q' : poly_rel q q' -> orel poly_rel (poly_derivative_nf4 B w e q) (poly_derivative F4 65537 q').
Proof.
  intros [Hd Hb]. unfold poly_derivative_nf4, poly_derivative. cbv zeta. rewrite Hd. destruct (p_deg q' <? 0)%Z; [exact I|].
  split; cbn [p_deg p_buf]; [reflexivity|]. apply rel_set; [|apply RC_0].
  apply (fold_rel _ _ _ (Forall2 RC)); auto. intros. apply rel_set; auto. apply mul_RC; [apply RC_rep, mod_el|apply rel_get; auto using RC_0].
Qed.
Lemma rel_ctx_A n vx vx' : Forall2 RC vx vx' ->
  orel poly_rel (fold_left (fun o x => match o with Some q => poly_mul_to_x_plus_coef G q (g_sub G 0%N x) | None => None end) vx
                   (poly_set G (poly_zero n) 0 (replicate w e 1))) (ctx_A F4 n vx').
Proof.
  intros Hv. unfold ctx_A.
  assert (H0 : orel poly_rel (poly_set G (poly_zero n) 0 (replicate w e 1)) (poly_set F4 (poly_zero n) 0 1)).
  { apply rel_poly_set; [|apply RC_rep; reflexivity]. split; [reflexivity|]. apply rel_repeat. apply RC_0. }
  revert H0. generalize (poly_set G (poly_zero n) 0 (replicate w e 1)) (poly_set F4 (poly_zero n) 0 1).
  induction Hv as [|x y vx vy Hx Hv IH]; intros o o' Ho; cbn [fold_left]; auto. apply IH.
  destruct o as [q|], o' as [q'|]; cbn [orel] in *; auto; try contradiction. apply rel_mul_x; auto. apply sub_RC; auto. apply RC_0.
Qed.

(** ** Transforms *)
Record r2_rel (f f' : radix2) : Prop := R2Rel {
  rr_n : r_n f = r_n f'; rr_dl : r_data_len f = r_data_len f'; rr_rev : r_rev f = r_rev f';
  rr_W : Forall2 RC (r_W f) (r_W f'); rr_iW : Forall2 RC (r_inv_W f) (r_inv_W f'); rr_in : RC (r_inv_n f) (r_inv_n f') }.

Lemma rel_omegas r r' len : RC r r' -> N.of_nat len <= 2 ^ 32 -> Forall2 RC (nf4_omegas B w e len r) (compute_omegas F4 len r').
Proof. intros Hr Hl. apply rel_map. intros i Hi. apply in_seq in Hi. apply exp_RC; auto. lia. Qed.
Lemma rel_inv_n d : d < 65537 -> RC (nf4_inv_n B w e d) (get_inv_n_mod_p F4 65537 d).
Proof.
  intros Hd. unfold nf4_inv_n, get_inv_n_mod_p. destruct (F4inv d Hd) as [Hi _].
  replace (nf4_inv B w e d) with (g_inv F4 d); [apply RC_rep, mod_el|].
  pose proof e_pos. assert (E : d = word32 (d :: repeat 0 (e - 1))) by (unfold word32; rewrite digits_cons, digits_zeros; lia).
  rewrite E at 2. rewrite nf4_inv_word; auto.
  - cbn [map]. replace (map (g_inv F4) (repeat 0 (e - 1))) with (repeat 0 (e - 1)).
    + unfold word32. rewrite digits_cons, digits_zeros. lia.
    + generalize (e - 1)%nat. intros m. induction m; cbn [repeat map]; auto. rewrite F4inv0. congruence.
  - split; [cbn; rewrite repeat_length; lia|]. constructor; auto. apply Forall_forall. intros x Hx. apply repeat_spec in Hx. subst. reflexivity.
Qed.
Lemma root_RC root d : root < 65537 -> d < 2 ^ 32 -> RC (nf4_nth_root w e root d) (get_nth_root F4 root d).
Proof.
  intros Hr Hd. unfold nf4_nth_root. unfold wrap. rewrite N.mod_small by auto. apply RC_rep. unfold get_nth_root. cbv zeta.
  rewrite F4exp by auto. apply mod_el.
Qed.
Lemma rel_radix2 root len dl f' : root < 65537 -> radix2_new F4 65537 root len dl = Some f' ->
  exists f, nf4_radix2 B w e root len dl = Some f /\ r2_rel f f'.
Proof.
  intros Hr. unfold radix2_new, nf4_radix2. change (65537 - 1) with 65536. destruct (Nat.ltb len dl); [discriminate|].
  destruct (N.eqb_spec (65536 mod N.of_nat len) 0) as [E|E]; cbn [negb]; [|discriminate]. cbv zeta.
  assert (Hl : N.of_nat len <= 65536).
  { destruct (N.eq_dec (N.of_nat len) 0) as [E0|E0]; [lia|]. apply N.mod_divide in E; auto. apply N.divide_pos_le in E; lia. }
  intros E'. injection E' as <-. eexists. split; [reflexivity|].
  assert (Hw : RC (nf4_nth_root w e root (N.of_nat len)) (get_nth_root F4 root (N.of_nat len))) by (apply root_RC; auto; lia).
  split; cbn [r_n r_data_len r_rev r_W r_inv_W r_inv_n]; auto.
  - apply rel_omegas; auto. lia.
  - apply rel_omegas; [now apply inv_RC|lia].
  - apply rel_inv_n. lia.
Qed.

Lemma rel_r2_fft R f f' out out' l l' : sym_rel RC R (sym_vec G) (sym_vec F4) -> r2_rel f f' -> Forall2 R l l' -> Forall2 R out out' ->
  Forall2 R (r2_fft_vec (sym_vec G) f out l) (r2_fft_vec (sym_vec F4) f' out' l').
Proof.
  intros HS [E1 E2 E3 HW _ _] Hl Ho. unfold r2_fft_vec. rewrite E1, E2, E3. apply (rel_fft_vec RC); auto. apply RC_0.
Qed.
Lemma rel_r2_fft_inv R f f' out out' l l' : sym_rel RC R (sym_vec G) (sym_vec F4) -> r2_rel f f' -> Forall2 R l l' -> length out = length out' ->
  Forall2 R (r2_fft_inv_vec (sym_vec G) f out l) (r2_fft_inv_vec (sym_vec F4) f' out' l').
Proof.
  intros HS [E1 E2 E3 _ HW _] Hl Ho. unfold r2_fft_inv_vec. rewrite E1, E3. apply (rel_fft_inv_vec RC); auto. apply RC_0.
Qed.
End Sim.
