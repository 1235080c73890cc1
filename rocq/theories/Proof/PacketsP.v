(** The functions of Packets.v in the builds with SIMD, against the plain loops. *)
From Coq Require Import List NArith ZArith Arith Bool Lia.
From Verif.Model Require Import Common Arith Ring Fft2n Radix2 Props Bytes Simd Packets.
From Verif.Proof Require Import ListP Tac BytesP Build SimdL SimdR SimdP.
Import ListNotations.
Open Scope nat_scope.

(** Fewer elements than lanes: the loop of the last elements only. *)
Lemma simd_had_short e nh p n x y : e = 2 \/ e = 4 -> nh = 1 \/ nh = 2 -> n < countof e nh -> (0 < p)%N -> (p < 2 ^ wbits e)%N ->
  pok (prime_ops (wbits e) p) n x -> pok (prime_ops (wbits e) p) n y ->
  simd_hadamard e nh p x y = map2 (g_mul (prime_ops (wbits e) p)) x y.
Proof.
  intros He Hn Ln P0 Pw Hx Hy. unfold simd_hadamard. rewrite (pok_map2 e p _ n) by auto. cbn [prime_ops g_mul].
  assert (Lx : length x = n) by apply Hx. assert (Ly : length y = n) by apply Hy.
  transitivity (mul_two_bufs e nh p (tab n (fun t => nth t y 0%N)) (tab n (fun t => nth t x 0%N)) n).
  { rewrite <- Lx at 2. rewrite <- Ly, !tab_nth, Lx, Ly. reflexivity. }
  rewrite (mul_two_eq e nh He Hn). apply tab_ext. intros t Ht.
  rewrite (no_vec e nh He Hn) by (apply Nat.div_small; auto).
  assert (N : forall z, pok (prime_ops (wbits e) p) n z -> (nth t z 0 < p)%N).
  { intros z [Lz F]. apply (proj1 (Forall_forall _ _) F), nth_In. lia. }
  pose proof (N x Hx) as A. pose proof (N y Hy) as B.
  rewrite (N.mul_comm (nth t y 0%N)). unfold ring_mul. f_equal. f_equal. unfold wrap. rewrite N.mod_small; auto.
  replace (2 * wbits e)%N with (wbits e + wbits e)%N by lia. rewrite N.pow_add_r. apply N.mul_lt_mono; lia.
Qed.

Lemma simd_size_cases w e : simd_size w = Some e -> (e = 2 \/ e = 4) /\ w = wbits e.
Proof.
  unfold simd_size. destruct (N.eqb_spec w 16); [intros E; injection E as <-; subst; auto|].
  destruct (N.eqb_spec w 32); [intros E; injection E as <-; subst; auto|discriminate].
Qed.

(** Builds, types and fields for which the product is that of the field, on vectors of [n] elements. *)
Definition had_fits (nh : nat) (w p : N) (n : nat) : Prop :=
  nh <= 2 /\ (nh = 0 \/ forall e, simd_size w = Some e -> (p = vcard e \/ n < countof e nh)).

Lemma ring_hadamard_ok nh w p n x y : had_fits nh w p n -> (0 < p < 2 ^ w)%N ->
  pok (prime_ops w p) n x -> pok (prime_ops w p) n y ->
  ring_hadamard nh w p (prime_ops w p) x y = map2 (g_mul (prime_ops w p)) x y.
Proof.
  intros [Hn F] [P0 Pw] Hx Hy. unfold ring_hadamard. destruct nh as [|nh0]; [reflexivity|]. remember (S nh0) as nh eqn:Enh.
  assert (Hn' : nh = 1 \/ nh = 2) by lia. destruct F as [F|F]; [lia|].
  destruct (simd_size w) as [e|] eqn:E; [|reflexivity]. specialize (F e eq_refl).
  destruct (simd_size_cases w e E) as [He ->]. destruct F as [F|F]; [now apply simd_had_ok with n|now apply simd_had_short with n].
Qed.

(** ** All the functions *)
Lemma row_id n (a : list N) : length a = n -> row n a = a.
Proof. intros L. unfold row. rewrite firstn_all2 by lia. rewrite L, Nat.sub_diag. cbn [repeat]. apply app_nil_r. Qed.
Lemma Forall_set {A} (P : A -> Prop) (l : list A) i x : Forall P l -> P x -> Forall P (set l i x).
Proof.
  intros H Hx. revert i. induction H as [|y l Hy H IH]; intros i; destruct i; cbn [set]; constructor; auto.
Qed.
Lemma ofold_fold {A B} (f : A -> B -> option A) (g : A -> B -> A) (P : A -> Prop) (l : list B) s :
  (forall s x, In x l -> P s -> f s x = Some (g s x) /\ P (g s x)) -> P s -> ofold f l s = Some (fold_left g l s).
Proof.
  revert s. induction l as [|x l IH]; intros s H Hs; [reflexivity|]. cbn [ofold fold_left].
  destruct (H s x (or_introl eq_refl) Hs) as [E Hp]. rewrite E. apply IH; [|exact Hp]. intros s' y Hy. apply H. now right.
Qed.
Section Fits.
Variables (nh : nat) (w rc : N) (G : gfops).
Hypothesis Hn : nh <= 2.
Hypothesis fit : nh = 0 \/ simd_size w = None \/ exists e, simd_size w = Some e /\ rc = vcard e /\ G = prime_ops w rc.
Variable n : nat.
Notation h := (g_card G - 1)%N.

(** Either the plain loops, or the registers with the prime of the type. *)
Lemma fit_cases (P : Prop) : (match nh, simd_size w with S _, Some _ => False | _, _ => True end -> P) ->
  (forall e, simd_size w = Some e -> e = 2 \/ e = 4 -> nh = 1 \/ nh = 2 -> w = wbits e -> rc = vcard e -> G = prime_ops (wbits e) rc -> P) -> P.
Proof.
  intros H1 H2. destruct fit as [F|[F|(e & E & F1 & F2)]]; [apply H1; now rewrite F|apply H1; rewrite F; now destruct nh|].
  destruct (Nat.eq_dec nh 0) as [Z|Z]; [apply H1; now rewrite Z|]. destruct (simd_size_cases w e E) as [He Ew].
  apply (H2 e); auto; [lia|]. now rewrite <- Ew.
Qed.

Ltac plain := let H := fresh in intros H; destruct nh; [reflexivity|]; destruct (simd_size w); [destruct H|reflexivity].

Lemma buf_had_ok x y : pok G n x -> pok G n y -> ring_hadamard nh w rc G x y = map2 (g_mul G) x y.
Proof.
  intros Hx Hy. unfold ring_hadamard. apply fit_cases; [plain|]. intros e E He Hn' Ew Er EG. rewrite E.
  rewrite EG in *. destruct nh; [lia|]. now apply simd_had_ok with n.
Qed.
Lemma buf_add_ok a b : pok G n a -> pok G n b -> buf_add nh w rc G a b n = map2 (g_add G) a b.
Proof.
  intros Ha Hb. unfold buf_add. apply fit_cases; [plain|]. intros e E He Hn' Ew Er EG. rewrite E.
  rewrite EG in *. destruct nh as [|nh0]; [lia|]. rewrite (add_two_ok e (S nh0) He Hn' rc Er n) by auto.
  rewrite !(pok_map2 e rc _ n) by auto. apply tab_ext. intros t Ht. cbn [prime_ops g_add].
  pose proof (pok_nth e (S nh0) He Hn' rc Er n a t Ha Ht). pose proof (pok_nth e (S nh0) He Hn' rc Er n b t Hb Ht).
  now rewrite (radd e (S nh0) He Hn' rc Er).
Qed.
Lemma buf_sub_ok a b r : length r = n -> pok G n a -> pok G n b -> buf_sub nh w rc G a b r n = map2 (g_sub G) a b.
Proof.
  intros Lr Ha Hb. unfold buf_sub. apply fit_cases; [plain|]. intros e E He Hn' Ew Er EG. rewrite E.
  rewrite EG in *. destruct nh as [|nh0]; [lia|]. rewrite (sub_two_ok e (S nh0) He Hn' rc Er n) by auto.
  rewrite !(pok_map2 e rc _ n) by auto. apply tab_ext. intros t Ht. cbn [prime_ops g_sub].
  pose proof (pok_nth e (S nh0) He Hn' rc Er n a t Ha Ht). pose proof (pok_nth e (S nh0) He Hn' rc Er n b t Hb Ht).
  now rewrite (rsub e (S nh0) He Hn' rc Er).
Qed.
Lemma buf_neg_ok a : pok G n a -> buf_neg nh w rc G n a = s_neg (sym_pkt G n) a.
Proof.
  intros Ha. unfold buf_neg. apply fit_cases; [plain|]. intros e E He Hn' Ew Er EG. rewrite E.
  rewrite EG in *. destruct nh as [|nh0]; [lia|]. rewrite <- (sa_neg _ _ _ _ (simd_agree e (S nh0) He Hn' rc Er n) a Ha).
  cbn [sym_simd s_neg]. now rewrite row_id by apply Ha.
Qed.
Lemma buf_scale_ok c a d : (c < h)%N -> length d = n -> pok G n a -> buf_scale nh w rc G c a d n = Some (s_scale (sym_pkt G n) c a d).
Proof.
  intros Hc Ld Ha. unfold buf_scale. apply fit_cases; [plain|]. intros e E He Hn' Ew Er EG. rewrite E.
  rewrite EG in *. destruct nh as [|nh0]; [lia|]. destruct (N.eqb_spec rc 0) as [Z|_]; [pose proof (p_pos e (S nh0) He Hn' rc Er); lia|].
  cbn [andb]. f_equal. rewrite <- (sa_scale _ _ _ _ (simd_agree e (S nh0) He Hn' rc Er n) c a d Hc Ha).
  cbn [sym_simd s_scale]. now rewrite !row_id by (auto; apply Ha).
Qed.
Lemma row_mul_ok c a d : length d = n -> pok G n a -> row_mul nh w rc G c a d n = Some (mul_coef (sym_pkt G n) h c a d).
Proof.
  intros Ld Ha. unfold row_mul, mul_coef. destruct (N.ltb_spec 1 c) as [Q1|Q1]; destruct (N.ltb_spec c h) as [Q2|Q2]; cbn [andb].
  1: now apply buf_scale_ok.
  all: destruct (c =? 1)%N; [reflexivity|]; destruct (c =? 0)%N; [reflexivity|]; destruct (c =? h)%N; [|reflexivity]; now rewrite buf_neg_ok.
Qed.

Lemma vecp_mul_ok u src dest : length u = length src -> length u <= length dest -> Forall (pok G n) src ->
  Forall (fun d => length d = n) dest -> vecp_mul nh w rc G u src dest n = Some (mul_vec_to_vecp (sym_pkt G n) h u src dest).
Proof.
  intros L1 L2 Fs Fd. unfold vecp_mul, mul_vec_to_vecp. rewrite (proj2 (Nat.eqb_eq _ _) L1), (proj2 (Nat.leb_le _ _) L2). cbn [andb].
  apply ofold_fold with (P := fun d => length u <= length d /\ Forall (fun r => length r = n) d); [|auto].
  intros d i Hi [Ld Fd']. apply in_seq in Hi. unfold get. rewrite !(nth_indep _ [] (s_zero (sym_pkt G n))) by lia.
  assert (Pa : pok G n (nth i src (s_zero (sym_pkt G n)))) by (apply (proj1 (Forall_forall _ _) Fs), nth_In; lia).
  assert (Pd : length (nth i d (s_zero (sym_pkt G n))) = n) by (apply (proj1 (Forall_forall _ _) Fd'), nth_In; lia).
  rewrite row_mul_ok by auto. split; [reflexivity|]. split; [now rewrite set_length|]. apply Forall_set; auto.
  unfold mul_coef, sym_pkt, s_scale, s_zero, s_neg.
  destruct (_ && _); [rewrite map_length; apply Pa|]. destruct (_ =? 1)%N; [apply Pa|]. destruct (_ =? 0)%N; [apply repeat_length|].
  destruct (_ =? _)%N; [rewrite map_length; apply Pa|exact Pd].
Qed.
End Fits.
