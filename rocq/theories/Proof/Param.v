(** The transforms on two kinds of symbols related element-wise give related results. *)
From Coq Require Import List NArith Arith Bool Lia.
From Verif.Model Require Import Common Arith Ring Fft2n Radix2 Fnt.
From Verif.Proof Require Import ListP.
Import ListNotations.
Open Scope nat_scope.

Lemma fold_rel A A' I (R : A -> A' -> Prop) (f : A -> I -> A) (g : A' -> I -> A') l :
  (forall a a' i, In i l -> R a a' -> R (f a i) (g a' i)) -> forall a a', R a a' -> R (fold_left f l a) (fold_left g l a').
Proof. induction l as [|i l IH]; intros H a a' Ha; cbn; auto. apply IH; [intros; apply H; auto; now right|]. apply H; auto. now left. Qed.

Section Lists.
Context {A A' : Type} (R : A -> A' -> Prop).
Notation R2 := (Forall2 R).
Lemma rel_len l l' : R2 l l' -> length l = length l'.
Proof. induction 1; cbn; auto. Qed.
Lemma rel_get d d' l l' i : R d d' -> R2 l l' -> R (get d l i) (get d' l' i).
Proof. intros Hd H. revert i. unfold get. induction H; intros [|i]; cbn; auto. Qed.
Lemma rel_set l l' i a a' : R2 l l' -> R a a' -> R2 (set l i a) (set l' i a').
Proof. intros H Ha. revert i. induction H; intros [|i]; cbn; constructor; auto. Qed.
Lemma rel_firstn n l l' : R2 l l' -> R2 (firstn n l) (firstn n l').
Proof. intros H. revert n. induction H; intros [|n]; cbn; constructor; auto. Qed.
Lemma rel_skipn n l l' : R2 l l' -> R2 (skipn n l) (skipn n l').
Proof. intros H. revert n. induction H; intros [|n]; cbn; auto. Qed.
Lemma rel_repeat a a' n : R a a' -> R2 (repeat a n) (repeat a' n).
Proof. intros H. induction n; cbn; constructor; auto. Qed.
Lemma rel_app l l' m m' : R2 l l' -> R2 m m' -> R2 (l ++ m) (l' ++ m').
Proof. apply Forall2_app. Qed.
Lemma rel_map I (f : I -> A) (g : I -> A') l : (forall i, In i l -> R (f i) (g i)) -> R2 (map f l) (map g l).
Proof. induction l; intros H; cbn; constructor; [apply H; now left|]. apply IHl. intros; apply H; now right. Qed.
Lemma rel_swap d d' l l' i j : R d d' -> R2 l l' -> R2 (swap d l i j) (swap d' l' i j).
Proof. intros Hd H. unfold swap. repeat apply rel_set; auto; apply rel_get; auto. Qed.
Lemma rel_shuffle z z' ids n l l' : R z z' -> R2 l l' -> R2 (shuffle z ids n l) (shuffle z' ids n l').
Proof.
  intros Hz H. unfold shuffle. apply (fold_rel _ _ _ R2); [|now apply rel_repeat].
  intros a a' i _ Ha. apply rel_set; auto. apply rel_get; auto.
Qed.
Lemma rel_permute d d' n rev l l' : R d d' -> R2 l l' -> R2 (bit_rev_permute d n rev l) (bit_rev_permute d' n rev l').
Proof.
  intros Hd H. unfold bit_rev_permute. apply (fold_rel _ _ _ R2); auto. intros a a' i _ Ha.
  destruct (_ <? _); auto. now apply rel_swap.
Qed.
End Lists.

Section Map.
Context {A A' B B' D D' : Type} (RA : A -> A' -> Prop) (RB : B -> B' -> Prop) (RD : D -> D' -> Prop).
Lemma rel_map2 f g l l' m m' : (forall a a' b b', RA a a' -> RB b b' -> RD (f a b) (g a' b')) ->
  Forall2 RA l l' -> Forall2 RB m m' -> Forall2 RD (map2 f l m) (map2 g l' m').
Proof.
  intros Hf H. revert m m'. induction H; intros m m' Hm; [constructor|]. destruct Hm; cbn; constructor; auto.
Qed.
Lemma rel_maps f g l l' : (forall a a', RA a a' -> RD (f a) (g a')) -> Forall2 RA l l' -> Forall2 RD (map f l) (map g l').
Proof. intros Hf. induction 1; cbn; constructor; auto. Qed.
End Map.

Section Sym.
Context {C C' T T' : Type} (RC : C -> C' -> Prop) (RT : T -> T' -> Prop).
Variables (S : symops C T) (S' : symops C' T') (dC : C) (dC' : C').
Hypothesis Hd : RC dC dC'.
Record sym_rel : Prop := SymRel {
  sr_zero : RT (s_zero S) (s_zero S');
  sr_ct : forall r r' a a' b b', RC r r' -> RT a a' -> RT b b' ->
    RT (fst (s_ct S r a b)) (fst (s_ct S' r' a' b')) /\ RT (snd (s_ct S r a b)) (snd (s_ct S' r' a' b'));
  sr_gs : forall r r' a a' b b', RC r r' -> RT a a' -> RT b b' ->
    RT (fst (s_gs S r a b)) (fst (s_gs S' r' a' b')) /\ RT (snd (s_gs S r a b)) (snd (s_gs S' r' a' b'))
}.
Hypothesis HS : sym_rel.
Notation R2 := (Forall2 RT).
Notation RC2 := (Forall2 RC).

Lemma rel_ct r r' m v v' i : RC r r' -> R2 v v' -> R2 (butterfly_ct S r m v i) (butterfly_ct S' r' m v' i).
Proof.
  intros Hr Hv. unfold butterfly_ct. cbv zeta. pose proof (sr_zero HS) as Hz.
  destruct (sr_ct HS r r' (get (s_zero S) v i) (get (s_zero S') v' i) (get (s_zero S) v (i + m)) (get (s_zero S') v' (i + m)));
    auto using (rel_get RT). repeat apply rel_set; auto.
Qed.
Lemma rel_ct_step n r r' start m step v v' : RC r r' -> R2 v v' ->
  R2 (butterfly_ct_step S n r start m step v) (butterfly_ct_step S' n r' start m step v').
Proof. intros Hr Hv. apply (fold_rel _ _ _ R2); auto. intros. now apply rel_ct. Qed.
Lemma rel_gs r r' m v v' i : RC r r' -> R2 v v' -> R2 (butterfly_gs S r m v i) (butterfly_gs S' r' m v' i).
Proof.
  intros Hr Hv. unfold butterfly_gs. cbv zeta. pose proof (sr_zero HS) as Hz.
  destruct (sr_gs HS r r' (get (s_zero S) v i) (get (s_zero S') v' i) (get (s_zero S) v (i + m)) (get (s_zero S') v' (i + m)));
    auto using (rel_get RT). repeat apply rel_set; auto.
Qed.
Lemma rel_gs_step n r r' start m step v v' : RC r r' -> R2 v v' ->
  R2 (butterfly_gs_step S n r start m step v) (butterfly_gs_step S' n r' start m step v').
Proof. intros Hr Hv. apply (fold_rel _ _ _ R2); auto. intros. now apply rel_gs. Qed.

Lemma rel_ct_layers fuel n W W' : RC2 W W' -> forall m v v', R2 v v' -> R2 (ct_layers S dC fuel n W m v) (ct_layers S' dC' fuel n W' m v').
Proof.
  intros HW. induction fuel; intros m v v' Hv; cbn [ct_layers]; auto. destruct (m <? n); auto. apply IHfuel. unfold ct_layer.
  apply (fold_rel _ _ _ R2); auto. intros a a' i _ Ha. apply rel_ct_step; auto. now apply rel_get.
Qed.
Lemma rel_gs_layers fuel n W W' : RC2 W W' -> forall m v v', R2 v v' -> R2 (gs_layers S dC fuel n W m v) (gs_layers S' dC' fuel n W' m v').
Proof.
  intros HW. induction fuel; intros m v v' Hv; cbn [gs_layers]; auto. destruct (1 <=? m); auto. apply IHfuel. unfold gs_layer.
  apply (fold_rel _ _ _ R2); auto. intros a a' i _ Ha. apply rel_gs_step; auto. now apply rel_get.
Qed.
Lemma rel_fill v v' start len a a' : R2 v v' -> RT a a' -> R2 (fill v start len a) (fill v' start len a').
Proof. intros Hv Ha. apply (fold_rel _ _ _ R2); auto. intros. now apply rel_set. Qed.
Lemma rel_scatter n dl rev input input' out out' : R2 input input' -> R2 out out' ->
  R2 (fft_scatter S n dl rev input out) (fft_scatter S' n dl rev input' out').
Proof.
  intros Hi Ho. unfold fft_scatter. rewrite (rel_len RT _ _ Hi). pose proof (sr_zero HS) as Hz.
  repeat (apply (fold_rel _ _ _ R2); [intros; apply rel_fill; auto using (rel_get RT)|]). exact Ho.
Qed.
Lemma rel_fft_vec n dl rev W W' out out' input input' : RC2 W W' -> R2 input input' -> R2 out out' ->
  R2 (fft_vec S dC n dl rev W out input) (fft_vec S' dC' n dl rev W' out' input').
Proof. intros HW Hi Ho. unfold fft_vec. rewrite (rel_len RT _ _ Hi). apply rel_ct_layers; auto. now apply rel_scatter. Qed.
Lemma rel_fft_inv_vec n rev W W' out out' input input' : RC2 W W' -> R2 input input' -> length out = length out' ->
  R2 (fft_inv_vec S dC n rev W out input) (fft_inv_vec S' dC' n rev W' out' input').
Proof.
  intros HW Hi Ho. pose proof (sr_zero HS) as Hz. unfold fft_inv_vec. apply rel_permute; auto. apply rel_gs_layers; auto.
  unfold copy_vec. rewrite Ho, (rel_len RT _ _ Hi). apply rel_app; [now apply rel_firstn|now apply rel_repeat].
Qed.
End Sym.

(** Lengths. *)
Lemma fold_length A I (f : list A -> I -> list A) l : (forall v i, length (f v i) = length v) -> forall v, length (fold_left f l v) = length v.
Proof. intros H. induction l as [|i l IH]; intros v; cbn [fold_left]; auto. now rewrite IH, H. Qed.
Lemma fft_vec_length C T (S : symops C T) dC n dl rev W out input : length (fft_vec S dC n dl rev W out input) = length out.
Proof.
  assert (Hc : forall fuel m v, length (ct_layers S dC fuel n W m v) = length v).
  { induction fuel as [|f IH]; intros m v; cbn [ct_layers]; auto. destruct (m <? n); auto. rewrite IH. unfold ct_layer.
    apply fold_length. intros v' j. apply fold_length. intros v2 i. unfold butterfly_ct. now rewrite !set_length. }
  unfold fft_vec. rewrite Hc. unfold fft_scatter.
  rewrite !fold_length; auto; intros; apply fold_length; intros; apply set_length.
Qed.
