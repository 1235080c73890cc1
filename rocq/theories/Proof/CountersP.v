(** The sum of the tallies counts the butterflies. *)
From Coq Require Import List NArith Arith Bool Lia.
From Verif.Model Require Import Common Arith Ring Fft2n Radix2 Counters.
From Verif.Spec Require Import Counters.
From Verif.Proof Require Import ListP Ceil2P CountersB.
Import ListNotations.
Open Scope nat_scope.

Lemma counter_ext a b : n_add a = n_add b -> n_sub a = n_sub b -> n_mul a = n_mul b -> n_neg a = n_neg b ->
  n_butterfly a = n_butterfly b -> a = b.
Proof. destruct a, b; cbn; intros; subst; reflexivity. Qed.
Ltac count := apply counter_ext; cbn [plus none cost cost_simple n_add n_sub n_mul n_neg n_butterfly count_normal]; try lia.

Lemma plus_0 a : plus a none = a. Proof. count. Qed.
Lemma plus_0l a : plus none a = a. Proof. count. Qed.
Lemma plus_c a b : plus a b = plus b a. Proof. count. Qed.
Lemma plus_a a b c : plus a (plus b c) = plus (plus a b) c. Proof. count. Qed.

Lemma total_add v : forall i x, i < length v -> total (set v i (plus (nth i v none) x)) = plus (total v) x.
Proof.
  induction v as [|a v IH]; intros [|i] x H; cbn [length] in H; try lia; cbn [set nth total fold_right].
  - fold (total v). count.
  - change (plus a (total (set v i (plus (nth i v none) x))) = plus (plus a (total v)) x). rewrite IH by lia. apply plus_a.
Qed.

Lemma total_none v : (forall x, In x v -> x = none) -> total v = none.
Proof.
  induction v as [|a v IH]; intros H; [reflexivity|]. cbn [total fold_right]. fold (total v).
  rewrite IH by (intros; apply H; now right). rewrite (H a) by now left. reflexivity.
Qed.

(** [k] butterflies of the same cost. *)
Fixpoint times (k : nat) (x : counter) : counter := match k with O => none | S k => plus x (times k x) end.

(** A transformation of lists of [n] tallies and one of a counter that add the same amount. *)
Definition both (n : nat) (F : list counter -> list counter) (f : counter -> counter) : Prop :=
  exists X, (forall c, f c = plus c X) /\ (forall v, length v = n -> length (F v) = n /\ total (F v) = plus (total v) X).
Lemma both_id n : both n (fun v => v) (fun c => c).
Proof. exists none. split; intros; rewrite ?plus_0; auto. Qed.
Lemma both_comp n F f F' f' : both n F f -> both n F' f' -> both n (fun v => F' (F v)) (fun c => f' (f c)).
Proof.
  intros (X & A & B) (Y & A' & B'). exists (plus X Y). split.
  - intros c. now rewrite A', A, plus_a.
  - intros v L. destruct (B v L) as [L1 E1], (B' _ L1) as [L2 E2]. split; [exact L2|]. now rewrite E2, E1, plus_a.
Qed.

Section T.
Variable h : N.
Notation T := (tally h).

Lemma tally_ct r m v i : 0 < m -> i + m < length v ->
  butterfly_ct T r m v i = set v i (plus (nth i v none) (cost h r)).
Proof.
  intros Hm H. unfold butterfly_ct, get. cbn [tally s_ct s_zero fst snd].
  rewrite <- (nth_set_neq counter v (i + m) i (plus (nth i v none) (cost h r)) none) by lia. apply set_nth.
Qed.
Lemma tally_gs r m v i : 0 < m -> i + m < length v ->
  butterfly_gs T r m v i = set v i (plus (nth i v none) (cost h r)).
Proof.
  intros Hm H. unfold butterfly_gs, get. cbn [tally s_gs s_zero fst snd].
  rewrite <- (nth_set_neq counter v (i + m) i (plus (nth i v none) (cost h r)) none) by lia. apply set_nth.
Qed.

(** A loop of butterflies [B] each of which adds [x] to the total. *)
Lemma total_steps (B : list counter -> nat -> list counter) x n l :
  (forall v i, length v = n -> In i l -> length (B v i) = n /\ total (B v i) = plus (total v) x) ->
  forall v, length v = n -> length (fold_left B l v) = n /\ total (fold_left B l v) = plus (total v) (times (length l) x).
Proof.
  induction l as [|i l IH]; intros H v Hv; cbn [fold_left length times].
  - split; [exact Hv|]. now rewrite plus_0.
  - destruct (H v i Hv (or_introl eq_refl)) as [L E].
    destruct (IH (fun v j Hv Hj => H v j Hv (or_intror Hj)) _ L) as [L' E']. split; [exact L'|]. rewrite E', E.
    now rewrite plus_a.
Qed.

(** The counters' loops. *)
Lemma count_steps (f : counter -> counter) x (l : list nat) : (forall c, f c = plus c x) ->
  forall c, fold_left (fun c _ => f c) l c = plus c (times (length l) x).
Proof.
  intros H. induction l as [|i l IH]; intros c; cbn [fold_left length times]; [now rewrite plus_0|].
  rewrite IH, H. now rewrite plus_a.
Qed.

Lemma normal_plus r c : count_normal h r c = plus c (cost h r).
Proof. unfold count_normal. count. destruct (_ && _); lia. Qed.
Lemma simple_plus r c : count_simple h r c = plus c (cost_simple h r).
Proof.
  unfold count_simple, cost_simple. destruct (N.eqb_spec r h), (1 <? r)%N; cbn [andb negb]; count.
Qed.

Lemma step_bound n m start i : start < m -> Nat.divide (2 * m) n -> In i (steps n start n (2 * m)) -> i + m < n.
Proof.
  intros Hs [c Hc] Hi. apply steps_mod in Hi; [|lia]. destruct Hi as [Hi E].
  pose proof (Nat.div_mod i (2 * m) ltac:(lia)) as D. rewrite E in D.
  assert (i / (2 * m) < c) by (apply Nat.div_lt_upper_bound; lia). nia.
Qed.

(** ** One layer *)
Section Layer.
Variables (n m : nat) (W : list N).
Hypothesis Hm : 0 < m.
Hypothesis Hn : Nat.divide (2 * m) n.

Lemma layer_total (step : N -> nat -> list counter -> list counter) (f : N -> counter -> counter) (x : N -> counter) (idx : nat -> nat) :
  (forall r c, f r c = plus c (x r)) ->
  (forall r start v, start < m -> length v = n -> length (step r start v) = n /\
     total (step r start v) = plus (total v) (times (length (steps n start n (2 * m))) (x r))) ->
  forall k, k <= m ->
  both n (fold_left (fun v j => step (get 0%N W (idx j)) j v) (seq 0 k))
       (fold_left (fun c start => fold_left (fun c _ => f (get 0%N W (idx start)) c) (steps n start n (2 * m)) c) (seq 0 k)).
Proof.
  intros Hf Hstep. induction k as [|k IH]; intros Hk.
  - exists none. split; intros; cbn [seq fold_left]; rewrite ?plus_0; auto.
  - destruct (IH ltac:(lia)) as (X & Hc & Hv). exists (plus X (times (length (steps n k n (2 * m))) (x (get 0%N W (idx k))))). split.
    + intros c. rewrite seq_S, fold_left_app. cbn [fold_left Nat.add]. rewrite (count_steps _ (x (get 0%N W (idx k)))) by (intros; apply Hf).
      rewrite Hc. now rewrite plus_a.
    + intros v L. rewrite seq_S, fold_left_app. cbn [fold_left Nat.add]. destruct (Hv v L) as [L1 E1].
      destruct (Hstep (get 0%N W (idx k)) k _ ltac:(lia) L1) as [L2 E2]. split; [exact L2|]. rewrite E2, E1. now rewrite plus_a.
Qed.

Lemma ct_step_total r start v : start < m -> length v = n ->
  length (butterfly_ct_step T n r start m (2 * m) v) = n /\
  total (butterfly_ct_step T n r start m (2 * m) v) = plus (total v) (times (length (steps n start n (2 * m))) (cost h r)).
Proof.
  intros Hs Hv. unfold butterfly_ct_step. apply total_steps; [|exact Hv]. intros u i Hu Hi.
  pose proof (step_bound n m start i Hs Hn Hi). rewrite tally_ct by lia. rewrite set_length. split; [exact Hu|]. apply total_add. lia.
Qed.
Lemma gs_step_total r start v : start < m -> length v = n ->
  length (butterfly_gs_step T n r start m (2 * m) v) = n /\
  total (butterfly_gs_step T n r start m (2 * m) v) = plus (total v) (times (length (steps n start n (2 * m))) (cost h r)).
Proof.
  intros Hs Hv. unfold butterfly_gs_step. apply total_steps; [|exact Hv]. intros u i Hu Hi.
  pose proof (step_bound n m start i Hs Hn Hi). rewrite tally_gs by lia. rewrite set_length. split; [exact Hu|]. apply total_add. lia.
Qed.
Lemma gss_step_total r start v : start < m -> length v = n ->
  length (butterfly_gs_step_simple T n r start m (2 * m) v) = n /\
  total (butterfly_gs_step_simple T n r start m (2 * m) v) = plus (total v) (times (length (steps n start n (2 * m))) (cost_simple h r)).
Proof.
  intros Hs Hv. unfold butterfly_gs_step_simple. apply total_steps; [|exact Hv]. intros u i Hu Hi.
  pose proof (step_bound n m start i Hs Hn Hi). unfold butterfly_gs_simple, get. cbn [tally s_gss s_zero].
  rewrite set_length. split; [exact Hu|]. apply total_add. lia.
Qed.

Lemma ct_layer_total : both n (ct_layer T 0%N n W m) (fft_count_layer h n W m).
Proof.
  exact (layer_total (fun r j v => butterfly_ct_step T n r j m (2 * m) v) (count_normal h) (cost h)
    (fun j => j * (n / (2 * m))) normal_plus ct_step_total m (le_n m)).
Qed.
Lemma gs_layer_total : both n (gs_layer T 0%N n W m) (ifft_count_layer (count_normal h) n W m).
Proof.
  exact (layer_total (fun r j v => butterfly_gs_step T n r j m (2 * m) v) (count_normal h) (cost h)
    (fun j => j * n / (2 * m)) normal_plus gs_step_total m (le_n m)).
Qed.
Lemma gss_layer_total : both n (gs_simple_layer T 0%N n W m) (ifft_count_layer (count_simple h) n W m).
Proof.
  exact (layer_total (fun r j v => butterfly_gs_step_simple T n r j m (2 * m) v) (count_simple h) (cost_simple h)
    (fun j => j * n / (2 * m)) simple_plus gss_step_total m (le_n m)).
Qed.
End Layer.

(** ** All the layers *)
Lemma pow_div L t : t < L -> Nat.divide (2 * 2 ^ t) (2 ^ L).
Proof. intros H. exists (2 ^ (L - t - 1)). rewrite <- Nat.pow_succ_r', <- Nat.pow_add_r. f_equal. lia. Qed.
Lemma pow_pos t : 0 < 2 ^ t.
Proof. apply Nat.neq_0_lt_0, Nat.pow_nonzero. lia. Qed.
Lemma pow_lt_iff t L : (2 ^ t <? 2 ^ L) = (t <? L).
Proof.
  destruct (Nat.ltb_spec t L) as [H|H].
  - apply Nat.ltb_lt, Nat.pow_lt_mono_r; lia.
  - apply Nat.ltb_ge, Nat.pow_le_mono_r; lia.
Qed.

Lemma ct_layers_total L W fuel : forall t, both (2 ^ L) (ct_layers T 0%N fuel (2 ^ L) W (2 ^ t)) (fft_count_layers fuel h (2 ^ L) W (2 ^ t)).
Proof.
  induction fuel as [|fuel IH]; intros t; [apply both_id|]. cbn [ct_layers fft_count_layers].
  rewrite pow_lt_iff. destruct (Nat.ltb_spec t L) as [H|H]; [|apply both_id].
  apply (both_comp (2 ^ L) (ct_layer T 0%N (2 ^ L) W (2 ^ t)) _ (ct_layers T 0%N fuel (2 ^ L) W (2 * 2 ^ t))).
  - exact (ct_layer_total (2 ^ L) (2 ^ t) W (pow_pos t) (pow_div L t H)).
  - rewrite <- Nat.pow_succ_r'. apply IH.
Qed.

Lemma half_pow t : 2 ^ S t / 2 = 2 ^ t.
Proof. rewrite Nat.pow_succ_r', Nat.mul_comm. now apply Nat.div_mul. Qed.

(** Halvings of a power of two, down to zero. *)
Definition pow0 (m : nat) (L : nat) : Prop := m = 0 \/ exists t, t < L /\ m = 2 ^ t.
Lemma pow0_half m L : pow0 m L -> pow0 (m / 2) L.
Proof.
  intros [->|(t & Ht & ->)]; [now left|]. destruct t as [|t]; [now left|]. right. exists t. split; [lia|]. apply half_pow.
Qed.

Lemma gs_layers_total L W fuel : forall m, pow0 m L ->
  both (2 ^ L) (gs_layers T 0%N fuel (2 ^ L) W m) (fun c => snd (ifft_count_layers fuel (count_normal h) 1 (2 ^ L) W m c)).
Proof.
  induction fuel as [|fuel IH]; intros m Hm; [apply both_id|]. cbn [gs_layers ifft_count_layers].
  destruct (Nat.leb_spec 1 m) as [H|H]; [|apply both_id].
  apply (both_comp (2 ^ L) (gs_layer T 0%N (2 ^ L) W m) (ifft_count_layer (count_normal h) (2 ^ L) W m) (gs_layers T 0%N fuel (2 ^ L) W (m / 2))
    (fun c => snd (ifft_count_layers fuel (count_normal h) 1 (2 ^ L) W (m / 2) c))).
  - destruct Hm as [->|(t & Ht & ->)]; [lia|]. exact (gs_layer_total (2 ^ L) (2 ^ t) W (pow_pos t) (pow_div L t Ht)).
  - apply IH, pow0_half, Hm.
Qed.

Lemma gss_layers_total L W low fuel : 0 < low -> forall m, pow0 m L -> exists m', pow0 m' L /\
  (forall c, fst (ifft_count_layers fuel (count_simple h) low (2 ^ L) W m c) = m') /\
  (forall v, fst (gs_simple_layers T 0%N fuel (2 ^ L) low W m v) = m') /\
  both (2 ^ L) (fun v => snd (gs_simple_layers T 0%N fuel (2 ^ L) low W m v))
    (fun c => snd (ifft_count_layers fuel (count_simple h) low (2 ^ L) W m c)).
Proof.
  intros Hlow. induction fuel as [|fuel IH]; intros m Hm; cbn [gs_simple_layers ifft_count_layers].
  - exists m. repeat (split; [auto|]). apply both_id.
  - destruct (Nat.leb_spec low m) as [H|H].
    + destruct (IH (m / 2) (pow0_half _ _ Hm)) as (m' & H0 & H1 & H2 & H3). exists m'.
      split; [exact H0|]. split; [intros; apply H1|]. split; [intros; apply H2|].
      apply (both_comp (2 ^ L) (gs_simple_layer T 0%N (2 ^ L) W m) (ifft_count_layer (count_simple h) (2 ^ L) W m)
        (fun v => snd (gs_simple_layers T 0%N fuel (2 ^ L) low W (m / 2) v))
        (fun c => snd (ifft_count_layers fuel (count_simple h) low (2 ^ L) W (m / 2) c))); [|exact H3].
      destruct Hm as [->|(t & Ht & ->)]; [lia|]. exact (gss_layer_total (2 ^ L) (2 ^ t) W (pow_pos t) (pow_div L t Ht)).
    + exists m. repeat (split; [auto|]). apply both_id.
Qed.

(** ** Whole transforms, from lists without tallies *)
Lemma set_none n i : set (repeat none n) i none = repeat none n.
Proof. rewrite <- (nth_repeat none n i) at 2. apply set_nth. Qed.
Lemma fold_none A (f : list counter -> A -> list counter) n l : (forall a, f (repeat none n) a = repeat none n) ->
  fold_left f l (repeat none n) = repeat none n.
Proof. intros H. induction l as [|a l IH]; [reflexivity|]. cbn [fold_left]. now rewrite H. Qed.
Lemma fill_none n start len : fill (repeat none n) start len none = repeat none n.
Proof. apply fold_none. intros a. apply set_none. Qed.
Lemma scatter_none n D rev len : fft_scatter T n D rev (repeat none len) (repeat none n) = repeat none n.
Proof.
  unfold fft_scatter. rewrite (fold_none _ (fun v idx => fill v (get 0 rev idx) _ (get (s_zero T) (repeat none len) idx))).
  - apply fold_none. intros a. apply fill_none.
  - intros a. unfold get at 2. cbn [tally s_zero]. rewrite nth_repeat. apply fill_none.
Qed.
Lemma total_repeat n : total (repeat none n) = none.
Proof. apply total_none. intros x Hx. now apply repeat_spec in Hx. Qed.

Lemma total_set v : forall i x, i < length v -> plus (total (set v i x)) (nth i v none) = plus (total v) x.
Proof.
  induction v as [|a v IH]; intros [|i] x H; cbn [length] in H; try lia; cbn [set nth total fold_right].
  - fold (total v). count.
  - change (plus (plus a (total (set v i x))) (nth i v none) = plus (plus a (total v)) x). rewrite <- !plus_a, IH by lia. reflexivity.
Qed.
Lemma total_swap v i j : i < length v -> j < length v -> i <> j -> total (swap none v i j) = total v.
Proof.
  intros Hi Hj Hij. unfold swap, get. pose proof (total_set v i (nth j v none) Hi) as A.
  pose proof (total_set (set v i (nth j v none)) j (nth i v none) ltac:(now rewrite set_length)) as B.
  rewrite nth_set_neq in B by auto. revert A B. generalize (nth i v none), (nth j v none), (total v), (total (set v i (nth j v none))).
  intros a b t u. generalize (total (set (set v i (nth j v none)) j (nth i v none))). intros z A B.
  destruct a, b, t, u, z. cbn in A, B. injection A. injection B. intros. count; cbn; lia.
Qed.

Lemma total_permute n rev v : length v = n -> total (bit_rev_permute none n rev v) = total v.
Proof.
  intros Hv. unfold bit_rev_permute.
  assert (G : forall l v, length v = n -> (forall i, In i l -> i < n) ->
    total (fold_left (fun v i => if get 0 rev i <? i then swap none v i (get 0 rev i) else v) l v) = total v).
  { clear v Hv. induction l as [|i l IH]; intros v Hv H; [reflexivity|]. cbn [fold_left].
    assert (Hi : i < n) by (apply H; now left). destruct (Nat.ltb_spec (get 0 rev i) i) as [R|R].
    - rewrite IH; [apply total_swap; lia| |intros; apply H; now right]. unfold swap. now rewrite !set_length.
    - apply IH; [exact Hv|intros; apply H; now right]. }
  apply G; [exact Hv|]. intros i Hi. apply in_seq in Hi. lia.
Qed.
Lemma permute_none n rev k : bit_rev_permute none n rev (repeat none k) = repeat none k.
Proof.
  unfold bit_rev_permute. apply fold_none. intros i. destruct (_ <? _); [|reflexivity]. unfold swap, get. rewrite !nth_repeat, !set_none. reflexivity.
Qed.

Section Obj.
Variables (f : radix2) (L e : nat).
Hypothesis En : r_n f = 2 ^ L.

Lemma group_pow len : e <= L -> 2 ^ L / Nat.max (r_data_len f) len = 2 ^ (L - e) -> group_len (r_n f) (r_data_len f) len = 2 ^ (L - e).
Proof. intros He <-. unfold group_len. rewrite En. destruct (Nat.ltb_spec (r_data_len f) len); f_equal; lia. Qed.

Lemma vec_count len : e <= L -> 2 ^ L / Nat.max (r_data_len f) len = 2 ^ (L - e) ->
  total (r2_fft_vec T f (repeat none (2 ^ L)) (repeat none len)) = fft_op_counter h f len.
Proof.
  intros He Hm. unfold r2_fft_vec, fft_vec, fft_op_counter. change (if r_data_len f <? len then r_n f / len else r_n f / r_data_len f)
    with (group_len (r_n f) (r_data_len f) len). rewrite repeat_length, group_pow, En, scatter_none by auto.
  destruct (ct_layers_total L (r_W f) (2 ^ L) (L - e)) as (X & A & B). destruct (B (repeat none (2 ^ L)) (repeat_length _ _)) as [_ ->].
  rewrite A, total_repeat. reflexivity.
Qed.

Lemma buf_count len : e <= L -> 2 ^ L / Nat.max (r_data_len f) len = 2 ^ (L - e) ->
  total (r2_fft_buf T f (repeat none (2 ^ L)) (repeat none len)) = fft_op_counter h f len.
Proof.
  intros He Hm. rewrite <- vec_count by auto. unfold r2_fft_buf, r2_fft_vec, fft_buf, fft_vec.
  rewrite repeat_length, group_pow, En, scatter_none by auto. rewrite buf_layers; [reflexivity|lia|apply repeat_length].
Qed.

Lemma load_none len : fft_inv_load T (2 ^ L) (repeat none len) (repeat none (2 ^ L)) = repeat none (2 ^ L).
Proof.
  unfold fft_inv_load. rewrite (fold_none _ (fun v i => set v i (get (s_zero T) (repeat none len) i))).
  - destruct (_ <? _); [|reflexivity]. destruct (ceil2 _); [|reflexivity]. apply fold_none. intros i. apply set_none.
  - intros i. unfold get. cbn [tally s_zero]. rewrite nth_repeat. apply set_none.
Qed.

Lemma inv_count len : 0 < len -> total (r2_fft_inv_buf T f (repeat none (2 ^ L)) (repeat none len)) = ifft_op_counter h f len.
Proof.
  intros Hl. unfold r2_fft_inv_buf, fft_inv_buf, ifft_op_counter. cbn [tally s_zero]. rewrite En, permute_none. fold T. rewrite load_none, repeat_length.
  assert (H0 : pow0 (2 ^ L / 2) L).
  { destruct L as [|l]; [now left|]. right. exists l. split; [lia|]. apply half_pow. }
  assert (R : length (repeat none (2 ^ L)) = 2 ^ L) by apply repeat_length.
  destruct (len <? 2 ^ L).
  - destruct (gss_layers_total L (r_inv_W f) len (2 ^ L) Hl _ H0) as (m' & P & F1 & F2 & X & A & B).
    specialize (F1 counter0). specialize (F2 (repeat none (2 ^ L))). specialize (A counter0). destruct (B _ R) as [L1 E1].
    destruct (gs_simple_layers _ _ _ _ _ _ _ _) as [m1 v1]. destruct (ifft_count_layers _ _ len _ _ _ _) as [m2 c2].
    cbn [fst snd] in F1, F2, A, L1, E1. subst m1 m2.
    destruct (gs_layers_total L (r_inv_W f) (2 ^ L) m' P) as (Y & A' & B'). destruct (B' v1 L1) as [L2 E2].
    rewrite total_permute by exact L2. rewrite E2, E1, A', A, total_repeat. reflexivity.
  - destruct (gs_layers_total L (r_inv_W f) (2 ^ L) _ H0) as (Y & A' & B'). destruct (B' _ R) as [L2 E2].
    rewrite total_permute by exact L2. rewrite E2, A', total_repeat. reflexivity.
Qed.

(** The vector version runs all the layers in full. *)
Lemma inv_vec_count len : len <= 2 ^ L ->
  total (r2_fft_inv_vec T f (repeat none (2 ^ L)) (repeat none len)) = ifft_op_counter h f (2 ^ L).
Proof.
  intros Hl. unfold r2_fft_inv_vec, fft_inv_vec, ifft_op_counter. cbn [tally s_zero]. rewrite En, Nat.ltb_irrefl. fold T.
  assert (C : copy_vec T (repeat none (2 ^ L)) (repeat none len) = repeat none (2 ^ L)).
  { unfold copy_vec. cbn [tally s_zero]. rewrite !repeat_length, firstn_all2 by (rewrite repeat_length; lia).
    rewrite <- repeat_app. f_equal. lia. }
  rewrite C. assert (H0 : pow0 (2 ^ L / 2) L).
  { destruct L as [|l]; [now left|]. right. exists l. split; [lia|]. apply half_pow. }
  destruct (gs_layers_total L (r_inv_W f) (2 ^ L) _ H0) as (Y & A' & B').
  destruct (B' (repeat none (2 ^ L)) (repeat_length _ _)) as [L2 E2].
  rewrite total_permute by exact L2. rewrite E2, A', total_repeat. reflexivity.
Qed.
End Obj.
End T.

(** ** Closed forms: every layer runs half the length butterflies *)
Lemma steps_length c : forall fuel start step, 0 < step -> c <= fuel -> start < step ->
  forall k, length (steps fuel (start + k * step) ((k + c) * step) step) = c.
Proof.
  induction c as [|c IH]; intros [|fuel] start step Hs Hf Hk k; cbn [steps]; try lia; try reflexivity.
  - destruct (Nat.ltb_spec (start + k * step) ((k + 0) * step)); [nia|reflexivity].
  - destruct (Nat.ltb_spec (start + k * step) ((k + S c) * step)); [|nia]. cbn [length]. f_equal.
    replace (start + k * step + step) with (start + S k * step) by lia. replace (k + S c) with (S k + c) by lia. apply IH; lia.
Qed.
Lemma butterflies f : (forall c, n_butterfly (f c) = S (n_butterfly c)) ->
  forall (l : list nat) c, n_butterfly (fold_left (fun c _ => f c) l c) = length l + n_butterfly c.
Proof. intros H. induction l as [|a l IH]; intros c; cbn [fold_left length]; [reflexivity|]. rewrite IH, H. lia. Qed.

Lemma layer_butterflies (f : N -> counter -> counter) (idx : nat -> N) L t :
  (forall r c, n_butterfly (f r c) = S (n_butterfly c)) -> t < L -> forall c,
  n_butterfly (fold_left (fun c start => fold_left (fun c _ => f (idx start) c) (steps (2 ^ L) start (2 ^ L) (2 * 2 ^ t)) c) (seq 0 (2 ^ t)) c) =
  2 ^ (L - 1) + n_butterfly c.
Proof.
  intros Hf Ht c. pose proof (pow_pos t) as P. set (g := 2 ^ (L - 1 - t)).
  assert (E1 : 2 ^ (L - 1) = 2 ^ t * g) by (unfold g; rewrite <- Nat.pow_add_r; f_equal; lia).
  assert (E2 : 2 ^ L = g * (2 * 2 ^ t)).
  { replace L with (S (L - 1)) at 1 by lia. rewrite Nat.pow_succ_r', E1. lia. }
  assert (Pg : 0 < g) by apply pow_pos.
  assert (G : forall k, k <= 2 ^ t -> n_butterfly (fold_left (fun c start => fold_left (fun c _ => f (idx start) c) (steps (2 ^ L) start (2 ^ L) (2 * 2 ^ t)) c) (seq 0 k) c) = k * g + n_butterfly c).
  { induction k as [|k IH]; intros Hk; [reflexivity|]. rewrite seq_S, fold_left_app. cbn [fold_left Nat.add].
    rewrite butterflies by auto. rewrite IH by lia.
    pose proof (steps_length g (2 ^ L) k (2 * 2 ^ t) ltac:(lia) ltac:(nia) ltac:(lia) 0) as S0.
    cbn [Nat.mul Nat.add] in S0. rewrite Nat.add_0_r in S0. change (2 ^ t + (2 ^ t + 0)) with (2 * 2 ^ t) in S0. rewrite <- E2 in S0.
    rewrite S0. lia. }
  rewrite G by lia. rewrite E1. lia.
Qed.

Lemma normal_b h r c : n_butterfly (count_normal h r c) = S (n_butterfly c).
Proof. reflexivity. Qed.
Lemma simple_b h r c : n_butterfly (count_simple h r c) = S (n_butterfly c).
Proof. unfold count_simple. destruct (_ =? _)%N; [reflexivity|]. destruct (_ <? _)%N; reflexivity. Qed.

Lemma fft_butterflies h L W : forall fuel t c, L - t <= fuel ->
  n_butterfly (fft_count_layers fuel h (2 ^ L) W (2 ^ t) c) = (L - t) * 2 ^ (L - 1) + n_butterfly c.
Proof.
  induction fuel as [|fuel IH]; intros t c Hf; cbn [fft_count_layers].
  - replace (L - t) with 0 by lia. reflexivity.
  - rewrite pow_lt_iff. destruct (Nat.ltb_spec t L) as [H|H].
    + rewrite <- Nat.pow_succ_r'. rewrite IH by lia. unfold fft_count_layer.
      rewrite (layer_butterflies (count_normal h) (fun start => get 0%N W (start * (2 ^ L / (2 * 2 ^ t)))) L t (normal_b h) H).
      replace (L - t) with (S (L - S t)) by lia. lia.
    + replace (L - t) with 0 by lia. reflexivity.
Qed.

Lemma ifft_butterflies count L W low : (forall r c, n_butterfly (count r c) = S (n_butterfly c)) -> 0 < low ->
  forall fuel t c, t <= fuel -> t <= L -> exists t', t' <= t /\ (low <= 1 -> t' = 0) /\
    fst (ifft_count_layers fuel count low (2 ^ L) W (2 ^ t / 2) c) = 2 ^ t' / 2 /\
    n_butterfly (snd (ifft_count_layers fuel count low (2 ^ L) W (2 ^ t / 2) c)) = (t - t') * 2 ^ (L - 1) + n_butterfly c.
Proof.
  intros Hc Hlow. induction fuel as [|fuel IH]; intros t c Hf HL; cbn [ifft_count_layers].
  - exists t. rewrite Nat.sub_diag. repeat split; lia.
  - destruct (Nat.leb_spec low (2 ^ t / 2)) as [H|H].
    + destruct t as [|t]; [cbn in H; lia|]. rewrite half_pow. destruct (IH t (ifft_count_layer count (2 ^ L) W (2 ^ t) c)) as (t' & A & Z & B & C); [lia|lia|].
      exists t'. split; [lia|]. split; [exact Z|]. split; [exact B|]. rewrite C. unfold ifft_count_layer.
      rewrite (layer_butterflies count (fun start => get 0%N W (start * 2 ^ L / (2 * 2 ^ t))) L t Hc) by lia.
      replace (S t - t') with (S (t - t')) by lia. lia.
    + exists t. rewrite Nat.sub_diag. repeat split; try lia. intros. destruct t; [reflexivity|]. rewrite half_pow in H. pose proof (pow_pos t). lia.
Qed.

Lemma fft_closed h f L e len : r_n f = 2 ^ L -> e <= L -> 2 ^ L / Nat.max (r_data_len f) len = 2 ^ (L - e) ->
  n_butterfly (fft_op_counter h f len) = e * 2 ^ (L - 1).
Proof.
  intros En He Hm. unfold fft_op_counter. change (if r_data_len f <? len then r_n f / len else r_n f / r_data_len f)
    with (group_len (r_n f) (r_data_len f) len). rewrite (group_pow f L e En len He Hm), En.
  rewrite fft_butterflies by (pose proof (Nat.pow_gt_lin_r 2 L); lia). cbn [counter0 n_butterfly]. replace (L - (L - e)) with e by lia. lia.
Qed.
Lemma ifft_closed h f L len : r_n f = 2 ^ L -> 0 < len -> n_butterfly (ifft_op_counter h f len) = L * 2 ^ (L - 1).
Proof.
  intros En Hl. unfold ifft_op_counter. rewrite En. pose proof (Nat.pow_gt_lin_r 2 L ltac:(lia)) as Hg.
  destruct (len <? 2 ^ L).
  - destruct (ifft_butterflies (count_simple h) L (r_inv_W f) len (simple_b h) Hl (2 ^ L) L counter0 ltac:(lia) (le_n L)) as (t' & A & _ & B & C).
    destruct (ifft_count_layers _ _ len _ _ _ _) as [m c]. cbn [fst snd] in B, C. subst m.
    destruct (ifft_butterflies (count_normal h) L (r_inv_W f) 1 (normal_b h) (le_n 1) (2 ^ L) t' c ltac:(lia) ltac:(lia)) as (t2 & _ & Z & _ & D).
    rewrite D, C, Z by lia. cbn [counter0 n_butterfly]. replace (L - t') with (L - t') by lia. nia.
  - destruct (ifft_butterflies (count_normal h) L (r_inv_W f) 1 (normal_b h) (le_n 1) (2 ^ L) L counter0 ltac:(lia) (le_n L)) as (t2 & _ & Z & _ & D).
    rewrite D, Z by lia. cbn [counter0 n_butterfly]. lia.
Qed.
