(** SIMD loops over packets, column by column. *)
From Coq Require Import List NArith ZArith Arith Bool Lia.
From Verif.Model Require Import Common Arith Ring Fft2n Radix2 Props Bytes Simd.
From Verif.Spec Require Import Blocks.
From Verif.Proof Require Import ListP Tac BytesP SimdL.
Import ListNotations.
Open Scope nat_scope.

(** A list given by its entries; several lists. *)
Definition tab (n : nat) (h : nat -> N) : list N := map h (seq 0 n).
Definition tabs (k n : nat) (h : nat -> nat -> N) : list (list N) := map (fun i => tab n (h i)) (seq 0 k).

Lemma tab_length n h : length (tab n h) = n.
Proof. unfold tab. now rewrite map_length, seq_length. Qed.
Lemma nth_tab n h t : t < n -> nth t (tab n h) 0%N = h t.
Proof. apply nth_map_seq. Qed.
Lemma tab_ext n h h' : (forall t, t < n -> h t = h' t) -> tab n h = tab n h'.
Proof. intros H. unfold tab. apply map_ext_in. intros t Ht. apply in_seq in Ht. apply H. lia. Qed.
Lemma tabs_ext k n h h' : (forall i t, i < k -> t < n -> h i t = h' i t) -> tabs k n h = tabs k n h'.
Proof. intros H. unfold tabs. apply map_ext_in. intros i Hi. apply in_seq in Hi. apply tab_ext. intros t Ht. apply H; lia. Qed.
Lemma tab_nth l : tab (length l) (fun t => nth t l 0%N) = l.
Proof. apply (list_ext _ 0%N); rewrite tab_length; [auto|]. intros t Ht. now apply nth_tab. Qed.

Lemma set_tab n h i x : set (tab n h) i x = tab n (fun t => if t =? i then x else h t).
Proof.
  apply (list_ext _ 0%N); [now rewrite set_length, !tab_length|]. rewrite set_length, tab_length. intros t Ht.
  rewrite (nth_tab n _ t Ht). destruct (Nat.eqb_spec t i) as [->|].
  - apply nth_set_eq. now rewrite tab_length.
  - rewrite nth_set_neq by auto. now apply nth_tab.
Qed.

Lemma row_tab n l : row n l = tab n (fun t => nth t l 0%N).
Proof.
  unfold row. apply (list_ext _ 0%N).
  - rewrite tab_length, app_length, firstn_length, repeat_length. lia.
  - intros t Ht. rewrite app_length, firstn_length, repeat_length in Ht. rewrite nth_tab by lia.
    destruct (Nat.lt_ge_cases t (length (firstn n l))).
    + rewrite app_nth1, nth_firstn by auto. rewrite firstn_length in H. destruct (Nat.ltb_spec t n); [auto|lia].
    + rewrite app_nth2 by auto. rewrite firstn_length in *. rewrite (nth_overflow l) by lia.
      generalize (t - Nat.min n (length l)). generalize (n - length l). induction n0; intros [|i]; cbn; auto.
Qed.
Lemma row_of_tab n h : row n (tab n h) = tab n h.
Proof. rewrite row_tab. apply tab_ext. intros t Ht. now apply nth_tab. Qed.


Lemma between_S s len t : ((s <=? t) && (t <? s + S len)) = ((t =? s + len) || ((s <=? t) && (t <? s + len))).
Proof.
  destruct (Nat.leb_spec s t), (Nat.ltb_spec t (s + S len)), (Nat.eqb_spec t (s + len)), (Nat.ltb_spec t (s + len)); cbn; auto; lia.
Qed.
Lemma between_0 s t : ((s <=? t) && (t <? s + 0)) = false.
Proof. destruct (Nat.leb_spec s t), (Nat.ltb_spec t (s + 0)); cbn; auto; lia. Qed.
Lemma between_end s len : ((s <=? s + len) && (s + len <? s + len)) = false.
Proof. destruct (Nat.ltb_spec (s + len) (s + len)); [lia|now rewrite andb_false_r]. Qed.

Lemma fold_set2 n (f g : N -> N -> N) s len : forall ha hb, s + len <= n ->
  fold_left (fun ab t => let '(a, b) := ab in
       (set a t (f (get 0%N a t) (get 0%N b t)), set b t (g (get 0%N a t) (get 0%N b t)))) (seq s len) (tab n ha, tab n hb) =
  (tab n (fun t => if (s <=? t) && (t <? s + len) then f (ha t) (hb t) else ha t),
   tab n (fun t => if (s <=? t) && (t <? s + len) then g (ha t) (hb t) else hb t)).
Proof.
  induction len; intros ha hb H.
  - cbn [seq fold_left]. f_equal; apply tab_ext; intros t Ht; now rewrite between_0.
  - rewrite seq_S, fold_left_app, IHlen by lia. cbn [fold_left]. unfold get. rewrite !nth_tab by lia.
    rewrite !set_tab, between_end. f_equal; apply tab_ext; intros t Ht; rewrite between_S;
      destruct (Nat.eqb_spec t (s + len)) as [->|]; reflexivity.
Qed.

Lemma fold_set1 n (f : nat -> N -> N) s len : forall h, s + len <= n ->
  fold_left (fun a t => set a t (f t (get 0%N a t))) (seq s len) (tab n h) =
  tab n (fun t => if (s <=? t) && (t <? s + len) then f t (h t) else h t).
Proof.
  induction len; intros h H.
  - cbn [seq fold_left]. apply tab_ext; intros t Ht; now rewrite between_0.
  - rewrite seq_S, fold_left_app, IHlen by lia. cbn [fold_left]. unfold get. rewrite !nth_tab by lia.
    rewrite set_tab, between_end. apply tab_ext; intros t Ht; rewrite between_S;
      destruct (Nat.eqb_spec t (s + len)) as [->|]; reflexivity.
Qed.

Lemma steps_map step stop fuel : forall i,
  steps fuel i stop step = map (fun t => i + t * step) (seq 0 (length (steps fuel i stop step))).
Proof.
  induction fuel; intros i; [reflexivity|]. cbn [steps]. destruct (i <? stop); [|reflexivity]. cbn [length seq map].
  f_equal; [lia|]. rewrite (IHfuel (i + step)) at 1. rewrite <- seq_shift, map_map. apply map_ext. intros t. lia.
Qed.
Lemma steps_lt step stop fuel : forall i k, In k (steps fuel i stop step) -> k < stop.
Proof.
  induction fuel; intros i k; cbn [steps]; [intros []|]. destruct (Nat.ltb_spec i stop); [|intros []].
  intros [<-|H']; [auto|]. apply (IHfuel _ _ H').
Qed.
Lemma steps_count step stop fuel i c : c = length (steps fuel i stop step) -> 0 < c -> i + (c - 1) * step < stop.
Proof.
  intros Hc H0. apply (steps_lt step stop fuel i). rewrite steps_map, <- Hc. apply in_map_iff. exists (c - 1). split; [auto|].
  apply in_seq. lia.
Qed.

Lemma flat_blocks b c : flat_map (fun j => map (fun x => j + x) (seq 0 b)) (map (fun t => 0 + t * b) (seq 0 c)) = seq 0 (c * b).
Proof.
  induction c; [reflexivity|]. rewrite seq_S, map_app, flat_map_app, IHc. cbn [map flat_map]. rewrite app_nil_r.
  replace (S c * b) with (c * b + b) by lia. rewrite seq_app. f_equal. rewrite map_add_seq. cbn. f_equal. lia.
Qed.

Lemma by_four_seq len : by_four len = seq 0 len.
Proof.
  unfold by_four. set (js := steps len 0 (len - 3) 4). assert (Ej := steps_map 4 (len - 3) len 0). fold js in Ej.
  assert (Hc := steps_count 4 (len - 3) len 0 (length js) eq_refl). rewrite Ej at 1.
  transitivity (flat_map (fun j => map (fun x => j + x) (seq 0 4)) (map (fun t => 0 + t * 4) (seq 0 (length js))) ++
                seq (4 * length js) (len - 4 * length js)).
  { f_equal. apply flat_map_ext. intros j. cbn. now rewrite Nat.add_0_r. }
  rewrite flat_blocks, (Nat.mul_comm 4). rewrite <- (Nat.add_0_l (length js * 4)) at 2. rewrite <- seq_app. f_equal. lia.
Qed.

Section S.
Variables (e nh : nat).
Hypothesis He : e = 2 \/ e = 4.
Hypothesis Hn : nh = 1 \/ nh = 2.
Notation cnt := (countof e nh).
Notation w := (wbits e).
Notation W := (2 ^ wbits e)%N.
Notation rof := (rof e nh).
Notation small := (small e nh).
Notation wrap_lt := (SimdL.wrap_lt e nh He Hn).

Lemma load_tab n h j : (j + 1) * cnt <= n -> load e nh (tab n h) j = rof (fun t => wrap w (h (j * cnt + t))).
Proof.
  intros H. unfold load. rewrite <- (rof_wrap e nh). unfold rof. f_equal.
  rewrite <- (Nat.add_0_r (j * cnt)) at 1. rewrite <- map_add_seq, map_map. apply map_ext_in. intros t Ht. apply in_seq in Ht.
  apply nth_tab. lia.
Qed.

Lemma store_tab n h j g : (j + 1) * cnt <= n -> small g ->
  store e nh (tab n h) j (rof g) = tab n (fun t => if t / cnt =? j then g (t mod cnt) else h t).
Proof.
  intros H Hg. unfold store. rewrite lanes_rof by auto. pose proof (cnt_pos e nh He Hn) as C0.
  assert (F : forall len, len <= cnt ->
    fold_left (fun v t => set v (j * cnt + t) (get 0%N (map g (seq 0 cnt)) t)) (seq 0 len) (tab n h) =
    tab n (fun t => if (j * cnt <=? t) && (t <? j * cnt + len) then g (t - j * cnt) else h t)).
  { induction len; intros Hl.
    - apply tab_ext. intros t Ht. now rewrite between_0.
    - rewrite seq_S, fold_left_app, IHlen by lia. cbn [fold_left Nat.add]. unfold get. rewrite nth_map_seq by lia. rewrite set_tab.
      apply tab_ext. intros t Ht. rewrite between_S. destruct (Nat.eqb_spec t (j * cnt + len)) as [->|]; [|reflexivity].
      cbn [orb]. f_equal. lia. }
  rewrite F by auto. apply tab_ext. intros t Ht. pose proof (Nat.div_mod t cnt ltac:(lia)) as D.
  pose proof (Nat.mod_upper_bound t cnt ltac:(lia)).
  destruct (Nat.eqb_spec (t / cnt) j) as [<-|Hne].
  - destruct (Nat.leb_spec (t / cnt * cnt) t), (Nat.ltb_spec t (t / cnt * cnt + cnt)); cbn [andb]; try lia. f_equal. lia.
  - destruct (Nat.leb_spec (j * cnt) t), (Nat.ltb_spec t (j * cnt + cnt)); cbn [andb]; auto.
    exfalso. apply Hne. symmetry. apply (Nat.div_unique t cnt j (t - j * cnt)); lia.
Qed.

Lemma col j t : t / cnt = j -> j * cnt + t mod cnt = t.
Proof. intros <-. pose proof (cnt_pos e nh He Hn). rewrite Nat.mul_comm. symmetry. apply Nat.div_mod. lia. Qed.

(** ** Loops over the registers of several packets *)
Section Lanewise.
Variables (k : nat) (F : list reg -> list reg) (f : nat -> (nat -> N) -> N).
Hypothesis f_ext : forall i v v', (forall x, x < k -> v x = v' x) -> f i v = f i v'.
Hypothesis f_lt : forall i v, i < k -> (forall x, x < k -> (v x < W)%N) -> (f i v < W)%N.
Hypothesis F_f : forall gs, (forall i, i < k -> small (gs i)) ->
  F (map (fun i => rof (gs i)) (seq 0 k)) = map (fun i => rof (fun t => f i (fun x => gs x t))) (seq 0 k).

Definition turned (h : nat -> nat -> N) (j i t : nat) : N :=
  if t / cnt =? j then f i (fun x => wrap w (h x t)) else h i t.

Lemma map2_map_seq A B C (op : A -> B -> C) (a : nat -> A) (b : nat -> B) l :
  map2 op (map a l) (map b l) = map (fun i => op (a i) (b i)) l.
Proof. apply map2_map. Qed.

Lemma loads n h j : (j + 1) * cnt <= n ->
  F (map (fun row => load e nh row j) (tabs k n h)) =
  map (fun i => rof (fun t => f i (fun x => wrap w (h x (j * cnt + t))))) (seq 0 k).
Proof.
  intros H. unfold tabs. rewrite map_map.
  rewrite (map_ext _ (fun i => rof (fun t => wrap w (h i (j * cnt + t))))) by (intros i; now apply load_tab).
  apply F_f. intros i Hi t Ht. apply wrap_lt.
Qed.

Lemma stores n h j (o : nat -> nat -> N) : (j + 1) * cnt <= n -> (forall i, i < k -> small (o i)) ->
  map2 (fun row r => store e nh row j r) (tabs k n h) (map (fun i => rof (o i)) (seq 0 k)) =
  tabs k n (fun i t => if t / cnt =? j then o i (t mod cnt) else h i t).
Proof.
  intros H Ho. unfold tabs. rewrite map2_map_seq. apply map_ext_in. intros i Hi. apply in_seq in Hi.
  apply store_tab; [auto|]. apply Ho. lia.
Qed.

Lemma turn_tabs n h j : (j + 1) * cnt <= n -> reg_turn e nh F (tabs k n h) j = tabs k n (turned h j).
Proof.
  intros H. unfold reg_turn. rewrite loads by auto. rewrite stores by (auto; intros i Hi t Ht; apply f_lt; auto; intros; apply wrap_lt).
  apply tabs_ext. intros i t Hi Ht. unfold turned. destruct (Nat.eqb_spec (t / cnt) j); [|reflexivity]. now rewrite (col j t).
Qed.

Lemma turn2_tabs n h j : (j + 2) * cnt <= n ->
  reg_turn2 e nh F (tabs k n h) j = reg_turn e nh F (reg_turn e nh F (tabs k n h) j) (j + 1).
Proof.
  intros H. assert (A : (j + 1) * cnt <= n) by nia. assert (B : (j + 1 + 1) * cnt <= n) by (replace (j + 1 + 1) with (j + 2) by lia; auto).
  rewrite (turn_tabs n h j) by auto. rewrite turn_tabs by auto. unfold reg_turn2. rewrite !loads by auto.
  rewrite stores by (auto; intros i Hi t Ht; apply f_lt; auto; intros; apply wrap_lt).
  rewrite stores by (auto; intros i Hi t Ht; apply f_lt; auto; intros; apply wrap_lt).
  apply tabs_ext. intros i t Hi Ht. unfold turned.
  destruct (Nat.eqb_spec (t / cnt) (j + 1)) as [E|E].
  - rewrite (col (j + 1) t) by auto. apply f_ext. intros x Hx. destruct (Nat.eqb_spec (t / cnt) j); [lia|reflexivity].
  - destruct (Nat.eqb_spec (t / cnt) j); [|reflexivity]. now rewrite (col j t).
Qed.

Lemma turns n len : forall h, len * cnt <= n ->
  fold_left (reg_turn e nh F) (seq 0 len) (tabs k n h) =
  tabs k n (fun i t => if t <? len * cnt then f i (fun x => wrap w (h x t)) else h i t).
Proof.
  pose proof (cnt_pos e nh He Hn) as C0.
  induction len; intros h H.
  - apply tabs_ext. intros i t Hi Ht. destruct (Nat.ltb_spec t (0 * cnt)); [lia|reflexivity].
  - rewrite seq_S, fold_left_app, IHlen by lia. cbn [fold_left Nat.add]. rewrite turn_tabs by lia.
    apply tabs_ext. intros i t Hi Ht. unfold turned. pose proof (Nat.div_mod t cnt ltac:(lia)). pose proof (Nat.mod_upper_bound t cnt ltac:(lia)).
    destruct (Nat.eqb_spec (t / cnt) len) as [E|E].
    + assert (len * cnt <= t) by (rewrite <- E; nia). assert (t < S len * cnt) by (rewrite <- E; nia).
      destruct (Nat.ltb_spec t (S len * cnt)); [|lia]. apply f_ext. intros x Hx. destruct (Nat.ltb_spec t (len * cnt)); [lia|reflexivity].
    + destruct (Nat.ltb_spec t (len * cnt)), (Nat.ltb_spec t (S len * cnt)); try reflexivity; try lia.
      exfalso. apply E. symmetry. apply (Nat.div_unique t cnt len (t - len * cnt)); lia.
Qed.

Lemma turned_shape n js : forall h, (forall j, In j js -> (j + 1) * cnt <= n) ->
  exists h', fold_left (reg_turn e nh F) js (tabs k n h) = tabs k n h'.
Proof.
  induction js; intros h H; [exists h; reflexivity|]. cbn [fold_left]. rewrite turn_tabs by (apply H; now left).
  apply IHjs. intros; apply H; now right.
Qed.

Lemma turns2 n js : forall h, (forall j, In j js -> (j + 2) * cnt <= n) ->
  fold_left (reg_turn2 e nh F) js (tabs k n h) =
  fold_left (reg_turn e nh F) (flat_map (fun j => map (fun x => j + x) (seq 0 2)) js) (tabs k n h).
Proof.
  induction js; intros h H; [reflexivity|]. cbn [flat_map map seq fold_left app]. assert (A := H a (or_introl eq_refl)).
  rewrite turn2_tabs by auto. rewrite Nat.add_0_r. rewrite turn_tabs by nia. rewrite turn_tabs by (replace (a + 1 + 1) with (a + 2) by lia; auto).
  apply IHjs. intros; apply H; now right.
Qed.

Lemma loop_tabs n len h : len * cnt <= n ->
  reg_loop e nh F len (tabs k n h) =
  tabs k n (fun i t => if t <? len * cnt then f i (fun x => wrap w (h x t)) else h i t).
Proof.
  intros H. unfold reg_loop. set (js := steps len 0 (len - 1) 2). assert (Ej := steps_map 2 (len - 1) len 0). fold js in Ej.
  assert (Hc := steps_count 2 (len - 1) len 0 (length js) eq_refl).
  rewrite turns2.
  2:{ intros j Hj. apply steps_lt in Hj. nia. }
  rewrite Ej at 3. rewrite flat_blocks, <- fold_left_app, (Nat.mul_comm 2).
  rewrite <- (Nat.add_0_l (length js * 2)) at 2. rewrite <- seq_app. replace (length js * 2 + (len - length js * 2)) with len by lia.
  now apply turns.
Qed.
End Lanewise.

(** ** Loops that write one packet *)
Section Dst.
Variables (F : reg -> reg -> reg) (f : N -> N -> N).
Hypothesis f_lt : forall a b, (a < W)%N -> (b < W)%N -> (f a b < W)%N.
Hypothesis F_f : forall g g', small g -> small g' -> F (rof g) (rof g') = rof (fun t => f (g t) (g' t)).

Lemma dst_tab n len : forall s d, len * cnt <= n ->
  dst_loop e nh F (seq 0 len) (tab n s) (tab n d) =
  tab n (fun t => if t <? len * cnt then f (wrap w (s t)) (wrap w (d t)) else d t).
Proof.
  pose proof (cnt_pos e nh He Hn) as C0. unfold dst_loop.
  induction len; intros s d H.
  - apply tab_ext. intros t Ht. destruct (Nat.ltb_spec t (0 * cnt)); [lia|reflexivity].
  - rewrite seq_S, fold_left_app, IHlen by lia. cbn [fold_left Nat.add]. rewrite !load_tab by lia.
    rewrite F_f by (intros t Ht; apply wrap_lt). rewrite store_tab by (try lia; intros t Ht; apply f_lt; apply wrap_lt).
    apply tab_ext. intros t Ht. pose proof (Nat.div_mod t cnt ltac:(lia)). pose proof (Nat.mod_upper_bound t cnt ltac:(lia)).
    destruct (Nat.eqb_spec (t / cnt) len) as [E|E].
    + assert (len * cnt <= t) by (rewrite <- E; nia). assert (t < S len * cnt) by (rewrite <- E; nia).
      rewrite !(col len t) by auto. destruct (Nat.ltb_spec t (S len * cnt)), (Nat.ltb_spec t (len * cnt)); first [reflexivity|lia].
    + destruct (Nat.ltb_spec t (len * cnt)), (Nat.ltb_spec t (S len * cnt)); try reflexivity; try lia.
      exfalso. apply E. symmetry. apply (Nat.div_unique t cnt len (t - len * cnt)); lia.
Qed.

(** The same with two sources, neither of them changed. *)
Lemma two_tab n len : forall a b d, len * cnt <= n ->
  fold_left (fun d j => store e nh d j (F (load e nh (tab n a) j) (load e nh (tab n b) j))) (seq 0 len) (tab n d) =
  tab n (fun t => if t <? len * cnt then f (wrap w (a t)) (wrap w (b t)) else d t).
Proof.
  pose proof (cnt_pos e nh He Hn) as C0.
  induction len; intros a b d H.
  - apply tab_ext. intros t Ht. destruct (Nat.ltb_spec t (0 * cnt)); [lia|reflexivity].
  - rewrite seq_S, fold_left_app, IHlen by lia. cbn [fold_left Nat.add]. rewrite !load_tab by lia.
    rewrite F_f by (intros t Ht; apply wrap_lt). rewrite store_tab by (try lia; intros t Ht; apply f_lt; apply wrap_lt).
    apply tab_ext. intros t Ht. pose proof (Nat.div_mod t cnt ltac:(lia)). pose proof (Nat.mod_upper_bound t cnt ltac:(lia)).
    destruct (Nat.eqb_spec (t / cnt) len) as [E|E].
    + assert (len * cnt <= t) by (rewrite <- E; nia). assert (t < S len * cnt) by (rewrite <- E; nia).
      rewrite !(col len t) by auto. destruct (Nat.ltb_spec t (S len * cnt)), (Nat.ltb_spec t (len * cnt)); first [reflexivity|lia].
    + destruct (Nat.ltb_spec t (len * cnt)), (Nat.ltb_spec t (S len * cnt)); try reflexivity; try lia.
      exfalso. apply E. symmetry. apply (Nat.div_unique t cnt len (t - len * cnt)); lia.
Qed.
End Dst.
End S.
