(** The SIMD functions on packets, column by column, and the agreement with the plain loops. *)
From Coq Require Import List NArith ZArith Arith Bool Lia.
From Verif.Model Require Import Common Arith Ring Fft2n Radix2 Props Bytes Simd.
From Verif.Spec Require Import Blocks.
From Verif.Proof Require Import ListP Tac BytesP Build SimdL SimdR.
Import ListNotations.
Open Scope nat_scope.

Lemma if_fst {A B} (c : bool) (x y : A * B) : fst (if c then x else y) = if c then fst x else fst y.
Proof. now destruct c. Qed.
Lemma if_snd {A B} (c : bool) (x y : A * B) : snd (if c then x else y) = if c then snd x else snd y.
Proof. now destruct c. Qed.

(** Functions on pairs of packets that act on columns. *)
Definition pairmap (n : nat) (P : nat -> N -> N -> N * N) (a b : list N) : list N * list N :=
  (tab n (fun t => fst (P t (nth t a 0%N) (nth t b 0%N))), tab n (fun t => snd (P t (nth t a 0%N) (nth t b 0%N)))).

Lemma pairmap_tab n P h g : pairmap n P (tab n h) (tab n g) = (tab n (fun t => fst (P t (h t) (g t))), tab n (fun t => snd (P t (h t) (g t)))).
Proof. unfold pairmap. f_equal; apply tab_ext; intros t Ht; now rewrite !nth_tab. Qed.

Lemma pairmap_ext n P Q a b : (forall t x y, t < n -> P t x y = Q t x y) -> pairmap n P a b = pairmap n Q a b.
Proof. intros H. unfold pairmap. f_equal; apply tab_ext; intros t Ht; now rewrite H. Qed.

Section S.
Variables (e nh : nat).
Hypothesis He : e = 2 \/ e = 4.
Hypothesis Hn : nh = 1 \/ nh = 2.
Notation cnt := (countof e nh).
Notation w := (wbits e).
Notation W := (2 ^ wbits e)%N.
Notation rof := (rof e nh).
Notation small := (small e nh).
Notation wrap_lt := (SimdL.wrap_lt e nh He Hn).
Notation V n := (vec_len e nh n * cnt).

Lemma V_le n : V n <= n.
Proof. unfold vec_len. rewrite Nat.mul_comm. apply Nat.mul_div_le. pose proof (cnt_pos e nh He Hn). lia. Qed.

Lemma in_tail n t : t < n -> ((V n <=? t) && (t <? V n + tail_len e nh n)) = negb (t <? V n).
Proof.
  intros H. pose proof (V_le n). unfold tail_len.
  destruct (Nat.leb_spec (V n) t), (Nat.ltb_spec t (V n + (n - V n))), (Nat.ltb_spec t (V n)); cbn; auto; lia.
Qed.
Lemma tail_le n : V n + tail_len e nh n <= n.
Proof. pose proof (V_le n). unfold tail_len. lia. Qed.
Lemma no_tail n t : tail_len e nh n = 0 -> t < n -> t <? V n = true.
Proof. intros H Ht. pose proof (V_le n). unfold tail_len in H. apply Nat.ltb_lt. lia. Qed.
Lemma no_vec n t : vec_len e nh n = 0 -> t <? V n = false.
Proof. intros ->. apply Nat.ltb_ge. lia. Qed.

Section Packets.
Variables (G : gfops) (pkt : nat).
Notation q := (g_card G).
Notation V0 := (V pkt).

Definition vct (r : N) (t : nat) (x y : N) : N * N := if t <? V0 then lct e r (wrap w x) (wrap w y) q else (x, y).
Definition sct (r : N) (t : nat) (x y : N) : N * N :=
  if t <? V0 then (x, y) else (g_add G x (g_mul G r y), g_sub G x (g_mul G r y)).
Definition vgs (r : N) (t : nat) (x y : N) : N * N := if t <? V0 then lgs e r (wrap w x) (wrap w y) q else (x, y).
Definition sgs (r : N) (t : nat) (x y : N) : N * N :=
  if t <? V0 then (x, y) else (g_add G x y, g_mul G r (g_sub G x y)).

Lemma two_rows a b : [row pkt a; row pkt b] = tabs 2 pkt (fun i t => nth t (nth i [a; b] []) 0%N).
Proof. rewrite !row_tab. reflexivity. Qed.

Lemma vec_ct_eq r a b : vec_ct e nh G pkt r a b = pairmap pkt (vct r) a b.
Proof.
  unfold vec_ct. rewrite two_rows.
  rewrite (loop_tabs e nh He Hn 2 _ (fun i v => match i with 0 => fst (lct e r (v 0) (v 1) q) | _ => snd (lct e r (v 0) (v 1) q) end)).
  - unfold pairmap, pair_of, tabs, get. cbn [seq map nth]. f_equal; apply tab_ext; intros t Ht; unfold vct; now destruct (t <? V0).
  - intros i v v' H. rewrite !H by lia. reflexivity.
  - intros i v Hi Hv. destruct i; apply (lct_lt e nh He Hn).
  - intros gs Hg. cbn [seq map]. unfold get. cbn [nth]. rewrite (reg_ct_rof e nh He Hn) by (apply Hg; lia). reflexivity.
  - apply V_le.
Qed.

Lemma slow_ct_eq r a b : slow_ct e nh G pkt r a b = pairmap pkt (sct r) a b.
Proof.
  unfold slow_ct, tail. rewrite !row_tab.
  rewrite (fold_set2 pkt (fun x y => g_add G x (g_mul G r y)) (fun x y => g_sub G x (g_mul G r y))) by apply tail_le.
  unfold pairmap. f_equal; apply tab_ext; intros t Ht; rewrite in_tail by auto; unfold sct; now destruct (t <? V0).
Qed.

Lemma vec_gs_eq r a b : vec_gs e nh G pkt r a b = pairmap pkt (vgs r) a b.
Proof.
  unfold vec_gs. rewrite two_rows.
  rewrite (turns e nh He Hn 2 _ (fun i v => match i with 0 => fst (lgs e r (v 0) (v 1) q) | _ => snd (lgs e r (v 0) (v 1) q) end)).
  - unfold pairmap, pair_of, tabs, get. cbn [seq map nth]. f_equal; apply tab_ext; intros t Ht; unfold vgs; now destruct (t <? V0).
  - intros i v v' H. rewrite !H by lia. reflexivity.
  - intros i v Hi Hv. destruct i; apply (lgs_lt e nh He Hn).
  - intros gs Hg. cbn [seq map]. unfold get. cbn [nth]. rewrite (reg_gs_rof e nh He Hn) by (apply Hg; lia). reflexivity.
  - apply V_le.
Qed.

Lemma slow_gs_eq r a b : slow_gs e nh G pkt r a b = pairmap pkt (sgs r) a b.
Proof.
  unfold slow_gs, tail. rewrite !row_tab.
  rewrite (fold_set2 pkt (g_add G) (fun x y => g_mul G r (g_sub G x y))) by apply tail_le.
  unfold pairmap. f_equal; apply tab_ext; intros t Ht; rewrite in_tail by auto; unfold sgs; now destruct (t <? V0).
Qed.

Lemma vec_gss_eq r a b : vec_gss e nh G pkt r a b =
  tab pkt (fun t => if t <? V0 then lgss e r (wrap w (nth t a 0%N)) q else nth t b 0%N).
Proof.
  unfold vec_gss. rewrite !row_tab.
  rewrite (dst_tab e nh He Hn _ (fun x _ => lgss e r x q)); [reflexivity| | |apply V_le].
  - intros x y Hx Hy. now apply (lgss_lt e nh He Hn).
  - intros g g' Hg _. now apply (reg_gss_rof e nh He Hn).
Qed.

Lemma slow_gss_eq r a b : slow_gss e nh G pkt r a b =
  tab pkt (fun t => if t <? V0 then nth t b 0%N else g_mul G r (nth t a 0%N)).
Proof.
  unfold slow_gss, tail. rewrite !row_tab. rewrite (fold_set1 pkt (fun t _ => g_mul G r (get 0%N a t))) by apply tail_le.
  apply tab_ext; intros t Ht; rewrite in_tail by auto; now destruct (t <? V0).
Qed.

Lemma four_rows a b c d : [row pkt a; row pkt b; row pkt c; row pkt d] = tabs 4 pkt (fun i t => nth t (nth i [a; b; c; d] []) 0%N).
Proof. rewrite !row_tab. reflexivity. Qed.

Lemma wfst r x y : wrap w (fst (lct e r x y q)) = fst (lct e r x y q).
Proof. apply SimdL.wrap_small, (lct_lt e nh He Hn). Qed.
Lemma wsnd r x y : wrap w (snd (lct e r x y q)) = snd (lct e r x y q).
Proof. apply SimdL.wrap_small, (lct_lt e nh He Hn). Qed.

(** Two layers on registers are the four butterflies in memory. *)
Lemma vec_ct4_eq r1 r2 r3 a b c d : vec_ct4 e nh G pkt r1 r2 r3 a b c d =
  let '(a1, b1) := pairmap pkt (vct r1) a b in let '(c1, d1) := pairmap pkt (vct r1) c d in
  let '(a2, c2) := pairmap pkt (vct r2) a1 c1 in let '(b2, d2) := pairmap pkt (vct r3) b1 d1 in [a2; b2; c2; d2].
Proof.
  unfold vec_ct4. rewrite four_rows.
  rewrite (loop_tabs e nh He Hn 4 _ (fun i v =>
    let x := lct e r1 (v 0) (v 1) q in let u := lct e r1 (v 2) (v 3) q in
    match i with
    | 0 => fst (lct e r2 (fst x) (fst u) q) | 2 => snd (lct e r2 (fst x) (fst u) q)
    | 1 => fst (lct e r3 (snd x) (snd u) q) | _ => snd (lct e r3 (snd x) (snd u) q)
    end)).
  - unfold pairmap at 1 2. rewrite !pairmap_tab. unfold tabs. cbn [seq map nth].
    repeat (apply f_equal2; [apply tab_ext; intros t Ht; unfold vct; destruct (t <? V0); [|reflexivity];
      rewrite ?wfst, ?wsnd; reflexivity|]). reflexivity.
  - intros i v v' H. rewrite !H by lia. reflexivity.
  - intros i v Hi Hv. cbv zeta. destruct i as [|[|[|i]]]; apply (lct_lt e nh He Hn).
  - intros gs Hg. cbn [seq map]. unfold get. cbn [nth].
    rewrite !(reg_ct_rof e nh He Hn r1) by (apply Hg; lia).
    rewrite (reg_ct_rof e nh He Hn r2) by (intros t Ht; apply (lct_lt e nh He Hn)).
    rewrite (reg_ct_rof e nh He Hn r3) by (intros t Ht; apply (lct_lt e nh He Hn)). reflexivity.
  - apply V_le.
Qed.

(** ** The operations on packets *)
Definition fct (r : N) (t : nat) (x y : N) : N * N :=
  if t <? V0 then lct e r (wrap w x) (wrap w y) q else (g_add G x (g_mul G r y), g_sub G x (g_mul G r y)).
Definition fgs (r : N) (t : nat) (x y : N) : N * N :=
  if t <? V0 then lgs e r (wrap w x) (wrap w y) q else (g_add G x y, g_mul G r (g_sub G x y)).
Notation S := (sym_simd e nh G pkt).

Lemma simd_ct r a b : s_ct S r a b = pairmap pkt (fct r) a b.
Proof.
  cbn [sym_simd s_ct]. rewrite vec_ct_eq. unfold pairmap at 1. rewrite slow_ct_eq, pairmap_tab. unfold pairmap.
  f_equal; apply tab_ext; intros t Ht; unfold vct, sct, fct; now destruct (t <? V0).
Qed.
Lemma simd_gs r a b : s_gs S r a b = pairmap pkt (fgs r) a b.
Proof.
  cbn [sym_simd s_gs]. rewrite vec_gs_eq. unfold pairmap at 1. rewrite slow_gs_eq, pairmap_tab. unfold pairmap.
  f_equal; apply tab_ext; intros t Ht; unfold vgs, sgs, fgs; now destruct (t <? V0).
Qed.
Lemma simd_gss r a b : s_gss S r a b =
  tab pkt (fun t => if t <? V0 then lgss e r (wrap w (nth t a 0%N)) q else g_mul G r (nth t a 0%N)).
Proof.
  cbn [sym_simd s_gss]. rewrite vec_gss_eq, slow_gss_eq. apply tab_ext. intros t Ht. rewrite nth_tab by auto. now destruct (t <? V0).
Qed.
End Packets.

Lemma mul_coef_eq card r n s d : mul_coef_to_buf e nh card r (tab n s) (tab n d) n =
  tab n (fun t => if t <? V n then lmul e (wrap w r) (wrap w (s t)) else wrap w (r * s t mod card)).
Proof.
  unfold mul_coef_to_buf, tail. rewrite by_four_seq. rewrite (dst_tab e nh He Hn _ (fun x _ => lmul e (wrap w r) x)).
  - rewrite (fold_set1 n (fun t _ => wrap w (r * get 0%N (tab n s) t mod card))) by apply tail_le.
    apply tab_ext. intros t Ht. rewrite in_tail by auto. unfold get. rewrite nth_tab by auto. now destruct (t <? V n).
  - intros. apply (lmul_lt e nh He Hn).
  - intros g g' Hg _. rewrite const_wrap. apply (mod_mul_rof e nh He Hn); auto. apply (const_small e nh He Hn).
  - apply V_le.
Qed.

Lemma neg_eq card n d : simd_neg e nh card n (tab n d) =
  tab n (fun t => if t <? V n then lneg e (wrap w (d t)) else if (d t =? 0)%N then 0%N else (card - d t)%N).
Proof.
  unfold simd_neg, tail.
  assert (E : fold_left (fun d j => store e nh d j (mod_neg e nh (load e nh d j))) (seq 0 (vec_len e nh n)) (tab n d) =
              tab n (fun t => if t <? V n then lneg e (wrap w (d t)) else d t)).
  { exact (dst_tab e nh He Hn (fun _ y => mod_neg e nh y) (fun _ y => lneg e y) (fun _ b _ _ => lneg_lt e nh He Hn b)
      (fun g g' _ Hg => mod_neg_rof e nh He Hn g' Hg) n (vec_len e nh n) d d (V_le n)). }
  rewrite E. rewrite (fold_set1 n (fun _ x => if (x =? 0)%N then 0%N else (card - x)%N)) by apply tail_le.
  apply tab_ext. intros t Ht. rewrite in_tail by auto. now destruct (t <? V n).
Qed.

Lemma mul_two_eq card n s d : mul_two_bufs e nh card (tab n s) (tab n d) n =
  tab n (fun t => if t <? V n then lmuls e (wrap w (s t)) (wrap w (d t)) else wrap w (s t * d t mod card)).
Proof.
  unfold mul_two_bufs, tail. rewrite (dst_tab e nh He Hn _ (lmuls e)).
  - rewrite (fold_set1 n (fun t x => wrap w (get 0%N (tab n s) t * x mod card))) by apply tail_le.
    apply tab_ext. intros t Ht. rewrite in_tail by auto. unfold get. rewrite nth_tab by auto. now destruct (t <? V n).
  - intros. apply (lmuls_lt e nh He Hn).
  - intros g g' Hg Hg'. now apply (mod_mul_safe_rof e nh He Hn).
  - apply V_le.
Qed.

Lemma add_two_eq card n s d : add_two_bufs e nh card (tab n s) (tab n d) n =
  tab n (fun t => if t <? V n then ladd e (wrap w (s t)) (wrap w (d t))
                  else let tmp := wrap w (s t + d t) in if (card <=? tmp)%N then (tmp - card)%N else tmp).
Proof.
  unfold add_two_bufs, tail. rewrite (dst_tab e nh He Hn _ (ladd e)).
  - rewrite (fold_set1 n (fun t x => let tmp := wrap w (get 0%N (tab n s) t + x) in if (card <=? tmp)%N then (tmp - card)%N else tmp)) by apply tail_le.
    apply tab_ext. intros t Ht. rewrite in_tail by auto. unfold get. rewrite nth_tab by auto. now destruct (t <? V n).
  - intros. apply (ladd_lt e nh He Hn).
  - intros g g' Hg Hg'. now apply (mod_add_rof e nh He Hn).
  - apply V_le.
Qed.

Lemma sub_two_eq card n a b d : sub_two_bufs e nh card (tab n a) (tab n b) (tab n d) n =
  tab n (fun t => if t <? V n then lsub e (wrap w (a t)) (wrap w (b t))
                  else if (b t <=? a t)%N then (a t - b t)%N else (card - (b t - a t))%N).
Proof.
  unfold sub_two_bufs, tail. rewrite (two_tab e nh He Hn _ (lsub e)).
  - rewrite (fold_set1 n (fun t _ => let x := get 0%N (tab n a) t in let y := get 0%N (tab n b) t in
      if (y <=? x)%N then (x - y)%N else (card - (y - x))%N)) by apply tail_le.
    apply tab_ext. intros t Ht. rewrite in_tail by auto. unfold get. cbv zeta. rewrite !nth_tab by auto. now destruct (t <? V n).
  - intros. apply (lsub_lt e nh He Hn).
  - intros g g' Hg Hg'. now apply (mod_sub_rof e nh He Hn).
  - apply V_le.
Qed.

(** ** Agreement with the plain loops, when the field is that of the type *)
Section Agree.
Variable p : N.
Hypothesis Hp : p = vcard e.
Notation G := (prime_ops w p).
Variable pkt : nat.

Lemma p_small x : (x < p)%N -> wrap w x = x.
Proof. intros H. apply SimdL.wrap_small. subst p. pose proof (q_lt e He). lia. Qed.
Lemma p_pos : (0 < p)%N.
Proof. subst p. pose proof (q_big e nh He Hn). lia. Qed.

Lemma radd a b : (a < p -> b < p -> ring_add w p a b = (a + b) mod p)%N.
Proof.
  intros Ha Hb. unfold ring_add. pose proof (W_2q e nh He Hn). rewrite SimdL.wrap_small by (subst p; lia).
  destruct (N.leb_spec p (a + b)); [|now rewrite N.mod_small]. apply (N.mod_unique _ _ 1); lia.
Qed.
Lemma rsub a b : (a < p -> b < p -> ring_sub w p a b = (a + p - b) mod p)%N.
Proof.
  intros Ha Hb. unfold ring_sub. destruct (N.leb_spec b a); [apply (N.mod_unique _ _ 1); lia|]. rewrite N.mod_small; lia.
Qed.
Lemma rmul a b : (a < p -> b < p -> ring_mul w p a b = (a * b) mod p)%N.
Proof.
  intros Ha Hb. unfold ring_mul. pose proof (q_lt e He). pose proof p_pos.
  assert (a * b < 2 ^ (2 * w))%N.
  { replace (2 * w)%N with (w + w)%N by lia. rewrite N.pow_add_r. apply N.mul_lt_mono; subst p; lia. }
  unfold wrap at 2. rewrite (N.mod_small (a * b)) by auto. apply p_small. apply N.mod_upper_bound. lia.
Qed.
Lemma rlt a : (a mod p < p)%N.
Proof. apply N.mod_upper_bound. pose proof p_pos. lia. Qed.

Lemma pok_nth n a t : pok G n a -> t < n -> (nth t a 0 < p)%N.
Proof. intros [L F] H. apply (proj1 (Forall_forall _ _) F). apply nth_In. lia. Qed.

Lemma pok_map2 (f : N -> N -> N) n a b : pok G n a -> pok G n b -> map2 f a b = tab n (fun t => f (nth t a 0%N) (nth t b 0%N)).
Proof.
  intros [La _] [Lb _]. rewrite <- (tab_nth a), <- (tab_nth b), La, Lb at 1. unfold tab at 1 2. rewrite map2_map.
  apply tab_ext. intros t Ht. reflexivity.
Qed.
Lemma pok_map (f : N -> N) n a : pok G n a -> map f a = tab n (fun t => f (nth t a 0%N)).
Proof. intros [La _]. rewrite <- (tab_nth a), La at 1. unfold tab at 1. rewrite map_map. reflexivity. Qed.

Theorem simd_agree : sym_agree G pkt (sym_simd e nh G pkt) (sym_pkt G pkt).
Proof.
  split.
  - reflexivity.
  - intros r a b Hr Ha Hb. rewrite simd_ct. cbn [sym_pkt s_ct prime_ops g_add g_sub g_mul g_card] in *.
    rewrite !(pok_map2 _ pkt) by auto. unfold pairmap. f_equal; apply tab_ext; intros t Ht; unfold fct; cbn [g_card prime_ops g_add g_sub g_mul];
      destruct (t <? V pkt); try reflexivity;
      pose proof (pok_nth _ _ t Ha Ht); pose proof (pok_nth _ _ t Hb Ht);
      rewrite !p_small, rmul by auto; rewrite ?radd, ?rsub by auto using rlt; rewrite Hp in *; now rewrite (lct_res e nh He Hn).
  - intros r a b Hr Ha Hb. rewrite simd_gs. cbn [sym_pkt s_gs prime_ops g_add g_sub g_mul g_card] in *.
    rewrite !(pok_map2 _ pkt) by auto. unfold pairmap. f_equal; apply tab_ext; intros t Ht; unfold fgs; cbn [g_card prime_ops g_add g_sub g_mul];
      destruct (t <? V pkt); try reflexivity;
      pose proof (pok_nth _ _ t Ha Ht); pose proof (pok_nth _ _ t Hb Ht);
      rewrite !p_small by auto; rewrite ?radd, ?rsub by auto; rewrite ?rmul by auto using rlt; rewrite Hp in *; now rewrite (lgs_res e nh He Hn).
  - intros r a b Hr Ha. rewrite simd_gss. cbn [sym_pkt s_gss prime_ops g_add g_sub g_mul g_card] in *.
    rewrite (pok_map _ pkt) by auto. apply tab_ext; intros t Ht. destruct (t <? V pkt); [|reflexivity].
    pose proof (pok_nth _ _ t Ha Ht). rewrite p_small, rmul by auto. rewrite Hp in *. now rewrite (lgss_res e nh He Hn).
  - intros r a b Hr Ha. cbn [sym_simd s_scale]. rewrite !row_tab, mul_coef_eq. cbn [sym_pkt s_scale prime_ops g_mul g_card] in *.
    rewrite (pok_map _ pkt) by auto. apply tab_ext; intros t Ht. pose proof (pok_nth _ _ t Ha Ht). rewrite rmul by lia.
    destruct (t <? V pkt); [|apply p_small, rlt]. rewrite !p_small by lia. rewrite Hp in *. apply (lmul_res e nh He Hn); lia.
  - intros a Ha. cbn [sym_simd s_neg]. rewrite row_tab, neg_eq. cbn [sym_pkt s_neg prime_ops g_sub g_card] in *.
    rewrite (pok_map _ pkt) by auto. apply tab_ext; intros t Ht. pose proof (pok_nth _ _ t Ha Ht) as Hx. pose proof p_pos. rewrite rsub by lia.
    rewrite N.add_0_l. destruct (t <? V pkt).
    + rewrite p_small by auto. rewrite Hp in *. now rewrite (lneg_res e nh He Hn).
    + destruct (N.eqb_spec (nth t a 0%N) 0) as [->|]; [rewrite N.sub_0_r, N.mod_same; lia|]. rewrite N.mod_small; lia.
Qed.

Lemma simd_had_ok n x y : pok G n x -> pok G n y -> simd_hadamard e nh p x y = map2 (g_mul G) x y.
Proof.
  intros Hx Hy. unfold simd_hadamard. rewrite (pok_map2 _ n) by auto. cbn [prime_ops g_mul].
  assert (Lx : length x = n) by apply Hx. assert (Ly : length y = n) by apply Hy.
  transitivity (mul_two_bufs e nh p (tab n (fun t => nth t y 0%N)) (tab n (fun t => nth t x 0%N)) n).
  { rewrite <- Lx at 2. rewrite <- Ly, !tab_nth, Lx, Ly. reflexivity. }
  rewrite mul_two_eq. apply tab_ext. intros t Ht.
  pose proof (pok_nth _ _ t Hx Ht). pose proof (pok_nth _ _ t Hy Ht). rewrite rmul by auto.
  rewrite (N.mul_comm (nth t x 0%N)). destruct (t <? V n); [|apply p_small, rlt]. rewrite !p_small by auto. rewrite Hp in *.
  now rewrite (lmuls_res e nh He Hn).
Qed.

Lemma tab_len n x : length x = n -> tab n (fun t => nth t x 0%N) = x.
Proof. intros <-. apply tab_nth. Qed.

Lemma add_two_ok n x y : pok G n x -> pok G n y -> add_two_bufs e nh p x y n = map2 (fun a b => (a + b) mod p)%N x y.
Proof.
  intros Hx Hy. rewrite (pok_map2 _ n) by auto. assert (Lx : length x = n) by apply Hx. assert (Ly : length y = n) by apply Hy.
  transitivity (add_two_bufs e nh p (tab n (fun t => nth t x 0%N)) (tab n (fun t => nth t y 0%N)) n).
  { now rewrite !tab_len. }
  rewrite add_two_eq. apply tab_ext. intros t Ht.
  pose proof (pok_nth _ _ t Hx Ht). pose proof (pok_nth _ _ t Hy Ht). destruct (t <? V n).
  - rewrite !p_small by auto. rewrite Hp in *. now apply (ladd_res e nh He Hn).
  - rewrite <- (radd (nth t x 0%N) (nth t y 0%N)) by auto. reflexivity.
Qed.

Lemma sub_two_ok n x y d : pok G n x -> pok G n y -> length d = n ->
  sub_two_bufs e nh p x y d n = map2 (fun a b => (a + p - b) mod p)%N x y.
Proof.
  intros Hx Hy Ld. rewrite (pok_map2 _ n) by auto. assert (Lx : length x = n) by apply Hx. assert (Ly : length y = n) by apply Hy.
  transitivity (sub_two_bufs e nh p (tab n (fun t => nth t x 0%N)) (tab n (fun t => nth t y 0%N)) (tab n (fun t => nth t d 0%N)) n).
  { now rewrite !tab_len. }
  rewrite sub_two_eq. apply tab_ext. intros t Ht.
  pose proof (pok_nth _ _ t Hx Ht). pose proof (pok_nth _ _ t Hy Ht). destruct (t <? V n).
  - rewrite !p_small by auto. rewrite Hp in *. now apply (lsub_res e nh He Hn).
  - rewrite <- (rsub (nth t x 0%N) (nth t y 0%N)) by auto. reflexivity.
Qed.

Lemma simd_neg_ok n x : pok G n x -> simd_neg e nh p (length x) x = map (g_neg G) x.
Proof.
  intros Hx. rewrite (pok_map _ n) by auto. assert (Lx : length x = n) by apply Hx.
  transitivity (simd_neg e nh p n (tab n (fun t => nth t x 0%N))); [rewrite <- Lx, tab_nth; reflexivity|].
  rewrite neg_eq. apply tab_ext. intros t Ht. cbn [prime_ops g_neg].
  pose proof (pok_nth _ _ t Hx Ht). pose proof p_pos. unfold ring_neg. rewrite rsub, N.add_0_l by lia. destruct (t <? V n).
  + rewrite p_small by auto. rewrite Hp in *. now rewrite (lneg_res e nh He Hn).
  + destruct (N.eqb_spec (nth t x 0%N) 0) as [->|]; [rewrite N.sub_0_r, N.mod_same; lia|]. rewrite N.mod_small; lia.
Qed.
End Agree.
End S.
