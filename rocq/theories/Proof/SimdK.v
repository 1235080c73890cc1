(** The transforms of the SIMD builds are the generic ones with the SIMD operations on packets. *)
From Coq Require Import List NArith ZArith Arith Bool Lia.
From Verif.Model Require Import Common Arith Ring Fft2n Radix2 Props Bytes Simd.
From Verif.Proof Require Import ListP Tac Local Kern SimdL SimdR SimdP.
Import ListNotations.
Open Scope nat_scope.

Lemma fold_len {A B} (f : list A -> B -> list A) (l : list B) : (forall v b, length (f v b) = length v) ->
  forall v, length (fold_left f l v) = length v.
Proof. intros H. induction l; intros v; cbn [fold_left]; auto. now rewrite IHl, H. Qed.

Lemma pow_div a b : a <= b -> Nat.divide (2 ^ a) (2 ^ b).
Proof. intros H. exists (2 ^ (b - a)). rewrite <- Nat.pow_add_r. f_equal. lia. Qed.
Lemma two_pow a : 2 * 2 ^ a = 2 ^ (a + 1).
Proof. rewrite Nat.add_1_r. reflexivity. Qed.
Lemma four_pow a : 4 * 2 ^ a = 2 ^ (a + 2).
Proof. rewrite Nat.pow_add_r. cbn [Nat.pow]. lia. Qed.
Lemma pow_half a : 2 ^ (a + 1) / 2 = 2 ^ a.
Proof. rewrite <- two_pow, Nat.mul_comm. now apply Nat.div_mul. Qed.
Lemma pow_halfS a : 2 ^ S a / 2 = 2 ^ a.
Proof. rewrite <- (pow_half a), Nat.add_1_r. reflexivity. Qed.
Lemma pow_lt a b : 2 ^ a < 2 ^ b -> a < b.
Proof. intros H. apply (Nat.pow_lt_mono_r_iff 2); lia. Qed.

Section S.
Variables (e nh : nat).
Hypothesis He : e = 2 \/ e = 4.
Hypothesis Hn : nh = 1 \/ nh = 2.
Variables (G : gfops) (pkt : nat).
Hypothesis Hpkt : 0 < pkt.
Notation S := (sym_simd e nh G pkt).
Notation z := (repeat 0%N pkt).
Notation on := (on z).
Notation lift2 := (lift2 z).
Notation vl := (vec_len e nh pkt).
Notation tl := (tail_len e nh pkt).
Notation V0 := (vl * countof e nh).

Lemma vl_tl : vl = 0 -> tl = 0 -> False.
Proof. unfold tail_len. intros -> H. lia. Qed.

Lemma pairs_on F n start m step v :
  pairs pkt F n start m step v = fold_left (fun v i => on (lift2 F) [i; i + m] v) (steps n start n step) v.
Proof.
  unfold pairs. apply fold_left_ext_in. intros v' i _. unfold on_pair, Local.on, Local.lift2, get. cbn [map nth]. now destruct F.
Qed.
Lemma ct_on r n start m step v :
  butterfly_ct_step S n r start m step v = fold_left (fun v i => on (lift2 (s_ct S r)) [i; i + m] v) (steps n start n step) v.
Proof.
  unfold butterfly_ct_step. apply fold_left_ext_in. intros v' i _. unfold butterfly_ct, Local.on, Local.lift2, get. cbn [map nth].
  change (s_zero S) with z. now destruct (s_ct S r).
Qed.
Lemma gs_on r n start m step v :
  butterfly_gs_step S n r start m step v = fold_left (fun v i => on (lift2 (s_gs S r)) [i; i + m] v) (steps n start n step) v.
Proof.
  unfold butterfly_gs_step. apply fold_left_ext_in. intros v' i _. unfold butterfly_gs, Local.on, Local.lift2, get. cbn [map nth].
  change (s_zero S) with z. now destruct (s_gs S r).
Qed.

Lemma lift2_ext F F' is m v : (forall a b, F a b = F' a b) ->
  fold_left (fun v i => on (lift2 F) [i; i + m] v) is v = fold_left (fun v i => on (lift2 F') [i; i + m] v) is v.
Proof. intros H. apply fold_left_ext_in. intros v' i _. unfold Local.on, Local.lift2. now rewrite H. Qed.

(** ** One layer *)
Section Layer.
Variables (n start m step : nat) (r : N) (v : list (list N)).
Hypothesis Hm : 0 < m.
Hypothesis Hs : start + m < step.
Hypothesis Hd : Nat.divide step n.
Hypothesis Lv : length v = n.

Lemma simd_ct_step_eq : simd_ct_step e nh G pkt n r start m step v = butterfly_ct_step S n r start m step v.
Proof.
  unfold simd_ct_step. rewrite Lv, ct_on, !pairs_on. destruct (Nat.eqb_spec tl 0) as [E|E].
  - apply lift2_ext. intros a b. rewrite (vec_ct_eq e nh He Hn), (simd_ct e nh He Hn). apply pairmap_ext. intros t x y Ht.
    unfold vct, fct. now rewrite (no_tail e nh He Hn pkt t).
  - rewrite fuse2 by auto. apply lift2_ext. intros a b. reflexivity.
Qed.

Lemma simd_gs_step_eq : step = 2 * m -> simd_gs_step e nh G pkt n r start m step v = butterfly_gs_step S n r start m step v.
Proof.
  intros E2. unfold simd_gs_step. rewrite Lv, gs_on, !pairs_on, <- E2. destruct (Nat.eqb_spec vl 0) as [E|E], (Nat.eqb_spec tl 0) as [E'|E'].
  - now destruct (vl_tl E E').
  - apply lift2_ext. intros a b. rewrite (slow_gs_eq e nh He Hn), (simd_gs e nh He Hn). apply pairmap_ext. intros t x y Ht.
    unfold sgs, fgs. now rewrite (no_vec e nh He Hn pkt t).
  - apply lift2_ext. intros a b. rewrite (vec_gs_eq e nh He Hn), (simd_gs e nh He Hn). apply pairmap_ext. intros t x y Ht.
    unfold vgs, fgs. now rewrite (no_tail e nh He Hn pkt t).
  - rewrite fuse2 by auto. apply lift2_ext. intros a b. reflexivity.
Qed.

(** Only the second packet of a pair is written, so that both parts read the same first one. *)
Lemma simd_gss_step_eq : step = 2 * m -> simd_gss_step e nh G pkt n r start m step v = butterfly_gs_step_simple S n r start m step v.
Proof.
  intros E2. unfold simd_gss_step, butterfly_gs_step_simple. rewrite Lv, <- E2.
  set (g F := fun a b : list N => (a, F r a b) : list N * list N).
  assert (A : forall F v, length v = n -> fold_left (fun v i => set v (i + m) (F r (get z v i) (get z v (i + m)))) (steps n start n step) v =
    fold_left (fun v i => on (lift2 (g F)) [i; i + m] v) (steps n start n step) v).
  { intros F v0 L0. apply (fold_ext_inv _ (fun v => length v = n)); auto. intros v' i Hi L'. split; [|now rewrite on_length].
    unfold Local.on, Local.lift2, g, get. cbn [map nth upd]. now rewrite set_nth. }
  assert (A' : forall v, length v = n -> fold_left (butterfly_gs_simple S r m) (steps n start n step) v =
    fold_left (fun v i => on (lift2 (g (s_gss S))) [i; i + m] v) (steps n start n step) v) by (intros; now apply A).
  rewrite A' by auto. pose proof (A (vec_gss e nh G pkt)) as A1. pose proof (A (slow_gss e nh G pkt)) as A2.
  assert (LL : forall F is v, length (fold_left (fun v i => on (lift2 F) [i; i + m] v) is v) = length v).
  { intros F is. induction is; intros v0; cbn [fold_left]; auto. rewrite IHis. apply on_length. }
  destruct (Nat.eqb_spec vl 0) as [E|E], (Nat.eqb_spec tl 0) as [E'|E'].
  - now destruct (vl_tl E E').
  - rewrite A2 by auto. apply lift2_ext. intros a b. unfold g. f_equal. rewrite (slow_gss_eq e nh He Hn), (simd_gss e nh He Hn). apply tab_ext.
    intros t Ht. now rewrite (no_vec e nh He Hn pkt t).
  - rewrite A1 by auto. apply lift2_ext. intros a b. unfold g. f_equal. rewrite (vec_gss_eq e nh He Hn), (simd_gss e nh He Hn). apply tab_ext.
    intros t Ht. now rewrite (no_tail e nh He Hn pkt t).
  - rewrite A1 by auto. rewrite A2 by now rewrite LL. rewrite fuse2 by auto. apply lift2_ext. intros a b. reflexivity.
Qed.
End Layer.

(** ** Two layers *)
Lemma length4 {A} (l : list A) : length l = 4 -> exists a b c d, l = [a; b; c; d].
Proof. destruct l as [|a [|b [|c [|d [|]]]]]; cbn; intros H; try discriminate. now exists a, b, c, d. Qed.

Lemma ct4_columns (P1 P2 P3 Q1 Q2 Q3 R1 R2 R3 : nat -> N -> N -> N * N) n a b c d :
  (forall t x y u v, t < n ->
     let '(x1, y1) := P1 t x y in let '(u1, v1) := P1 t u v in let '(x2, u2) := P2 t x1 u1 in let '(y2, v2) := P3 t y1 v1 in
     let '(x3, y3) := Q1 t x2 y2 in let '(u3, v3) := Q1 t u2 v2 in let '(x4, u4) := Q2 t x3 u3 in let '(y4, v4) := Q3 t y3 v3 in
     let '(x5, y5) := R1 t x y in let '(u5, v5) := R1 t u v in let '(x6, u6) := R2 t x5 u5 in let '(y6, v6) := R3 t y5 v5 in
     (x4, y4, u4, v4) = (x6, y6, u6, v6)) ->
  (let '(a1, b1) := pairmap n P1 a b in let '(c1, d1) := pairmap n P1 c d in
   let '(a2, c2) := pairmap n P2 a1 c1 in let '(b2, d2) := pairmap n P3 b1 d1 in
   let '(a3, b3) := pairmap n Q1 a2 b2 in let '(c3, d3) := pairmap n Q1 c2 d2 in
   let '(a4, c4) := pairmap n Q2 a3 c3 in let '(b4, d4) := pairmap n Q3 b3 d3 in [a4; b4; c4; d4]) =
  (let '(a1, b1) := pairmap n R1 a b in let '(c1, d1) := pairmap n R1 c d in
   let '(a2, c2) := pairmap n R2 a1 c1 in let '(b2, d2) := pairmap n R3 b1 d1 in [a2; b2; c2; d2]).
Proof.
  intros H.
  assert (X : forall (P : nat -> N -> N -> N * N) a b, pairmap n P a b =
    (tab n (fun t => fst (P t (nth t a 0%N) (nth t b 0%N))), tab n (fun t => snd (P t (nth t a 0%N) (nth t b 0%N))))) by reflexivity.
  rewrite !(X P1), !(X R1), !pairmap_tab.
  repeat (apply f_equal2; [apply tab_ext; intros t Ht;
    specialize (H t (nth t a 0%N) (nth t b 0%N) (nth t c 0%N) (nth t d 0%N) Ht);
    destruct (P1 t (nth t a 0%N) (nth t b 0%N)), (P1 t (nth t c 0%N) (nth t d 0%N)), (R1 t (nth t a 0%N) (nth t b 0%N)), (R1 t (nth t c 0%N) (nth t d 0%N));
    cbn [fst snd] in *;
    repeat match type of H with context [match ?f t ?x ?y with _ => _ end] => destruct (f t x y); cbn [fst snd] in * end; congruence|]).
  reflexivity.
Qed.

Lemma two_step n W m v start : 0 < m -> start < m -> Nat.divide (4 * m) n -> length v = n ->
  simd_two_layers_step e nh G pkt n W m v start = two_layers_step S 0%N n W m v start.
Proof.
  intros Hm Hs Hd Lv. destruct Hd as [c Ec]. assert (Hd : Nat.divide (4 * m) n) by now exists c.
  unfold simd_two_layers_step, two_layers_step.
  assert (E1 : start * n / m / 2 / 2 = start * n / m / 4) by now rewrite Nat.div_div.
  assert (E2 : start * n / m / 2 / 2 + n / 4 = (start + m) * n / m / 4).
  { rewrite E1. replace ((start + m) * n) with (start * n + n * m) by lia. rewrite Nat.div_add by lia.
    rewrite Ec at 2 4. replace (c * (4 * m)) with (c * m * 4) by lia. rewrite Nat.div_add, Nat.div_mul by lia. reflexivity. }
  rewrite E2, E1.
  set (r1 := get 0%N W (start * n / m / 2)). set (r2 := get 0%N W (start * n / m / 4)). set (r3 := get 0%N W ((start + m) * n / m / 4)).
  cbv zeta. rewrite Lv.
  assert (four : forall (F : N -> list N -> list N -> list N * list N) v, length v = n ->
    fold_left (fun v i => on (lift2 (F r3)) [i; i + 2 * m] v) (steps n (start + m) n (4 * m))
      (fold_left (fun v i => on (lift2 (F r2)) [i; i + 2 * m] v) (steps n start n (4 * m))
         (fold_left (fun v i => on (lift2 (F r1)) [i; i + m] v) (steps n (start + 2 * m) n (4 * m))
            (fold_left (fun v i => on (lift2 (F r1)) [i; i + m] v) (steps n start n (4 * m)) v))) =
    fold_left (fun v i => on (fun l => at2 z 1 3 (F r3) (at2 z 0 2 (F r2) (at2 z 2 3 (F r1) (at2 z 0 1 (F r1) l)))) (quad m i) v) (steps n start n (4 * m)) v).
  { intros F v0 L0.
    assert (K : forall a b H l, length l = 4 -> length (at2 z a b H l) = 4) by (intros; now rewrite at2_length).
    pose proof (pairs_quads z n m start Hm Hs Hd (F r1) 0 1 0 m v0 L0 ltac:(lia) ltac:(lia) ltac:(lia) ltac:(lia)) as Q1.
    rewrite Nat.add_0_r in Q1. rewrite Q1.
    rewrite (pairs_quads z n m start Hm Hs Hd (F r1) 2 3 (2 * m) m) by (rewrite ?loop_length; auto; lia).
    rewrite fuse4 by auto.
    match goal with |- context [steps n start n (4 * m)] =>
      match goal with |- context [fold_left (fun v i => on (lift2 (F r2)) [i; i + 2 * m] v) (steps n start n (4 * m)) ?x] =>
        pose proof (pairs_quads z n m start Hm Hs Hd (F r2) 0 2 0 (2 * m) x ltac:(rewrite loop_length; auto) ltac:(lia) ltac:(lia) ltac:(lia) ltac:(lia)) as Q2
      end end.
    rewrite Nat.add_0_r in Q2. rewrite Q2. rewrite fuse4 by auto.
    rewrite (pairs_quads z n m start Hm Hs Hd (F r3) 1 3 m (2 * m)) by (rewrite ?loop_length; auto; lia).
    rewrite fuse4 by auto. reflexivity. }
  rewrite !ct_on. rewrite (four (s_ct S)) by auto. rewrite !pairs_on.
  set (vec := fun l : list (list N) => let r := vec_ct4 e nh G pkt r1 r2 r3 (nth 0 l z) (nth 1 l z) (nth 2 l z) (nth 3 l z) in
    [nth 0 r []; nth 1 r []; nth 2 r []; nth 3 r []]).
  assert (V : fold_left (on_quad pkt (vec_ct4 e nh G pkt r1 r2 r3) m) (steps n start n (4 * m)) v =
              fold_left (fun v i => on vec (quad m i) v) (steps n start n (4 * m)) v).
  { apply fold_left_ext_in. intros v' i _. unfold on_quad, Local.on, quad, vec, get. cbn [map nth upd].
    replace (i + 0 * m) with i by lia. replace (i + 1 * m) with (i + m) by lia. reflexivity. }
  assert (VE : forall a b c d, vec [a; b; c; d] =
    let '(a1, b1) := pairmap pkt (vct e nh G pkt r1) a b in let '(c1, d1) := pairmap pkt (vct e nh G pkt r1) c d in
    let '(a2, c2) := pairmap pkt (vct e nh G pkt r2) a1 c1 in let '(b2, d2) := pairmap pkt (vct e nh G pkt r3) b1 d1 in [a2; b2; c2; d2]).
  { intros a b c' d. unfold vec. cbn [nth]. rewrite (vec_ct4_eq e nh He Hn). unfold pairmap. reflexivity. }
  assert (AE : forall (F : N -> list N -> list N -> list N * list N) P a b c d, (forall r a b, F r a b = pairmap pkt (P r) a b) ->
    at2 z 1 3 (F r3) (at2 z 0 2 (F r2) (at2 z 2 3 (F r1) (at2 z 0 1 (F r1) [a; b; c; d]))) =
    let '(a1, b1) := pairmap pkt (P r1) a b in let '(c1, d1) := pairmap pkt (P r1) c d in
    let '(a2, c2) := pairmap pkt (P r2) a1 c1 in let '(b2, d2) := pairmap pkt (P r3) b1 d1 in [a2; b2; c2; d2]).
  { intros F P a b c' d H. unfold at2. cbn [nth]. rewrite !H. unfold pairmap. cbn [nth set]. rewrite ?H. unfold pairmap. cbn [nth set]. rewrite ?H. unfold pairmap. cbn [nth set]. rewrite ?H. reflexivity. }
  assert (EXT : forall F F' v, length v = n -> (forall a b c d, F [a; b; c; d] = F' [a; b; c; d]) ->
    fold_left (fun v i => on F (quad m i) v) (steps n start n (4 * m)) v = fold_left (fun v i => on F' (quad m i) v) (steps n start n (4 * m)) v).
  { intros F F' v0 L0 H. apply fold_left_ext_in. intros v' i _. unfold Local.on, quad. cbn [map]. now rewrite H. }
  assert (SE := fun a b c d => AE (slow_ct e nh G pkt) (sct e nh G pkt) a b c d (slow_ct_eq e nh He Hn G pkt)).
  assert (FE := fun a b c d => AE (s_ct S) (fct e nh G pkt) a b c d (simd_ct e nh He Hn G pkt)).
  destruct (Nat.eqb_spec vl 0) as [E|E], (Nat.eqb_spec tl 0) as [E'|E'].
  - now destruct (vl_tl E E').
  - rewrite (four (slow_ct e nh G pkt)) by auto. apply EXT; auto. intros a b c' d. rewrite SE, FE.
    assert (X : forall r a b, pairmap pkt (sct e nh G pkt r) a b = pairmap pkt (fct e nh G pkt r) a b).
    { intros r a' b'. apply pairmap_ext. intros t x y Ht. unfold sct, fct. now rewrite (no_vec e nh He Hn pkt t). }
    rewrite !X. unfold pairmap at 1 2 5 6. rewrite !X. reflexivity.
  - rewrite V. apply EXT; auto. intros a b c' d. rewrite VE, FE.
    assert (X : forall r a b, pairmap pkt (vct e nh G pkt r) a b = pairmap pkt (fct e nh G pkt r) a b).
    { intros r a' b'. apply pairmap_ext. intros t x y Ht. unfold vct, fct. now rewrite (no_tail e nh He Hn pkt t). }
    rewrite !X. unfold pairmap at 1 2 5 6. rewrite !X. reflexivity.
  - rewrite V. rewrite (four (slow_ct e nh G pkt)) by (rewrite loop_length; auto).
    rewrite fuse4; auto; try (intros; now rewrite !at2_length).
    apply EXT; auto. intros a b c' d. rewrite VE, FE.
    rewrite <- (ct4_columns (vct e nh G pkt r1) (vct e nh G pkt r2) (vct e nh G pkt r3) (sct e nh G pkt r1) (sct e nh G pkt r2) (sct e nh G pkt r3)
      (fct e nh G pkt r1) (fct e nh G pkt r2) (fct e nh G pkt r3)).
    + destruct (pairmap pkt (vct e nh G pkt r1) a b) as [a1 b1], (pairmap pkt (vct e nh G pkt r1) c' d) as [c1 d1].
      destruct (pairmap pkt (vct e nh G pkt r2) a1 c1) as [a2 c2], (pairmap pkt (vct e nh G pkt r3) b1 d1) as [b2 d2].
      rewrite SE. reflexivity.
    + intros t x y u v' Ht. unfold vct, sct, fct. destruct (t <? V0).
      * destruct (lct e r1 (wrap (wbits e) x) (wrap (wbits e) y) (g_card G)) eqn:A1, (lct e r1 (wrap (wbits e) u) (wrap (wbits e) v') (g_card G)) eqn:A2.
        destruct (lct e r2), (lct e r3). reflexivity.
      * reflexivity.
Qed.

(** ** Lengths *)
Lemma ct_len n r start m step v : length (butterfly_ct_step S n r start m step v) = length v.
Proof. apply fold_len. intros v' i. unfold butterfly_ct. now rewrite !set_length. Qed.
Lemma gs_len n r start m step v : length (butterfly_gs_step S n r start m step v) = length v.
Proof. apply fold_len. intros v' i. unfold butterfly_gs. now rewrite !set_length. Qed.
Lemma gss_len n r start m step v : length (butterfly_gs_step_simple S n r start m step v) = length v.
Proof. apply fold_len. intros v' i. unfold butterfly_gs_simple. now rewrite !set_length. Qed.
Lemma two_len n W m v start : length (two_layers_step S 0%N n W m v start) = length v.
Proof. unfold two_layers_step. now rewrite !ct_len. Qed.
Lemma fill_len v i l (a : list N) : length (fill v i l a) = length v.
Proof. apply fold_len. intros. apply set_length. Qed.
Lemma scatter_len n dl rev input out : length (fft_scatter S n dl rev input out) = length out.
Proof. unfold fft_scatter. rewrite !fold_len; auto; intros; apply fill_len. Qed.
Lemma permute_len n rev (v : list (list N)) : length (bit_rev_permute z n rev v) = length v.
Proof. apply fold_len. intros v' i. destruct (_ <? _); [|auto]. unfold swap. now rewrite !set_length. Qed.
Lemma load_len n input out : length (fft_inv_load S n input out) = length out.
Proof.
  unfold fft_inv_load. destruct (_ <? _); [destruct (ceil2 _)|]; rewrite ?fold_len; auto; intros; apply set_length.
Qed.

(** ** Loops *)
Lemma two_layers_loop L W : forall fuel a v, a <= L -> length v = 2 ^ L ->
  simd_two_layers e nh G pkt fuel (2 ^ L) W (2 ^ a) v = two_layers S 0%N fuel (2 ^ L) W (2 ^ a) v /\
  exists b, b <= L /\ fst (two_layers S 0%N fuel (2 ^ L) W (2 ^ a) v) = 2 ^ b /\ length (snd (two_layers S 0%N fuel (2 ^ L) W (2 ^ a) v)) = 2 ^ L.
Proof.
  induction fuel as [|f IH]; intros a v Ha Lv; cbn [simd_two_layers two_layers].
  - split; [reflexivity|]. exists a. auto.
  - destruct (Nat.ltb_spec (2 ^ a) (2 ^ L / 2)) as [H|H]; [|split; [reflexivity|exists a; auto]].
    assert (Ha' : a + 2 <= L).
    { destruct L as [|L']; [cbn in H; lia|]. rewrite pow_halfS in H. apply pow_lt in H. lia. }
    pose proof (Nat.pow_nonzero 2 a ltac:(lia)).
    destruct (fold_ext_inv _ (fun v => length v = 2 ^ L) (simd_two_layers_step e nh G pkt (2 ^ L) W (2 ^ a)) (two_layers_step S 0%N (2 ^ L) W (2 ^ a))
                (seq 0 (2 ^ a)) v Lv) as [E Le].
    { intros v' i Hi Lv'. apply in_seq in Hi. split; [|now rewrite two_len]. apply two_step; auto; try lia. rewrite four_pow. now apply pow_div. }
    rewrite E, four_pow. apply IH; auto.
Qed.

Lemma gs_layers_loop L W : forall fuel a v, (forall b, a = 2 ^ b -> b + 1 <= L) -> (a = 0 \/ exists b, a = 2 ^ b) -> length v = 2 ^ L ->
  simd_gs_layers e nh G pkt fuel (2 ^ L) W a v = gs_layers S 0%N fuel (2 ^ L) W a v.
Proof.
  induction fuel as [|f IH]; intros a v Ha Hb Lv; cbn [simd_gs_layers gs_layers]; [reflexivity|].
  destruct (Nat.leb_spec 1 a) as [H|H]; [|reflexivity]. destruct Hb as [->|[b Eb]]; [lia|].
  pose proof (Ha b Eb) as Hb.
  destruct (fold_ext_inv _ (fun v => length v = 2 ^ L)
     (fun v j => simd_gs_step e nh G pkt (2 ^ L) (get 0%N W (j * 2 ^ L / (2 * a))) j a (2 * a) v)
     (fun v j => butterfly_gs_step S (2 ^ L) (get 0%N W (j * 2 ^ L / (2 * a))) j a (2 * a) v) (seq 0 a) v Lv) as [E Le].
  { intros v' i Hi Lv'. apply in_seq in Hi. split; [|now rewrite gs_len]. apply simd_gs_step_eq; auto; try lia.
    rewrite Eb, two_pow. now apply pow_div. }
  unfold simd_gs_layer, gs_layer. rewrite E. apply IH; auto.
  - intros b' Eb'. destruct b as [|b]; subst a; [pose proof (Nat.pow_nonzero 2 b' ltac:(lia)); cbn in Eb'; lia|].
    rewrite pow_halfS in Eb'. apply Nat.pow_inj_r in Eb'; lia.
  - destruct b as [|b]; subst a; [now left|]. right. exists b. now rewrite pow_halfS.
Qed.

Lemma gss_layers_loop L W il : 0 < il -> forall fuel a v, (forall b, a = 2 ^ b -> b + 1 <= L) -> (a = 0 \/ exists b, a = 2 ^ b) -> length v = 2 ^ L ->
  simd_gss_layers e nh G pkt fuel (2 ^ L) il W a v = gs_simple_layers S 0%N fuel (2 ^ L) il W a v /\
  let m := fst (gs_simple_layers S 0%N fuel (2 ^ L) il W a v) in
  (forall b, m = 2 ^ b -> b + 1 <= L) /\ (m = 0 \/ exists b, m = 2 ^ b) /\
  length (snd (gs_simple_layers S 0%N fuel (2 ^ L) il W a v)) = 2 ^ L.
Proof.
  intros Hil. induction fuel as [|f IH]; intros a v Ha Hb Lv; cbn [simd_gss_layers gs_simple_layers]; [auto|].
  destruct (Nat.leb_spec il a) as [H|H]; [|auto]. destruct Hb as [->|[b Eb]]; [lia|].
  pose proof (Ha b Eb) as Hb.
  destruct (fold_ext_inv _ (fun v => length v = 2 ^ L)
     (fun v j => simd_gss_step e nh G pkt (2 ^ L) (get 0%N W (j * 2 ^ L / (2 * a))) j a (2 * a) v)
     (fun v j => butterfly_gs_step_simple S (2 ^ L) (get 0%N W (j * 2 ^ L / (2 * a))) j a (2 * a) v) (seq 0 a) v Lv) as [E Le].
  { intros v' i Hi Lv'. apply in_seq in Hi. split; [|now rewrite gss_len]. apply simd_gss_step_eq; auto; try lia.
    rewrite Eb, two_pow. now apply pow_div. }
  unfold simd_gss_layer, gs_simple_layer. rewrite E. apply IH; auto.
  - intros b' Eb'. destruct b as [|b]; subst a; [pose proof (Nat.pow_nonzero 2 b' ltac:(lia)); cbn in Eb'; lia|].
    rewrite pow_halfS in Eb'. apply Nat.pow_inj_r in Eb'; lia.
  - destruct b as [|b]; subst a; [now left|]. right. exists b. now rewrite pow_halfS.
Qed.

Theorem simd_kern : kern_ok (simd_kernels e nh G pkt).
Proof.
  split.
  - intros f L k out input En Hk Em Lo. cbn [simd_kernels k_fft k_sym]. unfold simd_fft, r2_fft_buf, fft_buf. rewrite En.
    assert (Eg : group_len (2 ^ L) (r_data_len f) (length input) = 2 ^ (L - k)).
    { assert (D : 2 ^ L / 2 ^ k = 2 ^ (L - k)).
      { replace L with (L - k + k) at 1 by lia. rewrite Nat.pow_add_r. apply Nat.div_mul. apply Nat.pow_nonzero. lia. }
      unfold group_len. destruct (Nat.ltb_spec (r_data_len f) (length input)).
      - rewrite Nat.max_r in Em by lia. now rewrite Em.
      - rewrite Nat.max_l in Em by lia. now rewrite Em. }
    rewrite Eg.
    destruct (two_layers_loop L (r_W f) (2 ^ L) (L - k) (fft_scatter S (2 ^ L) (r_data_len f) (r_rev f) input out)) as [E (b & Hb & Eb & Lb)];
      [lia|now rewrite scatter_len|].
    rewrite E. destruct (two_layers S 0%N _ _ _ _ _) as [m v]. cbn [fst snd] in *. subst m.
    destruct (Nat.ltb_spec (2 ^ b) (2 ^ L)) as [H|H]; [|reflexivity]. apply pow_lt in H.
    pose proof (Nat.pow_nonzero 2 b ltac:(lia)).
    apply (fold_ext_inv _ (fun v => length v = 2 ^ L)); auto. intros v' i Hi Lv'. apply in_seq in Hi. split; [|now rewrite ct_len].
    apply simd_ct_step_eq; auto; try lia; [|apply Nat.divide_refl].
    pose proof (Nat.pow_le_mono_r 2 (b + 1) L ltac:(lia) ltac:(lia)). rewrite <- two_pow in *. lia.
  - intros f L out input En Lo Hi. cbn [simd_kernels k_fft_inv k_sym]. unfold simd_fft_inv, r2_fft_inv_buf, fft_inv_buf. rewrite En.
    change (s_zero S) with z. cbv zeta.
    set (v := fft_inv_load S (2 ^ L) input (bit_rev_permute z (2 ^ L) (r_rev f) out)).
    assert (Lv : length v = 2 ^ L) by (unfold v; now rewrite load_len, permute_len).
    assert (P1 : forall b, 2 ^ L / 2 = 2 ^ b -> b + 1 <= L).
    { intros b Eb. destruct L as [|L']; [pose proof (Nat.pow_nonzero 2 b ltac:(lia)); cbn in Eb; lia|].
      rewrite pow_halfS in Eb. apply Nat.pow_inj_r in Eb; lia. }
    assert (P2 : 2 ^ L / 2 = 0 \/ exists b, 2 ^ L / 2 = 2 ^ b).
    { destruct L as [|L']; [now left|]. right. exists L'. now rewrite pow_halfS. }
    destruct (length input <? 2 ^ L).
    + destruct (gss_layers_loop L (r_inv_W f) (length input) Hi (2 ^ L) (2 ^ L / 2) v P1 P2 Lv) as [E (Q1 & Q2 & Q3)].
      rewrite E. destruct (gs_simple_layers S 0%N _ _ _ _ _ _) as [m v']. cbn [fst snd] in *. f_equal. now apply gs_layers_loop.
    + f_equal. now apply gs_layers_loop.
Qed.
End S.
