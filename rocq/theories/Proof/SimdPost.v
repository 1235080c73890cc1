(** The search for special values of the SIMD builds finds what the plain loop finds. *)
From Coq Require Import List NArith ZArith Arith Bool Lia.
From Verif.Model Require Import Common Arith Ring Fft2n Radix2 Props Bytes Simd Fnt.
From Verif.Proof Require Import ListP Tac BytesP Build SimdL SimdR SimdP.
Import ListNotations.
Open Scope nat_scope.

(** ** Bits of a mask *)
Definition bv (l : list bool) : N := fold_right (fun b d => (N.b2n b + 2 * d)%N) 0%N l.

Fixpoint ents (e : nat) (offset : N) (k : nat) (l : list bool) : props :=
  match l with
  | [] => []
  | b :: l' => (if b then [((offset + N.of_nat (k / e))%N, OOR_MARK)] else []) ++ ents e offset (S k) l'
  end.

Lemma ctz_double d : (d <> 0)%N -> ctz (2 * d) = S (ctz d).
Proof. destruct d; [congruence|reflexivity]. Qed.
Lemma ctz_pow k x : ctz (2 ^ N.of_nat k * (1 + 2 * x)) = k.
Proof.
  induction k as [|k IH].
  - change (2 ^ N.of_nat 0)%N with 1%N. rewrite N.mul_1_l. now destruct x.
  - rewrite Nat2N.inj_succ, N.pow_succ_r', <- N.mul_assoc, ctz_double; [now rewrite IH|].
    apply N.neq_mul_0. split; [apply N.pow_nonzero; discriminate|lia].
Qed.
Lemma clear_pow k x : N.lxor (2 ^ N.of_nat k * (1 + 2 * x)) (N.shiftl 1 (N.of_nat k)) = (2 ^ N.of_nat (S k) * x)%N.
Proof.
  replace (2 ^ N.of_nat k * (1 + 2 * x))%N with (N.shiftl (1 + 2 * x) (N.of_nat k)) by (rewrite N.shiftl_mul_pow2; lia).
  rewrite <- N.shiftl_lxor. replace (N.lxor (1 + 2 * x) 1) with (2 * x)%N by now destruct x.
  rewrite N.shiftl_mul_pow2, Nat2N.inj_succ, N.pow_succ_r'. lia.
Qed.

Lemma mask_loop_eq e offset l : forall k fuel ps, length l < fuel ->
  mask_loop e fuel (2 ^ N.of_nat k * bv l) offset ps = ps ++ ents e offset k l.
Proof.
  induction l as [|b l IH]; intros k fuel ps H; cbn [ents].
  - rewrite app_nil_r. cbn [bv fold_right]. rewrite N.mul_0_r. now destruct fuel.
  - cbn [length] in H. cbn [bv fold_right]. change (fold_right _ 0%N l) with (bv l). destruct b; cbn [N.b2n].
    + destruct fuel as [|fuel]; [lia|]. cbn [mask_loop].
      destruct (N.eqb_spec (2 ^ N.of_nat k * (1 + 2 * bv l)) 0) as [E|E].
      { apply N.eq_mul_0 in E. destruct E as [E|E]; [|lia]. now apply N.pow_nonzero in E. }
      cbv zeta. rewrite ctz_pow, clear_pow, IH by lia. unfold props_add. now rewrite <- app_assoc.
    + replace (2 ^ N.of_nat k * (0 + 2 * bv l))%N with (2 ^ N.of_nat (S k) * bv l)%N
        by (rewrite Nat2N.inj_succ, N.pow_succ_r'; lia).
      rewrite IH by lia. reflexivity.
Qed.

Lemma ents_app e offset l : forall k l', ents e offset k (l ++ l') = ents e offset k l ++ ents e offset (k + length l) l'.
Proof.
  induction l; intros k l'; cbn [app ents length]; [now rewrite Nat.add_0_r|]. rewrite IHl, app_assoc. do 2 f_equal. lia.
Qed.

Lemma ents_false e offset n : forall k, ents e offset k (repeat false n) = [].
Proof. induction n; intros k; [reflexivity|]. cbn [repeat ents app]. apply IHn. Qed.

Lemma flat_if {A} (l : list nat) (P : nat -> bool) (f : nat -> A) : (forall t, In t l -> P t = false) ->
  flat_map (fun t => if P t then [f t] else []) l = [].
Proof. induction l; intros H; cbn; [auto|]. rewrite H by now left. apply IHl. intros; apply H; now right. Qed.

Lemma flat_map_shift {A} (f : nat -> list A) n : forall s, flat_map f (seq s n) = flat_map (fun t => f (s + t)) (seq 0 n).
Proof.
  intros s. rewrite <- (map_id (seq 0 n)) at 1. rewrite map_id. rewrite !flat_map_concat_map. f_equal.
  rewrite <- (Nat.add_0_r s) at 1. rewrite <- map_add_seq, map_map. reflexivity.
Qed.

Lemma scan_eq thres (l : list N) : forall offset, scan thres offset l =
  flat_map (fun t => if negb (N.land (nth t l 0%N) thres =? 0)%N then [((offset + N.of_nat t)%N, OOR_MARK)] else []) (seq 0 (length l)).
Proof.
  induction l as [|v l IH]; intros offset; [reflexivity|]. cbn [scan length seq flat_map nth]. f_equal.
  - rewrite N.add_0_r. now destruct (_ =? _)%N.
  - rewrite IH, (flat_map_shift _ _ 1). rewrite !flat_map_concat_map. f_equal. apply map_ext. intros t. cbn [nth Nat.add].
    destruct (negb _); [|reflexivity]. do 2 f_equal. lia.
Qed.

Lemma land_thres k v : (v <= 2 ^ k)%N -> negb (N.land v (2 ^ k) =? 0)%N = (v =? 2 ^ k)%N.
Proof.
  intros H. destruct (N.eqb_spec v (2 ^ k)) as [->|E].
  - rewrite N.land_diag. destruct (N.eqb_spec (2 ^ k) 0) as [E|]; [|reflexivity]. now apply N.pow_nonzero in E.
  - assert (v < 2 ^ k)%N by lia. replace (N.land v (2 ^ k)) with 0%N; [reflexivity|].
    symmetry. apply N.bits_inj_0. intros i. rewrite N.land_spec, N.pow2_bits_eqb. destruct (N.eqb_spec k i) as [<-|]; [|apply andb_false_r].
    rewrite andb_true_r. destruct (N.eq_dec v 0) as [->|]; [apply N.bits_0|]. apply N.bits_above_log2. apply N.log2_lt_pow2; lia.
Qed.

Section S.
Variables (e nh : nat).
Hypothesis He : e = 2 \/ e = 4.
Hypothesis Hn : nh = 1 \/ nh = 2.
Notation cnt := (countof e nh).
Notation w := (wbits e).
Notation rof := (rof e nh).
Notation small := (small e nh).

Definition topbits (b : nat -> bool) : list bool := flat_map (fun t => repeat false (e - 1) ++ [b t]) (seq 0 cnt).

Lemma topbits_length b : length (topbits b) = 16 * nh.
Proof.
  unfold topbits. rewrite flat_map_concat_map. rewrite <- (cnt_e e nh He Hn). rewrite <- (seq_length cnt 0) at 2.
  induction (seq 0 cnt); [reflexivity|]. cbn [map concat length]. rewrite !app_length, repeat_length, IHl. cbn [length].
  pose proof (e_pos e nh He Hn). lia.
Qed.

Lemma topbits_ents offset (b : nat -> bool) : ents e offset 0 (topbits b) =
  flat_map (fun t => if b t then [((offset + N.of_nat t)%N, OOR_MARK)] else []) (seq 0 cnt).
Proof.
  unfold topbits.
  enough (A : forall c s, ents e offset (s * e) (flat_map (fun t => repeat false (e - 1) ++ [b t]) (seq s c)) =
    flat_map (fun t => if b t then [((offset + N.of_nat t)%N, OOR_MARK)] else []) (seq s c)) by exact (A cnt 0).
  induction c as [|c IH]; intros s; [reflexivity|]. cbn [seq flat_map]. rewrite ents_app, app_length, repeat_length.
  f_equal.
  - rewrite ents_app, repeat_length. cbn [ents]. rewrite app_nil_r.
    replace ((s * e + (e - 1)) / e) with s by (symmetry; rewrite Nat.add_comm, Nat.div_add, Nat.div_small by (pose proof (e_pos e nh He Hn); lia); lia).
    now rewrite ents_false.
  - cbn [length]. replace (s * e + (e - 1 + 1)) with (S s * e) by (pose proof (e_pos e nh He Hn); lia). apply IH.
Qed.

Lemma msb8_map r : msb8_mask r = bv (map (fun b => N.testbit b 7) r).
Proof. induction r; [reflexivity|]. unfold msb8_mask, bv in *. cbn [map fold_right]. now rewrite IHr. Qed.

Lemma msb8_rof (b : nat -> bool) : msb8_mask (rof (fun t => if b t then (2 ^ (w - 1))%N else 0%N)) = bv (topbits b).
Proof.
  rewrite msb8_map. f_equal. unfold SimdL.rof, of_lanes, unpack_buf, topbits. rewrite !flat_map_concat_map, concat_map, !map_map.
  f_equal. apply map_ext. intros t. destruct (b t), He as [-> | ->]; reflexivity.
Qed.

Lemma top_lt : (2 ^ (w - 1) < 2 ^ w)%N.
Proof. destruct He as [-> | ->]; reflexivity. Qed.
Lemma top_land : N.land (2 ^ (w - 1)) (2 ^ w - 1) = (2 ^ (w - 1))%N.
Proof. destruct He as [-> | ->]; reflexivity. Qed.

Section Chunk.
Variables (thres offset : N) (n : nat) (h : nat -> N).
Hypothesis Ht : thres = (vcard e - 1)%N.
Hypothesis Hh : forall t, t < n -> (h t <= thres)%N.

Lemma thres_pow : exists k, thres = (2 ^ k)%N /\ (thres < 2 ^ w)%N.
Proof. subst thres. destruct He as [-> | ->]; [exists 8%N|exists 16%N]; split; reflexivity. Qed.

Definition spec (off : N) (t : nat) : props := if (h t =? thres)%N then [((off + N.of_nat t)%N, OOR_MARK)] else [].

Lemma turn_scan ps j : (j + 1) * cnt <= n ->
  (let a := load e nh (tab n h) j in
   if and_is_zero a (set_one e nh thres) then ps
   else add_props e nh (set_one e nh thres) (set_one e nh (N.shiftl 1 (w - 1))) a (offset + N.of_nat (j * cnt)) ps) =
  ps ++ flat_map (fun t => spec offset (j * cnt + t)) (seq 0 cnt).
Proof.
  intros Hj. cbv zeta. destruct thres_pow as (k & Ek & Lt). rewrite (load_tab e nh He Hn) by auto.
  assert (Lh : forall t, t < cnt -> (h (j * cnt + t) <= thres)%N) by (intros; apply Hh; lia).
  rewrite (rof_ext e nh He Hn _ (fun t => h (j * cnt + t))) by (intros t Htc; apply SimdL.wrap_small; specialize (Lh t Htc); lia).
  assert (Sh : small (fun t => h (j * cnt + t))) by (intros t Htc; specialize (Lh t Htc); lia).
  rewrite !(set_one_rof e nh).
  unfold and_is_zero. rewrite (bit_and_rof e nh). change (forallb (fun b => (b =? 0)%N) (rof ?g)) with (is_zero (rof g)).
  rewrite (is_zero_rof e nh He Hn).
  2:{ intros t Htc. specialize (Lh t Htc). eapply N.le_lt_trans; [|exact Lt]. apply N.ldiff_le. apply N.bits_inj_0. intros i.
      rewrite N.ldiff_spec, N.land_spec. destruct (N.testbit _ i), (N.testbit thres i); reflexivity. }
  assert (B : forall t, t < cnt -> negb (N.land (h (j * cnt + t)) thres =? 0)%N = (h (j * cnt + t) =? thres)%N).
  { intros t Htc. rewrite Ek. apply land_thres. rewrite <- Ek. now apply Lh. }
  destruct (forallb _ _) eqn:F.
  - rewrite forallb_forall in F. rewrite <- (app_nil_r ps) at 1. f_equal. symmetry. unfold spec.
    apply (flat_if _ (fun t => (h (j * cnt + t) =? thres)%N) (fun t => ((offset + N.of_nat (j * cnt + t))%N, OOR_MARK))). intros t Hi. rewrite <- B, F by (auto; apply in_seq in Hi; lia). reflexivity.
  - unfold add_props, r_cmpeq. rewrite (lane2_rof e nh He Hn); auto; [|intros t _; exact Lt].
    rewrite (bit_and_rof e nh). rewrite N.shiftl_1_l.
    rewrite (rof_ext e nh He Hn _ (fun t => if (h (j * cnt + t) =? thres)%N then (2 ^ (w - 1))%N else 0%N)).
    2:{ intros t _. rewrite N.eqb_sym. destruct (_ =? _)%N; [apply top_land|apply N.land_0_r]. }
    rewrite (msb8_rof (fun t => (h (j * cnt + t) =? thres)%N)).
    rewrite <- (N.mul_1_l (bv _)). change 1%N with (2 ^ N.of_nat 0)%N. rewrite mask_loop_eq by (rewrite topbits_length; lia).
    f_equal. rewrite topbits_ents. rewrite !flat_map_concat_map. f_equal. apply map_ext. intros t. unfold spec.
    destruct (_ =? _)%N; [|reflexivity]. do 2 f_equal. lia.
Qed.

Lemma vec_scan_eq len ps : len * cnt <= n ->
  vec_scan e nh thres offset len (tab n h) ps = ps ++ flat_map (spec offset) (seq 0 (len * cnt)).
Proof.
  unfold vec_scan. rewrite by_four_seq. induction len as [|len IH]; intros H; [cbn; now rewrite app_nil_r|].
  rewrite seq_S, fold_left_app. rewrite IH by lia. cbn [fold_left Nat.add]. rewrite turn_scan by lia.
  rewrite <- app_assoc. f_equal. replace (S len * cnt) with (len * cnt + cnt) by lia. rewrite seq_app, flat_map_app. f_equal.
  symmetry. apply flat_map_shift.
Qed.

Lemma tail_scan l : forall ps, fold_left (fun p j => if (h j =? thres)%N then props_add p (offset + N.of_nat j) OOR_MARK else p) l ps =
  ps ++ flat_map (spec offset) l.
Proof.
  induction l as [|t l IH]; intros ps; cbn [fold_left flat_map]; [now rewrite app_nil_r|]. rewrite IH, app_assoc. f_equal.
  unfold spec. destruct (_ =? _)%N; [reflexivity|now rewrite app_nil_r].
Qed.
End Chunk.

Theorem simd_post_eq w' p pkt nout offset output ps : p = vcard e ->
  (forall i, i < nout -> pok (prime_ops w' p) pkt (nth i output [])) ->
  simd_post e nh pkt nout (p - 1) offset output ps = plain_post nout (p - 1) offset output ps.
Proof.
  intros Ep H. unfold simd_post, plain_post.
  assert (Q : (0 < vcard e)%N) by (pose proof (q_big e nh He Hn); lia).
  assert (C : forall i, i < nout -> exists h, get [] output i = tab pkt h /\ forall t, t < pkt -> (h t <= p - 1)%N).
  { intros i Hi. specialize (H i Hi). exists (fun t => nth t (nth i output []) 0%N). split.
    - unfold get. rewrite <- (proj1 H). symmetry. apply tab_nth.
    - intros t Htk. pose proof (pok_nth e nh He Hn p Ep). cbn in *. 
      assert (nth t (nth i output []) 0 < p)%N; [|lia]. destruct H as [L F]. apply (proj1 (Forall_forall _ _) F). apply nth_In. lia. }
  assert (VS : forall i, i < nout -> get [] ps i ++ scan (p - 1) offset (get [] output i) =
    let ps1 := vec_scan e nh (p - 1) offset (vec_len e nh pkt) (get [] output i) (get [] ps i) in
    fold_left (fun p0 j => if (get 0%N (get [] output i) j =? p - 1)%N then props_add p0 (offset + N.of_nat j) OOR_MARK else p0)
              (tail e nh pkt) ps1).
  { intros i Hi. destruct (C i Hi) as (h & Eh & Hh). rewrite Eh. cbv zeta.
    rewrite (vec_scan_eq (p - 1) offset pkt h); [|now subst p|auto|apply (V_le e nh He Hn)].
    transitivity (fold_left (fun p0 j => if (h j =? p - 1)%N then props_add p0 (offset + N.of_nat j) OOR_MARK else p0) (tail e nh pkt)
      (get [] ps i ++ flat_map (spec (p - 1) h offset) (seq 0 (vec_len e nh pkt * cnt)))).
    2:{ apply fold_left_ext_in. intros q t Hin. unfold get. unfold tail in Hin. apply in_seq in Hin.
        pose proof (tail_le e nh He Hn pkt). rewrite nth_tab by lia. reflexivity. }
    rewrite tail_scan, <- app_assoc, <- flat_map_app. f_equal. unfold tail. rewrite <- (Nat.add_0_l (vec_len e nh pkt * cnt)) at 2.
    rewrite <- seq_app. replace (vec_len e nh pkt * cnt + tail_len e nh pkt) with pkt by (pose proof (V_le e nh He Hn pkt); unfold tail_len; lia).
    rewrite scan_eq, tab_length. rewrite !flat_map_concat_map. f_equal. apply map_ext_in. intros t Hin. apply in_seq in Hin. unfold spec.
    rewrite nth_tab by lia. destruct (thres_pow (p - 1) pkt h) as (k & Ek & _); [now subst p|exact Hh|]. rewrite Ek, land_thres; [reflexivity|].
    rewrite <- Ek. apply Hh. lia. }
  destruct (Nat.eqb_spec (tail_len e nh pkt) 0) as [E|E].
  - apply map_ext_in. intros i Hi. apply in_seq in Hi. rewrite VS by lia. unfold tail. rewrite E. reflexivity.
  - apply map_ext_in. intros i Hi. apply in_seq in Hi. rewrite VS by lia. cbv zeta. f_equal.
    unfold get at 1. rewrite nth_map_seq by lia. reflexivity.
Qed.
End S.
