(** SIMD registers as functions from lanes to numbers: every operation of Simd.v acts lane by lane. *)
From Coq Require Import List NArith ZArith Arith Bool Lia.
From Verif.Model Require Import Common Arith Ring Fft2n Radix2 Props Bytes Simd.
From Verif.Spec Require Import Blocks.
From Verif.Proof Require Import ListP Tac BytesP.
Import ListNotations.
Open Scope nat_scope.

Lemma map2_map A B C D (f : B -> C -> D) (g : A -> B) (h : A -> C) l :
  map2 f (map g l) (map h l) = map (fun t => f (g t) (h t)) l.
Proof. induction l; cbn; f_equal; auto. Qed.

Lemma map2_app A B C (f : A -> B -> C) a a' b b' : length a = length b ->
  map2 f (a ++ a') (b ++ b') = map2 f a b ++ map2 f a' b'.
Proof. revert b. induction a; intros [|x b] H; cbn in *; try discriminate; auto. f_equal. apply IHa. lia. Qed.

Lemma map2_flat_map A B C (f : B -> B -> C) (F : A -> list B) n (g h : nat -> A) l :
  (forall a, length (F a) = n) ->
  map2 f (flat_map F (map g l)) (flat_map F (map h l)) = flat_map (fun t => map2 f (F (g t)) (F (h t))) l.
Proof. intros H. induction l; cbn; auto. rewrite map2_app by now rewrite !H. now rewrite IHl. Qed.

Lemma bytes_of_word_land e : forall a b, map2 N.land (bytes_of_word e a) (bytes_of_word e b) = bytes_of_word e (N.land a b).
Proof.
  induction e; intros a b; [reflexivity|]. cbn [bytes_of_word map2]. rewrite IHe. f_equal.
  - change 256%N with (2 ^ 8)%N. rewrite <- !N.land_ones. rewrite <- N.land_assoc, (N.land_assoc (N.ones 8)), (N.land_comm (N.ones 8) b).
    rewrite <- (N.land_assoc b), N.land_diag. now rewrite N.land_assoc.
  - f_equal. change 256%N with (2 ^ 8)%N. rewrite <- !N.shiftr_div_pow2. symmetry. apply N.shiftr_land.
Qed.

Lemma bytes_of_word_wrap e : forall v, bytes_of_word e v = bytes_of_word e (wrap (8 * N.of_nat e) v).
Proof.
  unfold wrap. intros v. rewrite N.pow_mul_r. change (2 ^ 8)%N with 256%N.
  assert (H := bytes_of_word_bytes e v).
  rewrite <- word_bytes. rewrite <- (bytes_word _ H) at 1. now rewrite bytes_of_word_length.
Qed.

Lemma fermat_lt h l u : (l < u -> u <= h -> (h * u + l) mod (h + 1) = l + (h + 1) - u)%N.
Proof.
  intros H1 H2. assert (exists v, u = v + 1)%N as [v ->] by (exists (u - 1)%N; lia).
  symmetry. apply (N.mod_unique _ _ v); lia.
Qed.
Lemma fermat_ge h l u : (u <= l -> l <= h -> (h * u + l) mod (h + 1) = l - u)%N.
Proof. intros H1 H2. symmetry. apply (N.mod_unique _ _ u); lia. Qed.
Lemma max_square q : (1 < q -> (q - 1) * (q - 1) mod q = 1)%N.
Proof. intros H. assert (exists v, q = v + 2)%N as [v ->] by (exists (q - 2)%N; lia). symmetry. apply (N.mod_unique _ _ v); lia. Qed.
Lemma max_mul q b : (0 < b -> b < q -> (q - 1) * b mod q = q - b)%N.
Proof.
  intros H1 H2. assert (exists v, b = v + 1)%N as [v ->] by (exists (b - 1)%N; lia).
  assert (exists x, q = x + 1)%N as [x ->] by (exists (q - 1)%N; lia). symmetry. apply (N.mod_unique _ _ v); lia.
Qed.
Lemma max_lt h a b : (a <= h -> b <= h -> ~ (a = h /\ b = h) -> 0 < h -> a * b < h * h)%N.
Proof.
  intros Ha Hb Hab Hh. destruct (N.eq_dec b h) as [->|].
  - apply N.mul_lt_mono_pos_r; lia.
  - apply N.le_lt_trans with (h * b)%N; [apply N.mul_le_mono_r; lia|apply N.mul_lt_mono_pos_l; lia].
Qed.

Section S.
Variables (e nh : nat).
Hypothesis He : e = 2 \/ e = 4.
Hypothesis Hn : nh = 1 \/ nh = 2.
Notation cnt := (countof e nh).
Notation w := (wbits e).
Notation q := (vcard e).

Lemma cnt_pos : 0 < cnt.
Proof. destruct He as [-> | ->], Hn as [-> | ->]; vm_compute; lia. Qed.
Lemma cnt_e : cnt * e = 16 * nh.
Proof. destruct He as [-> | ->], Hn as [-> | ->]; reflexivity. Qed.
Lemma e_pos : 0 < e.
Proof. destruct He as [-> | ->]; lia. Qed.

Definition rof (g : nat -> N) : list N := of_lanes e (map g (seq 0 cnt)).
Definition small (g : nat -> N) : Prop := forall t, t < cnt -> (g t < 2 ^ w)%N.

Lemma pow_w : (2 ^ w = 256 ^ N.of_nat e)%N.
Proof. unfold wbits. now rewrite N.pow_mul_r. Qed.

Lemma W_pos : (0 < 2 ^ w)%N.
Proof. apply N.neq_0_lt_0, N.pow_nonzero. discriminate. Qed.

Lemma wrap_lt x : (wrap w x < 2 ^ w)%N.
Proof. apply N.mod_upper_bound. pose proof W_pos. lia. Qed.

Lemma rof_length g : length (rof g) = 16 * nh.
Proof.
  unfold rof, of_lanes, unpack_buf. rewrite (flat_length _ e), map_length, seq_length by apply bytes_of_word_length. apply cnt_e.
Qed.

Lemma rof_ext g h : (forall t, t < cnt -> g t = h t) -> rof g = rof h.
Proof. intros H. unfold rof. f_equal. apply map_ext_in. intros t Ht. apply in_seq in Ht. apply H. lia. Qed.

Lemma lanes_of l : length l = cnt -> lanes e nh (of_lanes e l) = map (wrap w) l.
Proof.
  intros H. unfold lanes, pack_buf, of_lanes, unpack_buf. apply (list_ext _ 0%N).
  - now rewrite !map_length, seq_length.
  - rewrite map_length, seq_length. intros i Hi. rewrite nth_map_seq by auto.
    rewrite (slice_flat _ e (bytes_of_word_length e) 0%N) by lia. rewrite word_bytes, <- pow_w.
    rewrite (nth_indep (map (wrap w) l) 0%N (wrap w 0)) by (rewrite map_length; lia). now rewrite map_nth.
Qed.

Lemma lanes_rof g : small g -> lanes e nh (rof g) = map g (seq 0 cnt).
Proof.
  intros H. unfold rof. rewrite lanes_of by now rewrite map_length, seq_length. rewrite map_map. apply map_ext_in.
  intros t Ht. apply in_seq in Ht. apply N.mod_small. apply H. lia.
Qed.

Lemma rof_lanes r : length r = 16 * nh -> all_bytes r -> rof (fun t => nth t (lanes e nh r) 0%N) = r.
Proof.
  intros L B. unfold rof, of_lanes, unpack_buf. rewrite flat_map_concat_map, map_map.
  assert (E : forall t, t < cnt -> bytes_of_word e (nth t (lanes e nh r) 0%N) = slice r (t * e) e).
  { intros t Ht. unfold lanes, pack_buf. rewrite nth_map_seq by auto.
    assert (L' : length (slice r (t * e) e) = e) by (apply slice_length; pose proof cnt_e; nia).
    rewrite <- L' at 1. apply bytes_word. now apply Forall_slice. }
  rewrite (map_ext_in _ (fun t => slice r (t * e) e)) by (intros t Ht; apply in_seq in Ht; apply E; lia).
  clear E. assert (G : forall n, n * e <= length r -> concat (map (fun t => slice r (t * e) e) (seq 0 n)) = firstn (n * e) r).
  { induction n; intros H; [reflexivity|]. rewrite seq_S, map_app, concat_app, IHn by lia. cbn [map concat Nat.add].
    rewrite app_nil_r. unfold slice. replace (S n * e) with (n * e + e) by lia.
    rewrite <- (firstn_skipn (n * e) (firstn (n * e + e) r)). rewrite firstn_firstn, Nat.min_l by lia. f_equal.
    rewrite firstn_skipn_comm. reflexivity. }
  rewrite G; rewrite cnt_e; [|lia]. rewrite <- L. apply firstn_all.
Qed.

Lemma lanes_small r t : all_bytes r -> (nth t (lanes e nh r) 0 < 2 ^ w)%N.
Proof.
  intros B. unfold lanes, pack_buf. destruct (Nat.lt_ge_cases t cnt).
  - rewrite nth_map_seq by auto. eapply N.lt_le_trans; [apply word_of_bytes_lt, Forall_slice, B|]. rewrite pow_w.
    apply N.pow_le_mono_r; [discriminate|]. unfold slice. rewrite firstn_length. lia.
  - rewrite nth_overflow by (rewrite map_length, seq_length; auto). apply W_pos.
Qed.

Lemma lane2_rof f g h : small g -> small h -> lane2 e nh f (rof g) (rof h) = rof (fun t => f (g t) (h t)).
Proof. intros Hg Hh. unfold lane2. rewrite !lanes_rof by auto. now rewrite map2_map. Qed.

Lemma bit_and_rof g h : bit_and (rof g) (rof h) = rof (fun t => N.land (g t) (h t)).
Proof.
  unfold bit_and, rof, of_lanes, unpack_buf. rewrite (map2_flat_map _ _ _ _ _ e) by apply bytes_of_word_length.
  rewrite (flat_map_concat_map _ (map _ _)), map_map, flat_map_concat_map. f_equal. apply map_ext. intros t. apply bytes_of_word_land.
Qed.

Lemma set_one_rof v : set_one e nh v = rof (fun _ => v).
Proof. unfold set_one, rof. f_equal. generalize 0. induction cnt; intros s; cbn; f_equal; auto. Qed.

Lemma rof_wrap g : rof g = rof (fun t => wrap w (g t)).
Proof.
  unfold rof, of_lanes, unpack_buf. rewrite !flat_map_concat_map, !map_map. f_equal. apply map_ext.
  intros t. apply bytes_of_word_wrap.
Qed.

Lemma is_zero_rof g : small g -> is_zero (rof g) = forallb (fun t => (g t =? 0)%N) (seq 0 cnt).
Proof.
  intros Hg.
  assert (Z : forall n v, (v < 256 ^ N.of_nat n)%N -> forallb (fun b => (b =? 0)%N) (bytes_of_word n v) = (v =? 0)%N).
  { induction n; intros v Hv; [cbn in *; destruct (N.eqb_spec v 0); lia|]. cbn [bytes_of_word forallb]. rewrite pow_S in Hv.
    rewrite IHn by (apply N.div_lt_upper_bound; lia). pose proof (N.div_mod v 256 ltac:(discriminate)).
    destruct (N.eqb_spec (v mod 256) 0), (N.eqb_spec (v / 256) 0), (N.eqb_spec v 0); cbn; auto; try lia;
      subst v; try (now rewrite N.mod_0_l in * by discriminate); now rewrite N.div_0_l in * by discriminate. }
  unfold is_zero, rof, of_lanes, unpack_buf, small in *. rewrite pow_w in Hg.
  assert (G : forall l, (forall t, In t l -> (g t < 256 ^ N.of_nat e)%N) ->
     forallb (fun b => (b =? 0)%N) (flat_map (bytes_of_word e) (map g l)) = forallb (fun t => (g t =? 0)%N) l).
  { induction l; intros H; [reflexivity|]. cbn [map flat_map forallb]. rewrite forallb_app, Z by (apply H; now left).
    rewrite IHl; [reflexivity|]. intros; apply H; now right. }
  apply G. intros t Ht. apply in_seq in Ht. apply Hg. lia.
Qed.

(** ** Halves *)
Definition lo (a : N) : N := (a mod 2 ^ (w / 2))%N.
Definition hi (a : N) : N := (a / 2 ^ (w / 2))%N.

Ltac explode l H :=
  match type of H with
  | length l = S _ => let a := fresh "a" in let l' := fresh "l" in
      destruct l as [|a l']; [discriminate H|]; injection H as H; explode l' H
  | length l = 0 => destruct l; [clear H|discriminate H]
  end.

Lemma low2 a : bytes_of_word 2 (a mod 256) = [(a mod 256)%N; 0%N].
Proof.
  cbn [bytes_of_word]. rewrite N.mod_mod by discriminate. rewrite (N.div_small (a mod 256)); [reflexivity|].
  apply N.mod_upper_bound. discriminate.
Qed.
Lemma high2 a : (a < 65536)%N -> bytes_of_word 2 (a / 256) = [(a / 256 mod 256)%N; 0%N].
Proof.
  intros H. cbn [bytes_of_word]. rewrite (N.div_small (a / 256) 256); [reflexivity|]. apply N.div_lt_upper_bound; [discriminate|exact H].
Qed.
Lemma low4 a : bytes_of_word 4 (a mod 65536) = [(a mod 256)%N; (a / 256 mod 256)%N; 0%N; 0%N].
Proof.
  cbn [bytes_of_word]. change 65536%N with (256 * 256)%N. rewrite N.mod_mul_r by discriminate.
  rewrite (N.mul_comm 256 (a / 256 mod 256)), N.mod_add, N.mod_mod, N.div_add by discriminate.
  assert (H : (a mod 256 < 256)%N) by (apply N.mod_upper_bound; discriminate). rewrite (N.div_small (a mod 256)), N.add_0_l by auto.
  rewrite N.mod_mod by discriminate. assert (H' : (a / 256 mod 256 < 256)%N) by (apply N.mod_upper_bound; discriminate).
  rewrite (N.div_small (a / 256 mod 256)) by auto. reflexivity.
Qed.
Lemma high4 a : (a < 4294967296)%N ->
  bytes_of_word 4 (a / 65536) = [(a / 256 / 256 mod 256)%N; (a / 256 / 256 / 256 mod 256)%N; 0%N; 0%N].
Proof.
  intros H. cbn [bytes_of_word]. change 65536%N with (256 * 256)%N. rewrite <- N.div_div by discriminate.
  assert (H' : (a / 256 / 256 / 256 < 256)%N).
  { rewrite !N.div_div by discriminate. apply N.div_lt_upper_bound; [discriminate|exact H]. }
  rewrite (N.div_small _ 256 H'). reflexivity.
Qed.

Lemma halves l : length l = cnt -> Forall (fun a => (a < 2 ^ w)%N) l ->
  get_low_half e nh (of_lanes e l) = of_lanes e (map lo l) /\ get_high_half e nh (of_lanes e l) = of_lanes e (map hi l).
Proof.
  intros L F. unfold of_lanes, unpack_buf, lo, hi. rewrite !flat_map_concat_map, !map_map. revert L F.
  destruct He as [-> | ->].
  - change (2 ^ (wbits 2 / 2))%N with 256%N. change (2 ^ wbits 2)%N with 65536%N. intros L F.
    rewrite (map_ext _ _ low2), (map_ext_in (fun x => bytes_of_word 2 (x / 256)) (fun a => [(a / 256 mod 256)%N; 0%N]))
      by (intros a Ha; apply high2; apply (proj1 (Forall_forall _ _) F a Ha)).
    clear F. destruct Hn as [-> | ->]; cbv [countof Nat.mul Nat.div Nat.divmod fst Nat.add] in L; explode l L;
      split; cbv -[N.modulo N.div]; reflexivity.
  - change (2 ^ (wbits 4 / 2))%N with 65536%N. change (2 ^ wbits 4)%N with 4294967296%N. intros L F.
    rewrite (map_ext _ _ low4), (map_ext_in (fun x => bytes_of_word 4 (x / 65536))
        (fun a => [(a / 256 / 256 mod 256)%N; (a / 256 / 256 / 256 mod 256)%N; 0%N; 0%N]))
      by (intros a Ha; apply high4; apply (proj1 (Forall_forall _ _) F a Ha)).
    clear F. destruct Hn as [-> | ->]; cbv [countof Nat.mul Nat.div Nat.divmod fst Nat.add] in L; explode l L;
      split; cbv -[N.modulo N.div]; reflexivity.
Qed.

Lemma small_list g : small g -> Forall (fun a => (a < 2 ^ w)%N) (map g (seq 0 cnt)).
Proof.
  intros H. apply Forall_forall. intros a Ha. apply in_map_iff in Ha. destruct Ha as (t & <- & Ht). apply in_seq in Ht. apply H. lia.
Qed.
Lemma low_rof g : small g -> get_low_half e nh (rof g) = rof (fun t => lo (g t)).
Proof.
  intros H. unfold rof. destruct (halves (map g (seq 0 cnt))) as [E _]; [now rewrite map_length, seq_length|now apply small_list|].
  rewrite E, map_map. reflexivity.
Qed.
Lemma high_rof g : small g -> get_high_half e nh (rof g) = rof (fun t => hi (g t)).
Proof.
  intros H. unfold rof. destruct (halves (map g (seq 0 cnt))) as [_ E]; [now rewrite map_length, seq_length|now apply small_list|].
  rewrite E, map_map. reflexivity.
Qed.

(** ** Arithmetic on one lane *)
Definition ladd (a b : N) : N := let s := wrap w (a + b) in N.min s (wrap w (s + 2 ^ w - q)).
Definition lsub (a b : N) : N := let s := wrap w (a + 2 ^ w - b) in N.min s (wrap w (s + q)).
Definition lneg (a : N) : N := let s := wrap w (q + 2 ^ w - a) in N.min s (wrap w (s + 2 ^ w - q)).
Definition lmul (a b : N) : N := let p := wrap w (a * b) in lsub (lo p) (hi p).
Definition lmuls (a b : N) : N :=
  wrap w (lmul a b + (if (a =? q - 1)%N && (b =? q - 1)%N then 1 else 0)).

Definition lct (r a b : N) (card : N) : N * N :=
  match get_case r card with
  | SIMPLE => (ladd a b, lsub a b)
  | EXTREME => (lsub a b, ladd a b)
  | NORMAL => let z := lmul (wrap w r) b in (ladd a z, lsub a z)
  end.
Definition lgs (r a b : N) (card : N) : N * N :=
  (ladd a b, match get_case r card with
             | SIMPLE => lsub a b
             | EXTREME => lsub b a
             | NORMAL => lmul (wrap w r) (lsub a b)
             end).
Definition lgss (r a : N) (card : N) : N :=
  match get_case r card with EXTREME => lneg a | NORMAL => lmul (wrap w r) a | SIMPLE => a end.

Lemma min_lt a b c : (a < c)%N -> (N.min a b < c)%N.
Proof. lia. Qed.
Lemma ladd_lt a b : (ladd a b < 2 ^ w)%N. Proof. apply min_lt, wrap_lt. Qed.
Lemma lsub_lt a b : (lsub a b < 2 ^ w)%N. Proof. apply min_lt, wrap_lt. Qed.
Lemma lneg_lt a : (lneg a < 2 ^ w)%N. Proof. apply min_lt, wrap_lt. Qed.
Lemma lmul_lt a b : (lmul a b < 2 ^ w)%N. Proof. apply lsub_lt. Qed.
Lemma lmuls_lt a b : (lmuls a b < 2 ^ w)%N. Proof. apply wrap_lt. Qed.
Lemma lct_lt r a b card : (fst (lct r a b card) < 2 ^ w)%N /\ (snd (lct r a b card) < 2 ^ w)%N.
Proof. unfold lct. destruct (get_case r card); cbn [fst snd]; split; first [apply ladd_lt|apply lsub_lt]. Qed.
Lemma lgs_lt r a b card : (fst (lgs r a b card) < 2 ^ w)%N /\ (snd (lgs r a b card) < 2 ^ w)%N.
Proof. unfold lgs. destruct (get_case r card); cbn [fst snd]; split; first [apply ladd_lt|apply lsub_lt|apply lmul_lt]. Qed.
Lemma lgss_lt r a card : (a < 2 ^ w)%N -> (lgss r a card < 2 ^ w)%N.
Proof. unfold lgss. destruct (get_case r card); auto using lneg_lt, lmul_lt. Qed.

Lemma q_lt : (q < 2 ^ w)%N.
Proof. destruct He as [-> | ->]; reflexivity. Qed.

Lemma card_rof : card_reg e nh = rof (fun _ => q).
Proof. apply set_one_rof. Qed.
Lemma card_small : small (fun _ => q).
Proof. intros t _. apply q_lt. Qed.

Lemma mod_add_rof g h : small g -> small h -> mod_add e nh (rof g) (rof h) = rof (fun t => ladd (g t) (h t)).
Proof.
  intros Hg Hh. unfold mod_add, r_add, r_sub, r_min. rewrite card_rof, !lane2_rof; auto using card_small;
    intros t Ht; apply wrap_lt.
Qed.
Lemma mod_sub_rof g h : small g -> small h -> mod_sub e nh (rof g) (rof h) = rof (fun t => lsub (g t) (h t)).
Proof.
  intros Hg Hh. unfold mod_sub, r_add, r_sub, r_min. rewrite card_rof, !lane2_rof; auto using card_small;
    intros t Ht; apply wrap_lt.
Qed.
Lemma mod_neg_rof g : small g -> mod_neg e nh (rof g) = rof (fun t => lneg (g t)).
Proof.
  intros Hg. unfold mod_neg, r_sub, r_min. rewrite card_rof, !lane2_rof; auto using card_small;
    intros t Ht; apply wrap_lt.
Qed.
Lemma lo_lt a : (a < 2 ^ w)%N -> (lo a < 2 ^ w)%N.
Proof. intros H. eapply N.le_lt_trans; [|exact H]. apply N.mod_le, N.pow_nonzero. discriminate. Qed.
Lemma hi_lt a : (a < 2 ^ w)%N -> (hi a < 2 ^ w)%N.
Proof.
  intros H. eapply N.le_lt_trans; [|exact H]. unfold hi. apply N.div_le_upper_bound; [apply N.pow_nonzero; discriminate|].
  rewrite <- (N.mul_1_l a) at 1. apply N.mul_le_mono_r.
  assert (0 < 2 ^ (w / 2))%N by (apply N.neq_0_lt_0, N.pow_nonzero; discriminate). lia.
Qed.
Lemma mod_mul_rof g h : small g -> small h -> mod_mul e nh (rof g) (rof h) = rof (fun t => lmul (g t) (h t)).
Proof.
  intros Hg Hh. unfold mod_mul, r_mul. rewrite lane2_rof by auto.
  assert (S : small (fun t => wrap w (g t * h t))) by (intros t Ht; apply wrap_lt).
  rewrite low_rof, high_rof by auto. apply mod_sub_rof; intros t Ht; [apply lo_lt|apply hi_lt]; apply wrap_lt.
Qed.

Lemma mod_mul_safe_rof g h : small g -> small h -> mod_mul_safe e nh (rof g) (rof h) = rof (fun t => lmuls (g t) (h t)).
Proof.
  intros Hg Hh. unfold mod_mul_safe. cbv zeta. rewrite mod_mul_rof by auto. unfold card_minus_one_reg. rewrite !set_one_rof.
  assert (C : small (fun _ => q - 1)%N) by (intros t _; pose proof q_lt; lia).
  unfold r_cmpeq. rewrite !lane2_rof, bit_and_rof by auto. set (M := (2 ^ w - 1)%N).
  assert (E : rof (fun t => N.land (if (g t =? q - 1)%N then M else 0%N) (if (h t =? q - 1)%N then M else 0%N)) =
              rof (fun t => if (g t =? q - 1)%N && (h t =? q - 1)%N then M else 0%N)).
  { apply rof_ext. intros t _. destruct (g t =? q - 1)%N, (h t =? q - 1)%N; cbn [andb]; rewrite ?N.land_diag, ?N.land_0_r, ?N.land_0_l; reflexivity. }
  rewrite E. clear E. pose proof W_pos as W0.
  rewrite is_zero_rof by (intros t _; destruct ((g t =? q - 1)%N && (h t =? q - 1)%N); subst M; lia).
  destruct (forallb _ _) eqn:F.
  - rewrite forallb_forall in F. apply rof_ext. intros t Ht. specialize (F t ltac:(apply in_seq; lia)). unfold lmuls.
    destruct ((g t =? q - 1)%N && (h t =? q - 1)%N).
    + apply N.eqb_eq in F. assert (M <> 0%N); [|contradiction]. subst M. pose proof q_lt. assert (0 < q)%N by (destruct He as [-> | ->]; reflexivity). lia.
    + rewrite N.add_0_r. symmetry. apply N.mod_small, lmul_lt.
  - rewrite bit_and_rof. unfold r_add.
    assert (E : rof (fun t => N.land 1 (if (g t =? q - 1)%N && (h t =? q - 1)%N then M else 0%N)) =
                rof (fun t => if (g t =? q - 1)%N && (h t =? q - 1)%N then 1%N else 0%N)).
    { apply rof_ext. intros t _. destruct ((g t =? q - 1)%N && (h t =? q - 1)%N); [|reflexivity].
      subst M. destruct He as [-> | ->]; reflexivity. }
    rewrite E. rewrite lane2_rof; [reflexivity|intros t _; apply lmul_lt|].
    intros t _. pose proof q_lt. assert (1 < q)%N by (destruct He as [-> | ->]; reflexivity).
    destruct ((g t =? q - 1)%N && (h t =? q - 1)%N); lia.
Qed.

Lemma const_wrap r : set_one e nh r = rof (fun _ => wrap w r).
Proof. rewrite set_one_rof. apply rof_wrap. Qed.
Lemma const_small r : small (fun _ => wrap w r).
Proof. intros t _. apply wrap_lt. Qed.

Lemma reg_ct_rof r card g h : small g -> small h ->
  reg_ct e nh (get_case r card) (set_one e nh r) (rof g) (rof h) =
  (rof (fun t => fst (lct r (g t) (h t) card)), rof (fun t => snd (lct r (g t) (h t) card))).
Proof.
  intros Hg Hh. unfold reg_ct, lct. destruct (get_case r card); cbv zeta; cbn [fst snd].
  - now rewrite mod_add_rof, mod_sub_rof.
  - rewrite const_wrap, mod_mul_rof by auto using const_small. rewrite mod_add_rof, mod_sub_rof; auto; intros t _; apply lmul_lt.
  - now rewrite mod_add_rof, mod_sub_rof.
Qed.
Lemma reg_gs_rof r card g h : small g -> small h ->
  reg_gs e nh (get_case r card) (set_one e nh r) (rof g) (rof h) =
  (rof (fun t => fst (lgs r (g t) (h t) card)), rof (fun t => snd (lgs r (g t) (h t) card))).
Proof.
  intros Hg Hh. unfold reg_gs, lgs. destruct (get_case r card); cbn [fst snd]; rewrite mod_add_rof by auto; f_equal.
  - now rewrite mod_sub_rof.
  - rewrite const_wrap, mod_sub_rof by auto. rewrite mod_mul_rof; auto using const_small. intros t _; apply lsub_lt.
  - now rewrite mod_sub_rof.
Qed.
Lemma reg_gss_rof r card g : small g ->
  reg_gss e nh (get_case r card) (set_one e nh r) (rof g) = rof (fun t => lgss r (g t) card).
Proof.
  intros Hg. unfold reg_gss, lgss. destruct (get_case r card); [reflexivity| |now apply mod_neg_rof].
  rewrite const_wrap. now rewrite mod_mul_rof by auto using const_small.
Qed.

(** ** Residues *)
Definition h2 : N := (2 ^ (w / 2))%N.
Lemma facts : (q = h2 + 1 /\ 2 ^ w = h2 * h2 /\ 256 <= h2)%N.
Proof. unfold h2. destruct He as [-> | ->]; (split; [reflexivity|split; [reflexivity|]]; apply N.leb_le; reflexivity). Qed.

Lemma wrap_small x : (x < 2 ^ w -> wrap w x = x)%N.
Proof. apply N.mod_small. Qed.
Lemma wrap_over x : (2 ^ w <= x -> x < 2 * 2 ^ w -> wrap w x = x - 2 ^ w)%N.
Proof. intros H1 H2. symmetry. apply (N.mod_unique _ _ 1); lia. Qed.
Lemma W_2q : (2 * q <= 2 ^ w)%N.
Proof. destruct facts as (-> & -> & H). nia. Qed.
Lemma q_big : (256 < q)%N.
Proof. destruct facts as (-> & _ & H). lia. Qed.

Lemma ladd_res a b : (a < q -> b < q -> ladd a b = (a + b) mod q)%N.
Proof.
  intros Ha Hb. unfold ladd. cbv zeta. pose proof W_2q. rewrite (wrap_small (a + b)) by lia.
  destruct (N.lt_ge_cases (a + b) q).
  - rewrite (wrap_small (_ + _ - _)), (N.mod_small (a + b)) by lia. lia.
  - rewrite wrap_over by lia. rewrite <- (N.mod_unique (a + b) q 1 (a + b - q)) by lia. lia.
Qed.
Lemma lsub_res a b : (a < q -> b < q -> lsub a b = (a + q - b) mod q)%N.
Proof.
  intros Ha Hb. unfold lsub. cbv zeta. pose proof W_2q. destruct (N.lt_ge_cases a b).
  - rewrite (wrap_small (a + _ - b)) by lia. rewrite wrap_over by lia. rewrite N.mod_small by lia. lia.
  - rewrite (wrap_over (a + _ - b)) by lia. rewrite wrap_small by lia. rewrite <- (N.mod_unique (a + q - b) q 1 (a - b)) by lia. lia.
Qed.
Lemma lneg_res a : (a < q -> lneg a = (q - a) mod q)%N.
Proof.
  intros Ha. unfold lneg. cbv zeta. pose proof W_2q. rewrite (wrap_over (q + _ - a)) by lia. destruct (N.eq_dec a 0).
  - rewrite wrap_over by lia. rewrite <- (N.mod_unique (q - a) q 1 0) by lia. lia.
  - rewrite wrap_small by lia. rewrite N.mod_small by lia. lia.
Qed.
Lemma lmul_res a b : (a < q -> b < q -> ~ (a = q - 1 /\ b = q - 1) -> lmul a b = (a * b) mod q)%N.
Proof.
  intros Ha Hb Hab. destruct facts as (Eq & Ew & Hh).
  assert (P : (a * b < 2 ^ w)%N) by (rewrite Ew; apply max_lt; lia).
  unfold lmul. cbv zeta. rewrite (wrap_small (a * b)) by auto. unfold lo, hi. fold h2.
  pose proof (N.div_mod (a * b) h2 ltac:(lia)) as D. assert (M : (a * b mod h2 < h2)%N) by (apply N.mod_upper_bound; lia).
  assert (U : (a * b / h2 < h2)%N) by (apply N.div_lt_upper_bound; lia).
  rewrite lsub_res by lia. set (l := (a * b mod h2)%N) in *. set (u := (a * b / h2)%N) in *.
  rewrite D, Eq. destruct (N.lt_ge_cases l u).
  - rewrite (N.mod_small (l + _ - u)) by lia. symmetry. apply fermat_lt; lia.
  - rewrite <- (N.mod_unique (l + (h2 + 1) - u) (h2 + 1) 1 (l - u)) by lia. symmetry. apply fermat_ge; lia.
Qed.
(** The one exception. *)
Lemma lmul_max : lmul (q - 1) (q - 1) = 0%N.
Proof.
  destruct facts as (Eq & Ew & Hh). assert (E : (q - 1 = h2)%N) by lia. rewrite E. unfold lmul. cbv zeta. rewrite <- Ew.
  assert (Z : wrap w (2 ^ w) = 0%N) by (apply N.mod_same; pose proof W_pos; lia). rewrite Z. unfold lo, hi. fold h2.
  rewrite N.mod_0_l, N.div_0_l, lsub_res by lia. rewrite N.add_0_l, N.sub_0_r, N.mod_same by lia. reflexivity.
Qed.
Lemma lmuls_res a b : (a < q -> b < q -> lmuls a b = (a * b) mod q)%N.
Proof.
  intros Ha Hb. unfold lmuls. destruct (N.eqb_spec a (q - 1)); [destruct (N.eqb_spec b (q - 1))|]; cbn [andb].
  - subst a b. rewrite lmul_max. rewrite wrap_small by (pose proof q_lt; pose proof q_big; lia).
    symmetry. rewrite max_square by (pose proof q_big; lia). reflexivity.
  - rewrite N.add_0_r, wrap_small by apply lmul_lt. apply lmul_res; auto. tauto.
  - rewrite N.add_0_r, wrap_small by apply lmul_lt. apply lmul_res; auto. tauto.
Qed.

Lemma mod_lt a : (a mod q < q)%N.
Proof. apply N.mod_upper_bound. pose proof q_big. lia. Qed.

Lemma case_spec r : (r < q)%N ->
  (r = 1%N /\ get_case r q = SIMPLE) \/ (r = (q - 1)%N /\ get_case r q = EXTREME) \/
  (r <> 1%N /\ (r < q - 1)%N /\ get_case r q = NORMAL).
Proof.
  intros H. unfold get_case. pose proof q_big. destruct (N.eqb_spec r 1); [auto|]. destruct (N.ltb_spec r (q - 1)); [auto|].
  right. left. split; [lia|auto].
Qed.

Lemma sub_mod_alt a z : (z < q)%N -> ((a + q - z mod q) mod q = (a + q - z) mod q)%N.
Proof. intros. now rewrite (N.mod_small z). Qed.

(** [-b] as a product. *)
Lemma neg_mul b : (b < q)%N -> ((q - 1) * b mod q = (q - b) mod q)%N.
Proof.
  intros H. pose proof q_big. destruct (N.eq_dec b 0) as [->|].
  - rewrite N.mul_0_r, N.sub_0_r, N.mod_same, N.mod_0_l by lia. reflexivity.
  - rewrite (N.mod_small (q - b)) by lia. apply max_mul; lia.
Qed.

Lemma lct_res r a b : (r < q -> a < q -> b < q ->
  lct r a b q = ((a + r * b mod q) mod q, (a + q - r * b mod q) mod q))%N.
Proof.
  intros Hr Ha Hb. pose proof q_big. unfold lct. destruct (case_spec r Hr) as [[-> ->]|[[-> ->]|(N1 & N2 & ->)]].
  - rewrite N.mul_1_l, (N.mod_small b), ladd_res, lsub_res by auto. reflexivity.
  - rewrite neg_mul, ladd_res, lsub_res by auto. destruct (N.eq_dec b 0) as [->|].
    + rewrite !N.sub_0_r, N.mod_same, !N.add_0_r by lia.
      assert (A : ((a + q) mod q = a mod q)%N) by (rewrite <- (N.mul_1_l q) at 1; apply N.mod_add; lia).
      rewrite ?N.sub_0_r, A. reflexivity.
    + rewrite (N.mod_small (q - b)) by lia. f_equal; f_equal; lia.
  - rewrite (wrap_small r) by (pose proof q_lt; lia). rewrite lmul_res by (auto; lia).
    rewrite ladd_res, lsub_res by auto using mod_lt. reflexivity.
Qed.
Lemma lgs_res r a b : (r < q -> a < q -> b < q ->
  lgs r a b q = ((a + b) mod q, r * ((a + q - b) mod q) mod q))%N.
Proof.
  intros Hr Ha Hb. pose proof q_big. unfold lgs. rewrite ladd_res by auto. f_equal.
  destruct (case_spec r Hr) as [[-> ->]|[[-> ->]|(N1 & N2 & ->)]].
  - rewrite N.mul_1_l, (N.mod_mod _ q) by lia. now rewrite lsub_res.
  - rewrite neg_mul by apply mod_lt. rewrite lsub_res by auto. destruct (N.lt_trichotomy a b) as [Hab|[->|Hab]].
    + rewrite (N.mod_small (a + q - b)) by lia. rewrite <- (N.mod_unique (b + q - a) q 1 (b - a)) by lia. rewrite N.mod_small; lia.
    + rewrite N.add_comm, N.add_sub, N.mod_same, N.sub_0_r by lia. now rewrite N.mod_same by lia.
    + rewrite <- (N.mod_unique (a + q - b) q 1 (a - b)) by lia. f_equal. lia.
  - rewrite (wrap_small r) by (pose proof q_lt; lia). rewrite lsub_res by auto.
    rewrite lmul_res by (auto using mod_lt; lia). reflexivity.
Qed.
Lemma lgss_res r a : (r < q -> a < q -> lgss r a q = r * a mod q)%N.
Proof.
  intros Hr Ha. pose proof q_big. unfold lgss. destruct (case_spec r Hr) as [[-> ->]|[[-> ->]|(N1 & N2 & ->)]].
  - now rewrite N.mul_1_l, N.mod_small.
  - now rewrite neg_mul, lneg_res.
  - rewrite (wrap_small r) by (pose proof q_lt; lia). rewrite lmul_res by (auto; lia). reflexivity.
Qed.
End S.
