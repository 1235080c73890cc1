(** Random elements: property C61. *)
From Coq Require Import List NArith Arith Bool Lia.
From Verif.Model Require Import Common Nf4 Rand.
From Verif.Spec Require Import Nf4.
From Verif.Proof Require Import Nf4L.
Import ListNotations.
Open Scope N_scope.

(** A ring of [q] elements in a type of [w] bits: its member [_card] is [q] modulo 2^w (gf_base.h:78). *)
Notation card_of w q := (q mod 2 ^ w).
(** The rings for which [rand] is right: at most 2^64 elements, and not 2^w elements in 8 or 16 bits. *)
Definition rand_fits (w q : N) : Prop := In w [8; 16; 32; 64; 128] /\ 2 <= q <= 2 ^ 64 /\ q <= 2 ^ w /\ (w < 32 -> q < 2 ^ w).

Lemma uniform_ok lo hi d : uniform lo hi d = true <-> lo <= d <= hi.
Proof. unfold uniform. rewrite andb_true_iff, !N.leb_le. reflexivity. Qed.

Lemma upper_fits w q : rand_fits w q -> rand_upper_bound w (card_of w q) = q - 1 /\ (w = 128 -> max64 < card_of w q -> q = 2 ^ 64).
Proof.
  intros (Hw & [H1 H2] & H3 & H4). unfold rand_upper_bound, max64, Common.wrap.
  destruct (N.eq_dec q (2 ^ w)) as [E|E].
  - cbn [In] in Hw. destruct Hw as [Ew|[Ew|[Ew|[Ew|[Ew|[]]]]]]; rewrite <- Ew in *; subst q.
    + exfalso. apply (N.lt_irrefl (2 ^ 8)). now apply H4.
    + exfalso. apply (N.lt_irrefl (2 ^ 16)). now apply H4.
    + split; [reflexivity|discriminate].
    + split; [reflexivity|discriminate].
    + exfalso. now apply H2.
  - assert (L : q < 2 ^ w) by lia. rewrite (N.mod_small q) by exact L. destruct (N.ltb_spec (2 ^ 64 - 1) q) as [Q|Q].
    + assert (q = 2 ^ 64) by lia. split; [lia|auto].
    + split; [|lia]. set (m := if w <? 32 then 64 else w).
      assert (M : q < 2 ^ m). { unfold m. destruct (N.ltb_spec w 32); [|exact L]. change (2 ^ 64) with 18446744073709551616 in *. lia. }
      replace (q + 2 ^ m - 1) with (q - 1 + 1 * 2 ^ m) by lia. rewrite N.mod_add by (apply N.pow_nonzero; discriminate).
      rewrite (N.mod_small (q - 1)) by lia. apply N.mod_small. lia.
Qed.

(** ** Every non-zero element can be drawn, by one draw only, and nothing else.  ([d2] has one value, or is not used.) *)
Theorem C61_ring_partial w q : rand_fits w q ->
  (forall d1 d2 c, ring_rand w (card_of w q) d1 d2 = Some c -> 1 <= c < q /\ c = d1) /\
  (forall c, 1 <= c < q -> ring_rand w (card_of w q) c 0 = Some c).
Proof.
  intros Hf. destruct (upper_fits w q Hf) as [U L]. destruct Hf as (Hw & [H1 H2] & H3 & H4).
  assert (Z : w = 128 -> max64 < card_of w q -> rand_leading_bound w (card_of w q) = 0).
  { intros -> Hm. rewrite (L eq_refl Hm). now vm_compute. }
  unfold ring_rand. rewrite U. split.
  - intros d1 d2 c. destruct (uniform 1 (q - 1) d1) eqn:E1; [|discriminate]. apply uniform_ok in E1.
    destruct (N.eqb_spec w 128) as [E|E].
    + destruct (N.ltb_spec max64 (card_of w q)) as [Q|Q]; [|intros K; injection K as <-; lia].
      rewrite (Z E Q). destruct (uniform 0 0 d2) eqn:E2; [|discriminate]. apply uniform_ok in E2.
      assert (D : d2 = 0) by lia. subst d2. change (Common.wrap 128 (N.shiftl 0 64)) with 0. rewrite N.lor_0_r. intros K; injection K as <-. lia.
    + unfold Common.wrap. rewrite N.mod_small by lia. intros K; injection K as <-. lia.
  - intros c Hc. rewrite (proj2 (uniform_ok 1 (q - 1) c)) by lia. destruct (N.eqb_spec w 128) as [E|E].
    + destruct (N.ltb_spec max64 (card_of w q)) as [Q|Q]; [|reflexivity]. rewrite (Z E Q). cbn [uniform].
      change (Common.wrap 128 (N.shiftl 0 64)) with 0. now rewrite N.lor_0_r.
    + unfold Common.wrap. now rewrite N.mod_small by lia.
Qed.

(** ** Refuted: above 2^64 elements, some are never drawn, and other numbers can be. *)
Lemma large_rand q d1 d2 : 2 ^ 64 < q < 2 ^ 128 -> ring_rand 128 q d1 d2 =
  if uniform 1 (2 ^ 64 - 1) d1 && uniform 0 (q mod 2 ^ 64) d2 then Some (d1 + 2 ^ 64 * d2) else None.
Proof.
  intros Hq. unfold ring_rand, rand_upper_bound, rand_leading_bound, max64.
  rewrite (proj2 (N.ltb_lt (2 ^ 64 - 1) q)) by lia. change (128 =? 128) with true. cbv iota.
  destruct (uniform 1 (2 ^ 64 - 1) d1) eqn:E1; [|reflexivity]. cbn [andb]. apply uniform_ok in E1.
  replace (Common.wrap 64 (Common.wrap 128 (q - (2 ^ 64 - 1) - 1))) with (q mod 2 ^ 64).
  2: { unfold Common.wrap. rewrite (N.mod_small (q - _ - _)) by lia. replace q with (q - (2 ^ 64 - 1) - 1 + 1 * 2 ^ 64) at 1 by lia.
       apply N.mod_add. discriminate. }
  destruct (uniform 0 (q mod 2 ^ 64) d2) eqn:E2; [|reflexivity]. apply uniform_ok in E2.
  assert (D : d2 < 2 ^ 64) by (pose proof (N.mod_lt q (2 ^ 64)); lia).
  f_equal. rewrite N.shiftl_mul_pow2. unfold Common.wrap. rewrite N.mod_small by (change (2 ^ 128) with (2 ^ 64 * 2 ^ 64); nia).
  rewrite <- N.shiftl_mul_pow2, N.lor_comm. apply lor_add. lia.
Qed.
Theorem C61_unreachable_refuted q : 2 ^ 64 < q < 2 ^ 128 -> forall d1 d2, ring_rand 128 q d1 d2 <> Some (2 ^ 64).
Proof.
  intros Hq d1 d2. rewrite large_rand by exact Hq. destruct (uniform 1 (2 ^ 64 - 1) d1) eqn:E1; cbn [andb]; [|discriminate].
  apply uniform_ok in E1. destruct (uniform 0 _ d2); [|discriminate]. intros K.
  assert (E : d1 + 2 ^ 64 * d2 = 2 ^ 64) by congruence. clear K. change (2 ^ 64) with 18446744073709551616 in *. lia.
Qed.
(** The case of 2^128 elements, whose [_card] is 0. *)
Theorem C61_unreachable_128_refuted d1 d2 : ring_rand 128 (card_of 128 (2 ^ 128)) d1 d2 <> Some (2 ^ 64).
Proof.
  change (card_of 128 (2 ^ 128)) with 0. unfold ring_rand. change (rand_upper_bound 128 0) with (2 ^ 64 - 1).
  destruct (uniform 1 (2 ^ 64 - 1) d1) eqn:E1; [|discriminate]. apply uniform_ok in E1. change (128 =? 128) with true.
  change (max64 <? 0) with false. cbv iota. intros K. injection K as K. subst d1. now apply E1.
Qed.
(** Exactly when numbers outside of the ring can be drawn: for instance for 2^64 + 13. *)
Theorem C61_outside_refuted q : 2 ^ 64 < q < 2 ^ 128 ->
  (exists d1 d2 c, ring_rand 128 q d1 d2 = Some c /\ q <= c) <-> q / 2 ^ 64 <= q mod 2 ^ 64.
Proof.
  intros Hq. pose proof (N.div_mod q (2 ^ 64) ltac:(discriminate)) as D. pose proof (N.mod_lt q (2 ^ 64) ltac:(discriminate)) as M.
  set (h := q / 2 ^ 64) in *. set (r := q mod 2 ^ 64) in *. split.
  - intros (d1 & d2 & c & E & L). rewrite large_rand in E by exact Hq. fold r in E.
    destruct (uniform 1 (2 ^ 64 - 1) d1) eqn:E1; cbn [andb] in E; [|discriminate].
    destruct (uniform 0 r d2) eqn:E2; [|discriminate]. apply uniform_ok in E1. apply uniform_ok in E2. assert (K : d1 + 2 ^ 64 * d2 = c) by congruence. clear E. nia.
  - intros L. exists (2 ^ 64 - 1), r, (2 ^ 64 - 1 + 2 ^ 64 * r). rewrite large_rand by exact Hq. fold r.
    rewrite (proj2 (uniform_ok _ _ _)) by lia. rewrite (proj2 (uniform_ok _ _ _)) by lia. split; [reflexivity|nia].
Qed.
(** Refuted: 2^w elements in 8 or 16 bits: 0 is drawn. *)
Theorem C61_short_refuted w : w = 8 \/ w = 16 -> exists d1 d2, ring_rand w (card_of w (2 ^ w)) d1 d2 = Some 0.
Proof. intros [-> | ->]; [exists 256, 0|exists 65536, 0]; now vm_compute. Qed.

(** ** Vectors *)
Theorem C61_vector_partial w q ds l : rand_fits w q -> vec_rand w (card_of w q) ds = Some l ->
  length l = length ds /\ Forall (fun c => 1 <= c < q) l.
Proof.
  intros Hf. revert l. induction ds as [|d ds IH]; intros l; cbn [vec_rand]; [intros E; injection E as <-; auto|].
  destruct (ring_rand w _ (fst d) (snd d)) as [x|] eqn:Ex; [|discriminate]. destruct (vec_rand w _ ds) as [l'|] eqn:El; [|discriminate].
  intros E. injection E as <-. destruct (IH l' eq_refl) as [L F]. split; [cbn; now rewrite L|]. constructor; [|exact F].
  now apply (proj1 (C61_ring_partial w q Hf)) in Ex.
Qed.
Theorem C61_vector_all w q l : rand_fits w q -> Forall (fun c => 1 <= c < q) l ->
  vec_rand w (card_of w q) (map (fun c => (c, 0)) l) = Some l.
Proof.
  intros Hf H. induction H as [|c l Hc H IH]; [reflexivity|]. cbn [map vec_rand fst snd].
  now rewrite (proj2 (C61_ring_partial w q Hf)), IH.
Qed.

(** ** NF4: the words of non-zero elements, each from one list of draws; the first element drawn is the last of the word *)
Definition nonzero (n : nat) (s : list N) : Prop := length s = n /\ Forall (fun x => 1 <= x < 65537) s.

Lemma fits_4 : rand_fits 32 65537.
Proof. split; [cbn; auto|]. now vm_compute. Qed.
Lemma rand_4 d : ring_rand 32 65537 d 0 = if uniform 1 65536 d then Some d else None.
Proof.
  destruct (C61_ring_partial 32 65537 fits_4) as [H1 H2]. destruct (uniform 1 65536 d) eqn:E.
  - apply H2. apply uniform_ok in E. lia.
  - destruct (ring_rand 32 65537 d 0) as [c|] eqn:Ec; [|reflexivity]. apply H1 in Ec. destruct Ec as [Ec ->].
    rewrite (proj2 (uniform_ok _ _ _)) in E by lia. discriminate.
Qed.
Lemma word32_bound s : Forall (fun x => 1 <= x < 65537) s -> word32 s < 2 ^ (32 * N.of_nat (length s)).
Proof.
  induction 1 as [|x s Hx H IH]; [now vm_compute|]. cbn [word32 digits fold_right length]. fold (word32 s) (digits (2 ^ 32) s).
  rewrite Nat2N.inj_succ, N.mul_succ_r, N.pow_add_r. unfold word32 in IH. set (P := 2 ^ (32 * _)) in *. change (2 ^ 32) with 4294967296 in *. nia.
Qed.
Lemma nf4_loop w ds : forall s, Forall (fun x => 1 <= x < 65537) s -> 32 * N.of_nat (length s + length ds) <= w ->
  nf4_rand_loop w (word32 s) ds = if forallb (uniform 1 65536) ds then Some (word32 (rev ds ++ s)) else None.
Proof.
  induction ds as [|d ds IH]; intros s Hs Hw; [reflexivity|]. cbn [nf4_rand_loop forallb]. rewrite rand_4.
  destruct (uniform 1 65536 d) eqn:E; [|reflexivity]. cbn [andb]. apply uniform_ok in E.
  pose proof (word32_bound s Hs) as B. cbn [length] in Hw.
  replace (N.lor (wrap w (N.shiftl (wrap w (N.shiftl (word32 s) 16)) 16)) d) with (word32 (d :: s)).
  - rewrite IH; [|constructor; [lia|exact Hs]|cbn [length]; lia]. cbn [rev]. now rewrite <- app_assoc.
  - assert (B2 : word32 s * 2 ^ 32 < 2 ^ w).
    { apply N.lt_le_trans with (2 ^ (32 * N.of_nat (length s)) * 2 ^ 32); [apply N.mul_lt_mono_pos_r; [reflexivity|exact B]|].
      rewrite <- N.pow_add_r. apply N.pow_le_mono_r; [discriminate|lia]. }
    unfold wrap. rewrite !N.shiftl_mul_pow2. rewrite (N.mod_small (word32 s * 2 ^ 16)) by (change (2 ^ 32) with (2 ^ 16 * 2 ^ 16) in B2; nia).
    replace (word32 s * 2 ^ 16 * 2 ^ 16) with (word32 s * 2 ^ 32) by (rewrite <- N.mul_assoc; reflexivity).
    rewrite N.mod_small by exact B2. rewrite <- N.shiftl_mul_pow2, lor_add by (change (2 ^ 32) with 4294967296; lia). reflexivity.
Qed.
Theorem C61_nf4 w ds : (0 < length ds)%nat -> 32 * N.of_nat (length ds) <= w ->
  (forall c, nf4_rand w ds = Some c -> nonzero (length ds) (rev ds) /\ c = word32 (rev ds)) /\
  (nonzero (length ds) (rev ds) -> nf4_rand w ds = Some (word32 (rev ds))).
Proof.
  intros L Hw. assert (E : nf4_rand w ds = if forallb (uniform 1 65536) ds then Some (word32 (rev ds)) else None).
  { destruct ds as [|d ds]; [inversion L|]. cbn [nf4_rand forallb]. rewrite rand_4. destruct (uniform 1 65536 d) eqn:E; [|reflexivity].
    apply uniform_ok in E. replace d with (word32 [d]) at 1 by (cbn; lia). rewrite nf4_loop; [reflexivity|constructor; [lia|auto]|cbn [length] in *; lia]. }
  rewrite E. assert (Q : forallb (uniform 1 65536) ds = true <-> nonzero (length ds) (rev ds)).
  { unfold nonzero. rewrite rev_length, forallb_forall, Forall_forall. split.
    - intros H. split; [reflexivity|]. intros x Hx. apply in_rev in Hx. apply H, uniform_ok in Hx. lia.
    - intros [_ H] x Hx. apply uniform_ok. apply in_rev in Hx. apply H in Hx. lia. }
  destruct (forallb (uniform 1 65536) ds).
  - split; [intros c K; injection K as <-; split; [now apply Q|reflexivity]|auto].
  - split; [discriminate|]. intros K. apply Q in K. discriminate.
Qed.
(** The numbers of 16 bits of unpacked_rand: all of them, 0 standing for 65536. *)
Theorem C61_nf4_unpacked B w n h : nf4_type B w n -> numbers n h -> 32 * N.of_nat n <= w ->
  nf4_unpacked_rand B w n (rev (map (fun x => if x =? 0 then 65536 else x) h)) = Some (word16 h).
Proof.
  intros T [L F] Hw. set (s := map (fun x => if x =? 0 then 65536 else x) h).
  assert (Ls : length s = n) by (unfold s; now rewrite map_length).
  assert (Fs : Forall (fun x => 1 <= x < 65537) s).
  { unfold s. apply Forall_forall. intros x Hx. apply in_map_iff in Hx. destruct Hx as (y & <- & Hy). rewrite Forall_forall in F.
    specialize (F y Hy). cbv beta in F. destruct (N.eqb_spec y 0); lia. }
  unfold nf4_unpacked_rand. destruct (C61_nf4 w (rev s)) as [_ H]; [rewrite rev_length, Ls; apply T|now rewrite rev_length, Ls|].
  rewrite rev_involutive, rev_length, Ls in H. rewrite H by (split; auto). f_equal. rewrite unpack_word; [|exact T|].
  - cbn [fst]. f_equal. unfold s. rewrite map_map, <- (map_id h) at 1. rewrite Forall_forall in F. rewrite map_id at 1.
    rewrite <- (map_id h) at 2. apply map_ext_in. intros x Hx. specialize (F x Hx). cbv beta in F. unfold low.
    destruct (N.eqb_spec x 0) as [->|E]; [reflexivity|]. destruct (N.eqb_spec x 65536); [lia|reflexivity].
  - split; [exact Ls|]. eapply Forall_impl; [|exact Fs]. cbv beta. lia.
Qed.

(** ** Cases *)
Example C61_case_fits : rand_fits 16 257 /\ rand_fits 32 (2 ^ 32) /\ rand_fits 64 (2 ^ 64) /\ rand_fits 128 (2 ^ 64) /\ rand_fits 8 2.
Proof. repeat split; try (cbn; tauto); try (vm_compute; congruence). Qed.
Example C61_case_large : ring_rand 128 (2 ^ 64 + 13) 1 13 = Some (13 * 2 ^ 64 + 1) /\ 2 ^ 64 + 13 <= 13 * 2 ^ 64 + 1.
Proof. split; [now vm_compute|vm_compute; congruence]. Qed.
Example C61_case_nf4 : nf4_rand 64 [65536; 7] = Some (word32 [7; 65536]) /\ nf4_unpacked_rand Plain 64 2 [65536; 7] = Some 7.
Proof. split; now vm_compute. Qed.

Print Assumptions C61_ring_partial.
Print Assumptions C61_unreachable_refuted.
Print Assumptions C61_unreachable_128_refuted.
Print Assumptions C61_outside_refuted.
Print Assumptions C61_short_refuted.
Print Assumptions C61_vector_partial.
Print Assumptions C61_vector_all.
Print Assumptions C61_nf4.
Print Assumptions C61_nf4_unpacked.
