(** Records of special values: detection, order, restoration. *)
From Coq Require Import List NArith Arith Bool Lia Permutation.
From Verif.Model Require Import Common Props Fnt.
From Verif.Spec Require Import Blocks.
From Verif.Proof Require Import ListP BytesP.
Import ListNotations.
Open Scope nat_scope.

Lemma land_pow2 t v : (v <= 2 ^ t)%N -> (N.land v (2 ^ t) =? 0)%N = negb (v =? 2 ^ t)%N.
Proof.
  intros Hv. destruct (N.eqb_spec v (2 ^ t)) as [->|Hne]; cbn.
  - rewrite N.land_diag. apply N.eqb_neq, N.pow_nonzero. discriminate.
  - apply N.eqb_eq, N.bits_inj. intros m. rewrite N.bits_0, N.land_spec, N.pow2_bits_eqb.
    destruct (N.eqb_spec t m) as [<-|]; [|apply andb_false_r].
    rewrite andb_true_r. destruct (N.eq_dec v 0) as [->|Hv0]; [apply N.bits_0|].
    apply N.bits_above_log2. apply N.log2_lt_pow2; lia.
Qed.

(** Records of the places of a list. *)
Definition recs (h : N) (f : nat -> N) (l : list nat) : props :=
  map (fun t => (N.of_nat t, OOR_MARK)) (filter (fun t => (f t =? h)%N) l).

Lemma record_recs h f n : record h f n = recs h f (seq 0 n).
Proof. reflexivity. Qed.

Lemma recs_app h f a b : recs h f (a ++ b) = recs h f a ++ recs h f b.
Proof. unfold recs. rewrite filter_app, map_app. reflexivity. Qed.

Lemma recs_none h f l : (forall t, In t l -> f t <> h) -> recs h f l = [].
Proof.
  intros H. induction l as [|a l IH]; [reflexivity|]. unfold recs in *. cbn.
  destruct (N.eqb_spec (f a) h) as [E|E]; [exfalso; apply (H a); cbn; auto|]. apply IH. intros; apply H; cbn; auto.
Qed.

Lemma recs_cut h f o n m : m <= n -> (forall t, o + m <= t < o + n -> f t <> h) -> recs h f (seq o n) = recs h f (seq o m).
Proof.
  intros Hm H. replace n with (m + (n - m)) by lia. rewrite seq_app, recs_app, (recs_none _ _ (seq (o + m) _)).
  - now rewrite app_nil_r.
  - intros t Ht. apply in_seq in Ht. apply H. lia.
Qed.

Lemma scan_recs t f n : (forall i, f i <= 2 ^ t)%N -> forall o a,
  scan (2 ^ t) (N.of_nat (o + a)) (map (fun i => f (o + i)) (seq a n)) = recs (2 ^ t) f (seq (o + a) n).
Proof.
  intros Hf. induction n; intros o a; [reflexivity|]. cbn [seq map scan].
  rewrite land_pow2 by auto. replace (N.of_nat (o + a) + 1)%N with (N.of_nat (o + S a)) by lia.
  rewrite IHn. replace (S (o + a)) with (o + S a) by lia. unfold recs. cbn [filter].
  destruct (f (o + a)%nat =? 2 ^ t)%N; reflexivity.
Qed.

(** *** Order *)
Lemma pair_leb_total a b : pair_leb a b = false -> pair_leb b a = true.
Proof.
  unfold pair_leb. destruct a as [a1 a2], b as [b1 b2]; cbn.
  destruct (N.ltb_spec a1 b1), (N.ltb_spec b1 a1), (N.eqb_spec a1 b1), (N.eqb_spec b1 a1), (N.leb_spec a2 b2), (N.leb_spec b2 a2);
    cbn; try discriminate; auto; lia.
Qed.
Lemma pair_leb_antisym a b : pair_leb a b = true -> pair_leb b a = true -> a = b.
Proof.
  unfold pair_leb. destruct a as [a1 a2], b as [b1 b2]; cbn.
  destruct (N.ltb_spec a1 b1), (N.ltb_spec b1 a1), (N.eqb_spec a1 b1), (N.eqb_spec b1 a1), (N.leb_spec a2 b2), (N.leb_spec b2 a2);
    cbn; try discriminate; intros _ _; try lia; f_equal; lia.
Qed.
Lemma pair_leb_trans a b c : pair_leb a b = true -> pair_leb b c = true -> pair_leb a c = true.
Proof.
  unfold pair_leb. destruct a as [a1 a2], b as [b1 b2], c as [c1 c2]; cbn.
  destruct (N.ltb_spec a1 b1), (N.ltb_spec b1 c1), (N.ltb_spec a1 c1), (N.eqb_spec a1 b1), (N.eqb_spec b1 c1),
   (N.eqb_spec a1 c1), (N.leb_spec a2 b2), (N.leb_spec b2 c2), (N.leb_spec a2 c2);
    cbn; try discriminate; auto; lia.
Qed.

Lemma insert_comm x y l : props_insert x (props_insert y l) = props_insert y (props_insert x l).
Proof.
  induction l as [|z l IH]; cbn.
  - destruct (pair_leb x y) eqn:E1, (pair_leb y x) eqn:E2; auto.
    + now rewrite (pair_leb_antisym _ _ E1 E2).
    + apply pair_leb_total in E1. congruence.
  - destruct (pair_leb y z) eqn:Eyz, (pair_leb x z) eqn:Exz; cbn; rewrite ?Eyz, ?Exz.
    + destruct (pair_leb x y) eqn:E1, (pair_leb y x) eqn:E2; auto.
      * now rewrite (pair_leb_antisym _ _ E1 E2).
      * apply pair_leb_total in E1. congruence.
    + destruct (pair_leb x y) eqn:E1; [rewrite (pair_leb_trans _ _ _ E1 Eyz) in Exz; discriminate|reflexivity].
    + destruct (pair_leb y x) eqn:E1; [rewrite (pair_leb_trans _ _ _ E1 Exz) in Eyz; discriminate|reflexivity].
    + now rewrite IH.
Qed.

Lemma sort_perm l l' : Permutation l l' -> props_sort l = props_sort l'.
Proof.
  induction 1 as [|x l l' _ IH|x y l|l1 l2 l3 _ IH1 _ IH2]; cbn; [auto|now rewrite IH|apply insert_comm|congruence].
Qed.

Lemma sort_recs h f n : forall o, props_sort (recs h f (seq o n)) = recs h f (seq o n).
Proof.
  induction n; intros o; [reflexivity|]. cbn [seq].
  change (o :: seq (S o) n) with ([o] ++ seq (S o) n). rewrite recs_app.
  destruct (N.eqb_spec (f o) h) as [E|E].
  - unfold recs at 1 3. cbn [filter]. rewrite (proj2 (N.eqb_eq _ _) E). cbn [map app]. cbn [props_sort]. rewrite IHn.
    assert (H : forall p, In p (recs h f (seq (S o) n)) -> (N.of_nat o < fst p)%N).
    { intros p Hp. unfold recs in Hp. apply in_map_iff in Hp. destruct Hp as (t & <- & Ht). apply filter_In in Ht.
      destruct Ht as [Ht _]. apply in_seq in Ht. cbn. lia. }
    destruct (recs h f (seq (S o) n)) as [|p l]; [reflexivity|]. cbn [props_insert].
    assert (Hp := H p (or_introl eq_refl)). unfold pair_leb; cbn [fst]. destruct (N.ltb_spec (N.of_nat o) (fst p)); [reflexivity|lia].
  - unfold recs at 1 3. cbn [filter]. destruct (N.eqb_spec (f o) h); [congruence|]. cbn. apply IHn.
Qed.

(** *** Restoration *)

(** Number of records before place [o]. *)
Definition cnt (h : N) (f : nat -> N) (o : nat) : nat := length (recs h f (seq 0 o)).

Lemma nth_error_recs h f o n i x : nth_error (recs h f (seq 0 (o + n))) (cnt h f o + i) = x <->
  nth_error (recs h f (seq o n)) i = x.
Proof.
  rewrite seq_app, recs_app. unfold cnt. rewrite nth_error_app2 by lia.
  replace (length (recs h f (seq 0 o)) + i - length (recs h f (seq 0 o))) with i by lia. reflexivity.
Qed.

Lemma cnt_le h f o n : cnt h f o <= cnt h f (o + n).
Proof. unfold cnt. rewrite seq_app, recs_app, app_length. lia. Qed.

(** All the records of [seq a n] that are below [mx] are restored, the cursor moves past them. *)
Lemma restore_recs h f bs mn pkt : forall n a chunk fuel, mn <= a -> a + n = bs -> length (recs h f (seq a n)) < fuel ->
  length chunk = pkt ->
  restore fuel (recs h f (seq 0 bs)) h (N.of_nat mn) (N.of_nat mn + N.of_nat pkt) (cnt h f a) chunk =
  (cnt h f (Nat.max a (Nat.min bs (mn + pkt))),
   map (fun i => if (a <=? mn + i) && (mn + i <? bs) && (f (mn + i)%nat =? h)%N then h else nth i chunk 0%N) (seq 0 pkt)).
Proof.
  induction n; intros a chunk fuel Ha Hb Hfu Hl.
  - destruct fuel as [|fu]; [lia|]. cbn [restore].
    assert (E : props_in_range (recs h f (seq 0 bs)) (cnt h f a) (N.of_nat mn) (N.of_nat mn + N.of_nat pkt) = false).
    { unfold props_in_range. replace bs with a by lia. unfold cnt.
      rewrite (proj2 (nth_error_None _ _)); auto. }
    rewrite E. replace (Nat.max a (Nat.min bs (mn + pkt))) with a by lia. f_equal.
    apply (list_ext _ 0%N); [rewrite map_length, seq_length; auto|]. intros i Hi. rewrite nth_map_seq by lia.
    destruct (Nat.leb_spec a (mn + i)), (Nat.ltb_spec (mn + i) bs); cbn; auto; lia.
  - cbn [seq] in Hfu. change (a :: seq (S a) n) with ([a] ++ seq (S a) n) in Hfu. rewrite recs_app, app_length in Hfu.
    destruct (N.eqb_spec (f a) h) as [E|E].
    + assert (Ea : recs h f [a] = [(N.of_nat a, OOR_MARK)]).
      { unfold recs. cbn [filter]. rewrite (proj2 (N.eqb_eq _ _) E). reflexivity. }
      rewrite Ea in Hfu. cbn [length] in Hfu. destruct fuel as [|fu]; [lia|]. cbn [restore].
      assert (X : nth_error (recs h f (seq 0 bs)) (cnt h f a) = Some (N.of_nat a, OOR_MARK)).
      { replace (cnt h f a) with (cnt h f a + 0) by lia. rewrite <- Hb. apply nth_error_recs.
        cbn [seq]. change (a :: seq (S a) n) with ([a] ++ seq (S a) n). rewrite recs_app, Ea. reflexivity. }
      assert (C1 : cnt h f a + 1 = cnt h f (S a)).
      { unfold cnt. rewrite seq_S, recs_app. cbn [Nat.add]. rewrite Ea, app_length. reflexivity. }
      unfold props_in_range, props_location, props_marker. rewrite X. cbn [fst snd].
      destruct (N.leb_spec (N.of_nat mn) (N.of_nat a)); [|lia].
      destruct (N.ltb_spec (N.of_nat a) (N.of_nat mn + N.of_nat pkt)) as [Hin|Hin].
      * cbn [andb]. rewrite N.eqb_refl. rewrite C1, IHn; [|lia|lia|lia|rewrite set_length; auto].
        f_equal; [f_equal; lia|]. apply map_ext_in. intros i Hi. apply in_seq in Hi.
        replace (N.to_nat (N.of_nat a - N.of_nat mn)) with (a - mn) by lia.
        destruct (Nat.eq_dec i (a - mn)) as [->|Hne].
        -- rewrite nth_set_eq by lia. replace (mn + (a - mn)) with a by lia.
           rewrite (proj2 (N.eqb_eq _ _) E). destruct (Nat.leb_spec (S a) a); [lia|]. destruct (Nat.leb_spec a a); [|lia].
           destruct (Nat.ltb_spec a bs); [|lia]. reflexivity.
        -- rewrite nth_set_neq by auto. destruct (Nat.leb_spec (S a) (mn + i)), (Nat.leb_spec a (mn + i)); auto; lia.
      * cbn [andb]. replace (Nat.max a (Nat.min bs (mn + pkt))) with a by lia. f_equal.
        apply (list_ext _ 0%N); [rewrite map_length, seq_length; auto|]. intros i Hi. rewrite nth_map_seq by lia.
        destruct (Nat.leb_spec a (mn + i)); cbn; auto; lia.
    + assert (Ea : recs h f [a] = []).
      { unfold recs. cbn [filter]. destruct (N.eqb_spec (f a) h); [congruence|reflexivity]. }
      rewrite Ea in Hfu. cbn [length] in Hfu.
      assert (C1 : cnt h f a = cnt h f (S a)).
      { unfold cnt. rewrite seq_S, recs_app. cbn [Nat.add]. rewrite Ea, app_nil_r. reflexivity. }
      rewrite C1, IHn; [|lia|lia|lia|auto]. f_equal.
      * destruct (Nat.le_gt_cases (S a) (Nat.min bs (mn + pkt))); [f_equal; lia|].
        replace (Nat.max (S a) _) with (S a) by lia. replace (Nat.max a _) with a by lia. auto.
      * apply map_ext_in. intros i Hi. destruct (Nat.eq_dec (mn + i) a) as [He|He].
        -- rewrite He. destruct (N.eqb_spec (f a) h); [congruence|]. now rewrite !andb_false_r.
        -- destruct (Nat.leb_spec (S a) (mn + i)), (Nat.leb_spec a (mn + i)); auto; lia.
Qed.
