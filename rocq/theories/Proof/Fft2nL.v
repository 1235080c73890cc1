(** Pointwise description of the layers of the radix-2 transforms (no algebra). *)
From Coq Require Import List NArith Arith Bool Lia.
From Verif.Model Require Import Common Arith Ring Fft2n.
From Verif.Proof Require Import ListP.
Import ListNotations.
Open Scope nat_scope.

Lemma mod_mul_r k a b : a <> 0 -> b <> 0 -> k mod (a * b) mod a = k mod a.
Proof.
  intros Ha Hb. rewrite (Nat.mod_mul_r k a b) by auto.
  rewrite (Nat.mul_comm a), Nat.mod_add by auto. apply Nat.mod_mod; auto.
Qed.

Lemma mod_2m_cases k m : 0 < m ->
  (k mod (2 * m) = k mod m /\ k mod (2 * m) < m) \/ (k mod (2 * m) = k mod m + m /\ m <= k mod (2 * m)).
Proof.
  intros H. rewrite (Nat.mul_comm 2 m). rewrite (Nat.mod_mul_r k m 2) by lia.
  pose proof (Nat.mod_upper_bound k m). pose proof (Nat.mod_upper_bound (k / m) 2).
  destruct ((k / m) mod 2) as [|[|x]] eqn:E; [left; lia|right; lia|lia].
Qed.

Section PairLayer.
Context {T : Type} (d : T) (n m : nat) (f1 f2 : nat -> T -> T -> T).
Hypothesis Hm : 0 < m.
Hypothesis Hn : Nat.divide (2 * m) n.

Definition pl_step (j : nat) (v : list T) : list T :=
  fold_left (pair_upd d (fun _ => f1 j) (fun _ => f2 j) m) (steps n j n (2 * m)) v.

Lemma pl_spec v : length v = n ->
  let v' := fold_left (fun v j => pl_step j v) (seq 0 m) v in
  length v' = n /\
  (forall k, k < n -> k mod (2 * m) < m -> k + m < n /\
     nth k v' d = f1 (k mod m) (nth k v d) (nth (k + m) v d)) /\
  (forall k, k < n -> m <= k mod (2 * m) -> m <= k /\
     nth k v' d = f2 (k mod m) (nth (k - m) v d) (nth k v d)).
Proof.
  intros Hl.
  assert (Sp : forall j v, j < m -> length v = n -> _) by
    (intros j v0 Hj Hv0; exact (pair_steps d (fun _ => f1 j) (fun _ => f2 j) m n j (2 * m) v0 Hm ltac:(lia) Hn Hv0)).
  assert (Kadd : forall k, k < n -> k mod (2 * m) < m -> k + m < n).
  { intros k Hk Hk'. destruct Hn as [c Hc]. pose proof (Nat.div_mod k (2 * m)).
    assert (k / (2 * m) < c) by (apply Nat.div_lt_upper_bound; lia). nia. }
  set (G := fun j v => if j <? m then pl_step j v else v).
  assert (EG : forall v, fold_left (fun v j => pl_step j v) (seq 0 m) v = fold_left (fun v j => G j v) (seq 0 m) v).
  { intros v0. apply fold_left_ext_in. intros a b Hb. apply in_seq in Hb. unfold G.
    destruct (Nat.ltb_spec b m); auto; lia. }
  assert (GL : forall j v, length v = n -> length (G j v) = n).
  { intros j v0 H0. unfold G. destruct (Nat.ltb_spec j m); auto. apply (Sp j v0); auto. }
  assert (Cl : forall k, k mod (2 * m) = k mod m \/ k mod (2 * m) = k mod m + m).
  { intros k. destruct (mod_2m_cases k m Hm) as [[? ?]|[? ?]]; auto. }
  assert (GO : forall j v k, length v = n -> k < n -> k mod m <> j -> nth k (G j v) d = nth k v d).
  { intros j v0 k H0 Hk Hc. unfold G. destruct (Nat.ltb_spec j m); auto.
    apply (Sp j v0); auto; pose proof (Nat.mod_upper_bound k m); destruct (Cl k); lia. }
  assert (GLoc : forall j v v', length v = n -> length v' = n ->
     (forall k, k < n -> k mod m = j -> nth k v d = nth k v' d) ->
     forall k, k < n -> k mod m = j -> nth k (G j v) d = nth k (G j v') d).
  { intros j v0 v1 H0 H1 E k Hk Hc. unfold G. destruct (Nat.ltb_spec j m); auto.
    destruct (mod_2m_cases k m Hm) as [[E1 L1]|[E1 L1]].
    - destruct (Sp j v0) as (_ & A & _); auto. destruct (Sp j v1) as (_ & B & _); auto.
      unfold pl_step. rewrite A, B by lia. rewrite (E k), (E (k + m)); auto.
      + rewrite <- Hc. rewrite <- (Nat.mul_1_l m) at 1. apply Nat.mod_add. lia.
    - destruct (Sp j v0) as (_ & _ & A & _); auto. destruct (Sp j v1) as (_ & _ & B & _); auto.
      unfold pl_step. destruct (A k) as [Hk1 A']; try lia. destruct (B k) as [_ B']; try lia.
      rewrite A', B'. rewrite (E k), (E (k - m)); auto; try lia.
      rewrite <- Hc. rewrite <- (Nat.mod_add (k - m) 1 m) by lia. f_equal. lia. }
  intros v'. unfold v'. rewrite EG.
  assert (FI : forall k, k < n -> nth k (fold_left (fun v j => G j v) (seq 0 m) v) d = nth k (G (k mod m) v) d).
  { intros k Hk. apply (fold_class_in d n (fun k => k mod m) G); auto.
    - apply seq_NoDup.
    - apply in_seq. pose proof (Nat.mod_upper_bound k m). lia. }
  split; [apply fold_class_length; auto|]. split.
  - intros k Hk Hk'. split; [auto|]. rewrite FI by auto. unfold G.
    pose proof (Nat.mod_upper_bound k m). destruct (Nat.ltb_spec (k mod m) m); [|lia].
    destruct (Sp (k mod m) v) as (_ & A & _); auto. apply A; auto. destruct (mod_2m_cases k m Hm); lia.
  - intros k Hk Hk'. rewrite FI by auto. unfold G.
    pose proof (Nat.mod_upper_bound k m). destruct (Nat.ltb_spec (k mod m) m); [|lia].
    destruct (Sp (k mod m) v) as (_ & _ & A & _); auto. apply A; auto. destruct (mod_2m_cases k m Hm); lia.
Qed.
End PairLayer.

Section Layers.
Context {C T : Type} (S : symops C T) (dC : C).
Notation d := (s_zero S).

Lemma ct_layer_spec n W m v : 0 < m -> Nat.divide (2 * m) n -> length v = n ->
  let v' := ct_layer S dC n W m v in
  length v' = n /\
  (forall k, k < n -> k mod (2 * m) < m -> k + m < n /\
     nth k v' d = fst (s_ct S (get dC W (k mod m * (n / (2 * m)))) (nth k v d) (nth (k + m) v d))) /\
  (forall k, k < n -> m <= k mod (2 * m) -> m <= k /\
     nth k v' d = snd (s_ct S (get dC W (k mod m * (n / (2 * m)))) (nth (k - m) v d) (nth k v d))).
Proof.
  intros Hm Hn Hl.
  exact (pl_spec d n m (fun j a b => fst (s_ct S (get dC W (j * (n / (2 * m)))) a b))
                 (fun j a b => snd (s_ct S (get dC W (j * (n / (2 * m)))) a b)) Hm Hn v Hl).
Qed.

Lemma gs_layer_spec n W m v : 0 < m -> Nat.divide (2 * m) n -> length v = n ->
  let v' := gs_layer S dC n W m v in
  length v' = n /\
  (forall k, k < n -> k mod (2 * m) < m -> k + m < n /\
     nth k v' d = fst (s_gs S (get dC W (k mod m * n / (2 * m))) (nth k v d) (nth (k + m) v d))) /\
  (forall k, k < n -> m <= k mod (2 * m) -> m <= k /\
     nth k v' d = snd (s_gs S (get dC W (k mod m * n / (2 * m))) (nth (k - m) v d) (nth k v d))).
Proof.
  intros Hm Hn Hl.
  exact (pl_spec d n m (fun j a b => fst (s_gs S (get dC W (j * n / (2 * m))) a b))
                 (fun j a b => snd (s_gs S (get dC W (j * n / (2 * m))) a b)) Hm Hn v Hl).
Qed.

Lemma gs_simple_pair r m v i :
  butterfly_gs_simple S r m v i = pair_upd d (fun _ a b => a) (fun _ a b => s_gss S r a b) m v i.
Proof. unfold butterfly_gs_simple, pair_upd. now rewrite set_nth. Qed.

Lemma gs_simple_layer_spec n W m v : 0 < m -> Nat.divide (2 * m) n -> length v = n ->
  let v' := gs_simple_layer S dC n W m v in
  length v' = n /\
  (forall k, k < n -> k mod (2 * m) < m -> k + m < n /\ nth k v' d = nth k v d) /\
  (forall k, k < n -> m <= k mod (2 * m) -> m <= k /\
     nth k v' d = s_gss S (get dC W (k mod m * n / (2 * m))) (nth (k - m) v d) (nth k v d)).
Proof.
  intros Hm Hn Hl.
  pose proof (pl_spec d n m (fun j a b => a)
                 (fun j a b => s_gss S (get dC W (j * n / (2 * m))) a b) Hm Hn v Hl) as H.
  cbv zeta. replace (gs_simple_layer S dC n W m v) with
    (fold_left (fun v j => pl_step d n m (fun j a b => a)
        (fun j a b => s_gss S (get dC W (j * n / (2 * m))) a b) j v) (seq 0 m) v); [exact H|].
  unfold gs_simple_layer. apply fold_left_ext_in. intros a j _.
  unfold pl_step, butterfly_gs_step_simple. apply fold_left_ext_in. intros. symmetry. apply gs_simple_pair.
Qed.

Lemma ct_step_spec n r start m step v :
  0 < m -> start + m < step -> Nat.divide step n -> length v = n ->
  let v' := butterfly_ct_step S n r start m step v in
  length v' = n /\
  (forall k, k < n -> k mod step = start -> nth k v' d = fst (s_ct S r (nth k v d) (nth (k + m) v d))) /\
  (forall k, k < n -> k mod step = start + m -> m <= k /\
     nth k v' d = snd (s_ct S r (nth (k - m) v d) (nth k v d))) /\
  (forall k, k < n -> k mod step <> start -> k mod step <> start + m -> nth k v' d = nth k v d).
Proof.
  exact (pair_steps d (fun _ a b => fst (s_ct S r a b)) (fun _ a b => snd (s_ct S r a b)) m n start step v).
Qed.

Lemma mod_4m_cases k m : 0 < m ->
  (k mod (4 * m) = k mod m \/ k mod (4 * m) = k mod m + m \/
   k mod (4 * m) = k mod m + 2 * m \/ k mod (4 * m) = k mod m + 3 * m).
Proof.
  intros H. rewrite (Nat.mul_comm 4 m). rewrite (Nat.mod_mul_r k m 4) by lia.
  pose proof (Nat.mod_upper_bound (k / m) 4).
  destruct ((k / m) mod 4) as [|[|[|[|x]]]] eqn:E; lia.
Qed.

Lemma mod_eq_of k s r : r < s -> (exists q, k = r + q * s) -> k mod s = r.
Proof. intros H [q ->]. rewrite Nat.mod_add by lia. now apply Nat.mod_small. Qed.

Lemma mod_form k s : s <> 0 -> exists q, k = k mod s + q * s.
Proof. intros. exists (k / s). pose proof (Nat.div_mod k s). lia. Qed.

(** The two-layer step of the Buffers version is two consecutive layers of the Vector version. *)
Lemma two_layers_eq n W m v : 0 < m -> Nat.divide (4 * m) n -> length v = n ->
  fold_left (two_layers_step S dC n W m) (seq 0 m) v = ct_layer S dC n W (2 * m) (ct_layer S dC n W m v).
Proof.
  intros Hm Hd Hl.
  assert (Hd2 : Nat.divide (2 * m) n) by (destruct Hd as [c ->]; exists (c * 2); lia).
  assert (Hd4 : Nat.divide (2 * (2 * m)) n) by (destruct Hd as [c ->]; exists c; lia).
  assert (I1 : forall j, j * n / m / 2 = j * (n / (2 * m))).
  { intros j. rewrite Nat.div_div by lia. destruct Hd as [c ->].
    replace (j * (c * (4 * m))) with ((j * c * 2) * (m * 2)) by lia. rewrite Nat.div_mul by lia.
    replace (c * (4 * m)) with ((c * 2) * (2 * m)) by lia. rewrite Nat.div_mul by lia. lia. }
  assert (I2 : forall j, j * n / m / 4 = j * (n / (2 * (2 * m)))).
  { intros j. rewrite Nat.div_div by lia. destruct Hd as [c ->].
    replace (j * (c * (4 * m))) with ((j * c) * (m * 4)) by lia. rewrite Nat.div_mul by lia.
    replace (c * (4 * m)) with (c * (2 * (2 * m))) by lia. rewrite Nat.div_mul by lia. lia. }
  set (wt := fun m' k => get dC W (k mod m' * (n / (2 * m')))).
  (* the effect of one start index *)
  assert (Sp : forall j v, j < m -> length v = n ->
     let u := ct_layer S dC n W (2 * m) (ct_layer S dC n W m v) in
     let v' := two_layers_step S dC n W m v j in
     length v' = n /\ (forall k, k < n -> k mod m = j -> nth k v' d = nth k u d) /\
     (forall k, k < n -> k mod m <> j -> nth k v' d = nth k v d)).
  { intros j v0 Hj H0 u.
    assert (Eq : two_layers_step S dC n W m v0 j =
      butterfly_ct_step S n (get dC W ((j + m) * (n / (2 * (2 * m))))) (j + m) (2 * m) (4 * m)
       (butterfly_ct_step S n (get dC W (j * (n / (2 * (2 * m))))) j (2 * m) (4 * m)
         (butterfly_ct_step S n (get dC W (j * (n / (2 * m)))) (j + 2 * m) m (4 * m)
           (butterfly_ct_step S n (get dC W (j * (n / (2 * m)))) j m (4 * m) v0)))).
    { unfold two_layers_step. now rewrite (I1 j), (I2 j), (I2 (j + m)). }
    rewrite Eq. intros v'.
    destruct (ct_layer_spec n W m v0 Hm Hd2 H0) as (L1 & A1 & B1).
    destruct (ct_layer_spec n W (2 * m) _ ltac:(lia) Hd4 L1) as (L2 & A2 & B2).
    fold u in L2, A2, B2.
    set (u1 := ct_layer S dC n W m v0) in *.
    set (r1 := get dC W (j * (n / (2 * m)))) in *.
    set (r2 := get dC W (j * (n / (2 * (2 * m))))) in *.
    set (r3 := get dC W ((j + m) * (n / (2 * (2 * m))))) in *.
    set (w1 := butterfly_ct_step S n r1 j m (4 * m) v0) in *.
    set (w2 := butterfly_ct_step S n r1 (j + 2 * m) m (4 * m) w1) in *.
    set (w3 := butterfly_ct_step S n r2 j (2 * m) (4 * m) w2) in *.
    destruct (ct_step_spec n r1 j m (4 * m) v0 Hm ltac:(lia) Hd H0) as (K1 & P1 & Q1 & R1).
    fold w1 in K1, P1, Q1, R1.
    destruct (ct_step_spec n r1 (j + 2 * m) m (4 * m) w1 Hm ltac:(lia) Hd K1) as (K2 & P2 & Q2 & R2).
    fold w2 in K2, P2, Q2, R2.
    destruct (ct_step_spec n r2 j (2 * m) (4 * m) w2 ltac:(lia) ltac:(lia) Hd K2) as (K3 & P3 & Q3 & R3).
    fold w3 in K3, P3, Q3, R3.
    destruct (ct_step_spec n r3 (j + m) (2 * m) (4 * m) w3 ltac:(lia) ltac:(lia) Hd K3) as (K4 & P4 & Q4 & R4).
    fold v' in K4, P4, Q4, R4.
    assert (Cs : forall k, k mod m = j -> k mod (4 * m) = j \/ k mod (4 * m) = j + m \/
        k mod (4 * m) = j + 2 * m \/ k mod (4 * m) = j + 3 * m).
    { intros k Hk. pose proof (mod_4m_cases k m Hm). lia. }
    assert (M2 : forall k, k mod (2 * m) = (k mod (4 * m)) mod (2 * m)).
    { intros k. replace (4 * m) with ((2 * m) * 2) by lia. symmetry. apply mod_mul_r; lia. }
    assert (M1 : forall k, k mod m = (k mod (4 * m)) mod m).
    { intros k. replace (4 * m) with (m * 4) by lia. symmetry. apply mod_mul_r; lia. }
    assert (S2 : forall a, a < 2 * m -> a mod (2 * m) = a) by (intros; apply Nat.mod_small; lia).
    assert (S2' : forall a, a < 2 * m -> (a + 2 * m) mod (2 * m) = a).
    { intros. apply mod_eq_of; [lia|]. exists 1. lia. }
    assert (HH2 : forall k, k < n -> k mod m = j -> nth k w2 d = nth k u1 d).
    { intros k Hk Hkj.
      destruct (Cs k Hkj) as [E|[E|[E|E]]].
      - rewrite R2, P1 by lia. destruct (A1 k) as [_ ->]; auto; [rewrite M2, E, S2; lia|]. now rewrite Hkj.
      - rewrite R2 by lia. destruct (Q1 k) as [_ ->]; try lia.
        destruct (B1 k) as [_ ->]; auto; [rewrite M2, E, S2; lia|]. now rewrite Hkj.
      - assert (Hk2 : k mod (2 * m) = j) by (rewrite M2, E, S2'; lia).
        destruct (A1 k) as [Hkm ->]; auto; [lia|]. rewrite Hkj.
        rewrite P2 by lia. rewrite (R1 k) by lia. rewrite (R1 (k + m)); auto.
        + rewrite (mod_eq_of (k + m) (4 * m) (j + 3 * m)); [lia|lia|]. destruct (mod_form k (4 * m)) as [q Hq]; [lia|]. exists q. lia.
        + rewrite (mod_eq_of (k + m) (4 * m) (j + 3 * m)); [lia|lia|]. destruct (mod_form k (4 * m)) as [q Hq]; [lia|]. exists q. lia.
      - assert (Hk2 : k mod (2 * m) = j + m).
        { rewrite M2, E. replace (j + 3 * m) with (j + m + 2 * m) by lia. apply S2'. lia. }
        destruct (B1 k) as [Hkm ->]; auto; [lia|]. rewrite Hkj.
        destruct (Q2 k) as [_ ->]; try lia. rewrite (R1 k) by lia. rewrite (R1 (k - m)); auto; try lia.
        + rewrite (mod_eq_of (k - m) (4 * m) (j + 2 * m)); [lia|lia|]. destruct (mod_form k (4 * m)) as [q Hq]; [lia|]. exists q. lia.
        + rewrite (mod_eq_of (k - m) (4 * m) (j + 2 * m)); [lia|lia|]. destruct (mod_form k (4 * m)) as [q Hq]; [lia|]. exists q. lia. }
    assert (Mj : forall k, k mod m = j -> forall q, (k + q * m) mod m = j).
    { intros k Hk q. rewrite Nat.mod_add by lia. auto. }
    assert (Mj' : forall k, k mod m = j -> 2 * m <= k -> (k - 2 * m) mod m = j).
    { intros k Hk Hk2. rewrite <- Hk. rewrite <- (Nat.mod_add (k - 2 * m) 2 m) by lia. f_equal. lia. }
    split; [auto|split].
    - intros k Hk Hkj.
      destruct (Cs k Hkj) as [E|[E|[E|E]]].
      + rewrite R4, P3 by lia. destruct (A2 k) as [Hk4 ->]; auto; [replace (2 * (2 * m)) with (4 * m) by lia; lia|].
        rewrite M2, E, S2 by lia. fold r2. rewrite !HH2; auto.
      + rewrite P4 by lia. destruct (A2 k) as [Hk4 ->]; auto; [replace (2 * (2 * m)) with (4 * m) by lia; lia|].
        rewrite M2, E, S2 by lia. fold r3.
        rewrite (R3 k) by lia. rewrite (R3 (k + 2 * m)); auto.
        * rewrite !HH2; auto.
        * rewrite (mod_eq_of (k + 2 * m) (4 * m) (j + 3 * m)); [lia|lia|]. destruct (mod_form k (4 * m)) as [q Hq]; [lia|]. exists q. lia.
        * rewrite (mod_eq_of (k + 2 * m) (4 * m) (j + 3 * m)); [lia|lia|]. destruct (mod_form k (4 * m)) as [q Hq]; [lia|]. exists q. lia.
      + rewrite R4 by lia. destruct (Q3 k) as [Hk4 ->]; auto.
        destruct (B2 k) as [_ ->]; auto; [replace (2 * (2 * m)) with (4 * m) by lia; lia|].
        rewrite M2, E, S2' by lia. fold r2. rewrite !HH2; auto. lia.
      + destruct (Q4 k) as [Hk4 ->]; auto; [lia|].
        destruct (B2 k) as [_ ->]; auto; [replace (2 * (2 * m)) with (4 * m) by lia; lia|].
        rewrite M2, E. replace (j + 3 * m) with (j + m + 2 * m) by lia. rewrite S2' by lia. fold r3.
        rewrite (R3 k) by lia. rewrite (R3 (k - 2 * m)); auto; try lia.
        * rewrite !HH2; auto. lia.
        * rewrite (mod_eq_of (k - 2 * m) (4 * m) (j + m)); [lia|lia|]. destruct (mod_form k (4 * m)) as [q Hq]; [lia|]. exists q. lia.
        * rewrite (mod_eq_of (k - 2 * m) (4 * m) (j + m)); [lia|lia|]. destruct (mod_form k (4 * m)) as [q Hq]; [lia|]. exists q. lia.
    - intros k Hk Hkj.
      assert (Ne : forall q, q < 4 -> k mod (4 * m) <> j + q * m).
      { intros q Hq E. apply Hkj. rewrite M1, E. rewrite Nat.mod_add by lia. apply Nat.mod_small; lia. }
      pose proof (Ne 0). pose proof (Ne 1). pose proof (Ne 2). pose proof (Ne 3).
      rewrite R4, R3, R2, R1 by lia. reflexivity. }
  set (G := fun j v => if j <? m then two_layers_step S dC n W m v j else v).
  assert (EG : fold_left (two_layers_step S dC n W m) (seq 0 m) v = fold_left (fun v j => G j v) (seq 0 m) v).
  { apply fold_left_ext_in. intros a b Hb. apply in_seq in Hb. unfold G. destruct (Nat.ltb_spec b m); auto; lia. }
  assert (GL : forall j v, length v = n -> length (G j v) = n).
  { intros j v0 H0. unfold G. destruct (Nat.ltb_spec j m); auto. apply Sp; auto. }
  destruct (ct_layer_spec n W m v Hm Hd2 Hl) as (L1 & _ & _).
  destruct (ct_layer_spec n W (2 * m) _ ltac:(lia) Hd4 L1) as (L2 & _ & _).
  rewrite EG. apply list_ext with (d := d).
  - rewrite L2. apply (fold_class_length n G); auto.
  - rewrite (fold_class_length n G) by auto. intros k Hk.
    pose proof (Nat.mod_upper_bound k m).
    rewrite (fold_class_in d n (fun k => k mod m) G); auto.
    + unfold G. destruct (Nat.ltb_spec (k mod m) m); [|lia]. apply Sp; auto.
    + intros j v0 k0 H0 Hk0 Hc. unfold G. destruct (Nat.ltb_spec j m); auto. apply Sp; auto.
    + intros j v0 v1 H0 H1 E k0 Hk0 Hc. unfold G. destruct (Nat.ltb_spec j m); auto.
      rewrite (proj1 (proj2 (Sp j v0 ltac:(lia) H0)) k0 Hk0 Hc).
      rewrite (proj1 (proj2 (Sp j v1 ltac:(lia) H1)) k0 Hk0 Hc).
      assert (U : forall k1, k1 < n -> k1 mod m = j -> nth k1 (ct_layer S dC n W m v0) d = nth k1 (ct_layer S dC n W m v1) d).
      { intros k1 Hk1 Hc1.
        destruct (ct_layer_spec n W m v0 Hm Hd2 H0) as (_ & A & B).
        destruct (ct_layer_spec n W m v1 Hm Hd2 H1) as (_ & A' & B').
        destruct (le_lt_dec m (k1 mod (2 * m))) as [Hc2|Hc2].
        - destruct (B k1 Hk1 Hc2) as [Hx ->]. destruct (B' k1 Hk1 Hc2) as [_ ->]. rewrite (E k1), (E (k1 - m)); auto; try lia.
          rewrite <- Hc1. rewrite <- (Nat.mod_add (k1 - m) 1 m) by lia. f_equal. lia.
        - destruct (A k1 Hk1 Hc2) as [Hx ->]. destruct (A' k1 Hk1 Hc2) as [_ ->]. rewrite (E k1), (E (k1 + m)); auto; try lia.
          rewrite <- Hc1. rewrite <- (Nat.mod_add k1 1 m) by lia. f_equal. lia. }
      destruct (ct_layer_spec n W m v0 Hm Hd2 H0) as (V0 & _ & _).
      destruct (ct_layer_spec n W m v1 Hm Hd2 H1) as (V1 & _ & _).
      destruct (ct_layer_spec n W (2 * m) _ ltac:(lia) Hd4 V0) as (_ & A & B).
      destruct (ct_layer_spec n W (2 * m) _ ltac:(lia) Hd4 V1) as (_ & A' & B').
      destruct (le_lt_dec (2 * m) (k0 mod (2 * (2 * m)))) as [Hc2|Hc2].
      * destruct (B k0 Hk0 Hc2) as [Hx ->]. destruct (B' k0 Hk0 Hc2) as [_ ->]. rewrite (U k0), (U (k0 - 2 * m)); auto; try lia.
        rewrite <- Hc. rewrite <- (Nat.mod_add (k0 - 2 * m) 2 m) by lia. f_equal. lia.
      * destruct (A k0 Hk0 Hc2) as [Hx ->]. destruct (A' k0 Hk0 Hc2) as [_ ->]. rewrite (U k0), (U (k0 + 2 * m)); auto; try lia.
        rewrite <- Hc. rewrite <- (Nat.mod_add k0 2 m) by lia. f_equal.
    + apply seq_NoDup.
    + apply in_seq. lia.
Qed.

End Layers.

(** ** Scattering of the input *)
Lemma fill_spec T (d : T) v start len a :
  length (fill v start len a) = length v /\
  (forall k, start <= k < start + len -> k < length v -> nth k (fill v start len a) d = a) /\
  (forall k, ~ (start <= k < start + len) -> nth k (fill v start len a) d = nth k v d).
Proof.
  unfold fill. destruct (fold_set_fill T d (fun _ => a) (seq start len) v) as [H1 H2].
  split; [auto|]. split; intros k Hk.
  - intros Hl. apply H2; auto. apply in_seq; lia.
  - apply H2. rewrite in_seq. lia.
Qed.

Lemma scatter_spec C T (S : symops C T) n data_len rev input out r g D :
  D = Nat.max data_len (length input) -> 0 < D -> g * D = n -> length out = n ->
  (forall i, i < D -> r i < D /\ r (r i) = i /\ nth i rev 0 = g * r i) ->
  let v := fft_scatter S n data_len rev input out in
  length v = n /\ forall i s, i < D -> s < g -> nth (g * r i + s) v (s_zero S) = nth i input (s_zero S).
Proof.
  intros HD HD0 Hg Hl Hr.
  set (d := s_zero S).
  assert (Gg : group_len n data_len (length input) = g).
  { unfold group_len. rewrite <- Hg. destruct (Nat.ltb_spec data_len (length input)).
    - replace D with (length input) by lia. apply Nat.div_mul; lia.
    - replace D with data_len by lia. apply Nat.div_mul; lia. }
  set (G := fun idx v => if idx <? D then fill v (g * r idx) g (nth idx input d) else v).
  assert (E : fft_scatter S n data_len rev input out = fold_left (fun v idx => G idx v) (seq 0 D) out).
  { unfold fft_scatter. rewrite Gg. fold d.
    assert (X1 : forall v, fold_left (fun v idx => fill v (get 0 rev idx) g (get d input idx)) (seq 0 (length input)) v
       = fold_left (fun v idx => G idx v) (seq 0 (length input)) v).
    { intros v. apply fold_left_ext_in. intros w idx Hi. apply in_seq in Hi. unfold G, get.
      destruct (Nat.ltb_spec idx D); [|lia]. destruct (Hr idx) as (_ & _ & ->); auto. }
    assert (X2 : forall v, fold_left (fun v idx => fill v (get 0 rev idx) g d) (seq (length input) (data_len - length input)) v
       = fold_left (fun v idx => G idx v) (seq (length input) (data_len - length input)) v).
    { intros v. apply fold_left_ext_in. intros w idx Hi. apply in_seq in Hi. unfold G, get.
      destruct (Nat.ltb_spec idx D); [|lia]. destruct (Hr idx) as (_ & _ & ->); auto.
      now rewrite (nth_overflow input) by lia. }
    rewrite X1, X2, <- fold_left_app. f_equal. rewrite <- (seq_app (length input) _ 0). f_equal. lia. }
  cbv zeta. rewrite E.
  assert (Q : forall k i, k < n -> i < D -> (g * r i <= k < g * r i + g <-> r (k / g) = i)).
  { intros k i Hk Hi. destruct (Hr i Hi) as (Ri & RRi & _).
    assert (0 < g) by (destruct g; lia).
    assert (Hkg : k / g < D) by (apply Nat.div_lt_upper_bound; lia).
    destruct (Hr _ Hkg) as (Rk & RRk & _).
    pose proof (Nat.div_mod k g). pose proof (Nat.mod_upper_bound k g).
    split.
    - intros H2. replace (k / g) with (r i); auto.
      apply Nat.div_unique with (k - g * r i); lia.
    - intros H2. rewrite <- H2, RRk. lia. }
  assert (GL : forall j v, length v = n -> length (G j v) = n).
  { intros j v Hv. unfold G. destruct (j <? D); auto. now rewrite (proj1 (fill_spec T d v _ _ _)). }
  assert (GO : forall j v k, length v = n -> k < n -> r (k / g) <> j -> nth k (G j v) d = nth k v d).
  { intros j v k Hv Hk Hj. unfold G. destruct (Nat.ltb_spec j D); auto.
    apply (fill_spec T d v). rewrite Q by auto. auto. }
  assert (GI : forall j v k, length v = n -> k < n -> j < D -> r (k / g) = j -> nth k (G j v) d = nth j input d).
  { intros j v k Hv Hk Hj Hc. unfold G. destruct (Nat.ltb_spec j D); [|lia].
    apply (fill_spec T d v); [|lia]. now rewrite Q by auto. }
  split; [apply (fold_class_length n G); auto|].
  intros i s Hi Hs. destruct (Hr i Hi) as (Ri & RRi & _).
  assert (Hk : g * r i + s < n) by (rewrite <- Hg; nia).
  assert (Hc : r ((g * r i + s) / g) = i) by (apply Q; auto; lia).
  rewrite (fold_class_in d n (fun k => r (k / g)) G); auto.
  - cbv beta. rewrite Hc. apply GI; auto.
  - intros j v v' Hv Hv' Ev k Hk' Hj.
    destruct (Nat.ltb_spec j D).
    + rewrite !GI; auto.
    + unfold G. destruct (Nat.ltb_spec j D); [lia|]. auto.
  - apply seq_NoDup.
  - apply in_seq. cbv beta. lia.
Qed.

(** ** The permutation by swaps *)
Lemma permute_spec A (d : A) n rev (r : nat -> nat) v :
  length v = n -> (forall i, i < n -> nth i rev 0 = r i /\ r i < n /\ r (r i) = i) ->
  length (bit_rev_permute d n rev v) = n /\
  forall k, k < n -> nth k (bit_rev_permute d n rev v) d = nth (r k) v d.
Proof.
  intros Hl Hr. unfold bit_rev_permute.
  assert (X : forall m, m <= n ->
     let u := fold_left (fun v i => if get 0 rev i <? i then swap d v i (get 0 rev i) else v) (seq 0 m) v in
     length u = n /\ forall k, k < n -> nth k u d = if (k <? m) && (r k <? m) then nth (r k) v d else nth k v d).
  { induction m as [|m IH]; intros Hm.
    - simpl. auto.
    - rewrite seq_S, fold_left_app. cbv zeta. simpl (seq (0 + m) 1). cbn [fold_left Nat.add].
      destruct (IH ltac:(lia)) as [Lu Iu].
      set (u := fold_left _ _ _) in *. clearbody u.
      destruct (Hr m ltac:(lia)) as (Em & Lm & Rm).
      unfold get. rewrite Em. destruct (Nat.ltb_spec (r m) m) as [Hlt|Hge].
      + split; [now rewrite swap_length|]. intros k Hk.
        destruct (Hr k Hk) as (_ & Lk & Rk).
        rewrite nth_swap by lia.
        destruct (Nat.eqb_spec k (r m)) as [->|Hk1].
        * rewrite Iu by lia. rewrite Rm. rewrite Nat.ltb_irrefl. simpl.
          destruct (Nat.ltb_spec (r m) (S m)), (Nat.ltb_spec m (S m)); simpl; auto; lia.
        * destruct (Nat.eqb_spec k m) as [->|Hk2].
          -- rewrite Iu by lia. rewrite Rm. rewrite Nat.ltb_irrefl, andb_false_r.
             destruct (Nat.ltb_spec m (S m)), (Nat.ltb_spec (r m) (S m)); simpl; auto; lia.
          -- rewrite Iu by lia. assert (r k <> m) by (intro; subst m; lia).
             destruct (Nat.ltb_spec k m), (Nat.ltb_spec k (S m)), (Nat.ltb_spec (r k) m), (Nat.ltb_spec (r k) (S m)); simpl; auto; lia.
      + split; [auto|]. intros k Hk. rewrite Iu by lia. destruct (Hr k Hk) as (_ & Lk & Rk).
        destruct (Nat.ltb_spec k m), (Nat.ltb_spec k (S m)), (Nat.ltb_spec (r k) m), (Nat.ltb_spec (r k) (S m)); simpl; auto; try lia.
        * assert (r k = m) by lia. assert (r m = k) by (rewrite <- H3; auto). lia.
        * assert (k = m) by lia. subst. lia.
        * assert (k = m) by lia. assert (r k = m) by lia. congruence. }
  destruct (X n (le_n n)) as [L I]. split; [auto|]. intros k Hk. rewrite I by auto.
  destruct (Hr k Hk) as (_ & Lk & _).
  destruct (Nat.ltb_spec k n), (Nat.ltb_spec (r k) n); simpl; auto; lia.
Qed.

(** ** Layers in terms of blocks *)
Section Blocks.
Context {C T : Type} (S : symops C T) (dC : C).
Notation d := (s_zero S).

Lemma block_mod B m s : s < m -> 0 < m ->
  (B * (2 * m) + s) mod (2 * m) = s /\ (B * (2 * m) + s) mod m = s /\
  (B * (2 * m) + m + s) mod (2 * m) = m + s /\ (B * (2 * m) + m + s) mod m = s.
Proof.
  intros Hs Hm. repeat split.
  - apply mod_eq_of; [lia|]. exists B. lia.
  - apply mod_eq_of; [lia|]. exists (2 * B). lia.
  - apply mod_eq_of; [lia|]. exists B. lia.
  - apply mod_eq_of; [lia|]. exists (2 * B + 1). lia.
Qed.

Lemma ct_layer_block n W m q v : 0 < m -> n = q * (2 * m) -> length v = n ->
  length (ct_layer S dC n W m v) = n /\
  forall B s, B < q -> s < m ->
    nth (B * (2 * m) + s) (ct_layer S dC n W m v) d =
      fst (s_ct S (nth (s * q) W dC) (nth (B * (2 * m) + s) v d) (nth (B * (2 * m) + m + s) v d)) /\
    nth (B * (2 * m) + m + s) (ct_layer S dC n W m v) d =
      snd (s_ct S (nth (s * q) W dC) (nth (B * (2 * m) + s) v d) (nth (B * (2 * m) + m + s) v d)).
Proof.
  intros Hm Hn Hl.
  destruct (ct_layer_spec S dC n W m v Hm (ex_intro _ q Hn) Hl) as (L & A & B).
  split; auto. intros b s Hb Hs.
  destruct (block_mod b m s Hs Hm) as (E1 & E2 & E3 & E4).
  assert (Eq : n / (2 * m) = q) by (rewrite Hn; apply Nat.div_mul; lia).
  assert (Hlt : b * (2 * m) + m + s < n) by (rewrite Hn; nia).
  split.
  - destruct (A (b * (2 * m) + s)) as [_ ->]; [lia|lia|]. rewrite E2, Eq. unfold get. replace (b * (2 * m) + s + m) with (b * (2 * m) + m + s) by lia. reflexivity.
  - destruct (B (b * (2 * m) + m + s)) as [_ ->]; [lia|lia|]. rewrite E4, Eq. unfold get. replace (b * (2 * m) + m + s - m) with (b * (2 * m) + s) by lia. reflexivity.
Qed.

Lemma idx_div s q m : 0 < m -> s * (q * (2 * m)) / (2 * m) = s * q.
Proof. intros. rewrite Nat.mul_assoc. apply Nat.div_mul. lia. Qed.

Lemma gs_layer_block n W m q v : 0 < m -> n = q * (2 * m) -> length v = n ->
  length (gs_layer S dC n W m v) = n /\
  forall B s, B < q -> s < m ->
    nth (B * (2 * m) + s) (gs_layer S dC n W m v) d =
      fst (s_gs S (nth (s * q) W dC) (nth (B * (2 * m) + s) v d) (nth (B * (2 * m) + m + s) v d)) /\
    nth (B * (2 * m) + m + s) (gs_layer S dC n W m v) d =
      snd (s_gs S (nth (s * q) W dC) (nth (B * (2 * m) + s) v d) (nth (B * (2 * m) + m + s) v d)).
Proof.
  intros Hm Hn Hl.
  destruct (gs_layer_spec S dC n W m v Hm (ex_intro _ q Hn) Hl) as (L & A & B).
  split; auto. intros b s Hb Hs.
  destruct (block_mod b m s Hs Hm) as (E1 & E2 & E3 & E4).
  assert (Hlt : b * (2 * m) + m + s < n) by (rewrite Hn; nia).
  split.
  - destruct (A (b * (2 * m) + s)) as [_ ->]; [lia|lia|]. rewrite E2, Hn, idx_div by auto. unfold get.
    replace (b * (2 * m) + s + m) with (b * (2 * m) + m + s) by lia. reflexivity.
  - destruct (B (b * (2 * m) + m + s)) as [_ ->]; [lia|lia|]. rewrite E4, Hn, idx_div by auto. unfold get.
    replace (b * (2 * m) + m + s - m) with (b * (2 * m) + s) by lia. reflexivity.
Qed.

Lemma gs_simple_layer_block n W m q v : 0 < m -> n = q * (2 * m) -> length v = n ->
  length (gs_simple_layer S dC n W m v) = n /\
  forall B s, B < q -> s < m ->
    nth (B * (2 * m) + s) (gs_simple_layer S dC n W m v) d = nth (B * (2 * m) + s) v d /\
    nth (B * (2 * m) + m + s) (gs_simple_layer S dC n W m v) d =
      s_gss S (nth (s * q) W dC) (nth (B * (2 * m) + s) v d) (nth (B * (2 * m) + m + s) v d).
Proof.
  intros Hm Hn Hl.
  destruct (gs_simple_layer_spec S dC n W m v Hm (ex_intro _ q Hn) Hl) as (L & A & B).
  split; auto. intros b s Hb Hs.
  destruct (block_mod b m s Hs Hm) as (E1 & E2 & E3 & E4).
  assert (Hlt : b * (2 * m) + m + s < n) by (rewrite Hn; nia).
  split.
  - destruct (A (b * (2 * m) + s)) as [_ ->]; [lia|lia|]. f_equal.
  - destruct (B (b * (2 * m) + m + s)) as [_ ->]; [lia|lia|]. rewrite E4, Hn, idx_div by auto. unfold get.
    replace (b * (2 * m) + m + s - m) with (b * (2 * m) + s) by lia. reflexivity.
Qed.

(** The last layer of the Buffers version. *)
Lemma last_layer_eq n W m v : n = 2 * m ->
  fold_left (fun v j => butterfly_ct_step S n (get dC W j) j m n v) (seq 0 m) v = ct_layer S dC n W m v.
Proof.
  intros Hn. unfold ct_layer. apply fold_left_ext_in. intros a j _.
  destruct m as [|m]; [subst; reflexivity|].
  rewrite <- Hn. rewrite Nat.div_same by lia. rewrite Nat.mul_1_r. reflexivity.
Qed.
End Blocks.
