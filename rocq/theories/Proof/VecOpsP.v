(** Lemmas for C70. *)
From Coq Require Import List NArith Arith Bool Lia.
From Verif.Model Require Import Common Ring Views VecOps.
From Verif.Spec Require Import VecOps.
From Verif.Proof Require Import ListP ViewsP.
Import ListNotations.
Open Scope nat_scope.

Lemma peek_set m a x b : a < length m -> peek (set m a x) b = if a =? b then Some x else peek m b.
Proof. intros H. unfold peek. rewrite nth_error_set. destruct (Nat.ltb_spec a (length m)); [|lia]. now rewrite andb_true_r. Qed.

Lemma zip_spec f k : forall m d s, d + k <= length m -> s + k <= length m -> d <= s \/ s + k <= d ->
  exists m', zip_cells f m d s k = Some m' /\ length m' = length m /\
  (forall i, i < k -> exists x y, peek m (d + i) = Some x /\ peek m (s + i) = Some y /\ peek m' (d + i) = Some (f x y)) /\
  forall b, b < d \/ d + k <= b -> peek m' b = peek m b.
Proof.
  induction k as [|k IH]; intros m d s Hd Hs Hx; cbn [zip_cells].
  - exists m. repeat split. intros i Hi. lia.
  - destruct (peek_in m d ltac:(lia)) as [x Ex]. destruct (peek_in m s ltac:(lia)) as [y Ey]. rewrite Ex, Ey, poke_in by lia.
    destruct (IH (set m d (f x y)) (S d) (S s)) as (m' & E & L & A & B); rewrite ?set_length; try lia.
    exists m'. split; [exact E|]. split; [now rewrite L, set_length|]. split.
    + intros [|i] Hi.
      * exists x, y. rewrite !Nat.add_0_r. split; [exact Ex|]. split; [exact Ey|]. rewrite B by lia.
        rewrite peek_set by lia. now rewrite Nat.eqb_refl.
      * destruct (A i ltac:(lia)) as (x' & y' & P & Q & R). exists x', y'. rewrite !peek_set in P, Q by lia.
        replace (d + S i) with (S d + i) by lia. replace (s + S i) with (S s + i) by lia.
        destruct (Nat.eqb_spec d (S d + i)); [lia|]. destruct (Nat.eqb_spec d (S s + i)); [lia|]. auto.
    + intros b Hb. rewrite B by lia. rewrite peek_set by lia. destruct (Nat.eqb_spec d b); [lia|reflexivity].
Qed.
Lemma zip_after f k : forall m d s, d + k <= length m -> s < d ->
  exists m', zip_cells f m d s k = Some m' /\ length m' = length m /\
  (forall i, i < k -> exists x y, peek m (d + i) = Some x /\ peek m' (s + i) = Some y /\ peek m' (d + i) = Some (f x y)) /\
  forall b, b < d \/ d + k <= b -> peek m' b = peek m b.
Proof.
  induction k as [|k IH]; intros m d s Hd Hx; cbn [zip_cells].
  - exists m. repeat split. intros i Hi. lia.
  - destruct (peek_in m d ltac:(lia)) as [x Ex]. destruct (peek_in m s ltac:(lia)) as [y Ey]. rewrite Ex, Ey, poke_in by lia.
    destruct (IH (set m d (f x y)) (S d) (S s)) as (m' & E & L & A & B); rewrite ?set_length; try lia.
    exists m'. split; [exact E|]. split; [now rewrite L, set_length|]. split.
    + intros [|i] Hi.
      * exists x, y. rewrite !Nat.add_0_r. split; [exact Ex|]. rewrite !B by lia. rewrite !peek_set by lia.
        rewrite Nat.eqb_refl. destruct (Nat.eqb_spec d s); [lia|auto].
      * destruct (A i ltac:(lia)) as (x' & y' & P & Q & R). exists x', y'. rewrite peek_set in P by lia.
        replace (d + S i) with (S d + i) by lia. replace (s + S i) with (S s + i) by lia.
        destruct (Nat.eqb_spec d (S d + i)); [lia|]. auto.
    + intros b Hb. rewrite B by lia. rewrite peek_set by lia. destruct (Nat.eqb_spec d b); [lia|reflexivity].
Qed.
Lemma map_spec f k : forall m d, d + k <= length m ->
  exists m', map_cells f m d k = Some m' /\ length m' = length m /\
  (forall i, i < k -> exists x, peek m (d + i) = Some x /\ peek m' (d + i) = Some (f x)) /\
  forall b, b < d \/ d + k <= b -> peek m' b = peek m b.
Proof.
  induction k as [|k IH]; intros m d Hd; cbn [map_cells].
  - exists m. repeat split. intros i Hi. lia.
  - destruct (peek_in m d ltac:(lia)) as [x Ex]. rewrite Ex, poke_in by lia.
    destruct (IH (set m d (f x)) (S d)) as (m' & E & L & A & B); rewrite ?set_length; try lia.
    exists m'. split; [exact E|]. split; [now rewrite L, set_length|]. split.
    + intros [|i] Hi.
      * exists x. rewrite !Nat.add_0_r. split; [exact Ex|]. rewrite B by lia. rewrite peek_set by lia. now rewrite Nat.eqb_refl.
      * destruct (A i ltac:(lia)) as (x' & P & R). exists x'. rewrite peek_set in P by lia.
        replace (d + S i) with (S d + i) by lia. destruct (Nat.eqb_spec d (S d + i)); [lia|]. auto.
    + intros b Hb. rewrite B by lia. rewrite peek_set by lia. destruct (Nat.eqb_spec d b); [lia|reflexivity].
Qed.
Lemma beta_spec G beta k : forall coef m d, d + k <= length m ->
  exists m', beta_cells G beta coef m d k = Some m' /\ length m' = length m /\
  (forall i, i < k -> exists x, peek m (d + i) = Some x /\
     peek m' (d + i) = Some (g_mul G x (Nat.iter i (fun c => g_mul G c beta) coef))) /\
  forall b, b < d \/ d + k <= b -> peek m' b = peek m b.
Proof.
  induction k as [|k IH]; intros coef m d Hd; cbn [beta_cells].
  - exists m. repeat split. intros i Hi. lia.
  - destruct (peek_in m d ltac:(lia)) as [x Ex]. rewrite Ex, poke_in by lia.
    destruct (IH (g_mul G coef beta) (set m d (g_mul G x coef)) (S d)) as (m' & E & L & A & B); rewrite ?set_length; try lia.
    exists m'. split; [exact E|]. split; [now rewrite L, set_length|]. split.
    + intros [|i] Hi.
      * exists x. rewrite !Nat.add_0_r. split; [exact Ex|]. rewrite B by lia. rewrite peek_set by lia. now rewrite Nat.eqb_refl.
      * destruct (A i ltac:(lia)) as (x' & P & R). exists x'. rewrite peek_set in P by lia.
        replace (d + S i) with (S d + i) by lia. destruct (Nat.eqb_spec d (S d + i)); [lia|]. split; [exact P|].
        rewrite R. do 2 f_equal. clear. induction i as [|i IH]; [reflexivity|].
        change (g_mul G (Nat.iter i (fun c => g_mul G c beta) (g_mul G coef beta)) beta =
                g_mul G (Nat.iter (S i) (fun c => g_mul G c beta) coef) beta). now rewrite IH.
    + intros b Hb. rewrite B by lia. rewrite peek_set by lia. destruct (Nat.eqb_spec d b); [lia|reflexivity].
Qed.

(** Reads and writes of an element go to its cell. *)
Lemma wrap_small w i len : (N.of_nat len <= 2 ^ w)%N -> len <> 0 -> N.to_nat (wrap w (N.of_nat (i mod len))) = i mod len.
Proof.
  intros H Hl. unfold wrap. pose proof (Nat.mod_upper_bound i len Hl). rewrite N.mod_small by lia. now rewrite Nat2N.id.
Qed.
Lemma cell_get w m v : fits w v -> forall i a, cell v i = Some a -> vget w m v i = peek m a.
Proof.
  induction v as [h|h bl o|h u IH o s len|h u IH]; intros Hf i a; cbn [cell vget get_n head]; unfold get_n; cbn [head].
  - destruct (i <? h_n h); [|discriminate]. intros E. injection E. now intros <-.
  - destruct (i <? h_n h); [|discriminate]. intros E. injection E. now intros <-.
  - destruct Hf as [Hl Hu]. destruct (i <? h_n h); cbn [andb]; [|discriminate]. destruct (Nat.ltb_spec 0 len); [|discriminate].
    intros E. destruct (Nat.eqb_spec len 0); [lia|]. rewrite wrap_small by lia. now apply IH.
  - discriminate.
Qed.
Lemma cell_set w m v x : fits w v -> forall i a, cell v i = Some a -> vset w m v i x = poke m a x.
Proof.
  induction v as [h|h bl o|h u IH o s len|h u IH]; intros Hf i a; cbn [cell vset get_n head]; unfold get_n; cbn [head].
  - destruct (i <? h_n h); [|discriminate]. intros E. injection E. now intros <-.
  - destruct (i <? h_n h); [|discriminate]. intros E. injection E. now intros <-.
  - destruct Hf as [Hl Hu]. destruct (i <? h_n h); cbn [andb]; [|discriminate]. destruct (Nat.ltb_spec 0 len); [|discriminate].
    intros E. destruct (Nat.eqb_spec len 0); [lia|]. rewrite wrap_small by lia. now apply IH.
  - discriminate.
Qed.

Lemma scalar_spec G w v c : fits w v -> forall k m i, distinct m v -> i + k <= get_n v ->
  exists m', scalar_loop G w v c m i k = Some m' /\ length m' = length m /\
  (forall j, i <= j < i + k -> exists x, vget w m v j = Some x /\ vget w m' v j = Some (g_mul G x c)) /\
  forall a, (forall j, i <= j < i + k -> cell v j <> Some a) -> peek m' a = peek m a.
Proof.
  intros Hf. induction k as [|k IH]; intros m i [Hc Hd] Hk; cbn [scalar_loop].
  - exists m. repeat split. intros j Hj. lia.
  - destruct (Hc i ltac:(lia)) as (a & Ea & La). rewrite (cell_get w m v Hf i a Ea).
    destruct (peek_in m a La) as [x Ex]. rewrite Ex, (cell_set w m v _ Hf i a Ea), poke_in by exact La.
    destruct (IH (set m a (g_mul G x c)) (S i)) as (m' & E & L & A & B).
    + split; [|exact Hd]. intros j Hj. destruct (Hc j Hj) as (b & Eb & Lb). exists b. rewrite set_length. auto.
    + lia.
    + exists m'. split; [exact E|]. split; [now rewrite L, set_length|]. split.
      * intros j Hj. destruct (Nat.eq_dec j i) as [->|Hne].
        -- exists x. rewrite !(cell_get w _ v Hf i a Ea). split; [exact Ex|]. rewrite B.
           ++ rewrite peek_set by exact La. now rewrite Nat.eqb_refl.
           ++ intros j Hj' F. assert (i = j) by (apply Hd; try lia; congruence). lia.
        -- destruct (A j ltac:(lia)) as (y & P & Q). exists y. split; [|exact Q].
           destruct (Hc j ltac:(lia)) as (b & Eb & Lb). rewrite (cell_get w _ v Hf j b Eb) in P. rewrite (cell_get w _ v Hf j b Eb). rewrite peek_set in P by exact La.
           destruct (Nat.eqb_spec a b) as [->|]; [|exact P]. exfalso. apply Hne. apply Hd; try lia; congruence.
      * intros b Hb. rewrite B by (intros j Hj; apply Hb; lia). rewrite peek_set by exact La.
        destruct (Nat.eqb_spec a b) as [->|]; [|reflexivity]. exfalso. exact (Hb i ltac:(lia) Ea).
Qed.
Lemma iter_comm A (f : A -> A) n x : Nat.iter n f (f x) = f (Nat.iter n f x).
Proof. induction n as [|n IH]; [reflexivity|]. change (f (Nat.iter n f (f x)) = f (f (Nat.iter n f x))). now rewrite IH. Qed.
Lemma scalar_count G w v c : fits w v -> forall k m i, (forall j, j < get_n v -> exists a, cell v j = Some a /\ a < length m) -> i + k <= get_n v ->
  exists m', scalar_loop G w v c m i k = Some m' /\ length m' = length m /\
  forall a, peek m' a = option_map (Nat.iter (times v i k a) (fun x => g_mul G x c)) (peek m a).
Proof.
  intros Hf. induction k as [|k IH]; intros m i Hc Hk; cbn [scalar_loop].
  - exists m. split; [reflexivity|]. split; [reflexivity|]. intros a. unfold times. cbn. now destruct (peek m a).
  - destruct (Hc i ltac:(lia)) as (b & Eb & Lb). rewrite (cell_get w m v Hf i b Eb).
    destruct (peek_in m b Lb) as [x Ex]. rewrite Ex, (cell_set w m v _ Hf i b Eb), poke_in by exact Lb.
    destruct (IH (set m b (g_mul G x c)) (S i)) as (m' & E & L & A).
    + intros j Hj. destruct (Hc j Hj) as (d & Ed & Ld). exists d. rewrite set_length. auto.
    + lia.
    + exists m'. split; [exact E|]. split; [now rewrite L, set_length|]. intros a. rewrite A, peek_set by exact Lb.
      unfold times. cbn [seq filter]. rewrite Eb. destruct (Nat.eqb_spec b a) as [->|]; [|reflexivity].
      rewrite Ex. cbn [option_map length]. f_equal.
      change (Nat.iter (S ?n) ?f ?y) with (f (Nat.iter n f y)). apply (iter_comm _ (fun y => g_mul G y c)).
Qed.
Lemma zero_loop_spec w v : fits w v -> forall k m i, (forall j, j < get_n v -> exists a, cell v j = Some a /\ a < length m) -> i + k <= get_n v ->
  exists m', zero_loop w v m i k = Some m' /\ length m' = length m /\
  (forall a, (exists j, i <= j < i + k /\ cell v j = Some a) -> peek m' a = Some 0%N) /\
  forall a, (forall j, i <= j < i + k -> cell v j <> Some a) -> peek m' a = peek m a.
Proof.
  intros Hf. induction k as [|k IH]; intros m i Hc Hk; cbn [zero_loop].
  - exists m. split; [reflexivity|]. split; [reflexivity|]. split; [|reflexivity]. intros a (j & Hj & _). lia.
  - destruct (Hc i ltac:(lia)) as (a & Ea & La). rewrite (cell_set w m v _ Hf i a Ea), poke_in by exact La.
    destruct (IH (set m a 0%N) (S i)) as (m' & E & L & A & B).
    + intros j Hj. destruct (Hc j Hj) as (b & Eb & Lb). exists b. rewrite set_length. auto.
    + lia.
    + exists m'. split; [exact E|]. split; [now rewrite L, set_length|].
      assert (Z : forall b, peek m' b = Some 0%N \/ (forall j, S i <= j < S i + k -> cell v j <> Some b)).
      { clear -A. intros b.
        assert (D : (exists j, S i <= j < S i + k /\ cell v j = Some b) \/ (forall j, S i <= j < S i + k -> cell v j <> Some b)).
        { clear. generalize (S i). intros i0. induction k as [|k IHk]; [right; intros j Hj; lia|].
          destruct IHk as [(j & Hj & Ej)|Hn]; [left; exists j; split; [lia|exact Ej]|].
          assert (Q : cell v (i0 + k) = Some b \/ cell v (i0 + k) <> Some b).
          { destruct (cell v (i0 + k)) as [c|]; [|now right]. destruct (Nat.eq_dec c b) as [->|]; [now left|right; congruence]. }
          destruct Q as [Q|Q]; [left; exists (i0 + k); split; [lia|exact Q]|]. right. intros j Hj.
          destruct (Nat.eq_dec j (i0 + k)) as [->|]; [exact Q|]. apply Hn. lia. }
        destruct D as [D|D]; [left; now apply A|now right]. }
      split.
      * intros b (j & Hj & Ej). destruct (Z b) as [Zb|Zb]; [exact Zb|]. rewrite B by exact Zb. rewrite peek_set by exact La.
        destruct (Nat.eq_dec j i) as [->|Hne]; [|exfalso; apply (Zb j); [lia|exact Ej]].
        assert (a = b) as -> by congruence. now rewrite Nat.eqb_refl.
      * intros b Hb. rewrite B by (intros j Hj; apply Hb; lia). rewrite peek_set by exact La.
        destruct (Nat.eqb_spec a b) as [->|]; [|reflexivity]. exfalso. exact (Hb i ltac:(lia) Ea).
Qed.
Lemma eq_spec w m v u : forall k i, (forall j, i <= j < i + k -> vget w m v j <> None /\ vget w m u j <> None) ->
  exists b, eq_loop w m v u i k = Some b /\ (b = true <-> forall j, i <= j < i + k -> vget w m v j = vget w m u j).
Proof.
  induction k as [|k IH]; intros i H; cbn [eq_loop].
  - exists true. split; [reflexivity|]. split; [|reflexivity]. intros _ j Hj. lia.
  - destruct (H i ltac:(lia)) as [H1 H2]. destruct (vget w m v i) as [x|] eqn:Ex; [|congruence].
    destruct (vget w m u i) as [y|] eqn:Ey; [|congruence]. destruct (N.eqb_spec x y) as [->|Hne].
    + destruct (IH (S i)) as (b & E & B); [intros j Hj; apply H; lia|]. exists b. split; [exact E|]. rewrite B. split.
      * intros Q j Hj. destruct (Nat.eq_dec j i) as [->|]; [congruence|]. apply Q. lia.
      * intros Q j Hj. apply Q. lia.
    + exists false. split; [reflexivity|]. split; [discriminate|]. intros Q. specialize (Q i ltac:(lia)). congruence.
Qed.
(** Places of a view. *)
Lemma mod_step len o s i j : 0 < len -> i <= j -> (o + s * i) mod len = (o + s * j) mod len -> Nat.divide len (s * (j - i)).
Proof.
  intros Hl Hij E. pose proof (Nat.div_mod (o + s * i) len ltac:(lia)) as A. pose proof (Nat.div_mod (o + s * j) len ltac:(lia)) as B.
  rewrite E in A. exists ((o + s * j) / len - (o + s * i) / len). rewrite Nat.mul_sub_distr_r, Nat.mul_sub_distr_l. nia.
Qed.
