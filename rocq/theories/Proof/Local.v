(** Updates of a list at a few positions, and loops of such updates on disjoint positions. *)
From Coq Require Import List Arith Lia.
From Verif.Model Require Import Common.
From Verif.Proof Require Import ListP.
Import ListNotations.

Lemma set_comm A (l : list A) i j x y : i <> j -> set (set l i x) j y = set (set l j y) i x.
Proof. revert i j. induction l as [|a l IH]; intros [|i] [|j] H; cbn; auto; try lia. f_equal. apply IH. lia. Qed.
Lemma set_set A (l : list A) i x y : set (set l i x) i y = set l i y.
Proof. revert i. induction l as [|a l IH]; intros [|i]; cbn; auto. f_equal. apply IH. Qed.

Section Local.
Context {T : Type} (z : T).

Fixpoint upd (ps : list nat) (vals v : list T) : list T :=
  match ps, vals with p :: ps', x :: vals' => upd ps' vals' (set v p x) | _, _ => v end.
Definition on (F : list T -> list T) (ps : list nat) (v : list T) : list T := upd ps (F (map (fun p => nth p v z) ps)) v.

Lemma upd_length ps : forall vals v, length (upd ps vals v) = length v.
Proof. induction ps; intros [|x vals] v; cbn; auto. rewrite IHps. apply set_length. Qed.
Lemma on_length F ps v : length (on F ps v) = length v.
Proof. apply upd_length. Qed.
Lemma upd_other ps : forall vals v p, ~ In p ps -> nth p (upd ps vals v) z = nth p v z.
Proof.
  induction ps; intros [|x vals] v p H; cbn; auto. rewrite IHps by (intros H'; apply H; now right).
  apply nth_set_neq. intros ->. apply H. now left.
Qed.
Lemma set_upd ps : forall vals v p x, ~ In p ps -> set (upd ps vals v) p x = upd ps vals (set v p x).
Proof.
  induction ps; intros [|y vals] v p x H; cbn; auto. rewrite IHps by (intros H'; apply H; now right).
  rewrite set_comm; [reflexivity|]. intros ->. apply H. now left.
Qed.
Lemma upd_comm ps : forall ps' vals vals' v, (forall p, In p ps -> ~ In p ps') ->
  upd ps vals (upd ps' vals' v) = upd ps' vals' (upd ps vals v).
Proof.
  induction ps; intros ps' [|x vals] vals' v H; cbn; auto. rewrite set_upd by (apply H; now left).
  apply IHps. intros; apply H; now right.
Qed.
Lemma on_comm F G ps ps' v : (forall p, In p ps -> ~ In p ps') -> on F ps (on G ps' v) = on G ps' (on F ps v).
Proof.
  intros H. unfold on. rewrite upd_comm by auto. f_equal.
  - f_equal. apply map_ext_in. intros p Hp. symmetry. apply upd_other. intros H'. exact (H p H' Hp).
  - f_equal. f_equal. apply map_ext_in. intros p Hp. apply upd_other. auto.
Qed.
Lemma map_upd ps : forall vals v, NoDup ps -> length vals = length ps -> (forall p, In p ps -> p < length v) ->
  map (fun p => nth p (upd ps vals v) z) ps = vals.
Proof.
  induction ps; intros [|x vals] v N L H; cbn in *; try discriminate; auto. inversion_clear N.
  rewrite upd_other by auto. rewrite nth_set_eq by auto. f_equal. apply IHps; auto. intros. rewrite set_length. auto.
Qed.
Lemma upd_upd ps : forall vals vals' v, NoDup ps -> length vals' = length ps -> upd ps vals' (upd ps vals v) = upd ps vals' v.
Proof.
  induction ps; intros [|x vals] [|x' vals'] v N L; cbn in *; try discriminate; auto. inversion_clear N.
  rewrite set_upd by auto. rewrite IHps by auto. now rewrite set_set.
Qed.
Lemma on_on F G ps v : NoDup ps -> (forall p, In p ps -> p < length v) ->
  (forall l, length l = length ps -> length (F l) = length ps) -> (forall l, length l = length ps -> length (G l) = length ps) ->
  on G ps (on F ps v) = on (fun l => G (F l)) ps v.
Proof.
  intros N H HF HG. unfold on. rewrite map_upd by (rewrite ?HF; rewrite ?map_length; auto).
  apply upd_upd; [auto|]. apply HG, HF. apply map_length.
Qed.

(** A loop after another one is a single loop. *)
Lemma fold_move A (f : A -> nat -> A) (g : A -> A) is : forall v, (forall v i, In i is -> g (f v i) = f (g v) i) ->
  g (fold_left f is v) = fold_left f is (g v).
Proof. induction is; intros v H; cbn; [auto|]. rewrite IHis by (intros; apply H; now right). now rewrite H by now left. Qed.

Lemma fuse K n (pos : nat -> list nat) F G is : forall v, NoDup is -> length v = n ->
  (forall i, In i is -> NoDup (pos i) /\ length (pos i) = K /\ forall p, In p (pos i) -> p < n) ->
  (forall i j, In i is -> In j is -> i <> j -> forall p, In p (pos i) -> ~ In p (pos j)) ->
  (forall l, length l = K -> length (F l) = K) -> (forall l, length l = K -> length (G l) = K) ->
  fold_left (fun v i => on G (pos i) v) is (fold_left (fun v i => on F (pos i) v) is v) =
  fold_left (fun v i => on (fun l => G (F l)) (pos i) v) is v.
Proof.
  induction is as [|i is IH]; intros v N L HP HD HF HG; [reflexivity|]. cbn [fold_left]. inversion_clear N as [|? ? Ni N'].
  destruct (HP i (or_introl eq_refl)) as (P1 & P2 & P3).
  rewrite (fold_move _ (fun v i => on F (pos i) v) (on G (pos i))).
  2:{ intros v' j Hj. apply on_comm. apply HD; [now left|now right|]. intros ->. contradiction. }
  rewrite on_on; try rewrite P2; auto; [|now rewrite L].
  apply IH; auto; [now rewrite on_length| |]; intros; [apply HP|apply (HD i0 j)]; auto; now right.
Qed.

Lemma fold_ext_inv A (P : A -> Prop) (f g : A -> nat -> A) is : forall v, P v ->
  (forall v i, In i is -> P v -> f v i = g v i /\ P (g v i)) -> fold_left f is v = fold_left g is v /\ P (fold_left g is v).
Proof.
  induction is; intros v Pv H; cbn; [auto|]. destruct (H v a (or_introl eq_refl) Pv) as [E Pg]. rewrite E. apply IHis; auto.
  intros; apply H; auto. now right.
Qed.
End Local.

(** The indices of a loop whose step divides the bound. *)
Lemma steps_exact step : forall c fuel i stop, c <= fuel -> (0 < c -> i + (c - 1) * step < stop) -> stop <= i + c * step ->
  steps fuel i stop step = map (fun t => i + t * step) (seq 0 c).
Proof.
  induction c; intros fuel i stop Hf H1 H2.
  - destruct fuel; [reflexivity|]. cbn [steps]. destruct (Nat.ltb_spec i stop); [lia|reflexivity].
  - destruct fuel; [lia|]. cbn [steps]. destruct (Nat.ltb_spec i stop); [|nia]. cbn [seq map]. f_equal; [lia|].
    rewrite IHc by nia. rewrite <- seq_shift, map_map. apply map_ext. intros t. lia.
Qed.

Lemma steps_shift n start off step : start + off < step -> Nat.divide step n ->
  steps n (start + off) n step = map (fun i => i + off) (steps n start n step).
Proof.
  intros H [c ->]. rewrite !(steps_exact step c) by nia. rewrite map_map. apply map_ext. intros t. lia.
Qed.

Lemma fold_map A (f : A -> nat -> A) (g : nat -> nat) l : forall v, fold_left f (map g l) v = fold_left (fun v i => f v (g i)) l v.
Proof. induction l; intros v; cbn; auto. Qed.

Section Pos.
Variables (n start step : nat).
Hypothesis Hd : Nat.divide step n.

Lemma in_steps i off : start + off < step -> In i (steps n start n step) -> i + off < n /\ (i + off) mod step = start + off.
Proof.
  intros H Hi. destruct Hd as [c Hc]. rewrite (steps_exact step c) in Hi by nia. apply in_map_iff in Hi.
  destruct Hi as (t & <- & Ht). apply in_seq in Ht. split; [nia|].
  replace (start + t * step + off) with (start + off + t * step) by lia. rewrite Nat.mod_add by lia. apply Nat.mod_small. lia.
Qed.
End Pos.

(** ** Pairs and quads *)
Section Quads.
Context {T : Type} (z : T).
Notation on := (on z).

Definition lift2 (F : T -> T -> T * T) (l : list T) : list T := let '(x, y) := F (nth 0 l z) (nth 1 l z) in [x; y].
Definition at2 (a b : nat) (F : T -> T -> T * T) (l : list T) : list T :=
  let '(x, y) := F (nth a l z) (nth b l z) in set (set l a x) b y.
Definition lift4 (F : T -> T -> T -> T -> list T) (l : list T) : list T :=
  let r := F (nth 0 l z) (nth 1 l z) (nth 2 l z) (nth 3 l z) in map (fun k => nth k r z) (seq 0 4).

Lemma lift2_length F l : length (lift2 F l) = 2.
Proof. unfold lift2. now destruct F. Qed.
Lemma at2_length a b F l : length (at2 a b F l) = length l.
Proof. unfold at2. destruct F. now rewrite !set_length. Qed.

Lemma upd_set ps : forall (vals v : list T) a x, NoDup ps -> length vals = length ps -> a < length ps ->
  upd ps (set vals a x) v = set (upd ps vals v) (nth a ps 0) x.
Proof.
  induction ps as [|p ps IH]; intros [|y vals] v a x N L H; cbn in *; try discriminate; try lia. inversion_clear N.
  destruct a; cbn.
  - rewrite set_upd by auto. now rewrite set_set.
  - apply IH; auto; lia.
Qed.
Lemma upd_read ps : forall v, NoDup ps -> (forall p, In p ps -> p < length v) -> upd ps (map (fun p => nth p v z) ps) v = v.
Proof.
  induction ps as [|p ps IH]; intros v N H; cbn; [auto|]. inversion_clear N. rewrite set_nth by (apply H; now left). apply IH; auto.
  intros; apply H; now right.
Qed.

Lemma on_at2 F ps a b v : NoDup ps -> (forall p, In p ps -> p < length v) -> a < length ps -> b < length ps ->
  on (at2 a b F) ps v = on (lift2 F) [nth a ps 0; nth b ps 0] v.
Proof.
  intros N H Ha Hb. unfold on, at2, lift2. cbn [map nth].
  assert (E : forall k, k < length ps -> nth k (map (fun p => nth p v z) ps) z = nth (nth k ps 0) v z).
  { intros k Hk. rewrite (nth_indep _ z (nth 0 v z)) by now rewrite map_length. exact (map_nth (fun p => nth p v z) ps 0 k). }
  rewrite !E by auto. destruct F. rewrite !upd_set by (rewrite ?set_length, ?map_length; auto). now rewrite upd_read.
Qed.

Definition quad (m i : nat) : list nat := [i; i + m; i + 2 * m; i + 3 * m].
Lemma quad_NoDup m i : 0 < m -> NoDup (quad m i).
Proof. intros H. unfold quad. repeat constructor; cbn; lia. Qed.

Section Steps.
Variables (n m start : nat).
Hypothesis Hm : 0 < m.

Section Pairs.
Variable step : nat.
Hypothesis Hs : start + m < step.
Hypothesis Hd : Nat.divide step n.
Notation loop F := (fold_left (fun v i => on F [i; i + m] v) (steps n start n step)).

Lemma fuse2 F G v : length v = n -> loop (lift2 G) (loop (lift2 F) v) = loop (lift2 (fun a b => let '(x, y) := F a b in G x y)) v.
Proof.
  intros L. rewrite (fuse z 2 n (fun i => [i; i + m])); auto using lift2_length.
  - apply fold_left_ext_in. intros v' i _. unfold on. f_equal. unfold lift2 at 2. cbn [map nth].
    unfold lift2. cbn [nth]. now destruct F.
  - apply steps_NoDup. lia.
  - intros i Hi. pose proof (in_steps n start step Hd i m Hs Hi). split; [|split; [reflexivity|]].
    + repeat constructor; cbn; lia.
    + intros p [<-|[<-|[]]]; lia.
  - intros i j Hi Hj Hij p Hp Hp'.
    pose proof (in_steps n start step Hd i 0 ltac:(lia) Hi). pose proof (in_steps n start step Hd j 0 ltac:(lia) Hj).
    pose proof (in_steps n start step Hd i m Hs Hi). pose proof (in_steps n start step Hd j m Hs Hj).
    rewrite Nat.add_0_r in *. destruct Hp as [<-|[<-|[]]], Hp' as [E|[E|[]]]; try lia.
    + rewrite E in *. lia.
    + rewrite <- E in *. lia.
Qed.
End Pairs.

Hypothesis Hs : start < m.
Hypothesis Hd : Nat.divide (4 * m) n.
Notation loop F := (fold_left (fun v i => on F (quad m i) v) (steps n start n (4 * m))).

Lemma in_quad i : In i (steps n start n (4 * m)) -> forall p, In p (quad m i) -> p < n.
Proof.
  intros Hi p Hp. pose proof (in_steps n start (4 * m) Hd i (3 * m) ltac:(lia) Hi).
  destruct Hp as [<-|[<-|[<-|[<-|[]]]]]; lia.
Qed.

Lemma loop_length F l : forall v, length (fold_left (fun v i => on F (quad m i) v) l v) = length v.
Proof. induction l; intros v; cbn [fold_left]; auto. rewrite IHl. apply on_length. Qed.

Lemma fuse4 F G v : length v = n -> (forall l, length l = 4 -> length (F l) = 4) -> (forall l, length l = 4 -> length (G l) = 4) ->
  loop G (loop F v) = loop (fun l => G (F l)) v.
Proof.
  intros L HF HG. apply (fuse z 4 n (quad m)); auto.
  - apply steps_NoDup. lia.
  - intros i Hi. split; [now apply quad_NoDup|]. split; [reflexivity|]. now apply in_quad.
  - intros i j Hi Hj Hij p Hp Hp'.
    assert (Q : forall i, In i (steps n start n (4 * m)) -> In p (quad m i) -> exists k, k < 4 /\ p = i + k * m /\ p mod (4 * m) = start + k * m).
    { intros i' Hi' Hp''. destruct Hp'' as [E|[E|[E|[E|[]]]]]; [exists 0|exists 1|exists 2|exists 3]; (split; [lia|]); (split; [lia|]); subst p.
      - pose proof (in_steps n start (4 * m) Hd i' 0 ltac:(lia) Hi') as [_ R]. rewrite Nat.add_0_r in R. rewrite R. lia.
      - pose proof (in_steps n start (4 * m) Hd i' m ltac:(lia) Hi') as [_ R]. rewrite R. lia.
      - pose proof (in_steps n start (4 * m) Hd i' (2 * m) ltac:(lia) Hi') as [_ R]. rewrite R. lia.
      - pose proof (in_steps n start (4 * m) Hd i' (3 * m) ltac:(lia) Hi') as [_ R]. rewrite R. lia. }
    destruct (Q i Hi Hp) as (k & Hk & Ek & Rk). destruct (Q j Hj Hp') as (k' & Hk' & Ek' & Rk'). apply Hij.
    assert (k = k') by nia. subst k'. lia.
Qed.

(** The pairs at distance [d] from [start + off], as part of the quads. *)
Lemma pairs_quads F a b off d v : length v = n -> a < 4 -> b < 4 -> off = a * m -> off + d = b * m ->
  fold_left (fun v i => on (lift2 F) [i; i + d] v) (steps n (start + off) n (4 * m)) v = loop (at2 a b F) v.
Proof.
  intros L Ha Hb Eo Ed. rewrite steps_shift, fold_map by (auto; nia).
  apply (fold_ext_inv _ (fun v => length v = n)); auto. intros v' i Hi Lv. split; [|now rewrite on_length].
  rewrite on_at2; auto.
  - f_equal. f_equal; [|f_equal]; subst off.
    + destruct a as [|[|[|[|]]]]; cbn; lia.
    + rewrite <- Nat.add_assoc, Ed. destruct b as [|[|[|[|]]]]; cbn; lia.
  - now apply quad_NoDup.
  - rewrite Lv. now apply in_quad.
Qed.
End Steps.
End Quads.
