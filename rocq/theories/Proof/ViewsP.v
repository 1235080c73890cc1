(** Lemmas on cells of the memory. *)
From Coq Require Import List NArith Arith Bool Lia.
From Verif.Model Require Import Common Views.
From Verif.Proof Require Import ListP.
Import ListNotations.
Open Scope nat_scope.

Lemma peek_in m a : a < length m -> exists x, peek m a = Some x.
Proof. intros H. unfold peek. destruct (nth_error m a) eqn:E; [eauto|]. apply nth_error_None in E. lia. Qed.
Lemma poke_in m a x : a < length m -> poke m a x = Some (set m a x).
Proof. intros H. unfold poke. destruct (Nat.ltb_spec a (length m)); [reflexivity|lia]. Qed.
Lemma nth_error_set A (l : list A) : forall a x b, nth_error (set l a x) b = if (a =? b) && (a <? length l) then Some x else nth_error l b.
Proof.
  induction l as [|y l IH]; intros a x b; cbn [set].
  - rewrite andb_false_r. reflexivity.
  - destruct a as [|a], b as [|b]; cbn [nth_error set]; try reflexivity. rewrite IH. reflexivity.
Qed.
Lemma peek_poke m a x m' b : poke m a x = Some m' -> peek m' b = (if a =? b then Some x else peek m b) /\ length m' = length m.
Proof.
  unfold poke, peek. destruct (Nat.ltb_spec a (length m)) as [H|H]; [|discriminate]. intros E. injection E. intros <-.
  rewrite nth_error_set, set_length. destruct (Nat.ltb_spec a (length m)); [|lia]. rewrite andb_true_r. auto.
Qed.

Lemma copy_spec k : forall m s d, s + k <= length m -> d + k <= length m -> s + k <= d \/ d + k <= s ->
  exists m', copy_cells m s d k = Some m' /\ length m' = length m /\
  forall b, peek m' b = if (d <=? b) && (b <? d + k) then peek m (s + (b - d)) else peek m b.
Proof.
  induction k as [|k IH]; intros m s d Hs Hd Hx; cbn [copy_cells].
  - exists m. repeat split. intros b. destruct (Nat.leb_spec d b), (Nat.ltb_spec b (d + 0)); cbn [andb]; auto; lia.
  - destruct (peek_in m s ltac:(lia)) as [x Ex]. rewrite Ex, poke_in by lia.
    destruct (IH (set m d x) (S s) (S d)) as (m' & E & L & B); rewrite ?set_length; try lia.
    exists m'. split; [exact E|]. split; [now rewrite L, set_length|]. intros b. rewrite B. unfold peek in *. rewrite !nth_error_set.
    destruct (Nat.ltb_spec d (length m)); [|lia]. rewrite !andb_true_r.
    destruct (Nat.leb_spec (S d) b), (Nat.ltb_spec b (S d + k)), (Nat.leb_spec d b), (Nat.ltb_spec b (d + S k)), (Nat.eqb_spec d b),
      (Nat.eqb_spec d (S s + (b - S d))); cbn [andb]; try lia; auto;
      try (f_equal; lia); subst b; rewrite <- Ex; f_equal; lia.
Qed.
Lemma zero_spec k : forall m d, d + k <= length m ->
  exists m', zero_cells m d k = Some m' /\ length m' = length m /\
  forall b, peek m' b = if (d <=? b) && (b <? d + k) then Some 0%N else peek m b.
Proof.
  induction k as [|k IH]; intros m d Hd; cbn [zero_cells].
  - exists m. repeat split. intros b. destruct (Nat.leb_spec d b), (Nat.ltb_spec b (d + 0)); cbn [andb]; auto; lia.
  - rewrite poke_in by lia. destruct (IH (set m d 0%N) (S d)) as (m' & E & L & B); rewrite ?set_length; try lia.
    exists m'. split; [exact E|]. split; [now rewrite L, set_length|]. intros b. rewrite B. unfold peek. rewrite nth_error_set.
    destruct (Nat.ltb_spec d (length m)); [|lia]. rewrite andb_true_r.
    destruct (Nat.leb_spec (S d) b), (Nat.ltb_spec b (S d + k)), (Nat.leb_spec d b), (Nat.ltb_spec b (d + S k)), (Nat.eqb_spec d b);
      cbn [andb]; try lia; auto.
Qed.
Lemma fill_spec' k x : forall m d, d + k <= length m ->
  exists m', fill_cells m d k x = Some m' /\ length m' = length m /\
  forall b, peek m' b = if (d <=? b) && (b <? d + k) then Some x else peek m b.
Proof.
  induction k as [|k IH]; intros m d Hd; cbn [fill_cells].
  - exists m. repeat split. intros b. destruct (Nat.leb_spec d b), (Nat.ltb_spec b (d + 0)); cbn [andb]; auto; lia.
  - rewrite poke_in by lia. destruct (IH (set m d x) (S d)) as (m' & E & L & B); rewrite ?set_length; try lia.
    exists m'. split; [exact E|]. split; [now rewrite L, set_length|]. intros b. rewrite B. unfold peek. rewrite nth_error_set.
    destruct (Nat.ltb_spec d (length m)); [|lia]. rewrite andb_true_r.
    destruct (Nat.leb_spec (S d) b), (Nat.ltb_spec b (S d + k)), (Nat.leb_spec d b), (Nat.ltb_spec b (d + S k)), (Nat.eqb_spec d b);
      cbn [andb]; try lia; auto.
Qed.
