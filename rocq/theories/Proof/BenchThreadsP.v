(** The threads of the benchmark. *)
From Coq Require Import List NArith Arith Bool Lia.
From Verif.Model Require Import Common Bench BenchThreads.
From Verif.Spec Require Import BenchThreads.
Import ListNotations.
Open Scope nat_scope.

(** ** Steps and schedules *)
Lemma nth_split_at {A} (l : list A) : forall i a, nth_error l i = Some a -> l = firstn i l ++ a :: skipn (S i) l /\ length (firstn i l) = i.
Proof.
  induction l as [|b l IH]; intros [|i] a H; cbn in H; try discriminate.
  - injection H as ->. split; reflexivity.
  - destruct (IH _ _ H) as (A1 & A2). cbn [firstn skipn app length]. split; [f_equal; exact A1|now rewrite A2].
Qed.

Section steps.
Variables (ws : N) (shows : ec_type -> N -> bool).

Lemma step_inv i s l st' : step ws shows i (s, l) = Some st' ->
  exists l1 th l2, sh_exit s = false /\ l = l1 ++ th :: l2 /\ length l1 = i /\ th_at th <> AtEnd /\
    st' = (fst (thread_step ws shows s th), l1 ++ snd (thread_step ws shows s th) :: l2).
Proof.
  unfold step. destruct (sh_exit s) eqn:Ex; [discriminate|]. destruct (nth_error l i) as [th|] eqn:E; [|discriminate].
  destruct (nth_split_at l i th E) as (A & B). intros H. exists (firstn i l), th, (skipn (S i) l). split; [reflexivity|]. split; [exact A|]. split; [exact B|].
  destruct (thread_step ws shows s th) as [s2 th2]. cbn [fst snd].
  destruct (th_at th); try discriminate; (split; [discriminate|]); now injection H as <-.
Qed.

(** A property of the shared fields and of each thread that every step keeps. *)
Lemma sched_inv (S : shared -> Prop) (P : shared -> thread -> Prop) :
  (forall s th, S s -> sh_exit s = false -> P s th -> th_at th <> AtEnd ->
     S (fst (thread_step ws shows s th)) /\ P (fst (thread_step ws shows s th)) (snd (thread_step ws shows s th)) /\
     forall th', P s th' -> P (fst (thread_step ws shows s th)) th') ->
  forall sched s l st', S s -> Forall (P s) l -> run_sched ws shows sched (s, l) = Some st' -> S (fst st') /\ Forall (P (fst st')) (snd st').
Proof.
  intros K. induction sched as [|i sched IH]; intros s l st' Hs Hl H; cbn [run_sched] in H; [injection H as <-; now split|].
  destruct (step ws shows i (s, l)) as [[s1 l1]|] eqn:E; [|discriminate].
  destruct (step_inv _ _ _ _ E) as (a & th & b & Ex & -> & _ & Hne & E1). injection E1 as -> ->.
  apply Forall_app in Hl. destruct Hl as (Ha & Hb). inversion Hb as [|? ? Ht Hb']; subst.
  destruct (K s th Hs Ex Ht Hne) as (K1 & K2 & K3). eapply IH; [exact K1| |exact H].
  apply Forall_app. split; [eapply Forall_impl; [exact K3|exact Ha]|]. constructor; [exact K2|]. eapply Forall_impl; [exact K3|exact Hb'].
Qed.

(** ** The number of steps *)
Definition weight (p : place) : nat :=
  match p with
  | AtStart => 74
  | AtLoop l => 1 + 9 * length l
  | AtTest l => 9 + 9 * length l
  | AtNf4 l => 8 + 9 * length l
  | AtGfp l => 7 + 9 * length l
  | AtSet _ l => 6 + 9 * length l
  | AtSwitch l => 5 + 9 * length l
  | AtNew _ l => 4 + 9 * length l
  | AtShow _ _ l => 3 + 9 * length l
  | AtShowT _ _ _ l => 2 + 9 * length l
  | AtEnd => 0
  end.
Definition total (l : list thread) : nat := list_sum (map (fun th => weight (th_at th)) l).

Lemma step_weight s th : th_at th <> AtEnd -> weight (th_at (snd (thread_step ws shows s th))) < weight (th_at th).
Proof.
  unfold thread_step. destruct th as [p ev]. cbn [th_at th_ev]. intros H.
  destruct p as [|[|t l]|l|l|l|T l|l|T l|t T l|t T nm l|]; cbn [snd th_at weight length]; try lia.
  - destruct (sh_type s); cbn; lia.
  - destruct (sh_T s); cbn [weight]; lia.
  - destruct (is_nf4 (sh_type s)); cbn [weight]; lia.
  - destruct (known_size _); cbn [snd th_at weight]; lia.
  - destruct (shows _ _); cbn [snd th_at weight]; lia.
  - now destruct H.
Qed.

Lemma sched_total sched : forall s l st', run_sched ws shows sched (s, l) = Some st' -> length sched + total (snd st') <= total l.
Proof.
  induction sched as [|i sched IH]; intros s l st' H; cbn [run_sched] in H; [injection H as <-; apply Nat.le_refl|].
  destruct (step ws shows i (s, l)) as [[s1 l1]|] eqn:E; [|discriminate].
  destruct (step_inv _ _ _ _ E) as (a & th & b & Ex & -> & _ & Hne & E1). injection E1 as -> ->.
  specialize (IH _ _ _ H). pose proof (step_weight s th Hne). cbn [length]. unfold total in *. rewrite map_app, list_sum_app in *. cbn [map list_sum fold_right] in *.
  unfold list_sum in *. cbn [map fold_right] in *. lia.
Qed.

Lemma stuck s l : (forall i, step ws shows i (s, l) = None) -> sh_exit s = true \/ Forall (fun th => th_at th = AtEnd) l.
Proof.
  intros H. destruct (sh_exit s) eqn:Ex; [now left|right]. apply Forall_forall. intros th Hin. apply In_nth_error in Hin. destruct Hin as (i & E).
  specialize (H i). unfold step in H. rewrite Ex, E in H. destruct (thread_step ws shows s th). destruct (th_at th); try discriminate. reflexivity.
Qed.

(** ** One code *)
Section one.
Variables (t : ec_type) (T0 : option N).
Hypothesis (Ht : t <> TAll).
Definition T1 : N := match T0 with Some T => T | None => get_sizeof t ws end.

Definition one_s (s : shared) : Prop := sh_type s = t /\ (sh_T s = T0 \/ sh_T s = Some T1) /\ (sh_exit s = true -> known_size T1 = false).
Definition one_th (s : shared) (th : thread) : Prop :=
  match th_at th with
  | AtStart => th_ev th = []
  | AtLoop l => l = [] /\ th_ev th = events_of shows t T1
  | AtTest l => l = [] /\ th_ev th = []
  | AtNf4 l => l = [] /\ th_ev th = [] /\ T0 = None
  | AtGfp l => l = [] /\ th_ev th = [] /\ T0 = None /\ is_nf4 t = false
  | AtSet T l => l = [] /\ th_ev th = [] /\ T0 = None /\ T = T1
  | AtSwitch l => l = [] /\ th_ev th = [] /\ sh_T s = Some T1
  | AtNew T l => l = [] /\ th_ev th = [] /\ sh_T s = Some T1 /\ T = T1
  | AtShow t' T l => l = [] /\ th_ev th = [EMade t T1] /\ sh_T s = Some T1 /\ T = T1 /\ t' = t /\ shows t T1 = true
  | AtShowT t' T nm l => l = [] /\ th_ev th = [EMade t T1] /\ sh_T s = Some T1 /\ T = T1 /\ t' = t /\ nm = t /\ shows t T1 = true
  | AtEnd => th_ev th = events_of shows t T1 \/ (sh_exit s = true /\ th_ev th = [])
  end.

Lemma one_mono s s' th : (sh_T s = Some T1 -> sh_T s' = Some T1) -> (sh_exit s = true -> sh_exit s' = true) -> one_th s th -> one_th s' th.
Proof. unfold one_th. destruct (th_at th); intuition. Qed.

Lemma one_step s th : one_s s -> sh_exit s = false -> one_th s th -> th_at th <> AtEnd ->
  one_s (fst (thread_step ws shows s th)) /\ one_th (fst (thread_step ws shows s th)) (snd (thread_step ws shows s th)) /\
  forall th', one_th s th' -> one_th (fst (thread_step ws shows s th)) th'.
Proof.
  intros Hs Hex H Hne. pose proof Hs as (S1 & S2 & S3). destruct th as [p ev]. unfold one_th in H. cbn [th_at th_ev] in *.
  assert (Sz : size_read (Some T1) = T1) by reflexivity.
  destruct p as [|l|l|l|l|T l|l|T l|t' T l|t' T nm l|]; unfold thread_step; cbn [th_at th_ev].
  - cbn [fst snd]. split; [exact Hs|]. split; [|auto]. rewrite S1. destruct t; cbn; try (now split).
  - destruct H as (-> & H). cbn [fst snd]. split; [exact Hs|]. split; [|auto]. unfold one_th. cbn. now left.
  - destruct H as (-> & ->). cbn [fst snd]. split; [exact Hs|]. split; [|auto]. unfold one_th. destruct (sh_T s) as [T'|] eqn:E; cbn [th_at th_ev].
    + split; [reflexivity|]. split; [reflexivity|]. destruct S2 as [S2|S2]; [|congruence]. unfold T1. rewrite <- S2. reflexivity.
    + split; [reflexivity|]. split; [reflexivity|]. destruct S2 as [S2|S2]; congruence.
  - destruct H as (-> & -> & H0). cbn [fst snd]. split; [exact Hs|]. split; [|auto]. rewrite S1. unfold one_th.
    destruct (is_nf4 t) eqn:E; cbn [th_at th_ev]; repeat (split; [first [reflexivity|assumption]|]); [|reflexivity].
    unfold T1. rewrite H0. unfold get_sizeof. rewrite E. reflexivity.
  - destruct H as (-> & -> & H0 & E). cbn [fst snd]. split; [exact Hs|]. split; [|auto]. rewrite S1. unfold one_th. cbn [th_at th_ev].
    repeat (split; [first [reflexivity|assumption]|]). unfold T1. rewrite H0. unfold get_sizeof. rewrite E. reflexivity.
  - destruct H as (-> & -> & H0 & ->). cbn [fst snd]. split; [split; [exact S1|split; [now right|exact S3]]|].
    split; [unfold one_th; cbn; auto|]. intros th' Hth. eapply one_mono; [|  |exact Hth]; cbn; auto.
  - destruct H as (-> & -> & E). rewrite E, Sz. destruct (known_size T1) eqn:Ek; cbn [fst snd].
    + split; [exact Hs|]. split; [|auto]. unfold one_th. cbn. auto.
    + split; [split; [exact S1|split; [right; reflexivity|intros _; exact Ek]]|]. split; [unfold one_th; cbn; auto|].
      intros th' Hth. eapply one_mono; [| |exact Hth]; cbn; auto.
  - destruct H as (-> & -> & E & ->). cbn [fst snd]. split; [exact Hs|]. split; [|auto]. rewrite S1. unfold one_th. destruct (shows t T1) eqn:Es; cbn; [auto 10|].
    unfold events_of. rewrite Es. auto.
  - destruct H as (-> & -> & E & -> & -> & Es). cbn [fst snd]. split; [exact Hs|]. split; [|auto]. rewrite S1. unfold one_th. cbn. auto 10.
  - destruct H as (-> & -> & E & -> & -> & -> & Es). cbn [fst snd]. split; [exact Hs|]. split; [|auto]. rewrite E, Sz. unfold one_th, events_of. cbn. rewrite Es. auto.
  - now destruct Hne.
Qed.

Lemma one_reach n sched st : run_sched ws shows sched (start t T0 n) = Some st -> one_s (fst st) /\ Forall (one_th (fst st)) (snd st).
Proof.
  intros H. eapply (sched_inv one_s one_th one_step); [| |exact H].
  - split; [reflexivity|]. split; [now left|discriminate].
  - apply Forall_forall. intros th Hin. apply repeat_spec in Hin. subst th. reflexivity.
Qed.
End one.

(** ** All the codes in one thread *)
Section all.
Variable T0 : option N.
Definition TA : N := match T0 with Some T => T | None => get_sizeof TRsFnt ws end.
Definition after (d : list ec_type) : option N := match d with [] => T0 | _ => Some TA end.
Definition done (d : list ec_type) : list event := flat_map (fun t => events_of shows t TA) d.
Definition at_code (s : shared) (l d : list ec_type) : Prop := exists t, every_code = d ++ t :: l /\ sh_type s = t.

Definition all_s (s : shared) : Prop := sh_exit s = true -> known_size TA = false.
Definition all_th (s : shared) (th : thread) : Prop :=
  match th_at th with
  | AtStart => th_ev th = [] /\ sh_type s = TAll /\ sh_T s = T0
  | AtLoop l => exists d, every_code = d ++ l /\ th_ev th = done d /\ sh_T s = after d
  | AtTest l => exists d, at_code s l d /\ th_ev th = done d /\ sh_T s = after d
  | AtNf4 l | AtGfp l => at_code s l [] /\ th_ev th = [] /\ T0 = None
  | AtSet T l => at_code s l [] /\ th_ev th = [] /\ T = TA
  | AtSwitch l => exists d, at_code s l d /\ th_ev th = done d /\ sh_T s = Some TA
  | AtNew T l => exists d, at_code s l d /\ th_ev th = done d /\ sh_T s = Some TA /\ T = TA
  | AtShow t' T l => exists d, at_code s l d /\ th_ev th = done d ++ [EMade t' T] /\ sh_T s = Some TA /\ T = TA /\ t' = sh_type s /\ shows t' T = true
  | AtShowT t' T nm l =>
      exists d, at_code s l d /\ th_ev th = done d ++ [EMade t' T] /\ sh_T s = Some TA /\ T = TA /\ t' = sh_type s /\ nm = t' /\ shows t' T = true
  | AtEnd => th_ev th = done every_code \/ (sh_exit s = true /\ exists d, prefix d every_code /\ th_ev th = done d)
  end.

Lemma first_code s l : at_code s l [] -> sh_type s = TRsFnt.
Proof. intros (t & E & ->). cbn in E. now injection E as <-. Qed.

Lemma done_snoc d t : done (d ++ [t]) = done d ++ events_of shows t TA.
Proof. unfold done. rewrite flat_map_app. cbn [flat_map]. now rewrite app_nil_r. Qed.
Lemma after_snoc d t : after (d ++ [t]) = Some TA.
Proof. now destruct d. Qed.

Lemma all_step s th : all_s s -> sh_exit s = false -> all_th s th -> th_at th <> AtEnd ->
  all_s (fst (thread_step ws shows s th)) /\ all_th (fst (thread_step ws shows s th)) (snd (thread_step ws shows s th)).
Proof.
  intros Hs Hex H Hne. destruct th as [p ev]. unfold all_th in H. cbn [th_at th_ev] in *.
  assert (Sz : size_read (Some TA) = TA) by reflexivity.
  destruct p as [|l|l|l|l|T l|l|T l|t' T l|t' T nm l|]; unfold thread_step; cbn [th_at th_ev].
  - destruct H as (-> & H1 & H2). cbn [fst snd]. split; [exact Hs|]. rewrite H1. exists []. cbn. auto.
  - destruct H as (d & E & -> & H2). destruct l as [|t l]; cbn [fst snd].
    + split; [exact Hs|]. unfold all_th; cbn [th_at th_ev]. left. rewrite E, app_nil_r. reflexivity.
    + split; [exact Hs|]. exists d. cbn. split; [|auto]. exists t. auto.
  - destruct H as (d & E & -> & H2). cbn [fst snd]. split; [exact Hs|]. unfold all_th. destruct (sh_T s) as [T'|] eqn:ET; cbn [th_at th_ev].
    + exists d. split; [exact E|]. split; [reflexivity|]. rewrite H2. unfold after, TA in *. destruct d; [now rewrite <- H2|reflexivity].
    + destruct d; [|discriminate]. cbn in H2. split; [exact E|]. split; [reflexivity|]. now rewrite <- H2.
  - destruct H as (E & -> & H0). cbn [fst snd]. split; [exact Hs|]. rewrite (first_code _ _ E). cbn. unfold all_th. cbn. auto.
  - destruct H as (E & -> & H0). cbn [fst snd]. split; [exact Hs|]. rewrite (first_code _ _ E). unfold all_th. cbn [is_gfp andb th_at th_ev].
    split; [exact E|]. split; [reflexivity|]. unfold TA. rewrite H0. reflexivity.
  - destruct H as (E & -> & ->). cbn [fst snd]. split; [exact Hs|]. exists []. cbn. auto.
  - destruct H as (d & E & -> & H2). rewrite H2, Sz. destruct (known_size TA) eqn:Ek; cbn [fst snd].
    + split; [exact Hs|]. exists d. auto.
    + split; [intros _; exact Ek|]. right. cbn. split; [reflexivity|]. exists d. split; [|reflexivity]. destruct E as (t & E & _). now exists (t :: l).
  - destruct H as (d & E & -> & H2 & ->). cbn [fst snd]. split; [exact Hs|]. unfold all_th. destruct (shows (sh_type s) TA) eqn:Es; cbn [th_at th_ev].
    + exists d. auto 10.
    + destruct E as (t & E & Et). exists (d ++ [t]). split; [now rewrite <- app_assoc|]. rewrite done_snoc, after_snoc. unfold events_of.
      rewrite <- Et, Es. auto.
  - destruct H as (d & E & -> & H2 & -> & -> & Es). cbn [fst snd]. split; [exact Hs|]. exists d. cbn. auto 10.
  - destruct H as (d & E & -> & H2 & -> & -> & -> & Es). cbn [fst snd]. split; [exact Hs|]. rewrite H2, Sz. destruct E as (t & E & Et).
    exists (d ++ [t]). cbn [th_at th_ev]. split; [now rewrite <- app_assoc|]. rewrite done_snoc, after_snoc. unfold events_of. rewrite <- Et, Es, <- app_assoc. auto.
  - now destruct Hne.
Qed.

Lemma all_reach sched : forall s th st, all_s s -> all_th s th -> run_sched ws shows sched (s, [th]) = Some st ->
  exists th', snd st = [th'] /\ all_s (fst st) /\ all_th (fst st) th'.
Proof.
  induction sched as [|i sched IH]; intros s th st Hs Ht H; cbn [run_sched] in H; [injection H as <-; now exists th|].
  destruct (step ws shows i (s, [th])) as [[s1 l1]|] eqn:E; [|discriminate].
  destruct (step_inv _ _ _ _ E) as (a & th0 & b & Ex & El & _ & Hne & E1).
  destruct a as [|? [|? ?]]; cbn in El; try discriminate. injection El as <- <-. injection E1 as -> ->. cbn [app] in H.
  destruct (all_step s th Hs Ex Ht Hne) as (A & B). exact (IH _ _ _ A B H).
Qed.
End all.
End steps.
