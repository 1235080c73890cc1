(** Property C69: the threads of the benchmark. *)
From Coq Require Import List NArith Arith Bool Lia.
From Verif.Model Require Import Common Bench BenchThreads.
From Verif.Spec Require Import BenchThreads.
From Verif.Proof Require Import BenchThreadsP.
Import ListNotations.
Open Scope nat_scope.

Lemma known_a_size T : a_size T -> known_size T = true.
Proof. intros [-> |[-> |[-> | ->]]]; reflexivity. Qed.

(** Every execution ends. *)
Theorem C69_ends ws shows t T0 n sched st : run_sched ws shows sched (start t T0 n) = Some st -> length sched <= 74 * n.
Proof.
  intros H. apply sched_total in H. assert (E : total (repeat (mkThread AtStart []) n) = 74 * n).
  { clear. unfold total. induction n as [|n IH]; [reflexivity|]. cbn [repeat map]. change (list_sum (?a :: ?l)) with (a + list_sum l). rewrite IH. cbn [th_at weight]. lia. }
  rewrite E in H. lia.
Qed.

(** One code: in every execution, with any number of threads, each of them does a part of what it should, all of it at the end. *)
Theorem C69_one_partial ws shows t T0 n sched st : t <> TAll -> run_sched ws shows sched (start t T0 n) = Some st ->
  let T := match T0 with Some T => T | None => get_sizeof t ws end in
  Forall (fun th => prefix (th_ev th) (events_of shows t T)) (snd st) /\
  (a_size T -> sh_exit (fst st) = false /\
     ((forall i, step ws shows i st = None) -> Forall (fun th => th_ev th = events_of shows t T) (snd st))).
Proof.
  intros Ht H T. destruct (one_reach ws shows t T0 Ht n sched st H) as ((_ & _ & S3) & F). change (T1 ws t T0) with T in S3.
  split.
  - eapply Forall_impl; [|exact F]. intros th. unfold one_th. change (T1 ws t T0) with T. unfold prefix, events_of.
    destruct (th_at th); intros X.
    + rewrite X. eexists; reflexivity.
    + destruct X as (_ & ->). exists []. now rewrite app_nil_r.
    + destruct X as (_ & ->). eexists; reflexivity.
    + destruct X as (_ & -> & _). eexists; reflexivity.
    + destruct X as (_ & -> & _). eexists; reflexivity.
    + destruct X as (_ & -> & _). eexists; reflexivity.
    + destruct X as (_ & -> & _). eexists; reflexivity.
    + destruct X as (_ & -> & _). eexists; reflexivity.
    + destruct X as (_ & -> & _). eexists; reflexivity.
    + destruct X as (_ & -> & _). eexists; reflexivity.
    + destruct X as [-> |(_ & ->)]; [exists []; now rewrite app_nil_r|eexists; reflexivity].
  - intros HT. apply known_a_size in HT. assert (Ex : sh_exit (fst st) = false).
    { destruct (sh_exit (fst st)); [|reflexivity]. rewrite (S3 eq_refl) in HT. discriminate. }
    split; [exact Ex|]. intros Hs. destruct st as [s l]. cbn [fst snd] in *. destruct (stuck ws shows s l Hs) as [X|X]; [congruence|].
    rewrite Forall_forall in F, X |- *. intros th Hin. specialize (F th Hin). unfold one_th in F. rewrite (X th Hin) in F.
    destruct F as [F|(F & _)]; [exact F|congruence].
Qed.

(** All the codes in one thread: each code once, in order, on the type of the first one. *)
Theorem C69_alone ws shows T0 sched st : run_sched ws shows sched (start TAll T0 1) = Some st ->
  let T := match T0 with Some T => T | None => get_sizeof TRsFnt ws end in
  run_benchmark TAll T0 ws = map (fun t => (t, T)) every_code /\
  (a_size T -> (forall i, step ws shows i st = None) ->
     exists th, snd st = [th] /\ th_ev th = flat_map (fun t => events_of shows t T) every_code).
Proof.
  intros H T. split; [destruct T0; reflexivity|]. intros HT Hs.
  destruct (all_reach ws shows T0 sched (mkShared TAll T0 false) (mkThread AtStart []) st) as (th & E & A & B); [discriminate|cbn; auto|exact H|].
  exists th. split; [exact E|]. apply known_a_size in HT. destruct st as [s l]. cbn [fst snd] in *. subst l.
  assert (Ex : sh_exit s = false).
  { destruct (sh_exit s) eqn:X; [|reflexivity]. unfold all_s in A. rewrite X in A. specialize (A eq_refl). change (TA ws T0) with T in A. congruence. }
  destruct (stuck ws shows s [th] Hs) as [X|X]; [congruence|]. inversion X as [|? ? X1 _]; subst. unfold all_th in B. rewrite X1 in B.
  destruct B as [B|(B & _)]; [exact B|congruence].
Qed.

(** With one code and the size of the type given there is no race. *)
Theorem C69_no_race ws shows t T n sched st : t <> TAll -> run_sched ws shows sched (start t (Some T) n) = Some st -> ~ race st.
Proof.
  intros Ht H (i & j & a & b & f & wa & wb & _ & Ea & Eb & Na & Nb & W).
  destruct (one_reach ws shows t (Some T) Ht n sched st H) as (_ & F). rewrite Forall_forall in F.
  assert (K : forall th f w, In th (snd st) -> next_access (th_at th) = Some (f, w) -> w = false).
  { intros th g w Hin N. specialize (F th Hin). unfold one_th in F. destruct (th_at th) as [|[|? ?]| | | | | | | | |]; cbn in N; try discriminate;
      try (injection N as <- <-; reflexivity).
    - destruct F as (F & _). discriminate.
    - destruct F as (_ & _ & F & _). discriminate. }
  rewrite (K a f wa (nth_error_In _ _ Ea) Na), (K b f wb (nth_error_In _ _ Eb) Nb) in W. discriminate.
Qed.

(** Without it, any two threads race for it, whatever the code. *)
Theorem C69_race_refuted ws shows t n : t <> TAll ->
  exists sched st, run_sched ws shows sched (start t None (S (S n))) = Some st /\ race st.
Proof.
  intros Ht. assert (G : forall s0 T l, race (s0, mkThread (AtSet T []) [] :: mkThread (AtTest []) [] :: l)).
  { intros s0 T l. exists 0, 1. do 2 eexists. exists FSize, true, false. split; [lia|]. repeat split. }
  destruct t; [now destruct Ht| | | | | | | |];
    first [exists [0; 0; 0; 0; 1]; eexists; split; [cbn -[size_for get_sizeof]; reflexivity|apply G]
          |exists [0; 0; 0; 1]; eexists; split; [cbn -[size_for get_sizeof]; reflexivity|apply G]].
Qed.

(** With all the codes any two threads race from the start. *)
Theorem C69_race_all_refuted ws shows T0 n : exists sched st, run_sched ws shows sched (start TAll T0 (S (S n))) = Some st /\ race st.
Proof.
  exists [0]. eexists. split; [reflexivity|]. exists 0, 1. do 2 eexists. exists FType, true, false. split; [lia|]. repeat split.
Qed.

(** All the codes, two threads or more (words of two bytes, as by default): a thread may run a single code and end. *)
Theorem C69_all_refuted shows n : exists sched st th, run_sched 2 shows sched (start TAll None (S (S n))) = Some st /\
  nth_error (snd st) 1 = Some th /\ th_at th = AtEnd /\ th_ev th = events_of shows TRsFnt 4.
Proof.
  unfold events_of. destruct (shows TRsFnt 4%N) eqn:Es.
  - exists [0; 0; 1; 1; 1; 1; 1; 1; 1; 1; 1; 1]. do 2 eexists. split.
    + cbn -[size_for N.eqb wrap]. change (size_for 4 2) with 4%N. cbn. rewrite Es. cbn. reflexivity.
    + repeat split.
  - exists [0; 0; 1; 1; 1; 1; 1; 1; 1; 1]. do 2 eexists. split.
    + cbn -[size_for N.eqb wrap]. change (size_for 4 2) with 4%N. cbn. rewrite Es. cbn. reflexivity.
    + repeat split.
Qed.

(** The results of a code may be printed under the name of another one. *)
Theorem C69_name_refuted shows n : shows TRsFnt 4%N = true ->
  exists sched st th, run_sched 2 shows sched (start TAll None (S (S n))) = Some st /\
    In th (snd st) /\ In (EShown TRsFnt 4 TRsFntSys 4) (th_ev th).
Proof.
  intros Es. exists [0; 1; 0; 0; 0; 0; 0; 0; 0; 1; 1; 1; 1; 1; 1; 1; 0; 0]. do 2 eexists. split.
  - cbn -[size_for N.eqb wrap]. change (size_for 4 2) with 4%N. cbn. rewrite Es. cbn. reflexivity.
  - split; [left; reflexivity|]. cbn. tauto.
Qed.

(** ** Cases *)
Definition yes (_ : ec_type) (_ : N) : bool := true.
Definition turns (n k : nat) : list nat := flat_map (fun _ => seq 0 n) (seq 0 k).
Example C69_case_one : exists st, run_sched 2 yes (turns 3 9) (start TRsNf4 None 3) = Some st /\ (forall i, step 2 yes i st = None) /\
  Forall (fun th => th_ev th = [EMade TRsNf4 4; EShown TRsNf4 4 TRsNf4 4]) (snd st).
Proof.
  eexists. split; [vm_compute; reflexivity|]. split; [|repeat constructor]. intros [|[|[|[|i]]]]; reflexivity.
Qed.
Example C69_case_alone : exists st, run_sched 2 yes (repeat 0 53) (start TAll None 1) = Some st /\ (forall i, step 2 yes i st = None) /\
  map th_ev (snd st) = [flat_map (fun t => [EMade t 4; EShown t 4 t 4]) every_code].
Proof. eexists. split; [vm_compute; reflexivity|]. split; [intros [|[|i]]; reflexivity|reflexivity]. Qed.
Example C69_case_race : exists st, run_sched 1 yes [0; 1; 0; 1; 1; 0] (start TRsGf2nC (Some 4%N) 2) = Some st /\ ~ race st.
Proof. eexists. split; [vm_compute; reflexivity|]. eapply (C69_no_race 1 yes TRsGf2nC 4 2 [0; 1; 0; 1; 1; 0]); [discriminate|vm_compute; reflexivity]. Qed.

Print Assumptions C69_ends.
Print Assumptions C69_one_partial.
Print Assumptions C69_alone.
Print Assumptions C69_no_race.
Print Assumptions C69_race_refuted.
Print Assumptions C69_race_all_refuted.
Print Assumptions C69_all_refuted.
Print Assumptions C69_name_refuted.
