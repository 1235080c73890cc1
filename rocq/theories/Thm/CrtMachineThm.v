(** Property C22 on the machine: chinese_remainder<T> for unsigned types of [tw] bits, the intermediate results in the
    signed type of [2 * tw] bits, where overflow is undefined. *)
From Coq Require Import List NArith ZArith Znumtheory Lia.
From Verif.Model Require Import Common Arith Header CrtMachine.
From Verif.Spec Require Import Ints.
From Verif.Proof Require Import EgcdP CrtMachineP.
Import ListNotations.
Open Scope Z_scope.

(** [x] is the solution for the pairs (residue, modulus) of [l]. *)
Definition solution (l : list (Z * Z)) (x : Z) : Prop :=
  0 <= x < zprod l /\ forall a n, In (a, n) l -> x mod n = a mod n.

(** * C22 For reduced residues and coprime moduli of type [T] whose product is at most [2^tw], nothing overflows and the
    solution is returned.  Missing: products above [2^tw], where it is false (C22_exact). *)
Theorem C22_machine_partial tw l : 1 < tw -> Forall (fun an => 0 < snd an < 2 ^ tw) l -> Forall (fun an => 0 <= fst an < snd an) l ->
  pairwise_coprime l -> zprod l <= 2 ^ tw ->
  exists x, chinese_remainder_ck tw l = Some (Ret x) /\ solution l x /\ forall y, solution l y -> y = x.
Proof.
  intros Ht Hn Ha PC HM.
  assert (Hp : Forall (fun an : Z * Z => 0 < snd an) l) by (eapply Forall_impl; [|exact Hn]; intros q (X & _); exact X).
  destruct (crt_machine tw l Ht Hp Ha PC HM) as (x & E & Ec). destruct (chinese_remainder_ok l Hp PC) as (x' & E' & B & M).
  assert (x' = x) by congruence. subst x'. exists x. rewrite Z.mod_small in Ec by lia. split; [exact Ec|]. split; [split; assumption|].
  intros y (By & My). apply (crt_unique l); auto. intros a n Hi. rewrite (M a n Hi). now apply My.
Qed.

(** The product of the moduli. *)
Definition product (ns : list Z) : Z := fold_right Z.mul 1 ns.
Fixpoint coprime (ns : list Z) : Prop :=
  match ns with [] => True | n :: t => Forall (fun m => Z.gcd n m = 1) t /\ coprime t end.

Lemma product_snd l : zprod l = product (map snd l).
Proof. induction l as [|an l IH]; [reflexivity|]. cbn [map]. change (zprod (an :: l)) with (snd an * zprod l). rewrite IH. reflexivity. Qed.
Lemma coprime_snd l : pairwise_coprime l <-> coprime (map snd l).
Proof. induction l as [|an l IH]; [reflexivity|]. cbn [map coprime pairwise_coprime]. rewrite IH, Forall_map. reflexivity. Qed.

(** * C22 For given moduli, it returns the solution for all reduced residues exactly when their product is at most
    [2^tw]. *)
Theorem C22_exact tw ns : 1 < tw -> Forall (fun n => 0 < n < 2 ^ tw) ns -> coprime ns ->
  ((forall l, map snd l = ns -> Forall (fun an => 0 <= fst an < snd an) l ->
      exists x, chinese_remainder_ck tw l = Some (Ret x) /\ solution l x) <-> product ns <= 2 ^ tw).
Proof.
  intros Ht Hn PC. split.
  - intros H. destruct (Z.le_gt_cases (product ns) (2 ^ tw)) as [A|A]; [exact A|exfalso].
    set (P := product ns) in *. set (l := map (fun n => ((P - 1) mod n, n)) ns).
    assert (El : map snd l = ns) by (unfold l; rewrite map_map; apply map_id).
    assert (Hl : Forall (fun an : Z * Z => 0 < snd an) l).
    { unfold l. apply Forall_map. eapply Forall_impl; [|exact Hn]. intros n (X & _). exact X. }
    destruct (H l El) as (x & E & S).
    { unfold l. apply Forall_map. eapply Forall_impl; [|exact Hn]. intros n (X & _). cbn [fst snd]. apply Z.mod_pos_bound. exact X. }
    assert (Pl : zprod l = P) by (rewrite product_snd, El; reflexivity).
    assert (PCl : pairwise_coprime l) by (apply coprime_snd; now rewrite El).
    assert (T0 : 0 < 2 ^ tw) by (apply Z.pow_pos_nonneg; lia).
    assert (X : x = P - 1).
    { destruct S as (S1 & S2). apply (crt_unique l); auto; [lia|]. intros a n Hi. rewrite (S2 a n Hi).
      unfold l in Hi. apply in_map_iff in Hi. destruct Hi as (n' & E' & Hn'). injection E' as <- <-.
      rewrite Forall_forall in Hn. specialize (Hn _ Hn'). rewrite Z.mod_mod by lia. reflexivity. }
    assert (B : x < 2 ^ tw).
    { unfold chinese_remainder_ck in E. destruct (crt_acc_ck _ _); [discriminate|]. destruct (crt_arrays _ _ _) as [[|]|]; [discriminate| |discriminate].
      destruct (crt_sum_ck _ _ _); [discriminate|]. cbn [bind] in E. destruct (if _ <? 0 then _ else _) as [|y]; [discriminate|]. cbn [bind] in E.
      injection E as <-. apply Z.mod_pos_bound. exact T0. }
    lia.
  - intros HM l El Ha. subst ns. rewrite <- product_snd in HM. apply coprime_snd in PC.
    destruct (C22_machine_partial tw l Ht) as (x & E & S & _); auto; [|now exists x].
    apply Forall_map in Hn. exact Hn.
Qed.

(** With products above, the result may also be undefined. *)
Theorem C22_overflow_refuted : exists l, Forall (fun an => 0 < snd an < 2 ^ 16) l /\ Forall (fun an => 0 <= fst an < snd an) l /\
  pairwise_coprime l /\ chinese_remainder_ck 16 l = Some Ub.
Proof.
  exists [(65000, 65521); (60000, 65519)]. split; [repeat constructor|]. split; [repeat constructor; cbn; lia|].
  split; [repeat constructor|vm_compute; reflexivity].
Qed.

Example C22_machine_case : let l := [(200, 211); (300, 307)] in
  Forall (fun an => 0 < snd an < 2 ^ 16) l /\ Forall (fun an => 0 <= fst an < snd an) l /\ pairwise_coprime l /\
  zprod l <= 2 ^ 16 /\ chinese_remainder_ck 16 l = Some (Ret 51262).
Proof. repeat split; try (repeat constructor; cbn; lia); vm_compute; try reflexivity; discriminate. Qed.

Print Assumptions C22_machine_partial.
Print Assumptions C22_exact.
Print Assumptions C22_overflow_refuted.
