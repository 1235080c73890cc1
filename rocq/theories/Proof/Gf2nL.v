(** The tables of gf_bin_ext.h:251-266 as tables of a sequence. *)
From Coq Require Import List NArith Arith Bool Lia.
From Verif.Model Require Import Common Gf2n.
From Verif.Proof Require Import ListP Gf2nT.
Import ListNotations.
Open Scope nat_scope.

Lemma set_nth_error {A} (l : list A) i x j : i < length l -> nth_error (set l i x) j = if j =? i then Some x else nth_error l j.
Proof.
  revert i j. induction l as [|a l IH]; intros i j Hi; [cbn in Hi; lia|].
  destruct i as [|i], j as [|j]; cbn; try reflexivity. apply IH. cbn in Hi. lia.
Qed.
Lemma set_opt_some {A} (l : list A) i x : i < length l -> set_opt l i x = Some (set l i x).
Proof. intros H. unfold set_opt. now destruct (Nat.ltb_spec i (length l)); [|lia]. Qed.

Section L.
Variables (junk w card prim : N) (e : nat -> N).
Hypothesis card1 : (1 < card)%N.
Let h := N.to_nat (card - 1).
Hypothesis e0 : e 0 = 1%N.
Hypothesis elt : forall i, i < h -> (e i < card)%N.
Hypothesis einj : forall i j, i < h -> j < h -> e i = e j -> i = j.
Hypothesis estep : forall i, i < h ->
  (let b' := wrap w (N.shiftl (e i) 1) in if N.land b' card =? 0 then b' else N.lxor b' prim)%N = e (S i).

Theorem setup_tables_spec : exists l il, setup_tables junk w card prim = Some (l, il) /\
  forall i, i < h -> nth_error l (N.to_nat (e i)) = Some (N.of_nat i) /\ nth_error il i = Some (e i).
Proof.
  unfold setup_tables.
  pose (I := fun k (s : option (list N * list N * N)) => k <= h -> exists l il, s = Some (l, il, e k) /\
     length l = N.to_nat card /\ length il = N.to_nat card /\
     forall i, i < k -> nth_error l (N.to_nat (e i)) = Some (N.of_nat i) /\ nth_error il i = Some (e i)).
  assert (H : I (0 + h) (fold_left (tables_step w card prim) (seq 0 h) (Some (repeat junk (N.to_nat card), repeat junk (N.to_nat card), 1%N)))).
  { apply (fold_seq_inv _ I).
    - intros i s Hi HI _. destruct (HI ltac:(lia)) as (l & il & -> & L1 & L2 & H).
      unfold tables_step. assert (Hh : i < h) by lia. pose proof (elt i Hh) as Ei.
      rewrite !set_opt_some by (unfold h in *; lia).
      cbn zeta. pose proof (estep i Hh) as Es. cbn zeta in Es. rewrite Es.
      eexists _, _. split; [exact eq_refl|]. rewrite !set_length. split; [exact L1|]. split; [exact L2|].
      intros j Hj. rewrite !set_nth_error by (unfold h in *; lia).
      destruct (Nat.eq_dec j i) as [->|ne].
      + rewrite !Nat.eqb_refl. split; reflexivity.
      + destruct (H j ltac:(lia)) as [H1 H2].
        destruct (Nat.eqb_spec (N.to_nat (e j)) (N.to_nat (e i))) as [E|_].
        { exfalso. apply ne. apply einj; [lia|lia|lia]. }
        destruct (Nat.eqb_spec j i); [lia|]. split; [exact H1|exact H2].
    - intros _. eexists _, _. split; [rewrite e0; exact eq_refl|]. rewrite !repeat_length. split; [exact eq_refl|]. split; [exact eq_refl|].
      intros i Hi. lia. }
  destruct (H ltac:(lia)) as (l & il & E & _ & _ & H'). unfold h in E. cbn [Nat.add] in E.
  exists l, il. split.
  - rewrite E. exact eq_refl.
  - exact H'.
Qed.
End L.
