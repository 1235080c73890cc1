(** The tables of gf_bin_ext.h:251-266 when the cardinal is 2^w-1, a mask of all the bits: the loop soon stays at one value. *)
From Coq Require Import List NArith Arith Bool Lia.
From Verif.Model Require Import Common Gf2n.
From Verif.Proof Require Import ListP Gf2nT Gf2nL.
Import ListNotations.
Open Scope nat_scope.

Section R.
Variables (junk w card prim : N) (orbit : list N) (f : N) (t0 : nat).
Definition nxt (b : N) : N := (let b' := wrap w (N.shiftl b 1) in if N.land b' card =? 0 then b' else N.lxor b' prim)%N.
Let e (i : nat) : N := Nat.iter i nxt 1%N.
Let h := N.to_nat (card - 1).
Hypothesis card1 : (1 < card)%N.
Hypothesis o1 : In 1%N orbit.
Hypothesis onxt : forall b, In b orbit -> In (nxt b) orbit.
Hypothesis olt : forall b, In b orbit -> (b < card)%N.
Hypothesis ef : e t0 = f.
Hypothesis ff : nxt f = f.
Hypothesis t0h : t0 < h.

Lemma e_in i : In (e i) orbit.
Proof. induction i as [|i IH]; [exact o1|]. apply onxt. exact IH. Qed.
Lemma e_late i : t0 <= i -> e i = f.
Proof.
  induction i as [|i IH]; intros H; [replace t0 with 0 in ef by lia; exact ef|].
  destruct (Nat.eq_dec t0 (S i)) as [E|]; [rewrite <- E; exact ef|]. change (e (S i)) with (nxt (e i)). rewrite IH by lia. exact ff.
Qed.

Theorem stuck_tables : exists l il, setup_tables junk w card prim = Some (l, il) /\
  nth_error l (N.to_nat f) = Some (N.of_nat (h - 1)) /\ forall i, t0 <= i < h -> nth_error il i = Some f.
Proof.
  unfold setup_tables.
  pose (I := fun k (s : option (list N * list N * N)) => k <= h -> exists l il, s = Some (l, il, e k) /\
     length l = N.to_nat card /\ length il = N.to_nat card /\
     (0 < k -> nth_error l (N.to_nat (e (k - 1))) = Some (N.of_nat (k - 1))) /\ forall i, i < k -> nth_error il i = Some (e i)).
  assert (H : I (0 + h) (fold_left (tables_step w card prim) (seq 0 h) (Some (repeat junk (N.to_nat card), repeat junk (N.to_nat card), 1%N)))).
  { apply (fold_seq_inv _ I).
    - intros i s Hi HI _. destruct (HI ltac:(lia)) as (l & il & -> & L1 & L2 & _ & H).
      unfold tables_step. pose proof (olt _ (e_in i)) as Ei.
      rewrite !set_opt_some by (unfold h in *; lia). eexists _, _. split; [exact eq_refl|]. rewrite !set_length. split; [exact L1|]. split; [exact L2|].
      split.
      + intros _. replace (S i - 1) with i by lia. rewrite set_nth_error by lia. now rewrite Nat.eqb_refl.
      + intros j Hj. rewrite set_nth_error by (unfold h in *; lia). destruct (Nat.eqb_spec j i) as [->|]; [reflexivity|]. apply H. lia.
    - intros _. eexists _, _. split; [reflexivity|]. rewrite repeat_length. split; [reflexivity|]. split; [reflexivity|]. split; intros; lia. }
  destruct (H ltac:(lia)) as (l & il & E & _ & _ & Hl & Hil). fold h. rewrite E. exists l, il. split; [reflexivity|].
  cbn [Nat.add] in *. split.
  - rewrite <- Hl by lia. now rewrite e_late by lia.
  - intros i Hi. rewrite Hil by lia. now rewrite e_late by lia.
Qed.
End R.
