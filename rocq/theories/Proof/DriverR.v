(** The records that the codes RsGfpFft and RsNf4 add: their values fit in 32 bits. *)
From Coq Require Import List NArith ZArith Arith Bool Lia.
From Verif.Model Require Import Common Props FftCodes Nf4.
From Verif.Spec Require Import Nf4.
From Verif.Proof Require Import ListP HCodesR Nf4L.
Import ListNotations.
Open Scope nat_scope.

Lemma fold_recs_in A P K off n o ps q p : In p (nth q (snd (fold_left (rec_step A P K off) (seq 0 n) (o, ps))) []) ->
  In p (nth q ps []) \/ exists o1 i, p = (off, K o1 i).
Proof.
  induction n as [|n IH]; [now left|]. rewrite seq_S, fold_left_app. cbn [fold_left Nat.add].
  destruct (fold_left (rec_step A P K off) (seq 0 n) (o, ps)) as [o1 p1]. cbn [rec_step fst snd] in *.
  destruct (P o1 n); [|exact IH]. destruct (Nat.eq_dec q n) as [->|Hne]; [|rewrite nth_set_neq by auto; exact IH].
  destruct (Nat.lt_ge_cases n (length p1)) as [Hl|Hl]; [|rewrite set_oob by exact Hl; exact IH].
  rewrite nth_set_eq by exact Hl. intros H. apply in_app_or in H. destruct H as [H|[<-|[]]]; [apply IH; exact H|right; now exists o1, n].
Qed.

Lemma gfp_post_in c off o ps q p : In p (nth q (snd (gfp_post c off o ps)) []) -> In p (nth q ps []) \/ (fst p = off /\ (snd p < 2 ^ 32)%N).
Proof.
  rewrite gfp_post_step. intros H. apply fold_recs_in in H. destruct H as [H|(o1 & i & ->)]; [now left|right]. split; reflexivity.
Qed.

Lemma lor_bound a b n : (a < 2 ^ n -> b < 2 ^ n -> N.lor a b < 2 ^ n)%N.
Proof.
  intros Ha Hb. destruct (N.eq_dec (N.lor a b) 0) as [->|Ne]; [apply N.neq_0_lt_0, N.pow_nonzero; discriminate|].
  apply N.log2_lt_pow2; [lia|]. rewrite N.log2_lor.
  assert (L : forall z, (z < 2 ^ n -> 0 < n -> N.log2 z < n)%N).
  { intros z Hz Hn. destruct (N.eq_dec z 0) as [->|Nz]; [exact Hn|]. apply N.log2_lt_pow2; lia. }
  destruct (N.eq_dec n 0) as [->|Nn].
  - change (2 ^ 0)%N with 1%N in *. assert (a = 0%N) by lia. assert (b = 0%N) by lia. subst. now elim Ne.
  - apply N.max_lub_lt; apply L; lia.
Qed.

Lemma marks_bound s : (marks s < 2 ^ N.of_nat (length s))%N.
Proof.
  induction s as [|x s IH]; [reflexivity|]. rewrite marks_cons. cbn [length]. rewrite Nnat.Nat2N.inj_succ, N.pow_succ_r'.
  destruct (x =? 65536)%N; lia.
Qed.
Lemma split32_len n : forall a, length (split32 n a) = n.
Proof. induction n as [|n IH]; intros a; [reflexivity|]. cbn. now rewrite IH. Qed.
Lemma split16_bound n : forall a i, (nth i (split16 n a) 0 < 2 ^ 16)%N.
Proof.
  induction n as [|n IH]; intros a i; [destruct i; reflexivity|]. cbn [split16]. destruct i as [|i]; [|apply IH]. cbn [nth].
  change 65535%N with (N.ones 16). rewrite N.land_ones. apply N.mod_lt. discriminate.
Qed.

Lemma unpack_bound B w e a : e <= 4 -> (snd (unpack B w e a) < 2 ^ 32)%N.
Proof.
  intros He. apply N.lt_le_trans with (2 ^ 16)%N; [|vm_compute; discriminate]. destruct B as [|nh hi]; cbn [unpack snd].
  - rewrite flag_of_marks, N.shiftl_0_r. eapply N.lt_le_trans; [apply marks_bound|]. rewrite split32_len. apply N.pow_le_mono_r; [discriminate|]. lia.
  - repeat apply lor_bound; [apply split16_bound|..]; destruct (_ =? 0)%N; reflexivity.
Qed.

Lemma nf4_post_in c off o ps q p : nf_e c <= 4 -> In p (nth q (snd (nf4_post c off o ps)) []) ->
  In p (nth q ps []) \/ (fst p = off /\ (snd p < 2 ^ 32)%N).
Proof.
  intros He. rewrite nf4_post_step. intros H. apply fold_recs_in in H. destruct H as [H|(o1 & i & ->)]; [now left|right]. split; [reflexivity|].
  now apply unpack_bound.
Qed.
