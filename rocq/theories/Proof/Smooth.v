(** Code lengths of high composition that have small prime factors only. *)
From Coq Require Import List NArith ZArith Bool Lia Sorted.
From Verif.Model Require Import Common Arith Ring.
From Verif.Spec Require Import Primes.
From Verif.Proof Require Import Tac ArithP PrimeP CodeLenP.
Import ListNotations.
Open Scope N_scope.

(** When the first factors are enough the others are not used. *)
Lemma high_compo_loop_app n : 2 <= n -> forall fs gs seen x, Forall (fun f => 0 < f) (seen ++ fs) ->
  x = list_prod seen -> n <= list_prod (seen ++ fs) -> x < n ->
  high_compo_loop seen (fs ++ gs) x n = high_compo_loop seen fs x n.
Proof.
  intros Hn. induction fs as [|f fs IH]; intros gs seen x Hf Hx Hle Hlt.
  - rewrite app_nil_r in Hle. lia.
  - cbn [app high_compo_loop].
    assert (Es : seen ++ f :: fs = (seen ++ [f]) ++ fs) by (rewrite <- app_assoc; reflexivity).
    assert (Ep : list_prod (seen ++ [f]) = x * f).
    { rewrite list_prod_app, Hx. unfold list_prod; cbn. lia. }
    rewrite Es in *. apply Forall_app in Hf as Hf'. destruct Hf' as [Hf1 Hf2].
    destruct (N.leb_spec n (x * f)) as [Hr|Hr].
    + destruct (high_compo_back_spec n Hn (seen ++ [f]) (x * f) Hf1 ltac:(auto) Hr) as (r & -> & _). reflexivity.
    + apply IH; auto.
Qed.

(** A sorted list is that of its elements up to [B] followed by the others. *)
Lemma sorted_split B l : StronglySorted N.le l ->
  exists l1 l2, l = l1 ++ l2 /\ Forall (fun f => f <= B) l1 /\ Forall (fun f => B < f) l2.
Proof.
  induction 1 as [|f l _ IH Hf]; [exists [], []; auto|].
  destruct (N.le_gt_cases f B) as [Hle|Hgt].
  - destruct IH as (l1 & l2 & -> & H1 & H2). exists (f :: l1), l2. auto.
  - exists [], (f :: l). split; [reflexivity|]. split; [constructor|]. constructor; [auto|].
    eapply Forall_impl; [|exact Hf]. intros g Hg. cbv beta in *. lia.
Qed.

Lemma prime_divides_list p l : primeN p -> Forall primeN l -> (p | list_prod l) -> In p l.
Proof.
  intros Hp Hl. induction Hl as [|q l Hq Hl IH]; intros D.
  - change (list_prod []) with 1 in D. apply N.divide_1_r in D. destruct Hp. lia.
  - change (list_prod (q :: l)) with (q * list_prod l) in D. destruct (prime_divides_mul p q (list_prod l) Hp D) as [D'|D'].
    + left. destruct Hq as [Hq1 Hq2]. destruct (Hq2 p D'); [destruct Hp; lia|auto].
    + right. auto.
Qed.

(** Numbers without a common prime factor. *)
Lemma coprime_of_primes a b : a <> 0 -> (forall p, primeN p -> (p | a) -> (p | b) -> False) -> N.gcd a b = 1.
Proof.
  intros Ha H. set (g := N.gcd a b). destruct (N.eq_dec g 1) as [|Hg]; auto. exfalso.
  assert (g0 : g <> 0) by (intros E; apply N.gcd_eq_0_l in E; auto).
  destruct (prime_divisor g) as (p & Hp & D); [lia|].
  apply (H p Hp); eapply N.divide_trans; eauto; [apply N.gcd_divide_l|apply N.gcd_divide_r].
Qed.

Section Smooth.
Variables (h order B M M' : N).
Hypothesis h0 : 0 < h.
Hypothesis ow : order < 2 ^ (2 * h).
Hypothesis o0 : 0 < order.
Hypothesis oE : order = M * M'.
Hypothesis small : forall p, primeN p -> (p | M) -> p <= B.
Hypothesis large : forall p, primeN p -> (p | M') -> B < p.

Lemma smooth_divides r : r <> 0 -> (r | order) -> (forall p, primeN p -> (p | r) -> p <= B) -> (r | M).
Proof.
  intros Hr D H. rewrite oE, N.mul_comm in D. apply (N.gauss r M' M); auto.
  apply coprime_of_primes; auto. intros p Hp D1 D2. specialize (H p Hp D1). specialize (large p Hp D2). lia.
Qed.

(** The length is one of the divisors of the smooth part as long as these are large enough, and then has a large prime
    factor. *)
Theorem code_len_smooth n : 2 <= n -> n <= order ->
  exists r, ring_code_len_high_compo (2 * h) (order + 1) n = Some r /\ n <= r /\ (r | order) /\ (n <= M -> (r | M)) /\
    (M < n -> exists p, primeN p /\ (p | r) /\ B < p).
Proof.
  intros Hn Hle. unfold ring_code_len_high_compo. rewrite N.add_sub. destruct (N.ltb_spec order n); [lia|].
  destruct (get_prime_factors_spec h h0 order) as (l & -> & P1 & P2 & P3); [lia|auto|].
  assert (Pos : forall l, Forall primeN l -> Forall (fun f => 0 < f) l).
  { intros l' H'. eapply Forall_impl; [|exact H']. intros f [Hf _]. lia. }
  destruct (get_code_len_high_compo_spec l n Hn (Pos l P1) ltac:(lia)) as (r & E & R1 & R2 & _).
  exists r. split; [exact E|]. split; [exact R1|]. rewrite P2 in R2. split; [exact R2|]. split.
  - intros HM. destruct (sorted_split B l P3) as (l1 & l2 & -> & S1 & S2).
    apply Forall_app in P1. destruct P1 as [Q1 Q2]. rewrite list_prod_app in P2.
    assert (M0 : M <> 0) by (intros E0; rewrite E0 in oE; lia).
    assert (D : (M | list_prod l1)).
    { apply (N.gauss M (list_prod l2)).
      - rewrite N.mul_comm, P2, oE. apply N.divide_factor_l.
      - apply coprime_of_primes; auto. intros p Hp D1 D2. apply (prime_divides_list p l2 Hp Q2) in D2.
        rewrite Forall_forall in S2. specialize (S2 p D2). specialize (small p Hp D1). lia. }
    assert (L : n <= list_prod l1).
    { pose proof (list_prod_pos l1 (Pos l1 Q1)). pose proof (N.divide_pos_le _ _ ltac:(eauto) D). lia. }
    unfold get_code_len_high_compo in E. rewrite (high_compo_loop_app n Hn l1 l2 [] 1) in E; cbn [app]; auto; [|lia].
    destruct (get_code_len_high_compo_spec l1 n Hn (Pos l1 Q1) L) as (r' & E' & _ & R' & _).
    unfold get_code_len_high_compo in E'. rewrite E in E'. injection E' as <-.
    apply smooth_divides; [lia|auto|]. intros p Hp Dp.
    assert (I : In p l1) by (apply prime_divides_list; auto; eapply N.divide_trans; eauto).
    rewrite Forall_forall in S1. auto.
  - intros HM. destruct (get_prime_factors_spec h h0 r) as (lr & _ & F1 & F2 & _); [lia| |].
    { pose proof (N.divide_pos_le _ _ o0 R2). lia. }
    destruct (Exists_dec (fun p => B < p) lr) as [X|X].
    { intros p. destruct (B <? p) eqn:X; [left; apply N.ltb_lt|right; apply N.ltb_ge in X]; lia. }
    + apply Exists_exists in X. destruct X as (p & I & Hp). exists p. rewrite Forall_forall in F1. split; [auto|]. split; [|auto].
      rewrite <- F2. clear -I. induction lr as [|q lr IH]; [destruct I|]. change (list_prod (q :: lr)) with (q * list_prod lr).
      destruct I as [->|I]; [apply N.divide_factor_l|]. apply N.divide_mul_r. auto.
    + exfalso. assert (D : (r | M)).
      { apply smooth_divides; [lia|auto|]. intros p Hp Dp. rewrite <- F2 in Dp. apply (prime_divides_list p lr Hp F1) in Dp.
        destruct (N.le_gt_cases p B); auto. exfalso. apply X. apply Exists_exists. eauto. }
      assert (0 < M) by (destruct (N.eq_dec M 0) as [E0|]; [rewrite E0 in oE; lia|lia]).
      pose proof (N.divide_pos_le _ _ ltac:(eauto) D). lia.
Qed.
End Smooth.
