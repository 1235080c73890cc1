(** A number has one factorisation; the coprime factors are its prime powers. *)
From Coq Require Import List NArith Lia Sorting.Sorted.
From Verif.Model Require Import Common Arith.
From Verif.Spec Require Import Primes.
From Verif.Proof Require Import ListP ArithP PrimeP Ceil2P.
Import ListNotations.
Open Scope N_scope.

Lemma fact_tail p e l n : factorisation n ((p, e) :: l) -> factorisation (prod_powers l) l /\ n = p ^ e * prod_powers l /\
  primeN p /\ 0 < e /\ ~ (p | prod_powers l).
Proof.
  intros (S & F & P). inversion_clear S. inversion_clear F. destruct H1 as [Pp Pe]. cbn [fst snd] in *.
  assert (Ft : factorisation (prod_powers l) l) by (repeat split; auto).
  split; [exact Ft|]. split; [symmetry; exact P|]. repeat split; auto; try apply Pp.
  intros D. pose proof (factorisation_divisor 1 N.lt_0_1 _ _ _ Ft Pp D) as Hin. apply in_map_iff in Hin. destruct Hin as ([q f] & E & Hin).
  rewrite Forall_forall in H0. specialize (H0 _ Hin). cbn [fst] in *. lia.
Qed.
Lemma prod_pos n l : factorisation n l -> n <> 0.
Proof.
  intros (_ & F & <-). induction F as [|[p e] l [H _] _ IH]; cbn [prod_powers fold_right fst snd] in *; [lia|].
  apply N.neq_mul_0. split; [apply N.pow_nonzero; destruct H; lia|exact IH].
Qed.
Lemma pow_part p e f A B : primeN p -> ~ (p | A) -> ~ (p | B) -> p ^ e * A = p ^ f * B -> e = f /\ A = B.
Proof.
  intros Hp HA HB E. assert (p0 : p <> 0) by (destruct Hp; lia).
  assert (W : forall e f A B, ~ (p | A) -> p ^ e * A = p ^ f * B -> e < f -> False).
  { clear - p0. intros e f A B HA E L. apply HA.
    replace f with (e + (1 + (f - e - 1))) in E by lia. rewrite !N.pow_add_r, N.pow_1_r, <- !N.mul_assoc in E.
    apply N.mul_cancel_l in E; [|now apply N.pow_nonzero]. rewrite E. apply N.divide_factor_l. }
  destruct (N.lt_trichotomy e f) as [L|[->|L]]; [exact (False_ind _ (W e f A B HA E L))| |exact (False_ind _ (W f e B A HB (eq_sym E) L))].
  split; auto. apply N.mul_cancel_l in E; auto. now apply N.pow_nonzero.
Qed.
Lemma fact_least p e l n q : factorisation n ((p, e) :: l) -> primeN q -> (q | n) -> p <= q.
Proof.
  intros F Pq D. pose proof (factorisation_divisor 1 N.lt_0_1 _ _ _ F Pq D) as Hin. destruct F as (S & _ & _). inversion_clear S.
  destruct Hin as [<-|Hin]; [cbn; lia|]. apply in_map_iff in Hin. destruct Hin as ([x f] & E & Hin).
  rewrite Forall_forall in H0. specialize (H0 _ Hin). cbn [fst] in *. lia.
Qed.
Lemma head_divides p e l n : factorisation n ((p, e) :: l) -> primeN p /\ (p | n).
Proof.
  intros F. destruct (fact_tail _ _ _ _ F) as (_ & -> & Pp & He & _). split; auto.
  apply N.divide_mul_l. replace e with (1 + (e - 1)) by lia. rewrite N.pow_add_r, N.pow_1_r. apply N.divide_factor_l.
Qed.
Lemma fact_one p e l : ~ factorisation 1 ((p, e) :: l).
Proof. intros F. destruct (head_divides _ _ _ _ F) as [[H _] D]. apply N.divide_1_r in D. lia. Qed.

Theorem factorisation_unique l : forall n l', factorisation n l -> factorisation n l' -> l = l'.
Proof.
  induction l as [|[p e] l IH]; intros n [|[q f] l'] F F'; auto.
  - destruct F as (_ & _ & <-). now apply fact_one in F'.
  - destruct F' as (_ & _ & <-). now apply fact_one in F.
  - destruct (head_divides _ _ _ _ F) as [Pp Dp], (head_divides _ _ _ _ F') as [Pq Dq].
    assert (p = q) as <- by (apply N.le_antisymm; [eapply fact_least; eauto|eapply (fact_least q); eauto]).
    destruct (fact_tail _ _ _ _ F) as (Ft & E & _ & _ & HA), (fact_tail _ _ _ _ F') as (Ft' & E' & _ & _ & HB).
    destruct (pow_part p e f (prod_powers l) (prod_powers l')) as [<- EE]; auto; [congruence|].
    f_equal. apply IH with (prod_powers l); auto. rewrite EE. exact Ft'.
Qed.

Section W.
Variable hw : N.
Hypothesis hw0 : 0 < hw.

Lemma coprime_factors_of n l : factorisation n l -> n < 2 ^ (2 * hw) ->
  get_coprime_factors (2 * hw) n = Some (map (fun pe => fst pe ^ snd pe) l).
Proof.
  intros F L. destruct (factor_prime_spec hw hw0 n (prod_pos _ _ F) L) as (l' & E & F').
  rewrite <- (factorisation_unique l n l' F F') in E. unfold get_coprime_factors. rewrite E. cbn [option_map]. f_equal.
  apply map_ext_in. intros [p e] Hin. cbn [fst snd].
  assert (D : (p ^ e | n)).
  { destruct F as (_ & _ & <-). clear - Hin. induction l as [|[q f] fs IH]; [destruct Hin|]. cbn [prod_powers fold_right fst snd].
    destruct Hin as [Hin|Hin]; [injection Hin as -> ->; apply N.divide_factor_l|apply N.divide_mul_r; auto]. }
  apply N.divide_pos_le in D; [|pose proof (prod_pos _ _ F); lia].
  rewrite exp_spec by lia. apply N.mod_small. lia.
Qed.
Lemma prime_factors_of n l : factorisation n l -> n < 2 ^ (2 * hw) -> get_prime_factors (2 * hw) n = Some (get_prime_factors_of l).
Proof.
  intros F L. destruct (factor_prime_spec hw hw0 n (prod_pos _ _ F) L) as (l' & E & F').
  rewrite <- (factorisation_unique l n l' F F') in E. unfold get_prime_factors. now rewrite E.
Qed.
End W.

Lemma head_coprime p e l n : factorisation n ((p, e) :: l) -> N.gcd (p ^ e) (prod_powers l) = 1.
Proof.
  intros F. destruct (fact_tail _ _ _ _ F) as (Ft & _ & Pp & _ & HA).
  destruct (N.eq_dec (N.gcd (p ^ e) (prod_powers l)) 1) as [|Hne]; auto. exfalso.
  destruct (prime_divisor (N.gcd (p ^ e) (prod_powers l))) as (x & Px & Dx).
  { pose proof (prod_pos _ _ Ft). destruct (N.eq_dec (N.gcd (p ^ e) (prod_powers l)) 0) as [E0|]; [apply N.gcd_eq_0_r in E0; lia|lia]. }
  assert (D1 : (x | p)) by (apply prime_divides_pow with e; auto; eapply N.divide_trans; [exact Dx|apply N.gcd_divide_l]).
  destruct Pp as [_ Pp]. destruct (Pp x D1) as [->| ->]; [destruct Px; lia|].
  apply HA. eapply N.divide_trans; [exact Dx|apply N.gcd_divide_r].
Qed.
Lemma tail_not_pow2 p e l n : factorisation n ((p, e) :: l) -> l <> [] -> is_power_of_2 (prod_powers l) = false.
Proof.
  intros F Hl. destruct (is_power_of_2 (prod_powers l)) eqn:E; auto. exfalso.
  apply is_power_of_2_spec in E. destruct E as [k E]. destruct l as [|[q f] l]; [congruence|].
  destruct (fact_tail _ _ _ _ F) as (Ft & _ & [Pp _] & _). destruct (head_divides _ _ _ _ Ft) as [Pq Dq].
  rewrite E in Dq. assert (D2 : (q | 2)) by (eapply prime_divides_pow; eauto).
  apply N.divide_pos_le in D2; [|lia]. destruct F as (S & _ & _). inversion_clear S. inversion_clear H0. cbn [fst] in *. lia.
Qed.
Lemma powers_big n l : factorisation n l -> Forall (fun pe => 1 < fst pe ^ snd pe) l.
Proof.
  intros (_ & F & _). eapply Forall_impl; [|exact F]. intros [p e] [[Pp _] He]. cbn [fst snd] in *. now apply N.pow_gt_1; lia.
Qed.
