(** Trial division: primality, factorisation, divisors (arith.h:471-634). *)
From Coq Require Import List NArith ZArith Bool Sorting.Sorted Lia.
From Verif.Model Require Import Common Arith.
From Verif.Spec Require Import Primes.
From Verif.Proof Require Import Tac ArithP.
Import ListNotations.
Open Scope N_scope.

Lemma mod_divide_b n i : i <> 0 -> (n mod i =? 0) = true <-> (i | n).
Proof. intros H. rewrite N.eqb_eq. apply N.mod_divide; auto. Qed.

Lemma divide_cofactor d n : n <> 0 -> (d | n) -> exists e, n = d * e /\ e <> 0 /\ d <> 0.
Proof. intros Hn [e He]. exists e. split; [lia|]. split; intros ->; lia. Qed.

(** A number with no divisor in [2 .. sqrt n] is prime. *)
Lemma prime_of_small n : 1 < n -> (forall d, 2 <= d -> d * d <= n -> ~ (d | n)) -> primeN n.
Proof.
  intros Hn H. split; auto. intros d Hd.
  destruct (divide_cofactor d n ltac:(lia) Hd) as (e & He & He0 & Hd0).
  destruct (N.eq_dec d 1) as [->|Hd1]; [auto|]. right.
  destruct (N.eq_dec e 1) as [->|He1]; [lia|]. exfalso.
  destruct (N.le_gt_cases d e).
  - apply (H d); auto; nia.
  - apply (H e); [lia|nia|]. exists d. lia.
Qed.

(** Every number above 1 has a prime divisor. *)
Lemma prime_divisor n : 1 < n -> exists p, primeN p /\ (p | n).
Proof.
  induction n as [n IH] using (well_founded_induction N.lt_wf_0). intros Hn.
  assert (D : (exists d, 2 <= d /\ d < n /\ (d | n)) \/ ~ (exists d, 2 <= d /\ d < n /\ (d | n))).
  { assert (X : forall b, (exists d, 2 <= d /\ d < b /\ (d | n)) \/ ~ (exists d, 2 <= d /\ d < b /\ (d | n))).
    { intros b. induction b as [|b IHb] using N.peano_ind; [right; intros (d & ? & ? & _); lia|].
      destruct IHb as [(d & A & B & C)|Hb]; [left; exists d; repeat split; auto; lia|].
      destruct (N.le_gt_cases 2 b) as [H2|H2].
      - destruct (N.eq_dec (n mod b) 0) as [E|E].
        + left. exists b. repeat split; auto; try lia. apply N.mod_divide; auto; lia.
        + right. intros (d & A & B & C). destruct (N.eq_dec d b) as [->|Hd].
          * apply E. apply N.mod_divide; auto; lia.
          * apply Hb. exists d. repeat split; auto; lia.
      - right. intros (d & A & B & _). lia. }
    apply X. }
  destruct D as [(d & A & B & C)|D].
  - destruct (IH d B ltac:(lia)) as (p & Pp & Pd). exists p. split; auto. eapply N.divide_trans; eauto.
  - exists n. split; [|apply N.divide_refl]. split; auto. intros d Hd.
    destruct (N.eq_dec d 1); auto. destruct (N.eq_dec d n); auto. exfalso. apply D.
    destruct (divide_cofactor d n ltac:(lia) Hd) as (e & He & He0 & Hd0).
    exists d. repeat split; auto; [lia|nia].
Qed.

Lemma prime_divides_mul p a b : primeN p -> (p | a * b) -> (p | a) \/ (p | b).
Proof.
  intros [Hp Hd] H. destruct (Hd (N.gcd p a) (N.gcd_divide_l p a)) as [E|E].
  - right. apply N.gauss with a; auto.
  - left. rewrite <- E. apply N.gcd_divide_r.
Qed.

Lemma prime_divides_pow p a k : primeN p -> (p | a ^ k) -> (p | a).
Proof.
  intros Hp. induction k as [|k IH] using N.peano_ind.
  - rewrite N.pow_0_r. intros H. apply N.divide_1_r in H. destruct Hp; lia.
  - rewrite N.pow_succ_r'. intros H. destruct (prime_divides_mul p a (a ^ k) Hp H); auto.
Qed.

Lemma prod_powers_app l1 l2 : prod_powers (l1 ++ l2) = prod_powers l1 * prod_powers l2.
Proof.
  induction l1 as [|[p e] l1 IH]; cbn [app]; [change (prod_powers []) with 1; lia|].
  change (p ^ e * prod_powers (l1 ++ l2) = p ^ e * prod_powers l1 * prod_powers l2). rewrite IH. ring.
Qed.

Lemma sorted_app {A} (R : A -> A -> Prop) l1 l2 : StronglySorted R l1 -> StronglySorted R l2 ->
  (forall a b, In a l1 -> In b l2 -> R a b) -> StronglySorted R (l1 ++ l2).
Proof.
  induction l1 as [|a l1 IH]; intros H1 H2 H; auto. cbn. inversion_clear H1. constructor.
  - apply IH; auto. intros; apply H; simpl; auto.
  - apply Forall_app. split; auto. rewrite Forall_forall. intros b Hb. apply H; simpl; auto.
Qed.

Lemma list_prod_app a b : list_prod (a ++ b) = list_prod a * list_prod b.
Proof.
  induction a as [|x a IH]; cbn [app]; [change (list_prod []) with 1; lia|].
  change (x * list_prod (a ++ b) = x * list_prod a * list_prod b). rewrite IH. ring.
Qed.

Lemma list_prod_repeat x n : list_prod (repeat x n) = x ^ N.of_nat n.
Proof.
  induction n as [|n IH]; [reflexivity|]. rewrite Nnat.Nat2N.inj_succ, N.pow_succ_r'. rewrite <- IH. reflexivity.
Qed.

(** ** Primality *)
Section W.
Variable h : N.
Hypothesis h0 : 0 < h.
Let w := 2 * h.

Lemma is_prime_loop_spec n root : forall fuel i, (N.to_nat (root + 1 - i) <= fuel)%nat -> 2 <= i ->
  is_prime_loop fuel n i root = true <-> (forall d, i <= d -> d <= root -> ~ (d | n)).
Proof.
  induction fuel as [|f IH]; intros i Hf Hi; cbn [is_prime_loop].
  - split; [intros _ d H1 H2; lia|auto].
  - destruct (N.leb_spec i root) as [Hr|Hr]; [|split; [intros _ d H1 H2; lia|auto]].
    destruct (N.eqb_spec (n mod i) 0) as [E|E].
    + split; [discriminate|]. intros H. exfalso. apply (H i); try lia. apply N.mod_divide; lia.
    + rewrite IH by lia. split; intros H d H1 H2.
      * destruct (N.eq_dec d i) as [->|Hd]; [|apply H; lia]. intros X. apply E. apply N.mod_divide; auto; lia.
      * apply H; lia.
Qed.

Theorem is_prime_spec n : 2 <= n -> n < 2 ^ w -> is_prime w n = true <-> primeN n.
Proof.
  intros Hn Hw. unfold is_prime. destruct (N.eqb_spec n 2) as [->|Hn2].
  - split; auto. intros _. apply prime_of_small; [lia|]. intros d H1 H2 _. nia.
  - destruct (sqrt_spec h n h0 Hw) as [S1 S2]. fold w in S1, S2. set (root := sqrt w n) in *.
    rewrite is_prime_loop_spec by lia. split.
    + intros H. apply prime_of_small; [lia|]. intros d H1 H2. apply H; auto.
      destruct (N.le_gt_cases d root); auto. exfalso. nia.
    + intros [_ Hp] d H1 H2 Hd. destruct (Hp d Hd) as [->| ->]; [lia|]. nia.
Qed.

(** Outside the range of the theorem: the function answers [true] on 0 and 1. *)

(** ** Factorisation *)
Lemma strip_spec i : 2 <= i -> forall fuel nb, nb <> 0 -> nb < 2 ^ N.of_nat fuel ->
  let '(occ, nb') := strip fuel nb i in nb = i ^ occ * nb' /\ ~ (i | nb') /\ nb' <> 0 /\ nb' <= nb.
Proof.
  intros Hi. induction fuel as [|f IH]; intros nb H0 Hb.
  - change (2 ^ N.of_nat 0) with 1 in Hb. lia.
  - cbn [strip]. destruct (N.eqb_spec (nb mod i) 0) as [E|E].
    + assert (D : nb = i * (nb / i)) by (rewrite (N.div_mod nb i) at 1 by lia; lia).
      assert (Q0 : nb / i <> 0) by (intros X; rewrite X in D; lia).
      assert (Qb : nb / i < 2 ^ N.of_nat f).
      { rewrite Nnat.Nat2N.inj_succ, N.pow_succ_r' in Hb. nia. }
      specialize (IH _ Q0 Qb). destruct (strip f (nb / i) i) as [occ nb'].
      destruct IH as (A & B & C & D').
      rewrite N.add_1_r, N.pow_succ_r'. split; [|split; [|split]]; auto.
      * rewrite D at 1. rewrite A at 1. lia.
      * nia.
    + rewrite N.pow_0_r. split; [lia|]. split; [|split]; auto; [|lia].
      intros X. apply E. apply N.mod_divide; auto; lia.
Qed.

Lemma sqrt_le_mono a b : a <= b -> b < 2 ^ w -> sqrt w a <= sqrt w b.
Proof.
  intros H Hb. destruct (sqrt_spec h a h0 ltac:(fold w; lia)) as [A1 A2].
  destruct (sqrt_spec h b h0 Hb) as [B1 B2]. fold w in A1, A2, B1, B2.
  destruct (N.le_gt_cases (sqrt w a) (sqrt w b)); auto. exfalso. nia.
Qed.

Lemma prod_powers_divide l p e : In (p, e) l -> 0 < e -> (p | prod_powers l).
Proof.
  induction l as [|[q f] l IH]; intros Hin He; [destruct Hin|].
  cbn [prod_powers fold_right fst snd]. destruct Hin as [Hin|Hin].
  - injection Hin as -> ->. apply N.divide_mul_l.
    replace e with (N.succ (N.pred e)) by lia. rewrite N.pow_succ_r'. apply N.divide_factor_l.
  - apply N.divide_mul_r. apply IH; auto.
Qed.

Lemma factor_loop_spec : forall fuel nb i, nb <> 0 -> nb < 2 ^ w -> 3 <= i ->
  sqrt w nb < N.of_nat fuel + i ->
  (exists k, i = 2 * k + 1) ->
  (forall d, 2 <= d -> (d | nb) -> i <= d) ->
  let '(rest, l) := factor_loop fuel w nb i in
    nb = prod_powers l * rest /\ rest <> 0 /\
    StronglySorted (fun a b => fst a < fst b) l /\
    Forall (fun pe => primeN (fst pe) /\ 0 < snd pe /\ i <= fst pe) l /\
    (rest = 1 \/ primeN rest) /\
    (rest <> 1 -> Forall (fun pe => fst pe < rest) l).
Proof.
  induction fuel as [|f IH]; intros nb i H0 Hw Hi Hs Hodd Hd.
  - cbn [factor_loop]. cbn [prod_powers fold_right].
    destruct (sqrt_spec h nb h0 Hw) as [_ S2]. fold w in S2.
    repeat split; auto; try lia; try solve [constructor].
    destruct (N.eq_dec nb 1) as [|H1]; auto. right. apply prime_of_small; [lia|].
    intros d D1 D2 Dd. specialize (Hd d D1 Dd). nia.
  - cbn [factor_loop]. destruct (sqrt_spec h nb h0 Hw) as [S1 S2]. fold w in S1, S2.
    destruct (N.leb_spec i (sqrt w nb)) as [Hr|Hr].
    + assert (Sf : nb < 2 ^ N.of_nat (N.to_nat (N.size nb))) by (rewrite N2Nat.id; apply N.size_gt).
      pose proof (strip_spec i ltac:(lia) (N.to_nat (N.size nb)) nb H0 Sf) as ST.
      destruct (strip (N.to_nat (N.size nb)) nb i) as [occ nb'].
      destruct ST as (E & Nd & N0 & Nle).
      assert (Dn : (nb' | nb)) by (rewrite E; apply N.divide_factor_r).
      assert (Hd' : forall d, 2 <= d -> (d | nb') -> i + 2 <= d).
      { intros d D1 Dd. pose proof (Hd d D1 (N.divide_trans _ _ _ Dd Dn)) as Hge.
        destruct (N.eq_dec d i) as [->|Dne]; [contradiction|].
        destruct (N.eq_dec d (i + 1)) as [->|Dne2]; [|lia]. exfalso.
        destruct Hodd as [k Hk].
        assert (X : (2 | nb)). { eapply N.divide_trans; [|exact Dn]. eapply N.divide_trans; [|exact Dd]. exists (k + 1). lia. }
        specialize (Hd 2 ltac:(lia) X). lia. }
      specialize (IH nb' (i + 2) N0 ltac:(lia) ltac:(lia)).
      pose proof (sqrt_le_mono nb' nb Nle Hw) as Sm.
      specialize (IH ltac:(lia)).
      assert (Hodd' : exists k, i + 2 = 2 * k + 1) by (destruct Hodd as [k Hk]; exists (k + 1); lia).
      specialize (IH Hodd' Hd').
      destruct (factor_loop f w nb' (i + 2)) as [rest l].
      destruct IH as (P1 & P2 & P3 & P4 & P5 & P6).
      destruct (N.ltb_spec 0 occ) as [Ho|Ho].
      * assert (Hin : (i | nb)).
        { rewrite E. apply N.divide_mul_l. replace occ with (N.succ (N.pred occ)) by lia.
          rewrite N.pow_succ_r'. apply N.divide_factor_l. }
        split; [cbn [prod_powers fold_right fst snd]; fold (prod_powers l); rewrite E, P1; lia|].
        split; auto. split; [|split; [|split]]; auto.
        -- constructor; auto. eapply Forall_impl; [|exact P4]. intros [q e]; cbn. intros (_ & _ & X). lia.
        -- constructor; cbn [fst snd].
           ++ split; [|split; [auto|lia]]. apply prime_of_small; [lia|].
              intros d D1 D2 Dd. pose proof (Hd d D1 (N.divide_trans _ _ _ Dd Hin)). nia.
           ++ eapply Forall_impl; [|exact P4]. intros [q e]; cbn. intros (X & Y & Z). repeat split; auto; try apply X; lia.
        -- intros R1. constructor; [|auto]. cbn [fst].
           assert (i + 2 <= rest); [|lia]. apply Hd'; [lia|]. rewrite P1. apply N.divide_factor_r.
      * assert (occ = 0) by lia. subst occ. rewrite N.pow_0_r, N.mul_1_l in E. subst nb'.
        repeat split; auto.
        eapply Forall_impl; [|exact P4]. intros [q e]; cbn. intros (X & Y & Z). repeat split; auto; try apply X; lia.
    + cbn [prod_powers fold_right]. repeat split; auto; try lia; try solve [constructor].
      destruct (N.eq_dec nb 1) as [|H1]; auto. right. apply prime_of_small; [lia|].
      intros d D1 D2 Dd. specialize (Hd d D1 Dd). nia.
Qed.

Theorem factor_prime_spec nb : nb <> 0 -> nb < 2 ^ w -> exists l, factor_prime w nb = Some l /\ factorisation nb l.
Proof.
  intros H0 Hw. unfold factor_prime. destruct (N.eqb_spec nb 0) as [|_]; [contradiction|].
  assert (Sf : nb < 2 ^ N.of_nat (N.to_nat (N.size nb))) by (rewrite N2Nat.id; apply N.size_gt).
  pose proof (strip_spec 2 ltac:(lia) (N.to_nat (N.size nb)) nb H0 Sf) as ST.
  destruct (strip (N.to_nat (N.size nb)) nb 2) as [occ nb2]. destruct ST as (E & Nd & N0 & Nle).
  assert (Hd : forall d, 2 <= d -> (d | nb2) -> 3 <= d).
  { intros d D1 Dd. destruct (N.eq_dec d 2) as [->|]; [contradiction|lia]. }
  pose proof (factor_loop_spec (N.to_nat (sqrt w nb2)) nb2 3 N0 ltac:(lia) ltac:(lia) ltac:(lia)
    ltac:(exists 1; lia) Hd) as FL.
  destruct (factor_loop (N.to_nat (sqrt w nb2)) w nb2 3) as [rest l].
  destruct FL as (P1 & P2 & P3 & P4 & P5 & P6).
  eexists. split; [reflexivity|].
  assert (R2 : rest = 1 \/ 2 < rest).
  { destruct (N.eq_dec rest 1); auto. right. assert (3 <= rest); [|lia]. apply Hd; [lia|]. rewrite P1. apply N.divide_factor_r. }
  assert (Sl : StronglySorted (fun a b => fst a < fst b) (l ++ (if 2 <? rest then [(rest, 1)] else []))).
  { apply sorted_app; auto.
    - destruct (2 <? rest); repeat constructor.
    - intros a b Ha Hb. destruct (N.ltb_spec 2 rest) as [Hr|Hr]; [|destruct Hb].
      destruct Hb as [<-|[]]. cbn [fst]. specialize (P6 ltac:(lia)). rewrite Forall_forall in P6. apply P6; auto. }
  assert (Fl : Forall (fun pe : N * N => primeN (fst pe) /\ 0 < snd pe /\ 3 <= fst pe) (l ++ (if 2 <? rest then [(rest, 1)] else []))).
  { apply Forall_app. split; auto. destruct (N.ltb_spec 2 rest) as [Hr|Hr]; [|constructor].
    constructor; [|constructor]. cbn. destruct P5 as [|P5]; [lia|]. repeat split; try apply P5; lia. }
  split; [|split].
  - apply sorted_app; auto.
    + destruct (0 <? occ); repeat constructor.
    + intros a b Ha Hb. rewrite Forall_forall in Fl. destruct (Fl b Hb) as (_ & _ & X).
      destruct (0 <? occ); [|destruct Ha]. destruct Ha as [<-|[]]. cbn [fst]. lia.
  - apply Forall_app. split.
    + destruct (N.ltb_spec 0 occ); [|constructor]. constructor; [|constructor]. cbn. split; [|auto].
      apply prime_of_small; [lia|]. intros d A B. nia.
    + eapply Forall_impl; [|exact Fl]. intros a (A & B & _). auto.
  - rewrite !prod_powers_app.
    assert (X1 : prod_powers (if 0 <? occ then [(2, occ)] else []) = 2 ^ occ).
    { destruct (N.ltb_spec 0 occ); cbn [prod_powers fold_right fst snd]; [lia|]. replace occ with 0 by lia. reflexivity. }
    assert (X2 : prod_powers (if 2 <? rest then [(rest, 1)] else []) = rest).
    { destruct (N.ltb_spec 2 rest); cbn [prod_powers fold_right fst snd]; [rewrite N.pow_1_r; lia|lia]. }
    rewrite X1, X2, E, P1. lia.
Qed.

(** The prime divisors are exactly the first components. *)
Lemma factorisation_divisor n l p : factorisation n l -> primeN p -> (p | n) -> In p (map fst l).
Proof.
  intros (_ & F & <-) Hp. induction l as [|[q e] l IH]; cbn [prod_powers fold_right fst snd map].
  - intros H. apply N.divide_1_r in H. destruct Hp; lia.
  - inversion_clear F. intros Hx. destruct (prime_divides_mul _ _ _ Hp Hx) as [D|D].
    + left. apply prime_divides_pow in D; auto. destruct H as [[_ Q] _]. cbn [fst] in Q.
      destruct (Q p D); [destruct Hp; lia|auto].
    + right. auto.
Qed.

(** ** Derived functions *)
Theorem get_prime_factors_spec nb : nb <> 0 -> nb < 2 ^ w ->
  exists l, get_prime_factors w nb = Some l /\ Forall primeN l /\ list_prod l = nb /\ StronglySorted N.le l.
Proof.
  intros H0 Hw. destruct (factor_prime_spec nb H0 Hw) as (fs & E & S & F & P).
  unfold get_prime_factors. rewrite E. eexists. split; [reflexivity|]. subst nb. clear E H0 Hw.
  induction fs as [|[p e] fs IH]; cbn [get_prime_factors_of flat_map fst snd prod_powers fold_right].
  - repeat constructor.
  - inversion_clear F. inversion_clear S. destruct (IH H1 H0) as (A & B & C). cbn [fst snd] in *. split; [|split].
    + apply Forall_app. split; auto. apply Forall_forall. intros x Hx. apply repeat_spec in Hx. subst. apply H.
    + rewrite list_prod_app, list_prod_repeat, N2Nat.id. fold (get_prime_factors_of fs). rewrite B. reflexivity.
    + apply sorted_app; auto.
      * clear. induction (N.to_nat e) as [|n IH]; cbn; constructor; auto. apply Forall_forall. intros x Hx.
        apply repeat_spec in Hx. lia.
      * intros a b Ha Hb. apply repeat_spec in Ha. subst a.
        unfold get_prime_factors_of in Hb. apply in_flat_map in Hb. destruct Hb as ([q f] & Hq & Hb).
        apply repeat_spec in Hb. cbn in Hb. subst b. rewrite Forall_forall in H2. specialize (H2 _ Hq). cbn in H2. lia.
Qed.

Theorem factor_distinct_prime_spec nb : nb <> 0 -> nb < 2 ^ w ->
  exists l, factor_distinct_prime w nb = Some l /\ StronglySorted N.lt l /\ forall p, In p l <-> primeN p /\ (p | nb).
Proof.
  intros H0 Hw. destruct (factor_prime_spec nb H0 Hw) as (fs & E & FF).
  unfold factor_distinct_prime. rewrite E. eexists. split; [reflexivity|].
  pose proof FF as (S & F & P). split.
  - clear - S. induction S; cbn; constructor; auto. apply Forall_map. auto.
  - intros p. split.
    + intros Hin. apply in_map_iff in Hin. destruct Hin as ([q e] & <- & Hin).
      rewrite Forall_forall in F. destruct (F _ Hin) as [A B]. split; auto. rewrite <- P. apply prod_powers_divide with e; auto.
    + intros [Hp Hd]. eapply factorisation_divisor; eauto.
Qed.

Theorem get_proper_divisors_spec nb : nb <> 0 -> nb < 2 ^ w ->
  exists l, get_proper_divisors w nb = Some l /\
    forall d, In d l <-> exists p, primeN p /\ p < nb /\ nb = d * p.
Proof.
  intros H0 Hw. destruct (factor_distinct_prime_spec nb H0 Hw) as (ps & E & S & P).
  unfold get_proper_divisors. rewrite E. eexists. split; [reflexivity|].
  intros d. unfold get_proper_divisors_of. rewrite in_flat_map. split.
  - intros (p & Hp & Hin). apply P in Hp. destruct Hp as [Hp Hd]. destruct (N.ltb_spec p nb) as [Hl|Hl]; [|destruct Hin].
    destruct Hin as [<-|[]]. exists p. split; [auto|]. split; [auto|].
    apply N.mod_divide in Hd; [|destruct Hp; lia]. rewrite (N.div_mod nb p) at 1 by (destruct Hp; lia). lia.
  - intros (p & Hp & Hl & Ed). exists p. split; [apply P; split; auto; exists d; lia|].
    destruct (N.ltb_spec p nb); [|lia]. left. rewrite Ed. apply N.div_mul. destruct Hp; lia.
Qed.

(** Prime powers, pairwise coprime, with product [nb]. *)
Theorem get_coprime_factors_spec nb : nb <> 0 -> nb < 2 ^ w ->
  exists l, get_coprime_factors w nb = Some l /\ list_prod l = nb /\
    Forall (fun q => exists p e, primeN p /\ 0 < e /\ q = p ^ e) l /\
    ForallOrdPairs (fun a b => N.gcd a b = 1) l.
Proof.
  intros H0 Hw. destruct (factor_prime_spec nb H0 Hw) as (fs & E & S & F & P).
  unfold get_coprime_factors. rewrite E. eexists. split; [reflexivity|].
  assert (Eq : map (fun pe => exp w (fst pe) (snd pe)) fs = map (fun pe => fst pe ^ snd pe) fs).
  { apply map_ext_in. intros [p e] Hin. cbn [fst snd]. rewrite exp_spec by (subst w; lia).
    assert (D : (p ^ e | nb)).
    { rewrite <- P. clear - Hin. induction fs as [|[q f] fs IH]; [destruct Hin|]. cbn [prod_powers fold_right fst snd].
      destruct Hin as [Hin|Hin]; [injection Hin as -> ->; apply N.divide_factor_l|apply N.divide_mul_r; auto]. }
    apply N.divide_pos_le in D; [|lia]. apply N.mod_small. lia. }
  rewrite Eq. clear Eq E. subst nb. split; [|split].
  - clear. induction fs as [|[p e] fs IH]; cbn; auto. unfold prod_powers in IH. rewrite <- IH. reflexivity.
  - apply Forall_map. eapply Forall_impl; [|exact F]. intros [p e] [A B]. exists p, e. auto.
  - clear H0 Hw. induction fs as [|[p e] fs IH]; cbn [map fst snd]; constructor.
    + apply Forall_map. inversion_clear S. inversion_clear F. rewrite Forall_forall in *. intros [q f] Hq. cbn [fst snd].
      destruct (N.eq_dec (N.gcd (p ^ e) (q ^ f)) 1) as [|Hne]; auto. exfalso.
      destruct H1 as [Pp _]. cbn [fst] in Pp. destruct (H2 _ Hq) as [Pq _]. cbn [fst] in Pq.
      destruct (prime_divisor (N.gcd (p ^ e) (q ^ f))) as (x & Px & Dx).
      { assert (p ^ e <> 0) by (apply N.pow_nonzero; destruct Pp; lia).
        destruct (N.eq_dec (N.gcd (p ^ e) (q ^ f)) 0) as [E0|]; [apply N.gcd_eq_0_l in E0; lia|lia]. }
      assert (D1 : (x | p)) by (apply prime_divides_pow with e; auto; eapply N.divide_trans; [exact Dx|apply N.gcd_divide_l]).
      assert (D2 : (x | q)) by (apply prime_divides_pow with f; auto; eapply N.divide_trans; [exact Dx|apply N.gcd_divide_r]).
      destruct Pp as [_ Pp], Pq as [_ Pq], Px as [Px _]. specialize (H0 _ Hq). cbn in H0.
      destruct (Pp x D1), (Pq x D2); lia.
    + inversion_clear S. inversion_clear F. auto.
Qed.

(** ** All divisors *)
Lemma divisors_loop_spec n root : forall fuel i, (N.to_nat (root + 1 - i) <= fuel)%nat -> 1 <= i ->
  (forall d, In d (divisors_loop fuel n i root) <-> i <= d <= root /\ (d | n)) /\
  StronglySorted N.lt (divisors_loop fuel n i root).
Proof.
  induction fuel as [|f IH]; intros i Hf Hi; cbn [divisors_loop].
  - split; [|constructor]. intros d. split; [intros []|lia].
  - destruct (N.leb_spec i root) as [Hr|Hr]; [|split; [|constructor]; intros d; split; [intros []|lia]].
    destruct (IH (i + 1) ltac:(lia) ltac:(lia)) as [A B].
    destruct (N.eqb_spec (n mod i) 0) as [E|E].
    + apply N.mod_divide in E; [|lia]. split.
      * intros d. cbn [In]. rewrite A. split.
        -- intros [<-|H]; [split; [lia|auto]|split; [lia|apply H]].
        -- intros [H1 H2]. destruct (N.eq_dec i d); [auto|right; split; [lia|auto]].
      * constructor; auto. rewrite Forall_forall. intros d Hd. apply A in Hd. lia.
    + split; auto. intros d. rewrite A. split; intros [H1 H2]; split; auto; [lia|].
      destruct (N.eq_dec i d) as [->|]; [|lia]. exfalso. apply E. apply N.mod_divide; auto; lia.
Qed.

(** Every divisor occurs; the divisor [sqrt n] of a perfect square occurs twice. *)
Theorem get_all_divisors_spec n : n <> 0 -> n < 2 ^ w -> forall d, In d (get_all_divisors w n) <-> (d | n).
Proof.
  intros H0 Hw d. unfold get_all_divisors. rewrite in_app_iff, <- in_rev, in_map_iff.
  destruct (sqrt_spec h n h0 Hw) as [S1 S2]. fold w in S1, S2.
  destruct (divisors_loop_spec n (sqrt w n) (N.to_nat (sqrt w n)) 1 ltac:(lia) ltac:(lia)) as [A _].
  split.
  - intros [H|(i & <- & H)]; apply A in H; destruct H as [H1 H2]; auto.
    exists i. apply N.mod_divide in H2; [|lia]. rewrite (N.div_mod n i) at 1 by lia. lia.
  - intros Hd. destruct (divide_cofactor d n H0 Hd) as (e & He & He0 & Hd0).
    destruct (N.le_gt_cases d (sqrt w n)).
    + left. apply A. split; [lia|auto].
    + right. exists e. split; [rewrite He; apply N.div_mul; auto|]. apply A. split; [|exists d; lia].
      split; [lia|]. destruct (N.le_gt_cases e (sqrt w n)); auto. exfalso. nia.
Qed.

End W.
