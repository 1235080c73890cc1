(** extended_gcd and inv for __uint128_t. *)
From Coq Require Import NArith ZArith Znumtheory Lia.
From Verif.Model Require Import Common Arith Ring BigInt.
From Verif.Spec Require Import Primes.
From Verif.Proof Require Import EgcdP PrimeP.
Open Scope Z_scope.

(** The last quotient is at least 2: the Bezout coefficient is at most half. *)
Lemma loop_half a b : 0 <= a -> 0 <= b -> forall fuel st st', egcd_inv a b st -> e_r st <> 0 -> e_r st < e_or st ->
  egcd_loop fuel st = Some st' -> 2 * Z.abs (e_os st') <= Z.abs (e_s st').
Proof.
  intros Ha Hb. induction fuel as [|f IH]; intros st st' I Hr Hl E; cbn [egcd_loop] in E; destruct (Z.eqb_spec (e_r st) 0) as [|_]; try lia; [discriminate|].
  pose proof (egcd_inv_step a b st Ha Hb I Hr) as I1. pose proof (ei_r _ _ _ I) as R0. pose proof (ei_or _ _ _ I) as O0.
  destruct (egcd_step_r st O0 ltac:(lia)) as (Q & Er & Eo). destruct (Z.eq_dec (e_r (egcd_step st)) 0) as [Z1|N1].
  - destruct f as [|f]; cbn [egcd_loop] in E; rewrite Z1 in E; cbn in E; injection E as <-;
      (assert (Es : e_s (egcd_step st) = e_os st - Z.quot (e_or st) (e_r st) * e_s st) by reflexivity;
       assert (Eos : e_os (egcd_step st) = e_s st) by reflexivity; rewrite Es, Eos;
       pose proof (ei_sgn1 _ _ _ I) as Sg;
       assert (Q2 : 2 <= Z.quot (e_or st) (e_r st)) by
         (rewrite Z.quot_div_nonneg by lia; rewrite Er in Z1; pose proof (Z.div_mod (e_or st) (e_r st) Hr); nia);
       set (q := Z.quot _ _) in *; set (x := e_os st) in *; set (y := e_s st) in *;
       assert (Ab : Z.abs (x - q * y) = Z.abs x + q * Z.abs y) by (destruct (Z_lt_le_dec y 0); destruct (Z_lt_le_dec x 0); nia); nia).
  - apply (IH (egcd_step st)); auto. rewrite Er, Eo. apply Z.mod_pos_bound. lia.
Qed.

Lemma bezout_half a b st : 0 < a < b -> extended_gcd a b = Some st -> 2 * Z.abs (e_os st) * Z.gcd a b <= b.
Proof.
  intros H E. destruct (extended_gcd_ok a b) as (st0 & E0 & I0 & R0 & G0); try lia. rewrite E in E0. injection E0 as <-.
  pose proof (ei_sum1 _ _ _ I0) as U. rewrite R0, G0, Z.mul_0_r, Z.add_0_r in U.
  unfold extended_gcd, egcd_fuel in E. set (k := Z.to_nat _) in E. replace (2 * k + 1)%nat with (S (2 * k)) in E by lia.
  cbn [egcd_loop] in E. change (e_r (egcd_init a b)) with b in E. destruct (Z.eqb_spec b 0) as [|_]; [lia|].
  pose proof (egcd_inv_init a b ltac:(lia) ltac:(lia)) as I. pose proof (egcd_inv_step a b _ ltac:(lia) ltac:(lia) I ltac:(cbn; lia)) as I1.
  assert (Q : Z.quot a b = 0) by (apply Z.quot_small; lia).
  assert (Er : e_r (egcd_step (egcd_init a b)) = a) by (cbn [egcd_step egcd_init e_r e_or]; rewrite Q; ring).
  assert (Eo : e_or (egcd_step (egcd_init a b)) = b) by reflexivity.
  pose proof (loop_half a b ltac:(lia) ltac:(lia) _ _ _ I1 ltac:(lia) ltac:(lia) E). pose proof (Z.gcd_nonneg a b). nia.
Qed.

(** The loop for __uint128_t is the loop over the integers, modulo [2^128]. *)
Definition M := 2 ^ 128.
Definition low (x : Z) (y : N) : Prop := Z.of_N y = x mod M.
Definition same (st : egcd_state) (bt : big_state) : Prop :=
  low (e_s st) (b_s bt) /\ low (e_os st) (b_os bt) /\ low (e_t st) (b_t bt) /\ low (e_ot st) (b_ot bt) /\
  Z.of_N (b_r bt) = e_r st /\ Z.of_N (b_or bt) = e_or st.

Lemma wrap_Z x : Z.of_N (Common.wrap 128 x) = Z.of_N x mod M.
Proof. unfold Common.wrap. rewrite N2Z.inj_mod. reflexivity. Qed.
Lemma low_lt x y : low x y -> 0 <= Z.of_N y < M.
Proof. intros ->. apply Z.mod_pos_bound. reflexivity. Qed.
Lemma low_sub x y q a b : low x a -> low y b -> low (x - Z.of_N q * y) (big_sub a (big_mul q b)).
Proof.
  unfold low. intros Ea Eb. unfold big_sub, big_mul. rewrite wrap_Z.
  assert (L : (Common.wrap 128 (q * b) < 2 ^ 128)%N) by (unfold Common.wrap; apply N.mod_lt; discriminate).
  replace (Z.of_N (a + 2 ^ 128 - Common.wrap 128 (q * b))) with (Z.of_N a - Z.of_N (Common.wrap 128 (q * b)) + 1 * M)
    by (change M with (Z.of_N (2 ^ 128)); lia).
  rewrite Z.mod_add by discriminate. rewrite wrap_Z, N2Z.inj_mul, Ea, Eb. rewrite Zminus_mod_idemp_r, Zminus_mod_idemp_l.
  rewrite Zminus_mod, Zmult_mod_idemp_r, <- Zminus_mod. reflexivity.
Qed.
Lemma big_step_same st bt : 0 <= e_or st < M -> 0 < e_r st -> same st bt -> same (egcd_step st) (big_step bt).
Proof.
  intros Ho Hr (S1 & S2 & S3 & S4 & S5 & S6). unfold big_step, egcd_step, same, big_div; cbn [e_s e_os e_t e_ot e_r e_or b_s b_os b_t b_ot b_r b_or].
  assert (Eq : Z.quot (e_or st) (e_r st) = Z.of_N (b_or bt / b_r bt)) by (rewrite N2Z.inj_div, S5, S6; apply Z.quot_div_nonneg; lia).
  rewrite Eq. repeat split; auto; try now apply low_sub.
  assert (L : low (e_or st - Z.of_N (b_or bt / b_r bt) * e_r st) (big_sub (b_or bt) (big_mul (b_or bt / b_r bt) (b_r bt)))).
  { set (q := (b_or bt / b_r bt)%N) in *. destruct (Z_lt_le_dec (e_r st) M) as [Lr|Lr].
    - apply low_sub; unfold low; rewrite Z.mod_small; lia.
    - assert (q = 0%N) by (unfold q; apply N.div_small; lia). rewrite H. replace (e_or st - Z.of_N 0 * e_r st) with (e_or st - Z.of_N 0 * 0) by ring.
      change (big_mul 0 (b_r bt)) with (big_mul 0 0). apply low_sub; unfold low; rewrite Z.mod_small; lia. }
  unfold low in L. rewrite L. apply Z.mod_small. rewrite <- Eq, Z.quot_div_nonneg by lia.
  pose proof (Z.div_mod (e_or st) (e_r st) ltac:(lia)). pose proof (Z.mod_pos_bound (e_or st) (e_r st) Hr). pose proof (Z.div_pos (e_or st) (e_r st)). nia.
Qed.
Lemma big_loop_same : forall fuel st bt, 0 <= e_or st < M -> 0 <= e_r st < M -> same st bt ->
  match egcd_loop fuel st, big_loop fuel bt with Some x, Some y => same x y | None, None => True | _, _ => False end.
Proof.
  induction fuel as [|f IH]; intros st bt Ho Hr HS; pose proof HS as (_ & _ & _ & _ & S5 & _); cbn [egcd_loop big_loop];
    destruct (Z.eqb_spec (e_r st) 0) as [E|E]; destruct (N.eqb_spec (b_r bt) 0) as [E'|E']; try lia; auto.
  destruct (egcd_step_r st ltac:(lia) ltac:(lia)) as (_ & Er & Eo).
  apply IH; [rewrite Eo; lia|rewrite Er; pose proof (Z.mod_pos_bound (e_or st) (e_r st) ltac:(lia)); lia|]. apply big_step_same; auto; lia.
Qed.
Lemma big_gcd a b : (a < 2 ^ 128)%N -> (b < 2 ^ 128)%N ->
  exists st bt, extended_gcd (Z.of_N a) (Z.of_N b) = Some st /\ big_extended_gcd a b = Some bt /\ same st bt.
Proof.
  intros Ha Hb. destruct (extended_gcd_ok (Z.of_N a) (Z.of_N b)) as (st & E & _); try lia.
  unfold extended_gcd in E. unfold big_extended_gcd, extended_gcd.
  pose proof (big_loop_same (egcd_fuel (Z.of_N a) (Z.of_N b)) (egcd_init (Z.of_N a) (Z.of_N b)) (Big 0 1 1 0 b a)) as H.
  change M with (Z.of_N (2 ^ 128)) in H. rewrite E in H. destruct (big_loop _ _) as [bt|].
  - exists st, bt. rewrite E. repeat split; apply H; cbn [egcd_init e_r e_or]; try lia; repeat split.
  - exfalso. apply H; cbn [egcd_init e_r e_or]; try lia; repeat split.
Qed.

(** The result of [inv]. *)
Lemma u128_inv_exact p a : primeN p -> (2 < p)%N -> (p < 2 ^ 128)%N -> (0 < a < p)%N ->
  exists c, (c < p)%N /\ ((a * c) mod p = 1)%N /\ u128_inv p a = if (2 * c <? p)%N then c else (2 ^ 128 - (p - c))%N.
Proof.
  intros Pp P2 Hp Ha. destruct (big_gcd a p) as (st & bt & E & Eb & HS); try lia.
  destruct (extended_gcd_ok (Z.of_N a) (Z.of_N p)) as (st0 & E0 & I & _ & G); try lia. rewrite E in E0. injection E0 as <-.
  assert (G1 : Z.gcd (Z.of_N a) (Z.of_N p) = 1).
  { set (g := Z.gcd (Z.of_N a) (Z.of_N p)). assert (g0 : 0 <= g) by apply Z.gcd_nonneg.
    assert (D : forall x, (g | Z.of_N x) -> (Z.to_N g | x)%N).
    { intros x [k Hk]. exists (Z.to_N k). destruct (Z.eq_dec g 0); [subst; nia|]. assert (0 <= k) by nia. nia. }
    destruct (proj2 Pp (Z.to_N g)) as [H|H]; [apply D, Z.gcd_divide_r|lia|].
    assert (Da : (Z.to_N g | a)%N) by (apply D, Z.gcd_divide_l). apply N.divide_pos_le in Da; lia. }
  pose proof (bezout_half (Z.of_N a) (Z.of_N p) st ltac:(lia) E) as Hf. rewrite G1, Z.mul_1_r in Hf.
  assert (Odd : Z.of_N p mod 2 = 1).
  { destruct (Z.eq_dec (Z.of_N p mod 2) 0) as [D|D]; [|pose proof (Z.mod_pos_bound (Z.of_N p) 2); lia].
    apply Z.mod_divide in D; [|lia]. destruct D as [k Hk]. destruct (proj2 Pp 2%N) as [H|H]; [exists (Z.to_N k); lia|lia|lia]. }
  pose proof (ei_bez1 _ _ _ I) as B. rewrite G, G1 in B. set (o := e_os st) in *.
  exists (Z.to_N (if o <? 0 then Z.of_N p + o else o)).
  assert (Hne : 2 * Z.abs o <> Z.of_N p) by (intros H; rewrite <- H, Z.mul_comm, Z.mod_mul in Odd; lia).
  assert (R : 0 <= (if o <? 0 then Z.of_N p + o else o) < Z.of_N p) by (destruct (Z.ltb_spec o 0); lia).
  split; [lia|]. split.
  - apply N2Z.inj. rewrite N2Z.inj_mod, N2Z.inj_mul, Z2N.id by lia. change (Z.of_N 1) with 1. symmetry.
    apply (Z.mod_unique _ _ (if o <? 0 then Z.of_N a - e_ot st else - e_ot st)); [lia|]. destruct (o <? 0); nia.
  - unfold u128_inv. rewrite Eb. unfold big_lt_int. change (Z.to_N (0 mod 2 ^ 128)) with 0%N. destruct (N.ltb_spec (b_os bt) 0); [lia|].
    destruct HS as (_ & S2 & _). fold o in S2. unfold low in S2.
    destruct (N.ltb_spec (2 * Z.to_N (if o <? 0 then Z.of_N p + o else o)) p) as [L|L]; destruct (Z.ltb_spec o 0) as [O|O]; try lia.
    + rewrite Z.mod_small in S2 by (change M with (Z.of_N (2 ^ 128)); lia). lia.
    + rewrite <- (Z.mod_unique o M (-1) (o + M)) in S2; [change M with (Z.of_N (2 ^ 128)) in S2; lia| |ring].
      change M with (Z.of_N (2 ^ 128)). lia.
Qed.

Lemma not_divide_pow2 p k : primeN p -> (2 < p)%N -> ~ (p | 2 ^ k)%N.
Proof.
  intros Pp P2 D. apply (prime_divides_pow _ _ _ Pp) in D. apply N.divide_pos_le in D; lia.
Qed.
Lemma u128_inv_wrong p a c : primeN p -> (2 < p)%N -> (p < 2 ^ 128)%N -> (0 < a < p)%N -> (c < p)%N -> ((a * c) mod p = 1)%N ->
  ((a * (2 ^ 128 - (p - c))) mod p <> 1)%N.
Proof.
  intros Pp P2 Hp Ha Hc E E2. apply (not_divide_pow2 p 128 Pp P2).
  assert (D : (p | a * 2 ^ 128)%N).
  { pose proof (N.div_mod (a * c) p ltac:(lia)) as D1. pose proof (N.div_mod (a * (2 ^ 128 - (p - c))) p ltac:(lia)) as D2. rewrite E in D1. rewrite E2 in D2.
    set (q1 := (a * c / p)%N) in *. set (q2 := (a * (2 ^ 128 - (p - c)) / p)%N) in *. set (T := (2 ^ 128)%N) in *. clearbody T q1 q2.
    assert (K : Z.of_N a * Z.of_N T = (Z.of_N q2 + Z.of_N a - Z.of_N q1) * Z.of_N p).
    { apply (f_equal Z.of_N) in D1, D2. rewrite N2Z.inj_mul in D1, D2. rewrite N2Z.inj_sub, N2Z.inj_sub in D2 by lia. lia. }
    exists (Z.to_N (Z.of_N q2 + Z.of_N a - Z.of_N q1)). apply N2Z.inj. rewrite !N2Z.inj_mul, Z2N.id; [exact K|].
    clear - K Ha Hc Hp. nia. }
  apply (prime_divides_mul _ _ _ Pp) in D. destruct D as [D|D]; auto. apply N.divide_pos_le in D; lia.
Qed.
