(** Extended Euclid, gcd and Chinese remainders (arith.h:275-366, 601-615). *)
From Coq Require Import List NArith ZArith Bool Znumtheory.
From Verif.Model Require Import Common Arith.
From Verif.Spec Require Import Ints.
From Verif.Proof Require Import Tac.
Import ListNotations.
Open Scope Z_scope.

Record egcd_inv (a b : Z) (st : egcd_state) : Prop := EgcdInv {
  ei_or : 0 <= e_or st;
  ei_r : 0 <= e_r st;
  ei_bez1 : a * e_os st + b * e_ot st = e_or st;
  ei_bez2 : a * e_s st + b * e_t st = e_r st;
  ei_sgn1 : e_s st * e_os st <= 0;
  ei_sgn2 : e_t st * e_ot st <= 0;
  ei_sum1 : Z.abs (e_s st) * e_or st + Z.abs (e_os st) * e_r st = b;
  ei_sum2 : Z.abs (e_t st) * e_or st + Z.abs (e_ot st) * e_r st = a;
  ei_gcd : Z.gcd (e_or st) (e_r st) = Z.gcd a b;
  ei_bnd : Z.abs (e_s st) <= Z.max 1 b /\ Z.abs (e_os st) <= Z.max 1 b /\
           Z.abs (e_t st) <= Z.max 1 a /\ Z.abs (e_ot st) <= Z.max 1 a /\
           e_r st <= Z.max a b /\ e_or st <= Z.max a b
}.

Lemma egcd_inv_init a b : 0 <= a -> 0 <= b -> egcd_inv a b (egcd_init a b).
Proof.
  intros Ha Hb. unfold egcd_init. split; cbn [e_or e_r e_os e_ot e_s e_t]; lia.
Qed.

Lemma abs_opp_sum q s os : 0 <= q -> s * os <= 0 -> Z.abs (os - q * s) = Z.abs os + q * Z.abs s.
Proof.
  intros Hq H. destruct (Z.abs_spec s) as [[? ->]|[? ->]], (Z.abs_spec os) as [[? ->]|[? ->]];
  destruct (Z.abs_spec (os - q * s)) as [[? ->]|[? ->]]; nia.
Qed.

Lemma le_of_sum x y z c : 0 <= x -> 0 < y -> 0 <= z -> x * y + z = c -> x <= c.
Proof. nia. Qed.

Lemma egcd_step_r st : 0 <= e_or st -> 0 < e_r st ->
  0 <= Z.quot (e_or st) (e_r st) /\ e_r (egcd_step st) = e_or st mod e_r st /\ e_or (egcd_step st) = e_r st.
Proof.
  intros H1 H2. unfold egcd_step; cbn [e_or e_r].
  rewrite Z.quot_div_nonneg by lia. split; [apply Z.div_pos; lia|].
  split; [|auto]. rewrite Z.mod_eq by lia. lia.
Qed.

Lemma egcd_inv_step a b st : 0 <= a -> 0 <= b -> egcd_inv a b st -> e_r st <> 0 -> egcd_inv a b (egcd_step st).
Proof.
  intros Ha Hb [Hor Hr B1 B2 S1 S2 U1 U2 G Bd] Hne.
  destruct (egcd_step_r st Hor ltac:(lia)) as (Hq & Er & Eor).
  assert (Rb : 0 <= e_r (egcd_step st) < e_r st) by (rewrite Er; apply Z.mod_pos_bound; lia).
  set (q := Z.quot (e_or st) (e_r st)) in *.
  assert (Er' : e_r (egcd_step st) = e_or st - q * e_r st) by reflexivity.
  assert (A1 := abs_opp_sum q (e_s st) (e_os st) Hq S1).
  assert (A2 := abs_opp_sum q (e_t st) (e_ot st) Hq S2).
  assert (Es : e_s (egcd_step st) = e_os st - q * e_s st) by reflexivity.
  assert (Eos : e_os (egcd_step st) = e_s st) by reflexivity.
  assert (Et : e_t (egcd_step st) = e_ot st - q * e_t st) by reflexivity.
  assert (Eot : e_ot (egcd_step st) = e_t st) by reflexivity.
  assert (U1' : Z.abs (e_s (egcd_step st)) * e_or (egcd_step st) + Z.abs (e_os (egcd_step st)) * e_r (egcd_step st) = b).
  { rewrite Es, Eos, A1, Eor, Er', <- U1. ring. }
  assert (U2' : Z.abs (e_t (egcd_step st)) * e_or (egcd_step st) + Z.abs (e_ot (egcd_step st)) * e_r (egcd_step st) = a).
  { rewrite Et, Eot, A2, Eor, Er', <- U2. ring. }
  split; [rewrite Eor; exact Hr|apply Rb| | | | |exact U1'|exact U2'| |].
  - rewrite Eos, Eot, Eor. auto.
  - rewrite Es, Et, Er', <- B1, <- B2. ring.
  - rewrite Es, Eos. pose proof (Z.square_nonneg (e_s st)). pose proof (Z.mul_nonneg_nonneg q _ Hq H).
    replace ((e_os st - q * e_s st) * e_s st) with (e_s st * e_os st - q * (e_s st * e_s st)) by ring. clear - S1 H0. lia.
  - rewrite Et, Eot. pose proof (Z.square_nonneg (e_t st)). pose proof (Z.mul_nonneg_nonneg q _ Hq H).
    replace ((e_ot st - q * e_t st) * e_t st) with (e_t st * e_ot st - q * (e_t st * e_t st)) by ring. clear - S2 H0. lia.
  - rewrite Eor, Er. rewrite Z.gcd_comm. rewrite Z.gcd_mod by lia. rewrite Z.gcd_comm. auto.
  - destruct Bd as (Bs & Bos & Bt & Bot & Brr & Bor).
    assert (P : 0 < e_or (egcd_step st)) by (rewrite Eor; clear - Hr Hne; lia).
    pose proof (le_of_sum _ _ _ _ (Z.abs_nonneg _) P (Z.mul_nonneg_nonneg _ _ (Z.abs_nonneg _) (proj1 Rb)) U1') as Q1.
    pose proof (le_of_sum _ _ _ _ (Z.abs_nonneg _) P (Z.mul_nonneg_nonneg _ _ (Z.abs_nonneg _) (proj1 Rb)) U2') as Q2.
    rewrite Eos, Eot, Eor. clear - Q1 Q2 Bs Bt Rb Brr. set (x := Z.abs _) in *. set (y := Z.abs (e_t (egcd_step st))) in *. repeat split; lia.
Qed.

(** The loop stops within the fuel and keeps the invariant. *)
Lemma egcd_loop_ok a b : 0 <= a -> 0 <= b -> forall k fuel st, egcd_inv a b st ->
  e_r st < 2 ^ Z.of_nat k -> (2 * k + 1 <= fuel)%nat ->
  exists st', egcd_loop fuel st = Some st' /\ egcd_inv a b st' /\ e_r st' = 0.
Proof.
  intros Ha Hb. induction k as [|k IH]; intros fuel st Hi Hr Hf.
  - change (2 ^ Z.of_nat 0) with 1 in Hr. pose proof (ei_r _ _ _ Hi).
    assert (E : e_r st = 0) by lia. destruct fuel as [|f]; [lia|]. cbn [egcd_loop]. rewrite E. cbn. eauto.
  - destruct fuel as [|[|f]]; try lia. cbn [egcd_loop].
    destruct (Z.eqb_spec (e_r st) 0) as [E|E]; [eauto|].
    assert (Hi1 := egcd_inv_step _ _ _ Ha Hb Hi E).
    destruct (egcd_step_r st (ei_or _ _ _ Hi) ltac:(pose proof (ei_r _ _ _ Hi); lia)) as (_ & Er1 & Eor1).
    set (st1 := egcd_step st) in *.
    destruct (Z.eqb_spec (e_r st1) 0) as [E1|E1]; [eauto|].
    assert (Hi2 := egcd_inv_step _ _ _ Ha Hb Hi1 E1).
    destruct (egcd_step_r st1 (ei_or _ _ _ Hi1) ltac:(pose proof (ei_r _ _ _ Hi1); lia)) as (_ & Er2 & Eor2).
    set (st2 := egcd_step st1) in *.
    apply (IH f st2 Hi2); [|lia].
    rewrite Nat2Z.inj_succ, Z.pow_succ_r in Hr by lia.
    pose proof (ei_r _ _ _ Hi). pose proof (ei_r _ _ _ Hi1).
    pose proof (Z.mod_pos_bound (e_or st) (e_r st) ltac:(lia)).
    pose proof (Z.mod_pos_bound (e_or st1) (e_r st1) ltac:(lia)).
    rewrite Eor1 in *. pose proof (Z.div_mod (e_r st) (e_r st1) E1).
    assert (0 < e_r st / e_r st1) by (apply Z.div_str_pos; lia).
    rewrite Er2. nia.
Qed.

Theorem extended_gcd_ok a b : 0 <= a -> 0 <= b ->
  exists st, extended_gcd a b = Some st /\ egcd_inv a b st /\ e_r st = 0 /\ e_or st = Z.gcd a b.
Proof.
  intros Ha Hb. unfold extended_gcd, egcd_fuel.
  destruct (egcd_loop_ok a b Ha Hb (Z.to_nat (Z.log2 (Z.abs b) + 1))
     (2 * Z.to_nat (Z.log2 (Z.abs b) + 1) + 1) (egcd_init a b)) as [st [E [Hi Hr]]].
  - now apply egcd_inv_init.
  - cbn [egcd_init e_r]. rewrite Z.abs_eq by auto. pose proof (Z.log2_nonneg b). rewrite Z2Nat.id by lia.
    destruct (Z.eq_dec b 0) as [->|Hn]; [reflexivity|]. apply Z.log2_spec; lia.
  - lia.
  - exists st. split; [exact E|]. split; [exact Hi|]. split; [exact Hr|].
    rewrite <- (ei_gcd _ _ _ Hi), Hr, Z.gcd_0_r. rewrite Z.abs_eq; auto. apply (ei_or _ _ _ Hi).
Qed.

(** All states met by the loop satisfy the invariant, in particular its bounds. *)
Lemma egcd_inv_iter a b k : 0 <= a -> 0 <= b ->
  (forall i, (i < k)%nat -> e_r (Nat.iter i egcd_step (egcd_init a b)) <> 0) ->
  egcd_inv a b (Nat.iter k egcd_step (egcd_init a b)).
Proof.
  intros Ha Hb. induction k as [|k IH]; intros H; [now apply egcd_inv_init|].
  apply (egcd_inv_step a b (Nat.iter k egcd_step (egcd_init a b)) Ha Hb).
  - apply IH. intros; apply H; lia.
  - apply H; lia.
Qed.

(** ** Greatest common divisor *)
Open Scope N_scope.

Lemma gcd_swap u v : v <> 0 -> N.gcd u v = N.gcd v (u mod v).
Proof. intros H. rewrite (N.gcd_comm v (u mod v)), N.gcd_mod by auto. apply N.gcd_comm. Qed.

Lemma gcd_loop_spec : forall k fuel u v, v <> 0 -> v < 2 ^ N.of_nat k -> (2 * k + 1 <= fuel)%nat ->
  gcd_loop fuel u v = N.gcd u v.
Proof.
  induction k as [|k IH]; intros fuel u v Hv Hk Hf; [change (2 ^ N.of_nat 0) with 1 in Hk; lia|].
  destruct fuel as [|[|f]]; try lia. cbn [gcd_loop].
  assert (Er := gcd_swap u v Hv).
  destruct (N.eqb_spec (u mod v) 0) as [E|E].
  { rewrite Er, E, N.gcd_0_r. reflexivity. }
  assert (Er2 := gcd_swap v (u mod v) E).
  destruct (N.eqb_spec (v mod (u mod v)) 0) as [E2|E2].
  { rewrite Er, Er2, E2, N.gcd_0_r. reflexivity. }
  rewrite IH; [congruence|auto| |lia].
  rewrite Nnat.Nat2N.inj_succ, N.pow_succ_r' in Hk.
  pose proof (N.mod_upper_bound u v Hv). pose proof (N.mod_upper_bound v (u mod v) E).
  pose proof (N.div_mod v (u mod v) E).
  assert (0 < v / (u mod v)) by (apply N.div_str_pos; lia). nia.
Qed.

Theorem gcd_spec u v : gcd u v = N.gcd u v.
Proof.
  unfold gcd. destruct (N.eqb_spec v 0) as [->|Hv]; [now rewrite N.gcd_0_r|].
  destruct (N.eqb_spec u 0) as [->|Hu]; [now rewrite N.gcd_0_l|].
  apply (gcd_loop_spec (N.to_nat (N.size v))); [auto| |lia].
  rewrite N2Nat.id. apply N.size_gt.
Qed.

(** ** Chinese remainders *)
Open Scope Z_scope.

Lemma crt_acc_pos l : forall acc, 0 < acc -> Forall (fun an : Z * Z => 0 < snd an) l -> 0 < fold_left (fun acc (an : Z * Z) => acc * snd an) l acc.
Proof.
  induction l as [|an l IH]; intros acc Ha H; cbn; auto. inversion_clear H. apply IH; auto. nia.
Qed.

Lemma crt_acc_mul l : forall acc, fold_left (fun acc (an : Z * Z) => acc * snd an) l acc = acc * fold_right (fun an p => snd an * p) 1 l.
Proof.
  induction l as [|an l IH]; intros acc; cbn [fold_left fold_right]; [lia|]. rewrite IH. lia.
Qed.

Lemma coprime_zprod n l : Forall (fun bm => Z.gcd n (snd bm) = 1) l -> Z.gcd n (zprod l) = 1.
Proof.
  induction l as [|bm l IH]; intros H; cbn [zprod fold_right].
  - apply Z.gcd_1_r.
  - inversion_clear H. apply Zgcd_1_rel_prime. apply rel_prime_mult.
    + now apply Zgcd_1_rel_prime.
    + apply Zgcd_1_rel_prime. now apply IH.
Qed.

(** Terms of the sum: [N_i * M_i * a_i] is [a_i] modulo [n_i] and 0 modulo the divisors of [N_i]. *)
Lemma crt_term acc a n : 0 < n -> (n | acc) -> 0 < acc -> Z.gcd (acc / n) n = 1 ->
  exists st, extended_gcd (Z.quot acc n) n = Some st /\
    (acc / n * e_os st * a) mod n = a mod n.
Proof.
  intros Hn [c Hc] Ha Hg.
  assert (Eq : acc / n = c) by (rewrite Hc; apply Z.div_mul; lia).
  rewrite Z.quot_div_nonneg by lia. rewrite Eq. rewrite Eq in Hg.
  assert (C0 : 0 <= c) by (clear - Hc Ha Hn; nia).
  destruct (extended_gcd_ok c n C0 ltac:(lia)) as [st [E [Hi [_ Hor]]]].
  exists st. split; auto.
  rewrite Hg in Hor. pose proof (ei_bez1 _ _ _ Hi) as B. rewrite Hor in B.
  replace (c * e_os st * a) with (a + (- e_ot st * a) * n) by (replace a with (a * (c * e_os st + n * e_ot st)) at 1 by (rewrite B; ring); ring). apply Z.mod_add. lia.
Qed.

Lemma crt_sum_spec acc : 0 < acc -> forall l,
  (forall a n, In (a, n) l -> 0 < n /\ (n | acc) /\ Z.gcd (acc / n) n = 1) ->
  exists x, crt_sum acc l = Some x /\
    forall m, 0 < m -> (forall a n, In (a, n) l -> (m | acc / n)) -> (m | x).
Proof.
  intros Ha. induction l as [|[a n] l IH]; intros H.
  - exists 0. split; [reflexivity|]. intros; apply Z.divide_0_r.
  - destruct (H a n (or_introl eq_refl)) as (Hn & Hd & Hg).
    destruct (crt_term acc a n Hn Hd Ha Hg) as [st [E Hm]].
    destruct IH as [x [Ex Hx]]; [intros a1 n1 H1; apply (H a1 n1); right; exact H1|].
    cbn [crt_sum]. rewrite E, Ex. eexists. split; [reflexivity|].
    intros m Hm0 Hdiv. apply Z.divide_add_r; [|apply Hx; [auto|]; intros a1 n1 H1; apply (Hdiv a1 n1); right; exact H1].
    rewrite Z.quot_div_nonneg by lia. rewrite <- Z.mul_assoc. apply Z.divide_mul_l. apply (Hdiv a). left; auto.
Qed.

Lemma crt_sum_mod acc : 0 < acc -> forall l x,
  (forall a n, In (a, n) l -> 0 < n /\ (n | acc) /\ Z.gcd (acc / n) n = 1) -> pairwise_coprime l ->
  (forall a n b m, In (a, n) l -> In (b, m) l -> Z.gcd n m = 1 -> (m | acc / n)) ->
  crt_sum acc l = Some x -> forall a n, In (a, n) l -> x mod n = a mod n.
Proof.
  intros Ha. induction l as [|[a0 n0] l IH]; intros x H PC Hd E a n Hin; [destruct Hin|].
  destruct (H a0 n0 (or_introl eq_refl)) as (Hn0 & Hd0 & Hg0).
  destruct (crt_term acc a0 n0 Hn0 Hd0 Ha Hg0) as [st [Est Hm]].
  destruct PC as [PC1 PC2]. rewrite Forall_forall in PC1.
  destruct (crt_sum_spec acc Ha l) as [y [Ey Hy]]; [intros a1 n1 H1; apply (H a1 n1); right; exact H1|].
  cbn [crt_sum] in E. rewrite Est, Ey in E. injection E as <-.
  rewrite Z.quot_div_nonneg by lia.
  destruct Hin as [Hin|Hin].
  - injection Hin as <- <-.
    destruct (Hy n0 Hn0) as [k Hk].
    { intros b m Hb. apply (Hd b m a0 n0); [right; auto|left; auto|]. rewrite Z.gcd_comm. apply (PC1 (b, m) Hb). }
    rewrite Hk, Z.mod_add by lia. auto.
  - destruct (H a n (or_intror Hin)) as (Hn & _).
    assert (Dv : (n | acc / n0)).
    { apply (Hd a0 n0 a n); [left; auto|right; auto|]. apply (PC1 (a, n) Hin). }
    destruct Dv as [k Hk]. rewrite Hk.
    replace (k * n * e_os st * a0 + y) with (y + (k * e_os st * a0) * n) by ring.
    rewrite Z.mod_add by lia. apply (IH y); auto.
    + intros a1 n1 H1; apply (H a1 n1); right; exact H1.
    + intros a1 n1 b m H1 H2; apply (Hd a1 n1 b m); right; auto.
Qed.

Lemma zprod_split l a n : In (a, n) l -> Forall (fun an : Z * Z => 0 < snd an) l -> pairwise_coprime l ->
  exists q, zprod l = n * q /\ Z.gcd q n = 1 /\ (forall b m, In (b, m) l -> Z.gcd n m = 1 -> (m | q)).
Proof.
  induction l as [|[a0 n0] l IH]; intros Hin Hp PC; [destruct Hin|].
  destruct PC as [PC1 PC2]. inversion_clear Hp as [|? ? Hp0 Hp']. cbn [snd] in *.
  assert (DivP : forall b m, In (b, m) l -> (m | zprod l)).
  { clear. induction l as [|[b0 m0] l IH]; intros b m H; [destruct H|]; destruct H as [H|H]; cbn [zprod fold_right snd].
    - injection H as <- <-. apply Z.divide_factor_l.
    - apply Z.divide_mul_r. apply (IH b m H). }
  destruct Hin as [Hin|Hin].
  - injection Hin as <- <-. exists (zprod l). split; [reflexivity|]. split.
    + rewrite Z.gcd_comm. now apply coprime_zprod.
    + intros b m [Hb|Hb] Hg; [|apply (DivP b m Hb)].
      injection Hb as <- <-. rewrite Z.gcd_diag, Z.abs_eq in Hg by lia. subst. apply Z.divide_1_l.
  - destruct (IH Hin Hp' PC2) as (q & Eq & Hg & Hd).
    rewrite Forall_forall in PC1. pose proof (PC1 _ Hin) as G0. cbn [snd] in G0.
    exists (n0 * q). cbn [zprod fold_right snd]. fold (zprod l). rewrite Eq. split; [ring|]. split.
    + apply Zgcd_1_rel_prime. apply rel_prime_sym, rel_prime_mult; apply Zgcd_1_rel_prime; rewrite Z.gcd_comm; auto.
    + intros b m [Hb|Hb] Hg'.
      * injection Hb as <- <-. apply Z.divide_factor_l.
      * apply Z.divide_mul_r. apply (Hd b m Hb Hg').
Qed.

Theorem chinese_remainder_ok l : Forall (fun an : Z * Z => 0 < snd an) l -> pairwise_coprime l ->
  exists x, chinese_remainder l = Some x /\ 0 <= x < zprod l /\ forall a n, In (a, n) l -> x mod n = a mod n.
Proof.
  intros Hp PC. unfold chinese_remainder, crt_acc.
  rewrite crt_acc_mul, Z.mul_1_l. fold (zprod l).
  assert (Ha : 0 < zprod l).
  { pose proof (crt_acc_pos l 1 ltac:(lia) Hp) as X. rewrite crt_acc_mul in X. unfold zprod. lia. }
  assert (H : forall a n, In (a, n) l -> 0 < n /\ (n | zprod l) /\ Z.gcd (zprod l / n) n = 1).
  { intros a n Hin. destruct (zprod_split l a n Hin Hp PC) as (q & Eq & Hg & _).
    rewrite Forall_forall in Hp. pose proof (Hp _ Hin) as Hn; cbn in Hn.
    split; [auto|]. split; [rewrite Eq; apply Z.divide_factor_l|].
    rewrite Eq. rewrite Z.mul_comm, Z.div_mul by lia. auto. }
  assert (Hd : forall a n b m, In (a, n) l -> In (b, m) l -> Z.gcd n m = 1 -> (m | zprod l / n)).
  { intros a n b m Hin Hb Hg. destruct (zprod_split l a n Hin Hp PC) as (q & Eq & _ & Hq).
    rewrite Forall_forall in Hp. pose proof (Hp _ Hin) as Hn; cbn in Hn.
    rewrite Eq. rewrite Z.mul_comm, Z.div_mul by lia. apply (Hq b m Hb Hg). }
  destruct (crt_sum_spec (zprod l) Ha l H) as [x0 [E0 _]].
  rewrite E0.
  assert (Hm := crt_sum_mod (zprod l) Ha l x0 H PC Hd E0).
  assert (Rm : forall a n, In (a, n) l -> (Z.rem x0 (zprod l)) mod n = a mod n).
  { intros a n Hin. destruct (H a n Hin) as (Hn & [c Hc] & _).
    rewrite <- (Hm a n Hin). rewrite (Z.quot_rem' x0 (zprod l)) at 2.
    rewrite Hc. replace (c * n * Z.quot x0 (c * n) + Z.rem x0 (c * n)) with
      (Z.rem x0 (c * n) + (c * Z.quot x0 (c * n)) * n) by ring. rewrite Z.mod_add by lia. auto. }
  pose proof (Z.rem_bound_abs x0 (zprod l) ltac:(lia)) as Rb. rewrite (Z.abs_eq (zprod l)) in Rb by lia.
  eexists. split; [reflexivity|].
  destruct (Z.ltb_spec (Z.rem x0 (zprod l)) 0).
  - split; [lia|]. intros a n Hin. destruct (H a n Hin) as (Hn & [c Hc] & _).
    rewrite Hc at 1. rewrite Z.add_comm, Z.mod_add by lia. auto.
  - split; [lia|auto].
Qed.

(** Two solutions in the range are equal. *)
Lemma crt_unique l x y : Forall (fun an : Z * Z => 0 < snd an) l -> pairwise_coprime l ->
  0 <= x < zprod l -> 0 <= y < zprod l ->
  (forall a n, In (a, n) l -> x mod n = y mod n) -> x = y.
Proof.
  intros Hp PC Hx Hy H.
  assert (D : (zprod l | x - y)).
  { clear Hx Hy. revert Hp PC H. induction l as [|[a n] l IH]; intros Hp PC H.
    - apply Z.divide_1_l.
    - inversion_clear Hp. destruct PC as [PC1 PC2]. cbn [snd] in *.
      cbn [zprod fold_right snd]. fold (zprod l).
      assert (D1 : (n | x - y)).
      { apply Z.mod_divide; [lia|]. rewrite Zminus_mod, (H a n (or_introl eq_refl)), Z.sub_diag. apply Z.mod_0_l. lia. }
      assert (D2 : (zprod l | x - y)) by (apply IH; auto; intros; apply (H a0); right; auto).
      destruct D1 as [k Hk]. rewrite Hk in *.
      rewrite (Z.mul_comm k n) in *. apply Z.mul_divide_mono_l.
      apply Gauss with n; auto. apply Zgcd_1_rel_prime. rewrite Z.gcd_comm. now apply coprime_zprod. }
  destruct D as [k Hk]. assert (k = 0) by nia. subst. lia.
Qed.

(** The products formed inside one turn of the loop stay within the bounds of the state that follows. *)
Lemma egcd_products a b st : 0 <= a -> 0 <= b -> egcd_inv a b st -> e_r st <> 0 ->
  let q := Z.quot (e_or st) (e_r st) in
  0 <= q <= Z.max a b /\ Z.abs (q * e_s st) <= Z.max 1 b /\ Z.abs (q * e_t st) <= Z.max 1 a /\ 0 <= q * e_r st <= Z.max a b.
Proof.
  intros Ha Hb I Hne q.
  destruct (egcd_step_r st (ei_or _ _ _ I) ltac:(pose proof (ei_r _ _ _ I); lia)) as (Hq & _ & _). fold q in Hq.
  pose proof (egcd_inv_step a b st Ha Hb I Hne) as J.
  pose proof (abs_opp_sum q (e_s st) (e_os st) Hq (ei_sgn1 _ _ _ I)) as A1.
  pose proof (abs_opp_sum q (e_t st) (e_ot st) Hq (ei_sgn2 _ _ _ I)) as A2.
  destruct (ei_bnd _ _ _ J) as (B1 & _ & B2 & _).
  change (e_s (egcd_step st)) with (e_os st - q * e_s st) in B1.
  change (e_t (egcd_step st)) with (e_ot st - q * e_t st) in B2.
  rewrite A1 in B1. rewrite A2 in B2. rewrite !Z.abs_mul, (Z.abs_eq q) by lia.
  pose proof (ei_r _ _ _ I). pose proof (ei_or _ _ _ I). destruct (ei_bnd _ _ _ I) as (_ & _ & _ & _ & _ & O).
  pose proof (ei_r _ _ _ J) as R. change (e_r (egcd_step st)) with (e_or st - q * e_r st) in R.
  pose proof (Z.abs_nonneg (e_os st)). pose proof (Z.abs_nonneg (e_ot st)).
  assert (q <= q * e_r st) by (clear - Hq H Hne; nia).
  clear - B1 B2 Hq H H0 O R H1 H2 H3.
  set (x := q * Z.abs (e_s st)) in *. set (y := q * Z.abs (e_t st)) in *. set (t := q * e_r st) in *.
  repeat split; lia.
Qed.
