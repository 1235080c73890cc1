(** The Solovay-Strassen test of arith.h. *)
From Coq Require Import List NArith ZArith Znumtheory Arith Bool Lia ListDec FinFun.
From Verif.Model Require Import Common Arith.
From Verif.Spec Require Import Primes Legendre.
From Verif.Proof Require Import ArithP PrimeP LegP JacP.
Import ListNotations.
Open Scope Z_scope.

(** The congruence that the test checks. *)
Definition liar (ps : list N) (a : Z) : Prop := (zprod ps | a ^ ((zprod ps - 1) / 2) - J a ps).

Lemma legendre_range a p : legendre a p = 0 \/ legendre a p = 1 \/ legendre a p = -1.
Proof. unfold legendre. destruct (_ =? 0); auto. destruct (residueb _ _); auto. Qed.
Lemma J_range a ps : J a ps = 0 \/ J a ps = 1 \/ J a ps = -1.
Proof.
  induction ps as [|p ps IH]; [auto|]. rewrite J_cons. destruct (legendre_range a (Z.of_N p)) as [-> | [-> | ->]], IH as [-> | [-> | ->]]; auto.
Qed.

(** ** The test *)
Lemma test_spec w b fuel a ps : odd_primes ps -> (1 < list_prod ps)%N -> (list_prod ps * list_prod ps <= 2 ^ w)%N ->
  Z.of_N a < 2 ^ Z.of_nat b -> zprod ps < 2 ^ Z.of_nat b -> (2 * b + 2 < fuel)%nat ->
  exists r, solovay_strassen1 fuel w a (list_prod ps) = Some r /\ (r = true <-> liar ps (Z.of_N a)).
Proof.
  intros Hp H1 Hw Ha Hb Hf. unfold solovay_strassen1. change (Z.of_N (list_prod ps)) with (zprod ps). rewrite (jacobi_correct b fuel (Z.of_N a) ps Hp) by (auto; lia).
  eexists. split; [reflexivity|]. rewrite exp_mod_spec by lia. set (n := list_prod ps) in *. set (e := ((n - 1) / 2)%N).
  assert (En : zprod ps = Z.of_N n) by reflexivity.
  assert (Ee : (zprod ps - 1) / 2 = Z.of_N e) by (unfold e; rewrite En, N2Z.inj_div, N2Z.inj_sub by lia; reflexivity).
  unfold liar. rewrite Ee, En. rewrite <- N2Z.inj_pow. set (x := (a ^ e)%N).
  assert (Hm : (x mod n < n)%N) by (apply N.mod_lt; lia).
  assert (W : (n < 2 ^ w)%N) by nia.
  assert (D : forall j, (Z.of_N n | Z.of_N x - j) <-> (Z.of_N n | Z.of_N (x mod n) - j)).
  { intros j. pose proof (N.div_mod x n ltac:(lia)) as Dm. assert (Ex : Z.of_N x = Z.of_N (x / n) * Z.of_N n + Z.of_N (x mod n)) by lia. rewrite Ex. split; intros [c Hc].
    - exists (c - Z.of_N (x / n)). lia.
    - exists (c + Z.of_N (x / n)). lia. }
  rewrite D. clear D. set (y := (x mod n)%N) in *. clearbody y. clearbody x n. rewrite N.eqb_eq.
  replace (2 ^ Z.of_N w) with (Z.of_N (2 ^ w)) by (now rewrite N2Z.inj_pow). unfold Common.wrap. set (Q := (2 ^ w)%N) in *. clearbody Q.
  destruct (J_range (Z.of_N a) ps) as [-> | [-> | ->]]; cbn [Z.ltb Z.compare].
  - rewrite Z.mod_0_l by lia. cbn [Z.to_N]. split; [intros <-; exists 0; lia|]. intros [c Hc]. assert (c = 0) by nia. nia.
  - rewrite Z.mod_small by lia. change (Z.to_N 1) with 1%N. split; [intros <-; exists 0; lia|]. intros [c Hc]. assert (c = 0) by nia. nia.
  - assert (Em : -1 mod Z.of_N Q = Z.of_N Q - 1) by (symmetry; apply (Z.mod_unique _ _ (-1)); lia). rewrite Em.
    rewrite N.mod_small by lia. split; [intros E; exists 1; lia|]. intros [c Hc]. assert (c = 1) by nia. nia.
Qed.

(** ** Primes *)
Section Prime.
Lemma divide_N p a : (Z.of_N p | Z.of_N a) <-> (p | a)%N.
Proof.
  split; intros [c Hc].
  - destruct (N.eq_dec a 0) as [->|Ha]; [exists 0%N; reflexivity|]. exists (Z.to_N c). nia.
  - exists (Z.of_N c). lia.
Qed.
End Prime.

(** ** Composite numbers *)
Lemma prime_gcd q b : primeN q -> ~ (Z.of_N q | b) -> Z.gcd b (Z.of_N q) = 1.
Proof.
  intros Pq Hd. set (g := Z.gcd b (Z.of_N q)). assert (g0 : 0 <= g) by apply Z.gcd_nonneg.
  assert (D : (Z.to_N g | q)%N). { apply divide_N. rewrite Z2N.id by auto. apply Z.gcd_divide_r. }
  destruct (proj2 Pq _ D) as [E|E]; [lia|]. exfalso. apply Hd. replace (Z.of_N q) with g by lia. apply Z.gcd_divide_l.
Qed.
Lemma unit_primes b ps : odd_primes ps -> (forall q, In q ps -> ~ (Z.of_N q | b)) -> Z.gcd b (zprod ps) = 1.
Proof.
  induction 1 as [|p ps [Pp _] Hp IH]; intros H; [apply Z.gcd_1_r|]. rewrite zprod_cons.
  apply Zgcd_1_rel_prime. apply rel_prime_mult; apply Zgcd_1_rel_prime; [apply prime_gcd; auto; apply H; now left|apply IH; intros; apply H; now right].
Qed.
Lemma in_divides q ps : In q ps -> (Z.of_N q | zprod ps).
Proof.
  induction ps as [|p ps IH]; [easy|]. rewrite zprod_cons. intros [->|H]; [apply Z.divide_factor_l|apply Z.divide_mul_r; auto].
Qed.
Lemma prime_not_unit q : primeN q -> ~ (Z.of_N q | 1).
Proof. intros Pq D. pose proof (proj1 Pq). apply Z.divide_pos_le in D; lia. Qed.
Lemma unit_J a ps : odd_primes ps -> Z.gcd a (zprod ps) = 1 -> J a ps * J a ps = 1.
Proof.
  induction 1 as [|p ps [Pp Op] Hp IH]; intros Hg; [reflexivity|]. rewrite zprod_cons in Hg. rewrite J_cons.
  assert (D : ~ (Z.of_N p | a)).
  { intros D. apply (prime_not_unit p Pp). rewrite <- Hg. apply Z.gcd_greatest; auto. apply Z.divide_factor_l. }
  assert (G : Z.gcd a (zprod ps) = 1).
  { apply Zgcd_1_rel_prime. apply rel_prime_sym, (rel_prime_div (Z.of_N p * zprod ps)); [|apply Z.divide_factor_r]. apply rel_prime_sym. now apply Zgcd_1_rel_prime. }
  specialize (IH G). assert (L : legendre a (Z.of_N p) * legendre a (Z.of_N p) = 1).
  { unfold legendre. pose proof (proj1 Pp). destruct (Z.eqb_spec (a mod Z.of_N p) 0) as [E|_]; [exfalso; apply D; apply Z.mod_divide; auto; lia|].
    destruct (residueb _ _); reflexivity. }
  replace (legendre a (Z.of_N p) * J a ps * (legendre a (Z.of_N p) * J a ps)) with (legendre a (Z.of_N p) * legendre a (Z.of_N p) * (J a ps * J a ps)) by ring.
  now rewrite L, IH.
Qed.
Lemma J_same a b ps : odd_primes ps -> (forall q, In q ps -> (Z.of_N q | a - b)) -> J a ps = J b ps.
Proof.
  induction 1 as [|p ps [Pp Op] Hp IH]; intros H; [reflexivity|]. pose proof (proj1 Pp). rewrite !J_cons. f_equal; [|apply IH; intros; apply H; now right].
  apply legendre_mod; auto. destruct (H p (or_introl eq_refl)) as [c Hc]. replace a with (b + c * Z.of_N p) by lia. apply Z.mod_add. lia.
Qed.
Lemma zprod_app l m : zprod (l ++ m) = zprod l * zprod m.
Proof. induction l as [|p l IH]; [change (zprod []) with 1; cbn [app]; lia|]. cbn [app]. rewrite !zprod_cons, IH. ring. Qed.
Lemma pow_1 m x e : (m | x - 1) -> 0 <= e -> (m | x ^ e - 1).
Proof.
  intros D He. pattern e. apply natlike_ind; auto; [rewrite Z.pow_0_r; exists 0; lia|]. intros k Hk [c Hc]. destruct D as [d Hd]. rewrite Z.pow_succ_r by auto.
  exists (x * c + d). nia.
Qed.
Lemma pow_cong m x y e : (m | x - y) -> 0 <= e -> (m | x ^ e - y ^ e).
Proof.
  intros [d Hd] He. pattern e. apply natlike_ind; auto; [rewrite !Z.pow_0_r; exists 0; lia|]. intros k Hk [c Hc]. rewrite !Z.pow_succ_r by auto.
  exists (x * c + d * y ^ k). replace (x * x ^ k - y * y ^ k) with (x * (x ^ k - y ^ k) + (x - y) * y ^ k) by ring. rewrite Hc, Hd. ring.
Qed.
Lemma pow_sq m t e : (m | t * t) -> 0 <= e -> (m | (1 + t) ^ e - (1 + e * t)).
Proof.
  intros [c Hc] He. pattern e. apply natlike_ind; auto; [exists 0; ring|]. intros k Hk [d Hd]. rewrite Z.pow_succ_r by auto.
  exists ((1 + t) * d + k * c). replace ((1 + t) ^ k) with (d * m + (1 + k * t)) by lia. nia.
Qed.

Lemma repeated (l : list N) : ~ NoDup l -> exists a l1 l2 l3, l = l1 ++ a :: l2 ++ a :: l3.
Proof.
  induction l as [|x l IH]; intros H; [destruct H; constructor|]. destruct (in_dec N.eq_dec x l) as [Hx|Hx].
  - apply in_split in Hx. destruct Hx as (l2 & l3 & ->). now exists x, [], l2, l3.
  - destruct IH as (a & l1 & l2 & l3 & ->); [intros ND; apply H; now constructor|]. now exists a, (x :: l1), l2, l3.
Qed.

(** Some unit is not a liar. *)
Lemma witness ps : odd_primes ps -> (1 < length ps)%nat -> exists b, Z.gcd b (zprod ps) = 1 /\ ~ liar ps b.
Proof.
  intros Hp Hl. pose proof (zprod_pos ps Hp) as Hpos. pose proof (zprod_odd ps Hp) as Hodd.
  assert (He : 0 <= (zprod ps - 1) / 2) by (apply Z.div_pos; lia). unfold liar.
  assert (Ee : 2 * ((zprod ps - 1) / 2) = zprod ps - 1).
  { pose proof (Z.div_mod (zprod ps) 2 ltac:(lia)) as Dm. rewrite Hodd in Dm. replace (zprod ps - 1) with ((zprod ps / 2) * 2) by lia. rewrite Z.div_mul by lia. lia. }
  set (e := (zprod ps - 1) / 2) in *. clearbody e.
  destruct (NoDup_dec N.eq_dec ps) as [ND|ND].
  - destruct ps as [|p qs]; [cbn in Hl; lia|]. inversion Hp as [|? ? [Pp Op] Hq]; subst. inversion ND as [|? ? Nin _]; subst.
    destruct (nonresidue p Pp Op) as [g Hg]. rewrite zprod_cons in *.
    assert (G : Z.gcd (Z.of_N p) (zprod qs) = 1).
    { apply unit_primes; auto. intros q Hin D. apply divide_N in D. destruct (proj2 Pp q D) as [->| ->]; [|contradiction].
      unfold odd_primes in Hq. rewrite Forall_forall in Hq. destruct (Hq _ Hin) as [[Q _] _]. lia. }
    apply Zgcd_1_rel_prime in G. apply rel_prime_bezout in G. destruct G as [u v Huv].
    (* b = g mod p, b = 1 mod the rest *)
    set (b := g * (v * zprod qs) + u * Z.of_N p). exists b.
    assert (B1 : (Z.of_N p | b - g)). { exists (u - g * u). unfold b. replace (v * zprod qs) with (1 - u * Z.of_N p) by lia. ring. }
    assert (B2 : (zprod qs | b - 1)). { exists (g * v - v). unfold b. replace (u * Z.of_N p) with (1 - v * zprod qs) by lia. ring. }
    assert (Lb : legendre b (Z.of_N p) = -1).
    { rewrite <- Hg. apply legendre_mod; auto. pose proof (proj1 Pp). destruct B1 as [c Hc]. replace b with (g + c * Z.of_N p) by lia. apply Z.mod_add. lia. }
    split.
    + rewrite <- zprod_cons. apply unit_primes; auto. intros q [<-|Hin] D.
      * unfold legendre in Lb. apply Z.mod_divide in D; [|destruct Pp; lia]. rewrite D in Lb. discriminate.
      * unfold odd_primes in Hq. rewrite Forall_forall in Hq. destruct (Hq _ Hin) as [Q _]. apply (prime_not_unit q Q).
        replace 1 with (b - (b - 1)) by ring. apply Z.divide_sub_r; auto. eapply Z.divide_trans; [apply (in_divides q qs Hin)|exact B2].
    + intros D. rewrite J_cons, Lb in D. assert (J1 : J b qs = 1).
      { rewrite <- (J_1 qs Hq). apply J_same; auto. intros q Hin. eapply Z.divide_trans; [apply (in_divides q qs Hin)|exact B2]. }
      rewrite J1 in D. assert (D2 : (zprod qs | 2)).
      { replace 2 with ((b ^ e - -1 * 1) - (b ^ e - 1)) by ring. apply Z.divide_sub_r.
        - eapply Z.divide_trans; [apply Z.divide_factor_r|exact D].
        - apply pow_1; auto. }
      destruct qs as [|q qs]; [cbn in Hl; lia|]. pose proof (zprod_odd _ Hq) as O2.
      inversion Hq as [|? ? [Pq Oq] Hq']; subst. rewrite zprod_cons in *. pose proof (zprod_pos qs Hq'). pose proof (proj1 Pq).
      apply odd_of in Oq. assert (q3 : 2 < Z.of_N q). { destruct (Z.eq_dec (Z.of_N q) 2) as [E|E]; [rewrite E in Oq; discriminate|lia]. }
      apply Z.divide_pos_le in D2; nia.
  - destruct (repeated ps ND) as (p & l1 & l2 & l3 & E).
    assert (Hin : forall q, In q (l1 ++ l2 ++ l3) -> In q ps).
    { intros q. rewrite E, !in_app_iff. cbn [In]. rewrite in_app_iff. cbn [In]. tauto. }
    set (m := zprod (l1 ++ l2 ++ l3)).
    assert (En : zprod ps = Z.of_N p * (Z.of_N p * m)).
    { rewrite E. unfold m. rewrite !zprod_app, !zprod_cons, !zprod_app, !zprod_cons. ring. }
    assert (Hall : forall q, In q ps -> (Z.of_N q | Z.of_N p * m)).
    { intros q. rewrite E, !in_app_iff. cbn [In]. rewrite in_app_iff. cbn [In]. intros H.
      assert (C : q = p \/ In q (l1 ++ l2 ++ l3)) by (rewrite !in_app_iff; intuition congruence).
      destruct C as [->|C]; [apply Z.divide_factor_l|apply Z.divide_mul_r, in_divides; auto]. }
    assert (Ip : In p ps) by (rewrite E, in_app_iff; right; now left).
    assert (Pr : forall q, In q ps -> primeN q). { intros q Hq. unfold odd_primes in Hp. rewrite Forall_forall in Hp. now apply Hp. }
    pose proof (Pr p Ip) as Pp. pose proof (proj1 Pp) as P1. exists (1 + Z.of_N p * m). split.
    + apply unit_primes; auto. intros q Hq D. apply (prime_not_unit q (Pr q Hq)). replace 1 with ((1 + Z.of_N p * m) - Z.of_N p * m) by ring.
      apply Z.divide_sub_r; auto.
    + intros D. assert (J1 : J (1 + Z.of_N p * m) ps = 1).
      { transitivity (J 1 ps); [|now apply J_1]. apply J_same; auto. intros q Hq. replace (1 + Z.of_N p * m - 1) with (Z.of_N p * m) by ring. auto. }
      rewrite J1 in D.
      assert (D2 : (zprod ps | e * (Z.of_N p * m))).
      { replace (e * (Z.of_N p * m)) with (((1 + Z.of_N p * m) ^ e - 1) - ((1 + Z.of_N p * m) ^ e - (1 + e * (Z.of_N p * m)))) by ring.
        apply Z.divide_sub_r; auto. apply pow_sq; auto. exists m. rewrite En. ring. }
      rewrite En in D2. assert (D3 : (Z.of_N p | e)).
      { destruct D2 as [c Hc]. exists c. assert (0 < m) by nia. nia. }
      apply (prime_not_unit p Pp). replace 1 with (zprod ps - 2 * e) by lia. apply Z.divide_sub_r; [apply in_divides; auto|now apply Z.divide_mul_r].
Qed.

(** Units below [n], and the liars among them. *)
Definition units (n : Z) : list Z := filter (fun a => Z.gcd a n =? 1) (map Z.of_nat (seq 0 (Z.to_nat n))).
Definition liarb (ps : list N) (a : Z) : bool := (a ^ ((zprod ps - 1) / 2) - J a ps) mod zprod ps =? 0.
Lemma liarb_spec ps a : odd_primes ps -> liarb ps a = true <-> liar ps a.
Proof. intros Hp. pose proof (zprod_pos ps Hp). unfold liarb, liar. rewrite Z.eqb_eq. apply Z.mod_divide. lia. Qed.
Lemma units_in a n : 0 < n -> In a (units n) <-> 0 <= a < n /\ Z.gcd a n = 1.
Proof.
  intros Hn. unfold units. rewrite filter_In, in_map_iff, Z.eqb_eq. split.
  - intros [(x & <- & Hx) G]. apply in_seq in Hx. split; [lia|exact G].
  - intros [Ha G]. split; auto. exists (Z.to_nat a). split; [lia|]. apply in_seq. lia.
Qed.
Lemma units_NoDup n : NoDup (units n).
Proof. apply NoDup_filter. apply Injective_map_NoDup; [|apply seq_NoDup]. intros x y. lia. Qed.

Lemma liar_mul ps a b : odd_primes ps -> Z.gcd a (zprod ps) = 1 -> liar ps a -> ~ liar ps b -> ~ liar ps ((a * b) mod zprod ps).
Proof.
  intros Hp Ga La Lb Lab. apply Lb. clear Lb. pose proof (zprod_pos ps Hp) as Hpos. unfold liar in *.
  assert (He : 0 <= (zprod ps - 1) / 2) by (apply Z.div_pos; lia). set (e := (zprod ps - 1) / 2) in *. clearbody e. set (n := zprod ps) in *.
  assert (D0 : (n | (a * b) mod n - a * b)) by (exists (- ((a * b) / n)); pose proof (Z.div_mod (a * b) n ltac:(lia)); lia).
  assert (Jm : J ((a * b) mod n) ps = J a ps * J b ps).
  { rewrite <- J_mul by auto. apply J_same; auto. intros q Hq. eapply Z.divide_trans; [apply in_divides; eauto|exact D0]. }
  assert (Pm : (n | ((a * b) mod n) ^ e - a ^ e * b ^ e)).
  { rewrite <- Z.pow_mul_l. now apply pow_cong. }
  rewrite Jm in Lab. pose proof (unit_J a ps Hp Ga) as U.
  assert (D1 : (n | a ^ e * b ^ e - J a ps * J b ps)).
  { replace (a ^ e * b ^ e - J a ps * J b ps) with ((((a * b) mod n) ^ e - J a ps * J b ps) - (((a * b) mod n) ^ e - a ^ e * b ^ e)) by ring. now apply Z.divide_sub_r. }
  assert (D2 : (n | J a ps * (b ^ e - J b ps))).
  { replace (J a ps * (b ^ e - J b ps)) with ((a ^ e * b ^ e - J a ps * J b ps) - (a ^ e - J a ps) * b ^ e) by ring. apply Z.divide_sub_r; auto. now apply Z.divide_mul_l. }
  replace (b ^ e - J b ps) with (J a ps * (J a ps * (b ^ e - J b ps))) by (rewrite Z.mul_assoc, U; ring). now apply Z.divide_mul_r.
Qed.

Lemma filter_split {A} (f : A -> bool) l : (length (filter f l) + length (filter (fun x => negb (f x)) l) = length l)%nat.
Proof. induction l as [|x l IH]; [reflexivity|]. cbn [filter]. destruct (f x); cbn [negb length]; lia. Qed.
Lemma half_liars ps : odd_primes ps -> (1 < length ps)%nat ->
  (2 * length (filter (liarb ps) (units (zprod ps))) <= length (units (zprod ps)))%nat.
Proof.
  intros Hp Hl. pose proof (zprod_pos ps Hp) as Hpos. destruct (witness ps Hp Hl) as (b & Gb & Lb). set (n := zprod ps) in *.
  set (U := units n). pose proof (filter_split (liarb ps) U) as Hs.
  assert (Hi : (length (filter (liarb ps) U) <= length (filter (fun x => negb (liarb ps x)) U))%nat); [|lia].
  rewrite <- (map_length (fun a => (a * b) mod n)). apply NoDup_incl_length.
  - assert (N1 : NoDup (filter (liarb ps) U)) by (apply NoDup_filter, units_NoDup).
    assert (I1 : forall x, In x (filter (liarb ps) U) -> 0 <= x < n) by (intros x Hx; apply filter_In in Hx; destruct Hx as [Hx _]; apply units_in in Hx; tauto).
    clear Hs. induction N1 as [|x l Hx _ IH]; cbn [map]; constructor; [|apply IH; intros; apply I1; now right].
    rewrite in_map_iff. intros (y & E & Hy). apply Hx. replace x with y; auto.
    assert (D : (n | (y - x) * b)).
    { exists ((y * b) / n - (x * b) / n). pose proof (Z.div_mod (y * b) n ltac:(lia)). pose proof (Z.div_mod (x * b) n ltac:(lia)). lia. }
    rewrite Z.mul_comm in D. apply Gauss in D; [|apply rel_prime_sym; now apply Zgcd_1_rel_prime]. pose proof (I1 x (or_introl eq_refl)). pose proof (I1 y (or_intror Hy)).
    destruct D as [c Hc]. assert (c = 0) by nia. lia.
  - intros y Hy. apply in_map_iff in Hy. destruct Hy as (x & <- & Hx). apply filter_In in Hx. destruct Hx as [Hx Lx]. apply units_in in Hx; auto. destruct Hx as [Rx Gx].
    apply filter_In. split.
    + apply units_in; auto. split; [apply Z.mod_pos_bound; lia|]. rewrite Z.gcd_mod by lia. rewrite Z.gcd_comm.
      apply Zgcd_1_rel_prime. apply rel_prime_sym, rel_prime_mult; apply rel_prime_sym; now apply Zgcd_1_rel_prime.
    + apply negb_true_iff. destruct (liarb ps ((x * b) mod n)) eqn:E; auto. exfalso. apply (liarb_spec ps _ Hp) in E. apply (liarb_spec ps _ Hp) in Lx.
      exact (liar_mul ps x b Hp Gx Lx Lb E).
Qed.

(** ** The statements of Thm/JacobiThm.v *)
Lemma prime_liar p a : primeN p -> N.odd p = true -> liar [p] a.
Proof.
  intros Pp Op. pose proof (proj1 Pp) as P1. unfold liar. rewrite J_cons. replace (legendre a (Z.of_N p) * J a []) with (legendre a (Z.of_N p)) by (change (J a []) with 1; ring).
  rewrite zprod_cons. replace (Z.of_N p * zprod []) with (Z.of_N p) by (change (zprod []) with 1; ring). set (z := Z.of_N p).
  assert (Hr := Z.mod_pos_bound a z ltac:(lia)). pose proof (euler_Z p Pp Op (a mod z) Hr) as E.
  rewrite (legendre_mod p Pp Op (a mod z) a) in E by (apply Z.mod_mod; lia). fold z in E.
  assert (D : (z | a ^ ((z - 1) / 2) - (a mod z) ^ ((z - 1) / 2))).
  { apply pow_cong; [|apply Z.div_pos; lia]. exists (a / z). pose proof (Z.div_mod a z ltac:(lia)). lia. }
  replace (a ^ ((z - 1) / 2) - legendre a z) with ((a ^ ((z - 1) / 2) - (a mod z) ^ ((z - 1) / 2)) + ((a mod z) ^ ((z - 1) / 2) - legendre a z)) by ring.
  apply Z.divide_add_r; auto. apply Z.mod_divide; [lia|]. rewrite Zminus_mod, E, Z.sub_diag. apply Z.mod_0_l. lia.
Qed.

Lemma test_unit w fuel a ps : odd_primes ps -> (1 < list_prod ps)%N -> (list_prod ps * list_prod ps <= 2 ^ w)%N ->
  (a < 2 ^ w)%N -> (2 * N.to_nat w + 2 < fuel)%nat ->
  exists r, solovay_strassen1 fuel w a (list_prod ps) = Some r /\ (r = true <-> liar ps (Z.of_N a)).
Proof.
  intros Hp H1 Hw Ha Hf. assert (E : 2 ^ Z.of_nat (N.to_nat w) = Z.of_N (2 ^ w)) by (rewrite N2Z.inj_pow, N_nat_Z; reflexivity).
  apply (test_spec w (N.to_nat w)); auto; rewrite E; unfold zprod; nia.
Qed.

Lemma loop_accepts w fuel n rnd : forall k i, (forall j, (i <= j < i + k)%nat -> solovay_strassen1 fuel w (rnd j) n = Some true) ->
  solovay_loop k i fuel w n rnd = Some true.
Proof.
  induction k as [|k IH]; intros i H; [reflexivity|]. cbn [solovay_loop]. rewrite H by lia. apply IH. intros j Hj. apply H. lia.
Qed.
Lemma loop_rejects w fuel n rnd : forall k i, (forall j, (i <= j < i + k)%nat -> exists r, solovay_strassen1 fuel w (rnd j) n = Some r) ->
  (exists j, (i <= j < i + k)%nat /\ solovay_strassen1 fuel w (rnd j) n = Some false) -> solovay_loop k i fuel w n rnd = Some false.
Proof.
  induction k as [|k IH]; intros i H (j & Hj & E); [lia|]. cbn [solovay_loop]. destruct (H i ltac:(lia)) as [[|] Er]; rewrite Er; auto.
  apply IH; [intros; apply H; lia|]. exists j. split; auto. assert (j <> i) by (intros ->; congruence). lia.
Qed.

Lemma gcd_ZN a n : (N.gcd a n =? 1)%N = (Z.gcd (Z.of_N a) (Z.of_N n) =? 1).
Proof.
  replace (Z.gcd (Z.of_N a) (Z.of_N n)) with (Z.of_N (N.gcd a n)) by (destruct a, n; reflexivity).
  destruct (Z.eqb_spec (Z.of_N (N.gcd a n)) 1); [apply N.eqb_eq|apply N.eqb_neq]; lia.
Qed.
Lemma unitsN_Z n : map Z.of_N (unitsN n) = units (Z.of_N n).
Proof.
  unfold unitsN, units. rewrite <- N_nat_Z, Nat2Z.id. rewrite N_nat_Z. induction (seq 0 (N.to_nat n)) as [|x l IH]; [reflexivity|]. cbn [map filter].
  rewrite gcd_ZN, nat_N_Z. destruct (_ =? 1); cbn [map]; rewrite IH; [now rewrite nat_N_Z|reflexivity].
Qed.
Lemma filter_map_length {A B} (h : A -> B) (f : A -> bool) (g : B -> bool) l : (forall x, In x l -> f x = g (h x)) ->
  length (filter f l) = length (filter g (map h l)).
Proof.
  induction l as [|x l IH]; intros H; [reflexivity|]. cbn [map filter]. rewrite (H x) by now left.
  destruct (g (h x)); cbn [length]; rewrite IH; auto; intros; apply H; now right.
Qed.
