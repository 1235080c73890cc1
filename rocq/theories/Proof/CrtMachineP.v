(** extended_gcd and chinese_remainder on the machine: no operation overflows as long as the product of the moduli fits
    the unsigned type. *)
From Coq Require Import List NArith ZArith Bool Znumtheory.
From Verif.Model Require Import Common Arith Header CrtMachine.
From Verif.Spec Require Import Ints.
From Verif.Proof Require Import Tac EgcdP.
Import ListNotations.
Open Scope Z_scope.

Lemma ck_ok dw z : Z.abs z < 2 ^ (dw - 1) -> ck dw z = Ret z.
Proof.
  intros H. unfold ck, fits. destruct (Z.leb_spec (- 2 ^ (dw - 1)) z) as [A|A]; [|exfalso; lia].
  destruct (Z.ltb_spec z (2 ^ (dw - 1))) as [B|B]; [reflexivity|exfalso; lia].
Qed.

Lemma ck_le dw z M : Z.abs z <= M -> M < 2 ^ (dw - 1) -> ck dw z = Ret z.
Proof. intros A B. apply ck_ok. eapply Z.le_lt_trans; eauto. Qed.

Lemma step_ck dw a b st : 0 <= a -> 0 <= b -> Z.max 1 (Z.max a b) < 2 ^ (dw - 1) -> egcd_inv a b st -> e_r st <> 0 ->
  egcd_step_ck dw st = Ret (egcd_step st).
Proof.
  intros Ha Hb HM I Hne. destruct (egcd_products a b st Ha Hb I Hne) as ((P1 & P2) & P3 & P4 & P5 & P6).
  pose proof (egcd_inv_step a b st Ha Hb I Hne) as J. destruct (ei_bnd _ _ _ J) as (B1 & _ & B2 & _ & B3 & _).
  pose proof (ei_r _ _ _ J) as B0. unfold egcd_step_ck. unfold egcd_step in *. cbn [e_s e_t e_r] in *.
  set (q := Z.quot (e_or st) (e_r st)) in *.
  assert (M1 : Z.max 1 a <= Z.max 1 (Z.max a b)) by (clear; lia). assert (M2 : Z.max 1 b <= Z.max 1 (Z.max a b)) by (clear; lia).
  assert (M3 : Z.max a b <= Z.max 1 (Z.max a b)) by (clear; lia).
  set (M := Z.max 1 (Z.max a b)) in *.
  rewrite (ck_le dw q M) by (auto; rewrite Z.abs_eq by exact P1; eauto using Z.le_trans). cbn [bind].
  rewrite (ck_le dw (q * e_r st) M) by (auto; rewrite Z.abs_eq by exact P5; eauto using Z.le_trans). cbn [bind].
  rewrite (ck_le dw (e_or st - q * e_r st) M) by (auto; rewrite Z.abs_eq by exact B0; eauto using Z.le_trans). cbn [bind].
  rewrite (ck_le dw (q * e_s st) M) by (auto; eauto using Z.le_trans). cbn [bind].
  rewrite (ck_le dw (e_os st - q * e_s st) M) by (auto; eauto using Z.le_trans). cbn [bind].
  rewrite (ck_le dw (q * e_t st) M) by (auto; eauto using Z.le_trans). cbn [bind].
  rewrite (ck_le dw (e_ot st - q * e_t st) M) by (auto; eauto using Z.le_trans). reflexivity.
Qed.

Lemma loop_ck dw a b : 0 <= a -> 0 <= b -> Z.max 1 (Z.max a b) < 2 ^ (dw - 1) -> forall fuel st, egcd_inv a b st ->
  egcd_loop_ck fuel dw st = option_map Ret (egcd_loop fuel st).
Proof.
  intros Ha Hb HM. induction fuel as [|f IH]; intros st I; cbn [egcd_loop_ck egcd_loop];
    destruct (Z.eqb_spec (e_r st) 0) as [E|E]; try reflexivity.
  rewrite (step_ck dw a b st Ha Hb HM I E). apply IH. now apply egcd_inv_step.
Qed.

Lemma egcd_ck dw a b : 0 <= a -> 0 <= b -> Z.max 1 (Z.max a b) < 2 ^ (dw - 1) ->
  extended_gcd_ck dw a b = option_map Ret (extended_gcd a b).
Proof. intros Ha Hb HM. apply (loop_ck dw a b Ha Hb HM). now apply egcd_inv_init. Qed.

(** The Bezout coefficient is at most half the modulus. *)
Lemma half_loop a b : 0 <= a -> 0 <= b -> forall fuel st st', egcd_inv a b st -> (e_r st < e_or st \/ e_s st = 0) ->
  (e_r st = 0 -> 2 * Z.abs (e_os st) <= b) -> egcd_loop fuel st = Some st' -> 2 * Z.abs (e_os st') <= b.
Proof.
  intros Ha Hb. induction fuel as [|f IH]; intros st st' I Hor H0 E; cbn [egcd_loop] in E;
    destruct (Z.eqb_spec (e_r st) 0) as [E0|E0]; try discriminate; try (injection E as <-; now apply H0).
  pose proof (ei_r _ _ _ I) as R0. pose proof (ei_or _ _ _ I) as O0.
  destruct (egcd_step_r st O0 ltac:(lia)) as (_ & Er & Eor).
  apply (IH (egcd_step st) st'); [now apply egcd_inv_step| | |exact E].
  - left. rewrite Er, Eor. apply Z.mod_pos_bound. lia.
  - intros _. change (e_os (egcd_step st)) with (e_s st). destruct Hor as [Hor| Hs0]; [|rewrite Hs0; cbn; lia].
    pose proof (ei_sum1 _ _ _ I) as U. pose proof (Z.abs_nonneg (e_s st)). pose proof (Z.abs_nonneg (e_os st)).
    set (x := Z.abs (e_s st)) in *. set (y := Z.abs (e_os st)) in *.
    assert (2 <= e_or st) by lia. assert (0 <= y * e_r st) by (apply Z.mul_nonneg_nonneg; lia). nia.
Qed.

Lemma egcd_half a b st : 0 <= a -> 0 < b -> extended_gcd a b = Some st -> 2 * Z.abs (e_os st) <= b.
Proof.
  intros Ha Hb E. apply (half_loop a b Ha ltac:(lia) (egcd_fuel a b) (egcd_init a b) st); auto.
  - apply egcd_inv_init; lia.
  - cbn. lia.
Qed.

(** ** The three loops *)
Lemma acc_ck dw l : forall acc, 0 < acc -> Forall (fun an : Z * Z => 0 < snd an) l -> acc * zprod l < 2 ^ (dw - 1) ->
  fold_left (fun o an => bind o (fun acc => ck dw (acc * snd an))) l (Ret acc) = Ret (acc * zprod l).
Proof.
  induction l as [|an l IH]; intros acc Ha Hp HM; [cbn; now rewrite Z.mul_1_r|]. inversion_clear Hp as [|? ? H1 H2].
  cbn [fold_left bind]. assert (0 < zprod l).
  { pose proof (crt_acc_pos l 1 ltac:(lia) H2) as X. rewrite crt_acc_mul in X. unfold zprod. lia. }
  change (zprod (an :: l)) with (snd an * zprod l) in *.
  rewrite ck_ok by (rewrite Z.abs_eq by nia; nia). rewrite IH; [f_equal; ring|nia|exact H2|]. rewrite <- Z.mul_assoc. exact HM.
Qed.

Lemma zprod_ge l : Forall (fun an : Z * Z => 0 < snd an) l -> 0 < zprod l /\ forall an, In an l -> snd an <= zprod l.
Proof.
  induction 1 as [|an l H1 H2 (IH1 & IH2)]; [split; [reflexivity|intros ? []]|]. change (zprod (an :: l)) with (snd an * zprod l).
  split; [nia|]. intros x [<-|Hx]; [nia|]. specialize (IH2 x Hx). nia.
Qed.

Definition term (P : Z) (an : Z * Z) (t : Z) : Prop := exists st, extended_gcd (Z.quot P (snd an)) (snd an) = Some st /\
  t = Z.quot P (snd an) * e_os st * fst an.

Lemma arrays_ck dw P l : 0 < P < 2 ^ (dw - 1) -> (forall an, In an l -> 0 < snd an <= P) ->
  exists nm, crt_arrays dw P l = Some (Ret nm) /\
    Forall2 (fun an p => exists st, extended_gcd (Z.quot P (snd an)) (snd an) = Some st /\ p = (Z.quot P (snd an), e_os st)) l nm.
Proof.
  intros HP. induction l as [|an l IH]; intros H; [exists []; split; [reflexivity|constructor]|].
  destruct (H an (or_introl eq_refl)) as (H1 & H2). destruct IH as (nm & E & F); [intros x Hx; apply H; now right|].
  cbn [crt_arrays]. destruct (Z.eqb_spec (snd an) 0) as [Z0|_]; [lia|].
  assert (Q : 0 <= Z.quot P (snd an) <= P).
  { rewrite Z.quot_div_nonneg by lia. split; [apply Z.div_pos; lia|]. apply Z.div_le_upper_bound; nia. }
  destruct (extended_gcd_ok (Z.quot P (snd an)) (snd an) ltac:(lia) ltac:(lia)) as (st & Es & _).
  rewrite egcd_ck by lia. rewrite Es. cbn [option_map]. rewrite E. cbn [option_map bind].
  eexists. split; [reflexivity|]. constructor; [|exact F]. exists st. split; [exact Es|reflexivity].
Qed.

(** A bound of the sum of the terms. *)
Definition weight (l : list (Z * Z)) : Z := fold_right (fun an s => snd an - 1 + s) 0 l.
Lemma weight_prod l : Forall (fun an : Z * Z => 0 < snd an) l -> 0 <= weight l <= zprod l - 1.
Proof.
  induction 1 as [|an l H1 H2 IH]; [cbn; lia|]. change (zprod (an :: l)) with (snd an * zprod l).
  change (weight (an :: l)) with (snd an - 1 + weight l). destruct (zprod_ge l H2). nia.
Qed.

Lemma sum_ck dw P B : P * B < 2 ^ dw -> 0 < P < 2 ^ (dw - 1) -> 1 < dw -> forall l nm x,
  Forall (fun an : Z * Z => 0 < snd an <= P /\ (snd an | P) /\ 0 <= fst an < snd an) l ->
  Forall2 (fun an p => exists st, extended_gcd (Z.quot P (snd an)) (snd an) = Some st /\ p = (Z.quot P (snd an), e_os st)) l nm ->
  2 * Z.abs x + P * weight l <= P * B ->
  exists s, crt_sum P l = Some s /\
  fold_left (fun o p => bind o (fun x =>
      bind (ck dw (fst (snd p) * snd (snd p))) (fun nm =>
      bind (ck dw (nm * fst (fst p))) (fun t => ck dw (x + t))))) (combine l nm) (Ret x) = Ret (x + s).
Proof.
  intros HB HP Hd. assert (E2 : 2 ^ dw = 2 * 2 ^ (dw - 1)).
  { replace dw with (Z.succ (dw - 1)) at 1 by lia. now rewrite Z.pow_succ_r by lia. }
  induction l as [|[a n] l IH]; intros nm x H F W.
  - exists 0. split; [reflexivity|]. inversion F. subst. cbn [combine fold_left]. f_equal. lia.
  - inversion F as [|? p ? nm' (st & Es & Ep) F']; subst. inversion_clear H as [|? ? (H1 & (c & H2) & H3) H']. cbn [fst snd] in *.
    assert (Q : Z.quot P n = c) by (rewrite Z.quot_div_nonneg by lia; rewrite H2; apply Z.div_mul; lia).
    rewrite Q in *. assert (C0 : 0 <= c) by nia.
    pose proof (egcd_half c n st C0 ltac:(lia) Es) as Hh.
    change (weight ((a, n) :: l)) with (n - 1 + weight l) in W.
    assert (WL : 0 <= weight l).
    { apply weight_prod. eapply Forall_impl; [|exact H']. intros q (X & _). lia. }
    assert (T1 : 2 * Z.abs (c * e_os st) <= P).
    { rewrite Z.abs_mul, (Z.abs_eq c) by exact C0. rewrite H2. clear - C0 Hh. set (y := Z.abs (e_os st)) in *. clearbody y. nia. }
    assert (T2 : 2 * Z.abs (c * e_os st * a) <= P * (n - 1)).
    { rewrite Z.abs_mul, (Z.abs_eq a) by (clear - H3; lia). pose proof (Z.abs_nonneg (c * e_os st)) as Y.
      set (y := Z.abs (c * e_os st)) in *. clearbody y. rewrite Z.mul_assoc.
      apply Z.mul_le_mono_nonneg; clear - T1 Y H3; lia. }
    assert (T3 : Z.abs (x + c * e_os st * a) <= Z.abs x + Z.abs (c * e_os st * a)) by apply Z.abs_triangle.
    assert (T4 : 0 <= P * weight l) by (apply Z.mul_nonneg_nonneg; [clear - HP; lia|exact WL]).
    destruct (IH nm' (x + c * e_os st * a) H' F') as (s & Ec & Ef).
    { rewrite Z.mul_add_distr_l in W. clear - W T2 T3. lia. }
    exists (c * e_os st * a + s). cbn [crt_sum]. rewrite Q, Es, Ec. split; [reflexivity|].
    cbn [combine fold_left bind fst snd].
    rewrite (ck_ok dw (c * e_os st)) by (clear - T1 HP; lia). cbn [bind].
    rewrite Z.mul_add_distr_l in W. pose proof (Z.abs_nonneg x) as H.
    rewrite (ck_ok dw (c * e_os st * a)) by (clear - T2 T4 W HB E2 H; lia). cbn [bind].
    rewrite ck_ok by (clear - T2 T3 T4 W HB E2 H; lia). rewrite Ef. f_equal. ring.
Qed.

Theorem crt_machine tw l : 1 < tw -> Forall (fun an : Z * Z => 0 < snd an) l -> Forall (fun an => 0 <= fst an < snd an) l ->
  pairwise_coprime l -> zprod l <= 2 ^ tw ->
  exists x, chinese_remainder l = Some x /\ chinese_remainder_ck tw l = Some (Ret (x mod 2 ^ tw)).
Proof.
  intros Ht Hp Ha PC HM. destruct (zprod_ge l Hp) as (P0 & PG). set (P := zprod l) in *.
  assert (E1 : 2 ^ (2 * tw) = 2 ^ tw * 2 ^ tw) by (rewrite <- Z.pow_add_r by lia; f_equal; lia).
  assert (E2 : 2 ^ (2 * tw - 1) = 2 ^ tw * 2 ^ (tw - 1)) by (rewrite <- Z.pow_add_r by lia; f_equal; lia).
  assert (E3 : 2 <= 2 ^ (tw - 1)) by (change 2 with (2 ^ 1) at 1; apply Z.pow_le_mono_r; lia).
  assert (PB : P < 2 ^ (2 * tw - 1)) by nia.
  destruct (arrays_ck (2 * tw) P l (conj P0 PB)) as (nm & En & Fn).
  { rewrite Forall_forall in Hp. intros an Hi. split; [now apply Hp|now apply PG]. }
  destruct (sum_ck (2 * tw) P (P - 1) ltac:(rewrite E1; nia) (conj P0 PB) ltac:(lia) l nm 0) as (s & Es & Ef).
  { apply Forall_forall. intros [a n] Hi. rewrite Forall_forall in Hp, Ha. pose proof (Hp _ Hi). pose proof (Ha _ Hi). cbn [fst snd] in *.
    split; [split; [assumption|now apply (PG (a, n))]|]. split; [|assumption].
    destruct (zprod_split l a n Hi ltac:(now apply Forall_forall) PC) as (q & Eq & _). exists q. fold P in Eq. lia. }
  { exact Fn. }
  { pose proof (weight_prod l Hp) as Wl. fold P in Wl. cbn [Z.abs]. nia. }
  unfold chinese_remainder, chinese_remainder_ck, crt_acc_ck, crt_acc, crt_sum_ck.
  rewrite (acc_ck (2 * tw) l 1) by (auto; try lia; rewrite Z.mul_1_l; exact PB).
  rewrite crt_acc_mul, !Z.mul_1_l. fold (zprod l). fold P. rewrite Es, En, Ef. cbn [bind]. rewrite Z.add_0_l.
  eexists. split; [reflexivity|]. pose proof (Z.rem_bound_abs s P ltac:(lia)) as Rb. rewrite (Z.abs_eq P) in Rb by lia.
  destruct (Z.ltb_spec (Z.rem s P) 0); [|reflexivity]. rewrite ck_ok by lia. reflexivity.
Qed.
