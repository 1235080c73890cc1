(** The function jacobi of arith.h computes the Jacobi symbol. *)
From Coq Require Import List NArith ZArith Arith Bool Lia.
From Verif.Model Require Import Arith.
From Verif.Spec Require Import Primes Legendre.
From Verif.Proof Require Import ArithP PrimeP LegP.
Import ListNotations.
Open Scope Z_scope.

Definition sgn4 (a b : Z) : Z := if (a mod 4 =? 3) && (b mod 4 =? 3) then -1 else 1.
Definition sgn8 (a : Z) : Z := if (a mod 8 =? 3) || (a mod 8 =? 5) then -1 else 1.
Definition neg4 (a : Z) : Z := if a mod 4 =? 3 then -1 else 1.

Lemma odd_mod4 a : a mod 2 = 1 -> a mod 4 = 1 \/ a mod 4 = 3.
Proof. intros H. pose proof (Z.div_mod a 4). pose proof (Z.div_mod a 2). pose proof (Z.mod_pos_bound a 4). lia. Qed.
Lemma odd_mod8 a : a mod 2 = 1 -> a mod 8 = 1 \/ a mod 8 = 3 \/ a mod 8 = 5 \/ a mod 8 = 7.
Proof. intros H. pose proof (Z.div_mod a 8). pose proof (Z.div_mod a 2). pose proof (Z.mod_pos_bound a 8). lia. Qed.
Lemma odd_mul a b : a mod 2 = 1 -> b mod 2 = 1 -> (a * b) mod 2 = 1.
Proof. intros Ha Hb. now rewrite Z.mul_mod, Ha, Hb by lia. Qed.
Lemma sgn4_mul a b c : b mod 2 = 1 -> c mod 2 = 1 -> sgn4 a (b * c) = sgn4 a b * sgn4 a c.
Proof.
  intros Hb Hc. unfold sgn4. rewrite (Z.mul_mod b c) by lia.
  destruct (odd_mod4 b Hb) as [-> | ->], (odd_mod4 c Hc) as [-> | ->]; destruct (a mod 4 =? 3); reflexivity.
Qed.
Lemma sgn4_sym a b : sgn4 a b = sgn4 b a.
Proof. unfold sgn4. now rewrite andb_comm. Qed.
Lemma sgn4_sq a b : sgn4 a b * sgn4 a b = 1.
Proof. unfold sgn4. now destruct (_ && _). Qed.
Lemma neg4_mul b c : b mod 2 = 1 -> c mod 2 = 1 -> neg4 (b * c) = neg4 b * neg4 c.
Proof.
  intros Hb Hc. unfold neg4. rewrite (Z.mul_mod b c) by lia.
  destruct (odd_mod4 b Hb) as [-> | ->], (odd_mod4 c Hc) as [-> | ->]; reflexivity.
Qed.
Lemma sgn8_mul b c : b mod 2 = 1 -> c mod 2 = 1 -> sgn8 (b * c) = sgn8 b * sgn8 c.
Proof.
  intros Hb Hc. unfold sgn8. rewrite (Z.mul_mod b c) by lia.
  destruct (odd_mod8 b Hb) as [-> | [-> | [-> | ->]]], (odd_mod8 c Hc) as [-> | [-> | [-> | ->]]]; reflexivity.
Qed.

Notation J := jacobi_symbol.
Definition zprod (ps : list N) : Z := Z.of_N (list_prod ps).
Lemma zprod_cons p ps : zprod (p :: ps) = Z.of_N p * zprod ps.
Proof. unfold zprod. cbn [list_prod fold_right]. now rewrite N2Z.inj_mul. Qed.
Lemma J_cons a p ps : J a (p :: ps) = legendre a (Z.of_N p) * J a ps.
Proof. reflexivity. Qed.
Lemma odd_of p : N.odd p = true -> Z.of_N p mod 2 = 1.
Proof. intros H. apply N.odd_spec in H. destruct H as [q ->]. rewrite N2Z.inj_add, N2Z.inj_mul. cbn [Z.of_N]. rewrite Z.add_comm, Z.mul_comm, Z.mod_add by lia. reflexivity. Qed.
Lemma zprod_odd ps : odd_primes ps -> zprod ps mod 2 = 1.
Proof. induction 1 as [|p ps [_ Op] _ IH]; [reflexivity|]. rewrite zprod_cons. apply odd_mul; auto using odd_of. Qed.
Lemma zprod_pos ps : odd_primes ps -> 0 < zprod ps.
Proof. induction 1 as [|p ps [[Hp _] _] _ IH]; [reflexivity|]. rewrite zprod_cons. nia. Qed.

Lemma J_mul a b ps : odd_primes ps -> J (a * b) ps = J a ps * J b ps.
Proof. induction 1 as [|p ps [Pp Op] _ IH]; [reflexivity|]. rewrite !J_cons, IH, legendre_mul by auto. ring. Qed.
Lemma J_1 ps : odd_primes ps -> J 1 ps = 1.
Proof. induction 1 as [|p ps [Pp Op] _ IH]; [reflexivity|]. now rewrite J_cons, IH, legendre_1. Qed.
Lemma J_N1 ps : odd_primes ps -> J (-1) ps = neg4 (zprod ps).
Proof.
  induction 1 as [|p ps [Pp Op] H IH]; [reflexivity|]. rewrite J_cons, IH, legendre_N1 by auto. rewrite zprod_cons, neg4_mul; auto using odd_of, zprod_odd.
Qed.
Lemma J_2 ps : odd_primes ps -> J 2 ps = sgn8 (zprod ps).
Proof.
  induction 1 as [|p ps [Pp Op] H IH]; [reflexivity|]. rewrite J_cons, IH, legendre_2 by auto. rewrite zprod_cons, sgn8_mul; auto using odd_of, zprod_odd.
Qed.
Lemma J_mod a b ps : odd_primes ps -> (a - b) mod zprod ps = 0 -> J a ps = J b ps.
Proof.
  intros H. revert a b. induction H as [|p ps [Pp Op] H IH]; intros a b E; [reflexivity|].
  pose proof (proj1 Pp) as P1. pose proof (zprod_pos ps H) as P2.
  rewrite zprod_cons in E. apply Z.mod_divide in E; [|nia]. destruct E as [c Hc]. rewrite !J_cons. f_equal.
  - apply legendre_mod; auto. replace a with (b + (c * zprod ps) * Z.of_N p) by lia. apply Z.mod_add. lia.
  - apply IH. replace (a - b) with ((c * Z.of_N p) * zprod ps) by lia. apply Z.mod_mul. lia.
Qed.
Lemma J_0 ps : odd_primes ps -> zprod ps <> 1 -> J 0 ps = 0.
Proof. destruct 1 as [|p ps [Pp _] H]; [cbn; intuition|]. intros _. rewrite J_cons. unfold legendre. now rewrite Z.mod_0_l by (destruct Pp; lia). Qed.
Lemma J_recip ps qs : odd_primes ps -> odd_primes qs -> J (zprod qs) ps = sgn4 (zprod ps) (zprod qs) * J (zprod ps) qs.
Proof.
  intros Hp Hq. revert ps Hp. induction Hq as [|q qs [Pq Oq] Hq IH]; intros ps Hp.
  - change (zprod []) with 1. rewrite J_1 by auto. unfold sgn4. rewrite andb_false_r. reflexivity.
  - rewrite zprod_cons, J_mul, IH, J_cons, sgn4_mul by auto using odd_of, zprod_odd.
    assert (E : J (Z.of_N q) ps = sgn4 (zprod ps) (Z.of_N q) * legendre (zprod ps) (Z.of_N q)).
    { clear IH. induction Hp as [|p ps [Pp Op] Hp IHp].
      - change (zprod []) with 1. rewrite legendre_1 by auto. reflexivity.
      - pose proof (legendre_recip p q Pp Pq Op Oq) as R. fold (sgn4 (Z.of_N p) (Z.of_N q)) in R.
        rewrite J_cons, IHp, R, zprod_cons, legendre_mul by auto. rewrite (sgn4_sym (_ * _)), sgn4_mul by auto using odd_of, zprod_odd.
        rewrite (sgn4_sym (Z.of_N q) (Z.of_N p)), (sgn4_sym (Z.of_N q) (zprod ps)). ring. }
    rewrite E. ring.
Qed.

(** ** The loop *)
Lemma primes_of m : 0 < m -> m mod 2 = 1 -> exists qs, odd_primes qs /\ zprod qs = m.
Proof.
  intros Hm Ho.
  assert (X : exists qs, Forall primeN qs /\ list_prod qs = Z.to_N m).
  { remember (Z.to_N m) as n eqn:E. assert (n0 : (0 < n)%N) by lia. clear -n0. induction n as [n IH] using (well_founded_induction N.lt_wf_0).
    destruct (N.eq_dec n 1) as [->|ne]; [exists []; split; [constructor|reflexivity]|].
    destruct (prime_divisor n ltac:(lia)) as (p & Pp & [c Hc]). pose proof (proj1 Pp).
    destruct (IH c) as (qs & H1 & H2); [nia|nia|]. exists (p :: qs). split; [constructor; auto|]. cbn [list_prod fold_right]. fold (list_prod qs). lia. }
  destruct X as (qs & H1 & H2). exists qs. assert (Ez : zprod qs = m) by (unfold zprod; lia). split; [|exact Ez].
  clear H2. revert m Hm Ho Ez. induction H1 as [|p qs Pp H1 IH]; intros m Hm Ho Ez; [constructor|].
  rewrite zprod_cons in Ez. pose proof (proj1 Pp).
  assert (O2 : Z.of_N p mod 2 = 1 /\ zprod qs mod 2 = 1).
  { subst m. rewrite Z.mul_mod in Ho by lia. pose proof (Z.mod_pos_bound (Z.of_N p) 2 ltac:(lia)). pose proof (Z.mod_pos_bound (zprod qs) 2 ltac:(lia)).
    assert (C : (Z.of_N p mod 2 = 0 \/ Z.of_N p mod 2 = 1) /\ (zprod qs mod 2 = 0 \/ zprod qs mod 2 = 1)) by lia.
    destruct C as [[E1|E1] [E2|E2]]; rewrite E1, E2 in Ho; auto; discriminate Ho. }
  constructor; [|apply (IH (zprod qs)); [nia|tauto|reflexivity]]. split; auto.
  destruct (N.odd p) eqn:Eo; auto. exfalso. destruct O2 as [O2 _]. assert (Ev : N.even p = true) by (rewrite <- N.negb_odd, Eo; reflexivity).
  apply N.even_spec in Ev. destruct Ev as [q ->]. rewrite N2Z.inj_mul, Z.mul_comm, Z.mod_mul in O2 by lia. discriminate.
Qed.

Lemma rem_pos a b : 0 <= a -> 0 < b -> Z.rem a b = a mod b.
Proof. intros. apply Z.rem_mod_nonneg; lia. Qed.
Lemma rem2 n : (Z.rem n 2 =? 0) = (n mod 2 =? 0).
Proof.
  destruct (Z.eqb_spec (n mod 2) 0) as [E|E].
  - apply Z.mod_divide in E; [|lia]. destruct E as [c ->]. rewrite Z.rem_mul by lia. reflexivity.
  - apply Z.eqb_neq. intros E'. apply E. apply Z.rem_divide in E'; [|lia]. now apply Z.mod_divide.
Qed.
Lemma even_half n : n mod 2 = 0 -> n = 2 * (Z.quot n 2).
Proof. intros E. apply Z.mod_divide in E; [|lia]. destruct E as [c ->]. rewrite Z.quot_mul by lia. lia. Qed.
Lemma not_even n : n mod 2 <> 0 -> n mod 2 = 1.
Proof. pose proof (Z.mod_pos_bound n 2). lia. Qed.

(** One step. *)
Lemma step_even f n ps jac : odd_primes ps -> zprod ps <> 1 -> n <> 0 -> n mod 2 = 0 ->
  jacobi_loop (S f) n (zprod ps) jac = jacobi_loop f (Z.quot n 2) (zprod ps) (jac * sgn8 (zprod ps)) /\
  J n ps = sgn8 (zprod ps) * J (Z.quot n 2) ps.
Proof.
  intros Hp H1 H0 He. pose proof (zprod_odd ps Hp) as Ho. pose proof (zprod_pos ps Hp) as Hpos. split.
  - cbn [jacobi_loop]. destruct (Z.eqb_spec (zprod ps) 1); [contradiction|]. rewrite !rem2, He, Ho. destruct (Z.eqb_spec n 0); [contradiction|].
    cbn [orb andb Z.eqb]. rewrite !rem_pos by lia. f_equal. unfold sgn8. destruct (_ || _); lia.
  - rewrite (even_half n He) at 1. now rewrite J_mul, J_2.
Qed.
Lemma step_neg f n ps jac : odd_primes ps -> zprod ps <> 1 -> n < 0 -> n mod 2 = 1 ->
  jacobi_loop (S f) n (zprod ps) jac = jacobi_loop f (- n) (zprod ps) (jac * neg4 (zprod ps)) /\
  J n ps = neg4 (zprod ps) * J (- n) ps.
Proof.
  intros Hp H1 H0 He. pose proof (zprod_odd ps Hp) as Ho. pose proof (zprod_pos ps Hp) as Hpos. split.
  - cbn [jacobi_loop]. destruct (Z.eqb_spec (zprod ps) 1); [contradiction|]. rewrite !rem2, He, Ho. destruct (Z.eqb_spec n 0); [lia|].
    cbn [orb andb Z.eqb]. destruct (Z.ltb_spec n 0); [|lia]. rewrite !rem_pos by lia. f_equal. unfold neg4. destruct (_ =? 3); lia.
  - replace n with (-1 * - n) at 1 by lia. now rewrite J_mul, J_N1.
Qed.
Lemma step_swap f n ps jac : odd_primes ps -> zprod ps <> 1 -> 0 < n -> n mod 2 = 1 ->
  exists qs, odd_primes qs /\ zprod qs = n /\
  jacobi_loop (S f) n (zprod ps) jac = jacobi_loop f (zprod ps mod n) (zprod qs) (jac * sgn4 (zprod ps) (zprod qs)) /\
  J n ps = sgn4 (zprod ps) (zprod qs) * J (zprod ps mod n) qs.
Proof.
  intros Hp H1 H0 He. pose proof (zprod_odd ps Hp) as Ho. pose proof (zprod_pos ps Hp) as Hpos.
  destruct (primes_of n H0 He) as (qs & Hq & Eq). exists qs. split; [exact Hq|]. split; [exact Eq|]. split.
  - cbn [jacobi_loop]. destruct (Z.eqb_spec (zprod ps) 1); [contradiction|]. rewrite !rem2, He, Ho. destruct (Z.eqb_spec n 0); [lia|].
    cbn [orb andb Z.eqb]. destruct (Z.ltb_spec n 0); [lia|]. rewrite !rem_pos by lia. rewrite Eq. f_equal. unfold sgn4. rewrite andb_comm. destruct (_ && _); lia.
  - rewrite <- Eq at 1. rewrite J_recip by auto. f_equal. apply J_mod; auto. rewrite Eq. pose proof (Z.div_mod (zprod ps) n ltac:(lia)).
    replace (zprod ps - zprod ps mod n) with ((zprod ps / n) * n) by lia. apply Z.mod_mul. lia.
Qed.

Lemma loop_lt B : forall fuel n ps jac, odd_primes ps -> 0 <= n < zprod ps -> n * zprod ps < 2 ^ Z.of_nat B -> (B < fuel)%nat ->
  jacobi_loop fuel n (zprod ps) jac = Some (jac * J n ps).
Proof.
  induction B as [|B IH]; intros fuel n ps jac Hp Hn Hb Hf; (destruct fuel as [|f]; [lia|]).
  all: destruct (Z.eq_dec (zprod ps) 1) as [E1|N1].
  1,3: assert (E0 : n = 0) by lia; cbn [jacobi_loop]; rewrite E1; cbn [Z.eqb Pos.eqb]; destruct Hp as [|p ps [[Pp _] _] Hp]; [subst; cbn; f_equal; lia|];
    exfalso; rewrite zprod_cons in E1; pose proof (zprod_pos ps Hp); nia.
  all: destruct (Z.eq_dec n 0) as [E0|N0].
  1,3: subst n; cbn [jacobi_loop]; destruct (Z.eqb_spec (zprod ps) 1); [contradiction|]; cbn [Z.eqb orb]; rewrite J_0, Z.mul_0_r by auto; destruct f; reflexivity.
  - change (2 ^ Z.of_nat 0) with 1 in Hb. nia.
  - rewrite Nat2Z.inj_succ, Z.pow_succ_r in Hb by lia.
    destruct (Z.eq_dec (n mod 2) 0) as [He|He].
    + destruct (step_even f n ps jac Hp N1 N0 He) as [-> ->]. pose proof (even_half n He) as Eh. rewrite (IH f); auto; [f_equal; ring|nia|nia|lia].
    + apply not_even in He. destruct (step_swap f n ps jac Hp N1 ltac:(lia) He) as (qs & Hq & Eq & -> & ->).
      pose proof (Z.div_mod (zprod ps) n ltac:(lia)) as D. pose proof (Z.mod_pos_bound (zprod ps) n ltac:(lia)) as D'.
      assert (D1 : 1 <= zprod ps / n) by (apply Z.div_le_lower_bound; lia).
      assert (2 * (zprod ps mod n) < zprod ps) by nia.
      rewrite (IH f); auto; [f_equal; ring|rewrite Eq; lia|rewrite Eq; nia|lia].
Qed.
Lemma one_nil ps : odd_primes ps -> zprod ps = 1 -> ps = [].
Proof. destruct 1 as [|p ps [[Pp _] _] Hp]; [reflexivity|]. intros E. rewrite zprod_cons in E. pose proof (zprod_pos ps Hp). nia. Qed.
Lemma loop_one fuel n jac : jacobi_loop fuel n (zprod []) jac = Some (jac * J n []).
Proof. cbn [jacobi_symbol fold_right]. rewrite Z.mul_1_r. destruct fuel; reflexivity. Qed.
Lemma loop_nonneg B : forall fuel n ps jac, odd_primes ps -> 0 <= n -> n * zprod ps < 2 ^ Z.of_nat B -> (B + 1 < fuel)%nat ->
  jacobi_loop fuel n (zprod ps) jac = Some (jac * J n ps).
Proof.
  induction B as [|B IH]; intros fuel n ps jac Hp Hn Hb Hf.
  all: destruct (Z.lt_ge_cases n (zprod ps)) as [Hl|Hl]; [eapply loop_lt; eauto; lia|].
  all: pose proof (zprod_pos ps Hp) as Hpos.
  - change (2 ^ Z.of_nat 0) with 1 in Hb. nia.
  - destruct (Z.eq_dec (zprod ps) 1) as [E1|N1]; [rewrite (one_nil ps Hp E1); apply loop_one|].
    destruct fuel as [|f]; [lia|]. destruct (Z.eq_dec (n mod 2) 0) as [He|He].
    + rewrite Nat2Z.inj_succ, Z.pow_succ_r in Hb by lia.
      destruct (step_even f n ps jac Hp N1 ltac:(lia) He) as [-> ->]. pose proof (even_half n He) as Eh. rewrite (IH f); auto; [f_equal; ring|nia|nia|lia].
    + apply not_even in He. destruct (step_swap f n ps jac Hp N1 ltac:(lia) He) as (qs & Hq & Eq & -> & ->).
      pose proof (Z.mod_pos_bound (zprod ps) n ltac:(lia)) as D'. assert (zprod ps mod n <= zprod ps) by (apply Z.mod_le; lia).
      rewrite (loop_lt (S B) f); auto; [f_equal; ring|rewrite Eq; lia|rewrite Eq; nia|lia].
Qed.
Lemma loop_all B : forall fuel n ps jac, odd_primes ps -> Z.abs n * zprod ps < 2 ^ Z.of_nat B -> (B + 2 < fuel)%nat ->
  jacobi_loop fuel n (zprod ps) jac = Some (jac * J n ps).
Proof.
  induction B as [|B IH]; intros fuel n ps jac Hp Hb Hf.
  all: destruct (Z.lt_ge_cases n 0) as [Hl|Hl]; [|rewrite Z.abs_eq in Hb by lia; eapply loop_nonneg; eauto; lia].
  all: pose proof (zprod_pos ps Hp) as Hpos.
  - change (2 ^ Z.of_nat 0) with 1 in Hb. nia.
  - destruct (Z.eq_dec (zprod ps) 1) as [E1|N1]; [rewrite (one_nil ps Hp E1); apply loop_one|].
    destruct fuel as [|f]; [lia|]. destruct (Z.eq_dec (n mod 2) 0) as [He|He].
    + rewrite Nat2Z.inj_succ, Z.pow_succ_r in Hb by lia.
      destruct (step_even f n ps jac Hp N1 ltac:(lia) He) as [-> ->]. pose proof (even_half n He) as Eh.
      assert (Ea : Z.abs n = 2 * Z.abs (Z.quot n 2)) by lia. rewrite Ea in Hb. rewrite (IH f); auto; [f_equal; ring|nia|lia].
    + apply not_even in He. destruct (step_neg f n ps jac Hp N1 Hl He) as [-> ->].
      rewrite (loop_nonneg (S B) f); auto; [f_equal; ring|lia|nia|lia].
Qed.

Theorem jacobi_correct b fuel n ps : odd_primes ps -> Z.abs n < 2 ^ Z.of_nat b -> zprod ps < 2 ^ Z.of_nat b -> (2 * b + 2 < fuel)%nat ->
  jacobi fuel n (zprod ps) = Some (J n ps).
Proof.
  intros Hp Hn Hm Hf. unfold jacobi. pose proof (zprod_odd ps Hp) as Ho. pose proof (zprod_pos ps Hp) as Hpos.
  rewrite rem2, Ho. cbn [Z.eqb]. destruct (Z.ltb_spec (zprod ps) 0); [lia|]. rewrite (loop_all (2 * b) fuel); auto; [f_equal; ring|].
  replace (Z.of_nat (2 * b)) with (Z.of_nat b + Z.of_nat b) by lia. rewrite Z.pow_add_r by lia. nia.
Qed.
