(** Radix2 objects over the prime fields, and the link with modular arithmetic on numbers. *)
Set Warnings "-notation-overridden,-ambiguous-paths".
From Coq Require Import NArith ZArith.
From Coq Require List.
From Verif.Proof Require Import FinF.
From mathcomp Require Import all_ssreflect fingroup ssralg poly zmodp finalg.
From mathcomp Require Import zify.
From Verif.Model Require Import Common Arith Ring Fft2n Radix2.
From Verif.Spec Require Import Primes Modular Dft.
From Verif.Proof Require Import ListP Pres FieldP RootP DftInv Fft2nP Radix2P.
Import GRing.Theory.
Local Open Scope ring_scope.

Notation lnth := List.nth.

Section Nat.
Variable p : N.
Hypothesis pp : primeN p.
Let p1 : (1 < p)%num := proj1 pp.
Notation phi := (phi p).

Lemma phi_pow a e : phi (a ^ e) = phi a ^+ N.to_nat e.
Proof.
elim/N.peano_ind: e => [|e IH]; first by rewrite N.pow_0_r expr0.
by rewrite N.pow_succ_r' phi_mul IH N2Nat.inj_succ exprS.
Qed.

Lemma phi_sum f n : phi (sumN f n) = \sum_(i < n) phi (f i).
Proof.
elim: n => [|n IH]; first by rewrite big_ord0.
by rewrite big_ord_recr /= phi_add IH.
Qed.

Lemma phi_dft w n x j : phi (dft_mod p w n x j) = dft (Fpp p) (phi w) n (fun i => phi (lnth i x 0%num)) j.
Proof.
rewrite /dft_mod phi_mod // phi_sum /dft; apply: eq_bigr => i _.
by rewrite phi_mul phi_pow Nat2N.id mulnC.
Qed.

Lemma dft_mod_lt w n x j : (dft_mod p w n x j < p)%num.
Proof. by apply: N.mod_upper_bound; lia. Qed.

Lemma pow_mod_eq1 x m : (x ^ m mod p = 1)%num <-> phi x ^+ N.to_nat m = 1.
Proof.
rewrite -phi_pow -(phi_mod _ pp); split=> [->|E]; first exact: phi_1.
by apply: (phi_inj _ pp) => //; apply: N.mod_upper_bound; lia.
Qed.

Lemma prim_mod_order x n : (N.to_nat n).-primitive_root (phi x) -> mod_order p x n.
Proof.
move=> Pr; have n0 := prim_order_gt0 Pr; split; first lia.
split; first by apply/pow_mod_eq1; exact: prim_expr_order.
move=> m m0 mn /pow_mod_eq1 E.
have : (N.to_nat n %| N.to_nat m)%N by rewrite (prim_order_dvd Pr) E.
by move/dvdn_leq; lia.
Qed.

Variable h : N.
Hypothesis h0 : (0 < h)%num.
Hypothesis pw : (2 * p <= 2 ^ (2 * h))%num.
Notation G := (prime_ops (2 * h) p).

Lemma prime_fermat a : gvalid G a -> a <> 0%num -> phi a ^+ N.to_nat (g_card G - 1) = 1.
Proof.
move=> Va A0 /=.
have a0 : phi a != 0 by apply: phi_neq0.
have E : phi a ^+ N.to_nat p = phi a.
  have := @expf_card [finFieldType of 'F_(N.to_nat p)] (phi a).
  by rewrite card_Fp //; apply/primeN_prime.
have Ep : N.to_nat p = (N.to_nat (p - 1)).+1 by lia.
have := congr1 (fun n => phi a ^+ n) Ep; rewrite /= E exprSr -{1}(mul1r (phi a)).
by move/(mulIf a0).
Qed.

Lemma prime_root : exists r, [/\ find_primitive_root (2 * h) G = Some r, gvalid G r, r <> 0%num
  & (N.to_nat (p - 1)).-primitive_root (phi r)].
Proof.
by apply: (find_primitive_root_spec (Fpp p) G phi (prime_pres _ _ pp pw) prime_fermat h h0); change (g_card G) with p; lia.
Qed.

Lemma prime_generator r : find_primitive_root (2 * h) G = Some r -> (r < p)%num /\ generator p r.
Proof.
move=> E; have [r' [E' V R0 Pr]] := prime_root; move: E; rewrite E' => -[<-]; split=> // a a0 ap.
have fa := prime_fermat a ap ltac:(lia); rewrite /= in fa.
have [i Hi] := prim_rootP Pr fa; exists (N.of_nat i).
apply: (phi_inj _ pp) => //; first by apply: N.mod_upper_bound; lia.
by rewrite (phi_mod _ pp) phi_pow Nat2N.id Hi.
Qed.

Lemma prime_order x : (x < p)%num -> x <> 0%num -> exists o, get_order (2 * h) G x = Some o /\ mod_order p x o.
Proof.
move=> Vx X0.
have [o [E Pr]] := get_order_spec (Fpp p) G phi (prime_pres _ _ pp pw) prime_fermat h h0 ltac:(change (g_card G) with p; lia) x Vx X0.
by exists o; split=> //; exact: prim_mod_order.
Qed.

Lemma prime_nth_root r n : find_primitive_root (2 * h) G = Some r -> n <> 0%num ->
  (get_nth_root G r n < p)%num /\ mod_order p (get_nth_root G r n) (N.gcd n (p - 1)).
Proof.
move=> E n0; have [r' [E' V R0 Pr]] := prime_root; move: E; rewrite E' => -[<-].
have [A B] := get_nth_root_spec (Fpp p) G phi (prime_pres _ _ pp pw) prime_fermat h h0 ltac:(change (g_card G) with p; lia) r' n V Pr n0.
by split=> //; apply: prim_mod_order.
Qed.

Lemma prime_pnat a : gvalid G a -> phi a = (N.to_nat a)%:R.
Proof. by []. Qed.

(** Objects exist and have the stated properties. *)
Theorem prime_radix2 L dl : (L < 32)%N -> N.divide (2 ^ N.of_nat L) (p - 1) -> (dl <= 2 ^ L)%N ->
  exists r f, [/\ find_primitive_root (2 * h) G = Some r, radix2_new G p r (2 ^ L) dl = Some f,
    radix2_ok (Fpp p) G phi L f, r_data_len f = (if (0 < dl)%N then dl else 2 ^ L)%N
    & r_w f = get_nth_root G r (2 ^ N.of_nat L)].
Proof.
move=> HL Hd Hl; have [r [E V R0 Pr]] := prime_root.
have [f [[E1 E2 E3] E4]] := radix2_new_ok (Fpp p) G phi p (prime_pres _ _ pp pw) prime_fermat h h0 ltac:(change (g_card G) with p; lia)
  erefl prime_pnat r V Pr L dl HL Hd Hl.
by exists r, f.
Qed.

Lemma powN L : N.of_nat (2 ^ L)%N = (2 ^ N.of_nat L)%num.
Proof. by rewrite -powE Nat2N.inj_pow. Qed.

Lemma prime_radix2_ok L dl r f : (L < 32)%N ->
  find_primitive_root (2 * h) G = Some r -> radix2_new G p r (2 ^ L) dl = Some f ->
  [/\ radix2_ok (Fpp p) G phi L f, (dl <= 2 ^ L)%N, r_data_len f = (if (0 < dl)%N then dl else 2 ^ L)%N,
      (r_w f < p)%num & mod_order p (r_w f) (2 ^ N.of_nat L)].
Proof.
move=> HL Er Ef.
have Hl : (dl <= 2 ^ L)%N.
  by move: Ef; rewrite /radix2_new; case: Nat.ltb_spec => //; lia.
have Hd : N.divide (2 ^ N.of_nat L) (p - 1).
  move: Ef; rewrite /radix2_new; case: Nat.ltb_spec => // _; case E: (_ =? _)%num => //= _.
  by move/N.eqb_spec: E; rewrite powN; apply: (proj1 (N.mod_divide _ _ _)); apply: N.pow_nonzero.
have [r' [f' [E1 E2 E3 E4 E5]]] := prime_radix2 L dl HL Hd Hl.
move: Er; rewrite E1 => -[?]; subst r'; move: Ef; rewrite E2 => -[?]; subst f'.
split=> //; first exact: (ro_w _ _ _ _ _ E3).
by apply: prim_mod_order; rewrite -powN Nat2N.id; apply: (ro_prim _ _ _ _ _ E3).
Qed.

(** Reading a result as numbers. *)
Lemma reads_mod L v w x : reads (sym_vec G) (gvalid G) phi (2 ^ L) v (dft (Fpp p) (phi w) (2 ^ L) (fun i => phi (lnth i x 0%num))) ->
  List.length v = (2 ^ L)%N /\ forall j, (j < 2 ^ L)%N -> lnth j v 0%num = dft_mod p w (2 ^ L) x j.
Proof.
move=> [H1 H2]; split=> // j Hj; have [A B] := H2 j Hj.
apply: (phi_inj _ pp) => //; first exact: dft_mod_lt.
by rewrite phi_dft.
Qed.
End Nat.
