(** The code of the objects of rs-fnt does not depend on the type of the elements. *)
Set Warnings "-notation-overridden,-ambiguous-paths".
From Coq Require Import NArith ZArith.
From Coq Require List.
From Verif.Proof Require Import Ceil2P CodeLenP AgreeN.
From mathcomp Require Import all_ssreflect fingroup ssralg poly zmodp finalg.
From mathcomp Require Import zify.
From Verif.Model Require Import Common Arith Ring Fft2n Radix2 Poly Props Fnt.
From Verif.Spec Require Import Primes Modular Dft Code Widths.
From Verif.Proof Require Import ListP Pres PrimeP FieldP RootP DftInv Fft2nP Radix2P PrimeR2 FftFinal Build FntP FntW FntNew FntInst Agree.
Import GRing.Theory.

(** What the constructor needs of the width [2 h]. *)
Definition width_ok (h t root : N) (ws : nat) : Prop :=
  [/\ (0 < h)%num, (2 * (2 ^ t + 1) <= 2 ^ (2 * h))%num, wrap (2 * h) (2 ^ (8 * N.of_nat ws) + 1) = (2 ^ t + 1)%num &
      find_primitive_root (2 * h) (prime_ops (2 * h) (2 ^ t + 1)) = Some root].

Lemma radix2_new_w G p root n dl f : radix2_new G p root n dl = Some f -> r_w f = get_nth_root G root (N.of_nat n).
Proof. by rewrite /radix2_new; case: ifP => // _; case: ifP => // _ [<-]. Qed.

Theorem fnt_new_widths t root h1 sys ws k m : primeN (2 ^ t + 1) -> (t < 32)%num -> (ws < 4)%N -> width_ok h1 t root ws ->
  jacobi 100 (Z.of_N root) (Z.of_N (2 ^ t + 1)) = Some (-1)%Z ->
  (0 < k)%N -> (0 < m)%N -> (N.of_nat (k + m) <= 2 ^ t)%num -> (2 * N.of_nat k <= 2 ^ t)%num ->
  exists cw r n, poly_code sys (2 ^ t + 1) r n k cw /\
  forall h, width_ok h t root ws -> forall B : nat -> Prop,
    (forall nh pkt n r f f2 rpow, B nh -> (0 < pkt)%N -> build_ok (fnt_make nh (2 * h) sys ws k m pkt (prime_ops (2 * h) (2 ^ t + 1)) n r f f2 rpow)) ->
  forall nh pkt, B nh -> (0 < pkt)%N ->
   exists c, [/\ fnt_new nh (2 * h) sys ws k m pkt = Some c, code_spec c cw, c_n c = n &
   [/\ c_sys c = sys, c_ws c = ws, c_k c = k, c_m c = m & c_pkt c = pkt] /\ c_G c = prime_ops (2 * h) (2 ^ t + 1)].
Proof.
move=> pp t31 Hws [h10 pw1 Ew1 Hr1] Hj k0 m0 km k2.
have [n1 [dl1 [l21 [f1 [f21 [L1 [L21 [e1 [[E1 E2 E3 E4 E5] [En1 ok1]]]]]]]]]] := parts h1 t pp h10 t31 pw1 root sys ws k m 1 Hr1 k0 m0 km k2.
move: ok1; set c1 := bare _ _ _ _ _ _ _ _ _ _ _ => ok1.
exists (cw (Fpp (2 ^ t + 1)) (phi (2 ^ t + 1)) (psi t) c1), (r_w (c_fft c1)), (c_n c1); split.
  by apply: (code_poly h1 t pp h10 t31 pw1 k L1 L21 e1 c1 ok1).
move=> h [h0 pw Ew Hr] B HB nh pkt Bn p0.
have [n [dl [l2 [f [f2 [L [L2 [e [[D1 D2 D3 D4 D5] [En ok]]]]]]]]]] := parts h t pp h0 t31 pw root sys ws k m 1 Hr k0 m0 km k2.
move: ok; set c := bare _ _ _ _ _ _ _ _ _ _ _ => ok.
have A := prime_agree (2 * h1) (2 * h) _ pp pw1 pw.
have Q1 : (g_card (prime_ops (2 * h1) (2 ^ t + 1)) <= 2 ^ (2 * h1))%num by cbn [g_card prime_ops]; move: pw1; clear; lia.
have Q2 : (g_card (prime_ops (2 * h1) (2 ^ t + 1)) <= 2 ^ (2 * h))%num by cbn [g_card prime_ops]; move: pw; clear; lia.
have Enn : n1 = n.
  by have := code_len_w _ _ _ _ A h10 h0 Q1 Q2 (N.of_nat (k + m)); cbn [g_card prime_ops]; rewrite E1 D1 => -[].
have Erw : r_w f1 = r_w f.
  rewrite (radix2_new_w _ _ _ _ _ _ E4) (radix2_new_w _ _ _ _ _ _ D4) Enn.
  exact: (proj1 (nth_root_w _ _ A root _ (root_lt _ _ _ A _ Hr1))).
have Ecw0 : cw (Fpp (2 ^ t + 1)) (phi (2 ^ t + 1)) (psi t) c1 = cw (Fpp (2 ^ t + 1)) (phi (2 ^ t + 1)) (psi t) c.
  by rewrite /cw /msg /interp /c1 /c /bare; cbn [c_sys c_k c_fft]; rewrite Erw.
have Ecn : c_n c1 = c_n c by rewrite /c1 /c /bare; cbn [c_n]; rewrite Enn.
rewrite Ecw0 Ecn.
pose c' := fnt_make nh (2 * h) sys ws k m pkt (prime_ops (2 * h) (2 ^ t + 1)) (N.to_nat n) (c_r c) f f2 (c_rpow c).
have [[A1 A2 A3 A4 A5] [[A6 A7 A8 A9] [A10 A11]]] := make_parts nh (2 * h)%num sys ws k m pkt (prime_ops (2 * h) (2 ^ t + 1)) (N.to_nat n) (c_r c) f f2 (c_rpow c).
rewrite -/c' in A1 A2 A3 A4 A5 A6 A7 A8 A9 A10 A11.
have ok' : fnt_ok (Fpp (2 ^ t + 1)) (phi (2 ^ t + 1)) L L2 e c'.
  by case: ok; rewrite /c_h => *; split; rewrite /c_h ?A3 ?A4 ?A6 ?A7 ?A9 ?A10 ?A11.
have Ecw : cw (Fpp (2 ^ t + 1)) (phi (2 ^ t + 1)) (psi t) c = cw (Fpp (2 ^ t + 1)) (phi (2 ^ t + 1)) (psi t) c' by rewrite /cw /msg /interp A1 A3 A9.
exists c'; split.
- rewrite /fnt_new Ew Hr Hj D1 D2 D3 D4 D5.
  case: Nat.leb_spec; first lia.
  move=> _; case: N.leb_spec => //; move: k2; clear; lia.
- rewrite Ecw; apply: (fnt_code_spec _ _ _ L L2 e c' ok').
  + exact: HB.
  + by rewrite A6; exact: psiP.
  + by rewrite A5.
- by rewrite A7.
- by split.
Qed.
