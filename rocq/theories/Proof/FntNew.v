(** The constructor of the Fermat-field code makes objects that meet [code_spec]. *)
Set Warnings "-notation-overridden,-ambiguous-paths".
From Coq Require Import NArith ZArith.
From Coq Require List.
From Verif.Proof Require Import Ceil2P CodeLenP.
From mathcomp Require Import all_ssreflect fingroup ssralg poly zmodp finalg.
From mathcomp Require Import zify.
From Verif.Model Require Import Common Arith Ring Fft2n Radix2 Poly Props Fnt.
From Verif.Spec Require Import Primes Modular Dft Code.
From Verif.Proof Require Import ListP Pres PrimeP FieldP RootP DftInv Fft2nP Radix2P PrimeR2 FftFinal Build FntP FntW.
Import GRing.Theory.
Local Open Scope ring_scope.
Notation lnth := List.nth.

Lemma pow2_to_nat e : N.to_nat (2 ^ e) = (2 ^ N.to_nat e)%N.
Proof. by rewrite N2Nat.inj_pow powE. Qed.

Lemma val_Fp_lt q (y : 'F_q) : prime q -> (val y < q)%N.
Proof. move=> Hq; exact: (leq_trans (ltn_ord y) (eq_leq (etrans (Fp_Zcast Hq) (Zp_cast (prime_gt1 Hq))))). Qed.

Section New.
Variables (h : N) (t : N).
Let p := (2 ^ t + 1)%num.
Hypothesis pp : primeN p.
Hypothesis h0 : (0 < h)%num.
Hypothesis t31 : (t < 32)%num.
Hypothesis pw : (2 * p <= 2 ^ (2 * h))%num.
Let G := prime_ops (2 * h) p.
Let P := prime_pres (2 * h) p pp pw.

Lemma make_parts nh w' sys ws k m pkt G' n r f f2 rpow : let c := fnt_make nh w' sys ws k m pkt G' n r f f2 rpow in
  [/\ c_sys c = sys, c_ws c = ws, c_k c = k, c_m c = m & c_pkt c = pkt] /\
  [/\ c_G c = G', c_n c = n, c_r c = r & c_fft c = f] /\ c_fft2k c = f2 /\ c_rpow c = rpow.
Proof. by rewrite /fnt_make; case: nh => [|nh]; [|case: Simd.simd_size => [e|]]. Qed.

(** The part of the object that the proofs of correctness are about. *)
Definition bare sys ws k m pkt G' n r f f2 rpow : fnt :=
  mkFnt sys ws k m pkt G' n r f f2 rpow (plain (sym_pkt G' pkt)) (map2 (g_mul G')) plain_post.

Definition psi (y : Fpp p) : N := N.of_nat (val y).

Lemma psiP y : gvalid G (psi y) /\ phi p (psi y) = y.
Proof.
split; last by rewrite /phi /psi Nat2N.id natr_Zp.
have p1 : (1 < p)%num by case: pp.
rewrite /gvalid /psi; change (g_card G) with p.
have := val_Fp_lt (N.to_nat p) y (proj1 (primeN_prime p) pp).
by move: (val _) => a; lia.
Qed.

Section Obj.
Variables (root : N) (sys : bool) (ws k m pkt : nat).
Hypothesis Hroot : find_primitive_root (2 * h) G = Some root.
Hypothesis k0 : (0 < k)%N.
Hypothesis m0 : (0 < m)%N.
Hypothesis km : (N.of_nat (k + m) <= 2 ^ t)%num.
Hypothesis k2 : (2 * N.of_nat k <= 2 ^ t)%num.

Lemma parts : exists n dl l2 f f2 L L2 e,
  [/\ ring_code_len_high_compo (2 * h) p (N.of_nat (k + m)) = Some n, ceil2 (N.of_nat k) = Some dl,
      ring_code_len_high_compo (2 * h) p (2 * N.of_nat k) = Some l2,
      radix2_new G p root (N.to_nat n) (N.to_nat dl) = Some f & radix2_new G p root (N.to_nat l2) (N.to_nat l2) = Some f2]
  /\ N.to_nat n = (2 ^ L)%N /\
  fnt_ok (Fpp p) (phi p) L L2 e (bare sys ws k m pkt G (N.to_nat n) (get_nth_root G root n) f f2
                          (List.map (fun i => g_exp G (get_nth_root G root n) (N.of_nat i)) (List.seq 0 (N.to_nat n)))).
Proof.
have p1 : (1 < p)%num by case: pp.
have [e1 [A1 [A2 [A3 A4]]]] := ring_code_len_pow2 h p t (N.of_nat (k + m)) h0 ltac:(lia) erefl ltac:(lia) km.
have [e2 [B1 [B2 [B3 B4]]]] := ring_code_len_pow2 h p t (2 * N.of_nat k) h0 ltac:(lia) erefl ltac:(lia) k2.
have [e3 [C1 [C2 C3]]] := ceil2_spec (N.of_nat k) ltac:(lia).
exists (2 ^ e1)%num, (2 ^ e3)%num, (2 ^ e2)%num.
have E31 : (e3 <= e1)%num.
  have X : (2 ^ e3 < 2 ^ (e1 + 1))%num.
    by rewrite N.pow_add_r N.pow_1_r; move: A3 C3; move: (2 ^ e1)%num (2 ^ e3)%num; clear => a b; lia.
  by have := proj2 (N.pow_lt_mono_r_iff 2 e3 (e1 + 1) erefl) X; clear; lia.
have div a : (a <= t)%num -> N.divide (2 ^ N.of_nat (N.to_nat a)) (p - 1).
  move=> Ha; rewrite N2Nat.id (_ : (p - 1 = 2 ^ t)%num); last by rewrite /p; clear; lia.
  exists (2 ^ (t - a))%num; rewrite -N.pow_add_r; congr (_ ^ _)%num; move: Ha; clear; lia.
have hh := h0.
have Le31 : (2 ^ N.to_nat e3 <= 2 ^ N.to_nat e1)%N by rewrite leq_exp2l //; lia.
have [r1 [f [R1 F1 O1 D1 W1]]] := prime_radix2 p pp h h0 pw (N.to_nat e1) (N.to_nat (2 ^ e3)) ltac:(lia) (div e1 ltac:(lia))
   ltac:(by rewrite pow2_to_nat).
have [r2 [f2 [R2 F2 O2 D2 W2]]] := prime_radix2 p pp h h0 pw (N.to_nat e2) (N.to_nat (2 ^ e2)) ltac:(lia) (div e2 ltac:(lia))
   ltac:(by rewrite pow2_to_nat).
move: Hroot; rewrite {1}/G R1 => -[?]; subst r1; move: Hroot; rewrite {1}/G R2 => -[?]; subst r2.
have pos e : (0 < 2 ^ e)%N by rewrite expn_gt0.
exists f, f2, (N.to_nat e1), (N.to_nat e2), (N.to_nat e3).
split; first by split=> //; rewrite ?pow2_to_nat //; [move: F1|move: F2]; rewrite pow2_to_nat.
split; first by rewrite pow2_to_nat.
have Ew : get_nth_root G root (2 ^ e1) = r_w f by rewrite W1 N2Nat.id.
have [V1 V2] : gvalid G (r_w f) /\ True by split=> //; exact: (ro_w _ _ _ _ _ O1).
rewrite /bare; split; cbn [c_sys c_ws c_k c_m c_pkt c_G c_n c_r c_fft c_fft2k c_rpow] => //.
- by rewrite pow2_to_nat.
- by rewrite -pow2_to_nat; move: A3; clear; lia.
- lia.
- by rewrite D1 pow2_to_nat pos.
- by rewrite -pow2_to_nat; move: C2; clear; lia.
- by rewrite D2 pow2_to_nat pos.
- by rewrite -pow2_to_nat; move: B3; clear; lia.
- move=> i Hi; rewrite nth_map_seq; last by rewrite pow2_to_nat; lia.
  rewrite Ew; have [] := gp_exp _ _ _ P (r_w f) (N.of_nat i) V1.
    apply: (N.lt_le_trans _ (2 ^ e1)).
      by move: Hi; rewrite -pow2_to_nat; clear; lia.
    apply: (N.le_trans _ (2 ^ t)); first by apply: N.pow_le_mono_r.
    by rewrite /p; change (g_card _) with p; rewrite /p; clear; lia.
  by move=> X ->; rewrite Nat2N.id.
- split; first by rewrite /gvalid /c_h /=; lia.
  apply/eqP; rewrite -addr_eq0 -(phi_1 p) -phi_add; apply/eqP.
  rewrite (_ : (c_h _ + 1)%num = p); first exact: phi_p.
  by rewrite /c_h /=; move: p1; clear; lia.
- move=> i; rewrite (phi_mod p pp) /phi Nat2N.id //.
Qed.

Lemma poly_mod_phi r cs i : phi p (poly_mod p r k cs i) = (\poly_(j < k) phi p (cs j)).[phi p r ^+ i].
Proof.
rewrite /poly_mod (phi_mod p pp) phi_sum horner_poly; apply: eq_bigr => j _.
by rewrite phi_mul phi_pow Nat2N.id exprM.
Qed.

Lemma poly_mod_lt r cs i : (poly_mod p r k cs i < p)%num.
Proof. by apply: N.mod_upper_bound; rewrite /p; clear; lia. Qed.

Lemma code_poly L L2 e c (ok : fnt_ok (Fpp p) (phi p) L L2 e c) : c_G c = G -> c_k c = k ->
  poly_code (c_sys c) p (r_w (c_fft c)) (c_n c) k (cw (Fpp p) (phi p) psi c).
Proof.
move=> EG Ek; have cn := fo_n _ _ _ _ _ _ ok; rewrite cn.
have Pr := wprim _ _ _ _ _ _ ok.
split; first by rewrite powN; apply: (prim_mod_order p pp); rewrite -powN Nat2N.id.
have psiP' y : gvalid (c_G c) (psi y) /\ phi p (psi y) = y by rewrite EG; exact: psiP.
have inj a b : (a < p)%num -> (b < p)%num -> phi p a = phi p b -> a = b by exact: (phi_inj p pp).
have psi_lt y : (psi y < p)%num by case: (psiP y).
have psiE y : phi p (psi y) = y by case: (psiP y).
move=> col Hcol; case Hs: (c_sys c); last first.
  by move=> i; apply: inj; [exact: psi_lt|exact: poly_mod_lt|]; rewrite psiE poly_mod_phi /msg Hs Ek.
set Q := msg (Fpp p) (phi p) c col.
have sQ : (size Q <= k)%N by rewrite -Ek; exact: msg_size.
have EQ : \poly_(j < k) phi p (psi Q`_j) = Q.
  apply/polyP => j; rewrite coef_poly psiE; case: ltnP => // Hj.
  by rewrite nth_default //; apply: leq_trans Hj.
have vals i : (i < k)%N -> Q.[phi p (r_w (c_fft c)) ^+ i] = phi p (col i).
  by move=> Hi; rewrite /Q /msg Hs (interp_val _ _ L L2 e c ok) // Ek.
exists (fun j => psi Q`_j); split; first by move=> j _.
split; first by move=> i; apply: inj; [exact: psi_lt|exact: poly_mod_lt|]; rewrite psiE poly_mod_phi EQ.
split.
  move=> i /ltP Hi; apply: inj; [exact: poly_mod_lt|by apply: Hcol; exact/ltP|].
  by rewrite poly_mod_phi EQ vals.
move=> cs' Hc' Hv j /ltP Hj; apply: inj => //; first by apply: Hc'; exact/ltP.
rewrite psiE; set Q' := \poly_(j < k) phi p (cs' j).
have sQ' : (size Q' <= k)%N by exact: size_poly.
have vals' i : (i < k)%N -> Q'.[phi p (r_w (c_fft c)) ^+ i] = phi p (col i).
  by move=> Hi; rewrite -poly_mod_phi Hv //; exact/ltP.
have -> : phi p (cs' j) = Q'`_j by rewrite coef_poly Hj.
suff -> : Q' = Q by [].
apply/eqP; rewrite -subr_eq0; apply/eqP.
pose pts := [seq phi p (r_w (c_fft c)) ^+ i | i <- iota 0 k].
apply: (@roots_geq_poly_eq0 _ _ pts).
- apply/allP => x /mapP [i]; rewrite mem_iota => /andP [_ Hi] ->; rewrite rootE hornerD hornerN vals // vals' //.
  by rewrite subrr.
- rewrite map_inj_in_uniq ?iota_uniq // => a b; rewrite !mem_iota => /andP [_ Ha] /andP [_ Hb].
  apply: (winj _ _ L L2 e c ok); by rewrite Ek; move: Ha Hb; clear; lia.
- rewrite size_map size_iota; apply: (leq_trans (size_add _ _)); rewrite size_opp geq_max sQ' //.
Qed.
End Obj.

Theorem fnt_new_gen (B : nat -> Prop) root sys ws k m :
  (forall nh pkt n r f f2 rpow, B nh -> (0 < pkt)%N -> build_ok (fnt_make nh (2 * h) sys ws k m pkt G n r f f2 rpow)) ->
  (0 < k)%N -> (0 < m)%N -> (ws < 4)%N ->
  wrap (2 * h) (2 ^ (8 * N.of_nat ws) + 1) = p ->
  find_primitive_root (2 * h) G = Some root -> jacobi 100 (Z.of_N root) (Z.of_N p) = Some (-1)%Z ->
  (N.of_nat (k + m) <= 2 ^ t)%num -> (2 * N.of_nat k <= 2 ^ t)%num ->
  exists cw r n, poly_code sys p r n k cw /\ forall nh pkt, B nh -> (0 < pkt)%N ->
   exists c, [/\ fnt_new nh (2 * h) sys ws k m pkt = Some c, code_spec c cw, c_n c = n &
   [/\ c_sys c = sys, c_ws c = ws, c_k c = k, c_m c = m & c_pkt c = pkt] /\ c_G c = G].
Proof.
move=> HB k0 m0 Hws Ew Hroot Hj km k2.
have [n [dl [l2 [f [f2 [L [L2 [e [[E1 E2 E3 E4 E5] [En ok]]]]]]]]]] := parts root sys ws k m 1 Hroot k0 m0 km k2.
move: ok; set c := bare _ _ _ _ _ _ _ _ _ _ _ => ok.
exists (cw (Fpp p) (phi p) psi c), (r_w (c_fft c)), (c_n c); split; first by apply: (code_poly k L L2 e c ok).
move=> nh pkt Bn p0; pose c' := fnt_make nh (2 * h) sys ws k m pkt G (N.to_nat n) (c_r c) f f2 (c_rpow c).
have [[A1 A2 A3 A4 A5] [[A6 A7 A8 A9] [A10 A11]]] := make_parts nh (2 * h)%num sys ws k m pkt G (N.to_nat n) (c_r c) f f2 (c_rpow c).
rewrite -/c' in A1 A2 A3 A4 A5 A6 A7 A8 A9 A10 A11.
have ok' : fnt_ok (Fpp p) (phi p) L L2 e c'.
  by case: ok; rewrite /c_h => *; split; rewrite /c_h ?A3 ?A4 ?A6 ?A7 ?A9 ?A10 ?A11.
have Ecw : cw (Fpp p) (phi p) psi c = cw (Fpp p) (phi p) psi c' by rewrite /cw /msg /interp A1 A3 A9.
exists c'; split.
- rewrite /fnt_new Ew -/G Hroot Hj E1 E2 E3 E4 E5.
  case: Nat.leb_spec; first lia.
  move=> _; case: N.leb_spec => //; rewrite /p; move: k2; clear; lia.
- rewrite Ecw; apply: (fnt_code_spec _ _ _ L L2 e c' ok').
  + exact: HB.
  + by rewrite A6; exact: psiP.
  + by rewrite A5.
- by rewrite A7.
- by split.
Qed.
End New.
