(** Property C40: the polynomial operations of src/vec_poly.h, over every field whose modelled operations present a
    mathematical field (Proof/Pres.v; the prime fields do by [prime_pres]). *)
Set Warnings "-notation-overridden,-ambiguous-paths".
From Coq Require Import NArith ZArith.
From Coq Require List.
From mathcomp Require Import all_ssreflect ssralg poly.
From mathcomp Require Import zify.
From Verif.Model Require Import Common Arith Ring Fft2n Radix2 Poly.
From Verif.Spec Require Import Primes.
From Verif.Proof Require Import ListP PolyL Pres PrimeP FieldP Radix2P PolyP.
Import GRing.Theory.
Local Open Scope ring_scope.
Notation lnth := List.nth.

Section C40.
Variables (F : fieldType) (G : gfops) (phi : N -> F).
Hypothesis P : gf_pres F G phi.

(** The memory of [q] holds the coefficients of [A], of degree [p_deg q]; there is room for degree [r]. *)
Definition holds (q : poly) (A : {poly F}) : Prop :=
  (forall i, (lnth i (p_buf q) 0 < g_card G)%num /\ phi (lnth i (p_buf q) 0%num) = A`_i) /\
  p_deg q = (Z.of_nat (size A) - 1)%Z.
Definition room (q : poly) (r : nat) : Prop := (r < List.length (p_buf q))%N.

(** From 1, multiplications by X + c give the product of the factors. *)
Fixpoint times_all (q : poly) (cs : list N) : option poly :=
  if cs is c :: cs' then (if poly_mul_to_x_plus_coef G q c is Some q' then times_all q' cs' else None) else Some q.

Theorem C40_product n cs : (List.length cs < n)%N -> List.Forall (fun c => (c < g_card G)%num) cs ->
  exists q0 q, [/\ poly_set G (poly_zero n) 0 1%num = Some q0, times_all q0 cs = Some q,
    holds q (\prod_(c <- cs) ('X + (phi c)%:P)) & p_deg q = Z.of_nat (List.length cs)].
Proof.
move=> Hn Hcs; have [|q0 [E0 H0 D0 L0]] := pol_one F G phi P n; first lia.
exists q0.
have gen d (A : {poly F}) q1 : pol F G phi q1 A -> size A = d.+1 -> p_deg q1 = Z.of_nat d ->
  (d + List.length cs < List.length (p_buf q1))%N -> exists q, [/\ times_all q1 cs = Some q,
   pol F G phi q (A * \prod_(c <- cs) ('X + (phi c)%:P)),
   size (A * \prod_(c <- cs) ('X + (phi c)%:P)) = (d + List.length cs).+1 & p_deg q = Z.of_nat (d + List.length cs)].
  clear E0 D0 L0 H0 q0 Hn; elim: cs Hcs d A q1 => [|c cs IH] Hcs d A q Hq SA Dq Hl.
    by exists q; rewrite big_nil mulr1 addn0.
  have [Vc Vcs] : gvalid G c /\ List.Forall (fun c => (c < g_card G)%num) cs by inversion Hcs.
  have [|q' [E' H' D' L']] := mulXc_spec F G phi P q A d c Hq Dq SA _ Vc; first by move: Hl => /=; lia.
  have S' : size (A * ('X + (phi c)%:P)) = d.+2.
    rewrite size_mul ?size_XaddC ?SA ?addn2 //; first by rewrite -size_poly_eq0 SA.
    by rewrite -size_poly_eq0 size_XaddC.
  have [|r [E2 H2 S2 D2]] := IH Vcs d.+1 _ q' H' S' D'; first by rewrite L'; move: Hl => /=; lia.
  exists r; rewrite /= E' big_cons mulrA; split=> //; rewrite ?S2 ?D2; first lia.
  by congr (Z.of_nat _); lia.
have [||q []] := gen 0%N 1 q0 H0 _ D0; [by rewrite size_poly1|by rewrite L0|].
rewrite mul1r add0n => E2 H2 S2 D2; exists q; split=> //; split=> //.
by rewrite D2 S2; lia.
Qed.

(** Multiplication of any non-zero polynomial. *)
Theorem C40_mul_to_x_plus_coef q A c : holds q A -> A != 0 -> room q (size A) -> (c < g_card G)%num ->
  exists q', poly_mul_to_x_plus_coef G q c = Some q' /\ holds q' (A * ('X + (phi c)%:P)).
Proof.
move=> [Hq Dq] A0 Hr Vc; have sA : size A = (size A).-1.+1 by rewrite prednK // size_poly_gt0.
have Dq' : p_deg q = Z.of_nat (size A).-1 by rewrite Dq; lia.
have [|q' [E' H' D' L']] := mulXc_spec F G phi P q A (size A).-1 c Hq Dq' sA _ Vc; first by rewrite -sA.
exists q'; split=> //; split=> //.
rewrite D' size_mul ?size_XaddC //; last by rewrite -size_poly_eq0 size_XaddC.
by move: sA; move: (size A) => n; lia.
Qed.

(** Horner's rule. *)
Theorem C40_eval q A x : holds q A -> A != 0 -> (x < g_card G)%num ->
  exists v, [/\ poly_eval G q x = Some v, (v < g_card G)%num & phi v = A.[phi x]].
Proof.
move=> [Hq Dq] A0 Vx; have sA : size A = (size A).-1.+1 by rewrite prednK // size_poly_gt0.
apply: (eval_spec F G phi P q A (size A).-1) => //; first by rewrite Dq; lia.
by rewrite -sA.
Qed.

(** The formal derivative; the degree is that of the derivative when the characteristic does not divide the degree, and
    only a bound otherwise.  [p] is the characteristic. *)
Theorem C40_derivative q A p : holds q A -> A != 0 -> room q (size A).-1 -> (0 < p <= g_card G)%num ->
  (forall i, phi (N.of_nat i mod p)%num = i%:R) ->
  exists q', [/\ poly_derivative G p q = Some q',
    (forall i, (lnth i (p_buf q') 0 < g_card G)%num /\ phi (lnth i (p_buf q') 0%num) = (A^`())`_i),
    p_deg q' = (p_deg q - 1)%Z & (Z.of_nat (size A^`()) - 1 <= p_deg q')%Z].
Proof.
move=> [Hq Dq] A0 Hr Hp Hc; have sA : size A = (size A).-1.+1 by rewrite prednK // size_poly_gt0.
have Dq' : p_deg q = Z.of_nat (size A).-1 by rewrite Dq; lia.
have [q' [E' H' D' L']] := deriv_spec F G phi P q A (size A).-1 p Hq Dq' sA Hr Hp Hc.
exists q'; split=> //; first by rewrite D' Dq'.
have : (size A^`() <= (size A).-1)%N.
  apply/leq_sizeP => j Hj; rewrite coef_deriv nth_default ?mul0rn //.
  by rewrite sA ltnS.
by rewrite D'; clear; move: (size _) (size _).-1 => a b; lia.
Qed.

(** The truncated product: the coefficients up to [deg_out] are those of the product; those above and the degree are not
    changed. *)
Theorem C40_mul q b A (B : {poly F}) deg_out : holds q A ->
  (forall i, (lnth i (p_buf b) 0 < g_card G)%num /\ phi (lnth i (p_buf b) 0%num) = B`_i) ->
  room q deg_out -> room b deg_out ->
  exists q', [/\ poly_mul G q b deg_out = Some q', p_deg q' = p_deg q,
    (forall i, (i <= deg_out)%N -> (lnth i (p_buf q') 0 < g_card G)%num /\ phi (lnth i (p_buf q') 0%num) = (A * B)`_i)
   & (forall i, (deg_out < i)%N -> lnth i (p_buf q') 0%num = lnth i (p_buf q) 0%num)].
Proof.
move=> [Hq Dq] Hb R1 R2.
have [|q' [E D _ H1 H2]] := polymul_spec F G phi P q b A B deg_out Hq Hb _ R1 R2; first by rewrite Dq; lia.
by exists q'.
Qed.

Theorem C40_neg q A : holds q A -> room q (size A).-1 -> holds (poly_neg G q) (- A).
Proof.
move=> [Hq Dq] Hr; split; last by rewrite /= size_opp.
move=> i; rewrite /= (each_spec _ 0%num (g_neg G)); last first.
  by rewrite Dq; move: Hr; rewrite /room; move: (size A) (List.length _) => a b; lia.
have [V E] := Hq i; have [V' E'] := gp_neg _ _ _ P _ V; rewrite coefN.
case: Nat.ltb_spec => Hi /=; first by rewrite E' E.
split=> //; rewrite E nth_default ?oppr0 //; move: Hi; rewrite Dq; move: (size A) => a; lia.
Qed.
End C40.

(** After a product the degree is that of the first factor, so that the product cannot be evaluated: X * X at 2. *)
Theorem C40_mul_degree_refuted : exists q b r v,
  holds _ (prime_ops 32 257) (phi 257) q 'X /\ holds _ (prime_ops 32 257) (phi 257) b 'X /\
  poly_mul (prime_ops 32 257) q b 2 = Some r /\ poly_eval (prime_ops 32 257) r 2%num = Some v /\
  phi 257 v <> ('X * 'X : {poly Fpp 257}).[phi 257 2%num].
Proof.
have H : holds _ (prime_ops 32 257) (phi 257) (mkPoly (cons 0 (cons 1 (cons 0 nil)))%num 1%Z) 'X.
  split; last by rewrite size_polyX.
  by case=> [|[|[|[|i]]]]; rewrite coefX.
exists (mkPoly (cons 0 (cons 1 (cons 0 nil)))%num 1%Z), (mkPoly (cons 0 (cons 1 (cons 0 nil)))%num 1%Z).
eexists; exists 0%num; split=> //; split=> //; split; first reflexivity; split; first reflexivity.
rewrite hornerM !hornerX => /esym/eqP; rewrite mulf_eq0 orbb => /eqP E.
have pr : primeN 257 by apply/(is_prime_spec 16); [reflexivity|lia|reflexivity|vm_compute].
have W : (2 * 257 <= 2 ^ 32)%num by vm_compute.
have V2 : gvalid (prime_ops 32 257) 2 by [].
have V0 : gvalid (prime_ops 32 257) 0 by [].
by have := gp_inj _ _ _ (prime_pres 32 257 pr W) 2%num 0%num V2 V0; rewrite E => /(_ erefl).
Qed.

(** A concrete case: (X + 3) (X + 5) (X + 0) modulo 257, its value at 2 and its derivative. *)
Example C40_case : let G := prime_ops 32 257 in
  let l a b c d := cons a (cons b (cons c (cons d nil))) in
  [/\ poly_set G (poly_zero 4) 0 1%num = Some (mkPoly (l 1 0 0 0)%num 0%Z),
    times_all G (mkPoly (l 1 0 0 0)%num 0%Z) (cons 3 (cons 5 (cons 0 nil)))%num = Some (mkPoly (l 0 15 8 1)%num 3%Z),
    poly_eval G (mkPoly (l 0 15 8 1)%num 3%Z) 2%num = Some 70%num &
    poly_derivative G 257 (mkPoly (l 0 15 8 1)%num 3%Z) = Some (mkPoly (l 15 16 3 0)%num 2%Z)].
Proof. by split; vm_compute. Qed.

Print Assumptions C40_product.
Print Assumptions C40_mul_to_x_plus_coef.
Print Assumptions C40_eval.
Print Assumptions C40_derivative.
Print Assumptions C40_mul.
Print Assumptions C40_neg.
Print Assumptions C40_mul_degree_refuted.
