(** The prime 4294991873 of the codes with symbols of four bytes, and the smallest root that generates its group. *)
Set Warnings "-notation-overridden,-ambiguous-paths".
From Coq Require Import NArith ZArith.
From Coq Require List.
From Verif.Model Require Import Common Arith Ring.
From Verif.Spec Require Import Primes.
From Verif.Proof Require Import ArithP PrimeP.
From mathcomp Require Import all_ssreflect ssralg poly zmodp finalg.
From mathcomp Require Import zify.
From Verif.Proof Require Import FinF FieldP RootP.
Import GRing.Theory.
Local Open Scope ring_scope.

(** Pocklington, with the whole of [p - 1] factored. *)
Section Pocklington.
Variables (p a : N).
Hypothesis p1 : (1 < p)%num.
Let pw (e : N) : N := exp_quick (fun x y => (x * y) mod p)%num a e.
Hypothesis fermat : pw (p - 1) = 1%num.
Hypothesis coprime : forall f, primeN f -> N.divide f (p - 1) -> N.gcd (pw ((p - 1) / f) + (p - 1)) p = 1%num.

Lemma pocklington : primeN p.
Proof.
  have [q [Pq Dq]] := prime_divisor p p1.
  have q1 := proj1 Pq.
  have qp : (q <= p)%num by apply: N.divide_pos_le => //; lia.
  pose h := phi q.
  have hp : h p = 0 by case: Dq => c ->; rewrite /h phi_mul (phi_p q Pq) mulr0.
  have hmod x : h (x mod p)%num = h x.
    have E := N.div_mod x p ltac:(lia).
    by rewrite [in RHS]E /h phi_add phi_mul -/h hp mul0r add0r.
  have hpw e : h (pw e) = h a ^+ N.to_nat e.
    have [] // := exp_quick_pres (Fpp q) (fun _ => True) h (fun x y => (x * y) mod p)%num I (phi_1 q) _ a e I.
    by move=> x y _ _; rewrite hmod /h phi_mul.
  have order : (N.to_nat (p - 1)).-primitive_root (h a).
    apply: prim_of_divisors; first by lia.
      by rewrite -hpw fermat /h phi_1.
    move=> f pf df; apply/negP => /eqP E.
    have Pf : primeN (N.of_nat f) by apply/primeN_prime; rewrite Nnat.Nat2N.id.
    have Df : N.divide (N.of_nat f) (p - 1) by apply/N_divide_dvdn; rewrite Nnat.Nat2N.id.
    have f0 : N.of_nat f <> 0%num by have := proj1 Pf; lia.
    have := coprime _ Pf Df; set x := pw _ => C.
    have hx : h (x + (p - 1))%num = 0.
      rewrite /h phi_add -/h hpw N_div_divn // Nnat.Nat2N.id E.
      have : h (p - 1 + 1)%num = 0 by rewrite N.sub_add //; lia.
      by rewrite /h phi_add phi_1 addrC.
    have D : N.divide q (x + (p - 1)).
      apply/N.mod_divide; first by lia.
      apply: (phi_inj q Pq); [apply: N.mod_lt; lia|lia|].
      by rewrite (phi_mod q Pq) phi_0.
    have : N.divide q (N.gcd (x + (p - 1)) p) by apply: N.gcd_greatest.
    by rewrite C => /N.divide_1_r; lia.
  have nz : h a != 0.
    apply/eqP => E; have := prim_expr_order order; rewrite E expr0n (_ : (_ == 0)%N = false); last by lia.
    by move/eqP; rewrite eq_sym oner_eq0.
  have ferm : h a ^+ N.to_nat (q - 1) = 1.
    have pr := proj1 (primeN_prime q) Pq.
    have Ec : #|[finFieldType of 'F_(N.to_nat q)]| = (N.to_nat (q - 1)).+1 by rewrite card_Fp //; lia.
    have := FinF.expf_card (h a : [finFieldType of 'F_(N.to_nat q)]); rewrite Ec.
    by rewrite exprS => E; apply: (mulfI nz); rewrite mulr1; exact: E.
  have := prim_order_dvd order (N.to_nat (q - 1)); rewrite ferm eqxx => /dvdn_leq H.
  by suff -> : p = q; [|have := H ltac:(lia); lia].
Qed.
End Pocklington.

Definition big : N := 4294991873.

Lemma prime2 : primeN 2.
Proof. by apply: (proj1 (is_prime_spec 16 _ _ _ _)). Qed.
Lemma prime29 : primeN 29.
Proof. by apply: (proj1 (is_prime_spec 16 _ _ _ _)). Qed.
Lemma prime101 : primeN 101.
Proof. by apply: (proj1 (is_prime_spec 16 _ _ _ _)). Qed.
Lemma prime179 : primeN 179.
Proof. by apply: (proj1 (is_prime_spec 16 _ _ _ _)). Qed.

Lemma big_factor f : primeN f -> N.divide f (big - 1) -> (f = 2 \/ f = 29 \/ f = 101 \/ f = 179)%num.
Proof.
  move=> Pf; have one r : primeN r -> N.divide f r -> f = r.
    by move=> [_ H] D; case: (H f D) => // E; case: Pf; rewrite E.
  rewrite (_ : big - 1 = 2 ^ 13 * 29 * 101 * 179)%num //.
  move=> /(prime_divides_mul _ _ _ Pf) [|/(one _ prime179)]; last by auto.
  move=> /(prime_divides_mul _ _ _ Pf) [|/(one _ prime101)]; last by auto.
  move=> /(prime_divides_mul _ _ _ Pf) [|/(one _ prime29)]; last by auto.
  move=> /(prime_divides_pow _ _ _ Pf) D; left; apply: one => //.
  exact: prime2.
Qed.

Lemma prime_big : primeN big.
Proof.
  apply: (pocklington big 3); [by []|by vm_compute|].
  by move=> f Pf /(big_factor f Pf) [->|[->|[->| ->]]]; vm_compute.
Qed.

Lemma jac_big : jacobi 100 3 (Z.of_N big) = Some (-1)%Z. Proof. by vm_compute. Qed.

Lemma root_big w : w = 64%num \/ w = 128%num -> find_primitive_root w (prime_ops w big) = Some 3%num.
Proof.
  move=> Hw; rewrite /find_primitive_root [g_card _]/= [(big - 1 =? 1)%num]/=.
  have -> : factor_prime w (big - 1) = Some [:: (2, 13); (29, 1); (101, 1); (179, 1)]%num.
    by case: Hw => ->; vm_compute.
  have [n ->] : exists n, N.to_nat (big - 1) = n.+2.
    exists (N.to_nat (big - 3)); rewrite /big; lia.
  cbv beta iota zeta; set l := get_proper_divisors_of _ _.
  have l2 : is_primitive_root (prime_ops w big) l 2 = false by case: Hw => ->; vm_compute.
  have l3 : is_primitive_root (prime_ops w big) l 3 = true by case: Hw => ->; vm_compute.
  by rewrite /find_root_loop -/find_root_loop l2 [(2 + 1)%num]/= l3.
Qed.
