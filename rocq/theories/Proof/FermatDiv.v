(** Prime factors of the orders of the groups of the fields of [2 ^ n] elements. *)
Set Warnings "-notation-overridden,-ambiguous-paths".
From Coq Require Import NArith.
From Coq Require List.
From Verif.Spec Require Import Primes.
From Verif.Proof Require Import ArithP PrimeP.
From Verif.Proof Require FntInst.
From mathcomp Require Import all_ssreflect ssralg finalg poly zmodp.
From mathcomp Require Import zify.
From Verif.Proof Require Import FinF FieldP.
Import GRing.Theory.
Local Open Scope ring_scope.

(** A prime factor of [2 ^ (2 ^ e) + 1] is 1 modulo [2 ^ (e + 1)]: that is the order of 2. *)
Lemma fermat_divisor e q : primeN q -> (N.divide q (2 ^ N.of_nat (2 ^ e) + 1))%num -> N.divide (2 ^ N.of_nat e.+1) (q - 1).
Proof.
  move=> Pq D; have pq : prime (N.to_nat q) by apply/primeN_prime.
  pose F := 'F_(N.to_nat q).
  have zE : (2%:R : F) ^+ (2 ^ e) = -1.
    apply/eqP; rewrite -subr_eq0 opprK -natrX -(natrD _ _ 1) -(dvdn_charf (char_Fp pq)).
    case: D => c Hc; apply/dvdnP; exists (N.to_nat c).
    have E : (2 ^ 2 ^ e)%N = N.to_nat (2 ^ N.of_nat (2 ^ e)).
      by rewrite Nnat.N2Nat.inj_pow Nnat.Nat2N.id; elim: (2 ^ e)%N => //= m <-; rewrite expnS; lia.
    by rewrite E; lia.
  have q2 : q <> 2%num.
    move=> E; move: D; rewrite E => -[c]; have [m Hm] : exists m, (2 ^ e)%N = m.+1 by exists (2 ^ e).-1; rewrite prednK ?expn_gt0.
    by rewrite Hm Nnat.Nat2N.inj_succ N.pow_succ_r'; lia.
  have m1 : (-1 : F) != 1.
    rewrite eq_sym -addr_eq0 -(natrD _ 1 1) -(dvdn_charf (char_Fp pq)); apply/negP => /dvdn_leq.
    by case: Pq => ? _; lia.
  have n0 : (0 < 2 ^ e.+1)%N by rewrite expn_gt0.
  have n1 : (2%:R : F) ^+ (2 ^ e.+1) = 1 by rewrite expnS mulnC exprM zE sqrrN expr1n.
  have [m Hm Hd] := prim_order_exists n0 n1.
  have /(dvdn_pfactor _ _ (isT : prime 2)) [i Hi Em] := Hd.
  have {Hi}Ei : i = e.+1.
    case: (ltngtP i e.+1) => // Hl; last by lia.
    case/negP: m1; rewrite -zE (_ : 2 ^ e = m * 2 ^ (e - i))%N; first by rewrite exprM (prim_expr_order Hm) expr1n.
    by rewrite Em -expnD; congr (_ ^ _)%N; lia.
  have F2 : (2%:R : F) ^+ (N.to_nat q).-1 = 1.
    have z0 : (2%:R : F) != 0.
      by apply/eqP => E0; move: zE; rewrite E0 expr0n expn_eq0 /= => /eqP; rewrite eq_sym oppr_eq0 oner_eq0.
    apply: (mulIf z0); rewrite -exprSr prednK ?prime_gt0 // mul1r.
    by have := @expf_card [finFieldType of 'F_(N.to_nat q)] 2%:R; rewrite card_Fp.
  have := prim_order_dvd Hm (N.to_nat q).-1; rewrite F2 eqxx Em Ei => /dvdnP [c Hc].
  exists (N.of_nat c); have E : (2 ^ e.+1)%N = N.to_nat (2 ^ N.of_nat e.+1).
    by rewrite Nnat.N2Nat.inj_pow Nnat.Nat2N.id; elim: (e.+1) => //= t <-; rewrite expnS; lia.
  by rewrite E in Hc; case: Pq => ? _; move: Hc; move: (2 ^ _)%num => T Hc; lia.
Qed.

(** No prime factor up to [s (t + 1)] when none of the [1 + s j], [j] from 1 to [t], divides. *)
Lemma no_small_factor (s : N) t (a q : N) : List.forallb (fun j => negb (N.eqb (N.modulo a (1 + s * N.of_nat j)) 0)) (List.seq 1 t) ->
  primeN q -> N.divide q a -> N.divide s (q - 1) -> (s * N.of_nat t < q)%num.
Proof.
  move=> /List.forallb_forall H [q1 _] D [j Hj]; rewrite N.lt_nge => Hle.
  have j0 : j <> 0%num by move=> E; move: Hj; rewrite E; lia.
  have Hq : q = (1 + s * N.of_nat (N.to_nat j))%num by rewrite Nnat.N2Nat.id; lia.
  have Hin : List.In (N.to_nat j) (List.seq 1 t).
    apply/List.in_seq; split; first by apply/leP; lia.
    have : (s * j <= s * N.of_nat t)%num by rewrite Nnat.N2Nat.id in Hq; lia.
    have s0 : (0 < s)%num by case: (N.eq_dec s 0) => [E|]; [move: Hj; rewrite E; lia|lia].
    by move=> /(proj2 (N.mul_le_mono_pos_l _ _ _ s0)) Hjt; move: Hjt; clear; lia.
  have := H _ Hin; rewrite -Hq; move/N.mod_divide: D => ->; first by [].
  by lia.
Qed.

(** The prime factors of what remains of [2 ^ n - 1] without the factors 3, 5, 17, 257 and 641. *)
Lemma large_65537 q : primeN q -> N.divide q 65537 -> (46341 < q)%num.
Proof. by move=> [q1 _] D; case: (proj2 FntInst.prime65537 q D) => E; subst q. Qed.
Lemma large_F5 q : primeN q -> N.divide q 6700417 -> (46341 < q)%num.
Proof.
  move=> Pq D; have H := no_small_factor 64 725 6700417 q _ Pq D.
  have : (64 * N.of_nat 725 < q)%num.
    by apply: H; [vm_compute|apply: (fermat_divisor 5 q Pq); apply: (N.divide_trans _ _ _ D); exists 641%num].
  by lia.
Qed.
Lemma large_F6 q : primeN q -> N.divide q (2 ^ 64 + 1) -> (46341 < q)%num.
Proof.
  move=> Pq D; have H := no_small_factor 128 363 (2 ^ 64 + 1) q _ Pq D.
  have : (128 * N.of_nat 363 < q)%num by apply: H; [vm_compute|exact: (fermat_divisor 6 q Pq)].
  by lia.
Qed.
