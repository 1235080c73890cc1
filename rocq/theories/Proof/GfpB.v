(** Construction of the prime-field codes with a multiplicative transform. *)
Set Warnings "-notation-overridden,-ambiguous-paths".
From Coq Require Import NArith ZArith Arith.
From Coq Require List.
From Verif.Model Require Import Common Arith Ring Fft2n Radix2 Poly Props Views Gf2n MixedFft Fnt FftCodes.
From Verif.Spec Require Import Primes.
From Verif.Proof Require Import ListP ArithP Ceil2P PrimeP CodeLenP Smooth FntInst.
From mathcomp Require Import all_ssreflect ssralg poly zmodp finalg.
From mathcomp Require Import zify.
From Verif.Proof Require Import Pres FieldP RootP Radix2P PrimeR2 MixedT FftC FftB BigPrime.
From Verif.Thm Require Import MixedThm.
Import GRing.Theory.
Local Open Scope ring_scope.

Lemma code_len_bound h card n r B : (0 < h)%num -> (1 < card <= 2 ^ (2 * h))%num -> (2 <= n)%num ->
  (forall f, primeN f -> N.divide f (card - 1) -> (f <= B)%num) ->
  ring_code_len_high_compo (2 * h) card n = Some r -> (r <= B * n)%num.
Proof.
  move=> h0 [c1 cw] n2 HB; rewrite /ring_code_len_high_compo; case: N.ltb_spec => // Hn.
  have [l [-> [Pl [El _]]]] := get_prime_factors_spec h h0 (card - 1) ltac:(lia) ltac:(lia).
  have [||r' [-> [_ [_ [f [If Lf]]]]]] := get_code_len_high_compo_spec l n n2.
  - by apply: List.Forall_impl Pl => f [? _]; lia.
  - by rewrite El.
  case=> <-; have Pf := proj1 (List.Forall_forall _ _) Pl f If.
  have Df : N.divide f (card - 1).
    rewrite -El; elim: l If {Pl El Lf} => //= g l IH [->|/IH H]; first by exists (list_prod l); rewrite N.mul_comm.
    by apply: (N.divide_trans _ _ _ H); exists g.
  have := HB f Pf Df; have f1 := proj1 Pf; have := N.mul_succ_div_gt r' f ltac:(lia); nia.
Qed.

Lemma pow2_test L : is_power_of_2 (N.of_nat (2 ^ L)%N) = true.
Proof. by apply/is_power_of_2_spec; exists (N.of_nat L); rewrite PrimeR2.powN. Qed.

Section Prime.
Variables (h p root : N).
Hypothesis h0 : (0 < h)%num.
Hypothesis pp : primeN p.
Hypothesis pw : (2 * p <= 2 ^ (2 * h))%num.
Notation w := (2 * h)%num.
Notation G := (prime_ops w p).
Hypothesis Hroot : find_primitive_root w G = Some root.
Notation ph := (FieldP.phi p).
Let Pr := FieldP.prime_pres w p pp pw.
Notation rt n := (ph (get_nth_root G root (N.of_nat n))).

Lemma gfp_tr L dl : (L < 31)%N -> N.divide (N.of_nat (2 ^ L)%N) (p - 1) -> dl = 0%N \/ dl = (2 ^ L)%N ->
  exists t, new_tr G p root (2 ^ L)%N dl = Some t /\ tfm_ok w (Fpp p) G ph t (2 ^ L)%N (rt (2 ^ L)%N).
Proof.
  rewrite PrimeR2.powN => HL Hd Hdl.
  have Hl : (dl <= 2 ^ L)%N by case: Hdl => ->.
  have [r [f [E1 E2 E3 E4 E5]]] := prime_radix2 p pp h h0 pw L dl ltac:(lia) Hd Hl.
  rewrite Hroot in E1; case: E1 => E1; subst r.
  exists (TR f); split; first by rewrite /new_tr E2.
  rewrite -E5; apply: (tr_ok w (Fpp p) G ph Pr L f E3).
  exists L; split=> //; rewrite E4; case: Hdl => ->; first by rewrite ltnn.
  by rewrite expn_gt0.
Qed.

Lemma gfp_tc n : (1 < n)%N -> N.divide (N.of_nat n) (p - 1) -> (forall f, primeN f -> N.divide f (N.of_nat n) -> (f <= 46341)%num) ->
  exists t, new_tc w G p root 0 n = Some t /\ tfm_ok w (Fpp p) G ph t n (rt n).
Proof.
  move=> n1 nq Hf; have [V E H1 H2] := prime_inv h p n h0 pp pw n1 nq.
  apply: (new_tc_ok (Fpp p) G ph Pr h h0 _ root Hroot n p n1 nq V H2 Hf).
  by change (g_card G) with p; lia.
Qed.

(** Any code of which the second transform is a Radix2. *)
Lemma gfp_make limit had k m n L : (0 < k)%N -> (0 < m)%N -> (k + m <= n)%N -> (2 * k <= 2 ^ L)%N -> (L < 31)%N ->
  (N.of_nat n < 2 ^ 31)%num -> N.divide (N.of_nat n) (p - 1) -> N.divide (N.of_nat (2 ^ L)) (p - 1) ->
  (forall f, primeN f -> N.divide f (p - 1) -> (f <= 46341)%num) ->
  ring_code_len_high_compo w p (N.of_nat (k + m)) = Some (N.of_nat n) ->
  ring_code_len_high_compo w p (N.of_nat (2 * k)) = Some (N.of_nat (2 ^ L)) ->
  (forall x y, size x = (2 ^ L)%N -> size y = (2 ^ L)%N -> els G x -> els G y -> had x y = map2 (g_mul G) x y) ->
  exists c, [/\ fcode_make w G p limit had root k m
                (fun n => if is_power_of_2 (N.of_nat n) then new_tr G p root n 0 else new_tc w G p root 0 n)
                (fun n => if is_power_of_2 (N.of_nat n) then new_tr G p root n n else new_tc w G p root n n) = Some c,
     exists r r2, fcode_ok (Fpp p) ph c r r2 & [/\ f_k c = k, f_len c = (k + m)%N, f_w c = w, g_card (f_G c) = p & f_limit c = limit]].
Proof.
  move=> k0 m0 kn k2 L31 n31 nq lq Hf E1 E2 Hh.
  have hq : (g_card G <= 2 ^ w)%num by change (g_card G) with p; lia.
  have p1 := proj1 pp.
  have [t [Et Ht]] : exists t, (if is_power_of_2 (N.of_nat n) then new_tr G p root n 0 else new_tc w G p root 0 n) = Some t /\
      tfm_ok w (Fpp p) G ph t n (rt n).
    case E: (is_power_of_2 _); last first.
      by apply: gfp_tc => //; [lia|move=> f Pf Df; apply: Hf => //; exact: (N.divide_trans _ _ _ Df nq)].
    have [e Ee] := proj1 (is_power_of_2_spec _) E.
    have En : n = (2 ^ N.to_nat e)%N by apply: Nnat.Nat2N.inj; rewrite PrimeR2.powN Nnat.N2Nat.id.
    have e31 : (e < 31)%num by apply: (proj2 (N.pow_lt_mono_r_iff 2 _ _ _)) => //; rewrite -Ee.
    by rewrite En; apply: gfp_tr; [lia|rewrite -En|left].
  have [t2 [Et2 Ht2]] := gfp_tr L (2 ^ L)%N L31 lq (or_intror erefl).
  have l31 : (N.of_nat (2 ^ L) < 2 ^ 31)%num.
    by rewrite PrimeR2.powN; apply: N.pow_lt_mono_r => //; lia.
  have [|||c [Ec ok [ck cl cn cl2 [cG cw clim]]]] := fcode_make_ok (Fpp p) G ph Pr h h0 hq root Hroot p limit had k m
     (fun n => if is_power_of_2 (N.of_nat n) then new_tr G p root n 0 else new_tc w G p root 0 n)
     (fun n => if is_power_of_2 (N.of_nat n) then new_tr G p root n n else new_tc w G p root n n) n (2 ^ L)%N t t2
     k0 m0 kn k2 n31 l31 nq lq E1 E2 Et _ Ht Ht2 _ _ Hh.
  - by rewrite pow2_test.
  - by change (g_card G) with p; lia.
  - by move=> i; rewrite (phi_mod p pp) /FieldP.phi Nnat.Nat2N.id.
  exists c; split=> //; first by exists (rt n), (rt (2 ^ L)%N).
  by split=> //; rewrite ?cG.
Qed.
End Prime.

(** ** The constructor *)
Lemma gfp_new_eq nh w ws k m p limit root : (ws <= 4)%N ->
  Common.wrap w (if Nat.ltb ws 4 then 2 ^ (8 * N.of_nat ws) + 1 else 4294991873)%num = p ->
  Common.wrap w (if Nat.ltb ws 4 then 2 ^ (8 * N.of_nat ws) else 4294967296)%num = limit ->
  (limit <= p)%num -> (p / 2 < limit)%num -> find_primitive_root w (prime_ops w p) = Some root ->
  jacobi 100 (Z.of_N root) (Z.of_N p) = Some (-1)%Z ->
  gfp_new nh w ws k m = fcode_make w (prime_ops w p) p limit (ring_hadamard nh w p (prime_ops w p)) root k m
                (fun n => if is_power_of_2 (N.of_nat n) then new_tr (prime_ops w p) p root n 0 else new_tc w (prime_ops w p) p root 0 n)
                (fun n => if is_power_of_2 (N.of_nat n) then new_tr (prime_ops w p) p root n n else new_tc w (prime_ops w p) p root n n).
Proof.
  move=> w4 E1 E2 L1 L2 Er Ej; rewrite /gfp_new; case: Nat.ltb_spec; first by lia. move=> _.
  rewrite E1 E2; case: N.leb_spec; last by lia. move=> _; case: N.ltb_spec; last by lia. move=> _ /=.
  by rewrite Er Ej.
Qed.

(** Codes on fields of [2 ^ t + 1] elements. *)
Lemma gfp_fermat h t p k m : (0 < h)%num -> (t < 31)%num -> p = (2 ^ t + 1)%num -> primeN p -> (2 * p <= 2 ^ (2 * h))%num ->
  (0 < k)%N -> (0 < m)%N -> (N.of_nat (k + m) <= 2 ^ t)%num -> (N.of_nat (2 * k) <= 2 ^ t)%num ->
  forall had limit root, (forall n x y, (2 * k <= n < 4 * k)%N -> size x = n -> size y = n -> els (prime_ops (2 * h) p) x -> els (prime_ops (2 * h) p) y ->
    had x y = map2 (g_mul (prime_ops (2 * h) p)) x y) -> find_primitive_root (2 * h) (prime_ops (2 * h) p) = Some root ->
  exists c, [/\ fcode_make (2 * h) (prime_ops (2 * h) p) p limit had root k m
                (fun n => if is_power_of_2 (N.of_nat n) then new_tr (prime_ops (2 * h) p) p root n 0 else new_tc (2 * h) (prime_ops (2 * h) p) p root 0 n)
                (fun n => if is_power_of_2 (N.of_nat n) then new_tr (prime_ops (2 * h) p) p root n n else new_tc (2 * h) (prime_ops (2 * h) p) p root n n) = Some c,
     exists r r2, fcode_ok (Fpp p) (FieldP.phi p) c r r2 &
     [/\ f_k c = k, f_len c = (k + m)%N, f_w c = (2 * h)%num, g_card (f_G c) = p & f_limit c = limit]].
Proof.
  move=> h0 t31 Ep pp pw k0 m0 kt k2t had limit root Hh Er.
  have pq : (p <= 2 ^ (2 * h))%num by lia.
  have p1 : (p - 1 = 2 ^ t)%num by rewrite Ep; lia.
  have len n : (2 <= N.of_nat n)%num -> (N.of_nat n <= 2 ^ t)%num -> exists L, [/\ (L < 31)%N,
     ring_code_len_high_compo (2 * h) p (N.of_nat n) = Some (N.of_nat (2 ^ L)%N), (n <= 2 ^ L < 2 * n)%N & N.divide (N.of_nat (2 ^ L)%N) (p - 1)].
    move=> n2 nt; have [e [et [Ee [ne eL]]]] := ring_code_len_pow2 h p t _ h0 pq Ep n2 nt.
    exists (N.to_nat e); have E : N.of_nat (2 ^ N.to_nat e)%N = (2 ^ e)%num by rewrite PrimeR2.powN Nnat.N2Nat.id.
    rewrite E; split=> //; [lia|by move: E ne eL; clear; lia|].
    by rewrite p1; exists (2 ^ (t - e))%num; rewrite -N.pow_add_r; congr (_ ^ _)%num; lia.
  have [L [L31 EL /andP [nL _] DL]] := len (k + m)%N ltac:(lia) kt.
  have [L' [L31' EL' /andP [nL' nL2] DL']] := len (2 * k)%N ltac:(lia) k2t.
  apply: (gfp_make h p root h0 pp pw Er limit had k m (2 ^ L)%N L' k0 m0 nL nL' L31') => //.
  - by rewrite PrimeR2.powN; apply: N.pow_lt_mono_r => //; lia.
  - move=> f Pf; rewrite p1 => /(prime_divides_pow _ _ _ Pf) D.
    by have := N.divide_pos_le _ _ (ltac:(by []) : (0 < 2)%num) D; lia.
  - by move=> x y; apply: Hh; rewrite nL'; move: nL2; clear; lia.
Qed.

(** Codes on the field of 4294991873 elements. *)
Lemma smooth_small f : primeN f -> N.divide f 8192 -> (f <= 2)%num.
Proof.
  move=> Pf; rewrite -[8192%num]/(2 ^ 13)%num => /(prime_divides_pow _ _ _ Pf) D.
  by apply: N.divide_pos_le.
Qed.
Lemma smooth_large f : primeN f -> N.divide f 524291 -> (2 < f)%num.
Proof. by move=> Pf D; have f1 := proj1 Pf; case: (N.eq_dec f 2) D => [->|]; [case=> c|]; lia. Qed.

(** 23994368 = 2 ^ 13 * 29 * 101, and the order is 179 times that. *)
Lemma smooth_small2 f : primeN f -> N.divide f 23994368 -> (f <= 101)%num.
Proof.
  move=> Pf D; have f1 := proj1 Pf; have D' : N.divide f (big - 1) by apply: (N.divide_trans _ _ _ D); exists 179%num.
  case: (big_factor f Pf D') => [->|[->|[->|E]]] //; move: D; rewrite E => -[c]; lia.
Qed.
Lemma smooth_large2 f : primeN f -> N.divide f 179 -> (101 < f)%num.
Proof.
  move=> Pf D; have f1 := proj1 Pf; case: (proj2 prime179 f D) => [E|->] //; lia.
Qed.

Lemma gfp_big h k m : (0 < h)%num -> (2 * big <= 2 ^ (2 * h))%num -> (0 < k)%N -> (0 < m)%N ->
  (N.of_nat (k + m) <= 23994368)%num -> (N.of_nat (2 * k) <= 8192)%num ->
  forall had limit root, (forall n x y, size x = n -> size y = n -> els (prime_ops (2 * h) big) x -> els (prime_ops (2 * h) big) y ->
    had x y = map2 (g_mul (prime_ops (2 * h) big)) x y) -> find_primitive_root (2 * h) (prime_ops (2 * h) big) = Some root ->
  exists c, [/\ fcode_make (2 * h) (prime_ops (2 * h) big) big limit had root k m
                (fun n => if is_power_of_2 (N.of_nat n) then new_tr (prime_ops (2 * h) big) big root n 0 else new_tc (2 * h) (prime_ops (2 * h) big) big root 0 n)
                (fun n => if is_power_of_2 (N.of_nat n) then new_tr (prime_ops (2 * h) big) big root n n else new_tc (2 * h) (prime_ops (2 * h) big) big root n n) = Some c,
     exists r r2, fcode_ok (Fpp big) (FieldP.phi big) c r r2 &
     [/\ f_k c = k, f_len c = (k + m)%N, f_w c = (2 * h)%num, g_card (f_G c) = big & f_limit c = limit]].
Proof.
  have Eb : exists q, q = big /\ (q = 4294991873)%num by exists big.
  case: Eb => q [<- Eq] h0 pw k0 m0 kb k2 had limit root Hh Er.
  have pp : primeN q by rewrite Eq; exact: prime_big.
  have fac f : primeN f -> N.divide f (q - 1) -> (f <= 179)%num.
    by rewrite Eq => Pf /(big_factor f Pf); lia.
  have Eo : (q - 1 + 1 = q)%num by lia.
  have o0 : (0 < q - 1)%num by lia.
  have ow : (q - 1 < 2 ^ (2 * h))%num by lia.
  have oE : (q - 1 = 8192 * 524291)%num by rewrite Eq.
  have oE2 : (q - 1 = 23994368 * 179)%num by rewrite Eq.
  have [r [El [nr [rq [rb _]]]]] := code_len_smooth h (q - 1) 101 23994368 179 h0 ow o0 oE2 smooth_small2 smooth_large2 (N.of_nat (k + m)) ltac:(lia) ltac:(lia).
  have [r2 [El2 [nr2 [rq2 [rM _]]]]] := code_len_smooth h (q - 1) 2 8192 524291 h0 ow o0 oE smooth_small smooth_large (N.of_nat (2 * k)) ltac:(lia) ltac:(lia).
  rewrite Eo in El El2; have {}rb : (r <= 23994368)%num by apply: N.divide_pos_le (rb kb).
  have [|e [e13 Ee]] := divide_pow2 r2 13; first exact: rM.
  have E2 : N.of_nat (2 ^ N.to_nat e)%N = r2 by rewrite PrimeR2.powN Nnat.N2Nat.id.
  apply: (gfp_make h q root h0 pp pw Er limit had k m (N.to_nat r) (N.to_nat e) k0 m0); rewrite ?E2 ?Nnat.N2Nat.id //.
  - by lia.
  - by lia.
  - by lia.
  - by lia.
  - by move=> f Pf Df; have := fac f Pf Df; lia.
  - by move=> x y; exact: Hh.
Qed.

(** More data: the second transform is a CooleyTukey that starts after its last factor. *)
Lemma tc_no_factor w G p root n : (length (match get_prime_factors w (N.of_nat n) with Some l => l | None => [::] end) <= n)%N ->
  new_tc w G p root n n = None.
Proof.
  rewrite /new_tc /new_cooley_tukey; case: (get_prime_factors w (N.of_nat n)) => [l|//] L.
  by rewrite List.skipn_all2 ?List.map_length //; apply/leP.
Qed.
