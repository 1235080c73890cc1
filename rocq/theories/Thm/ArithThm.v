(** Properties C21, C22, C23, C25 and C26: the integer functions of src/arith.h.
    Widths: a C++ type of [2 * h] bits, [h] any positive number (the code instantiates 16, 32, 64 and 128; for
    128 bits extended_gcd is in U128Thm.v). *)
From Coq Require Import List NArith ZArith Sorting.Sorted Lia.
From Verif.Model Require Import Common Arith Ring.
From Verif.Spec Require Import Primes Ints.
From Verif.Proof Require Import ArithP BitRev Ceil2P EgcdP PrimeP CodeLenP.
Import ListNotations.

(** * C21 Extended Euclid *)
Section C21.
Open Scope Z_scope.

(** The loop ends; the result is the gcd with its Bezout coefficients; the quotients divide the operands by the gcd
    (quotient_gcd[0] = t and quotient_gcd[1] = s, up to sign). *)
Theorem C21_extended_gcd a b : 0 <= a -> 0 <= b ->
  exists st, extended_gcd a b = Some st /\
    e_or st = Z.gcd a b /\
    a * e_os st + b * e_ot st = Z.gcd a b /\
    Z.abs (e_t st) * Z.gcd a b = a /\ Z.abs (e_s st) * Z.gcd a b = b /\
    Z.abs (e_os st) <= Z.max 1 b /\ Z.abs (e_ot st) <= Z.max 1 a.
Proof.
  intros Ha Hb. destruct (extended_gcd_ok a b Ha Hb) as (st & E & I & R & G). exists st.
  pose proof (ei_sum1 _ _ _ I) as U1. pose proof (ei_sum2 _ _ _ I) as U2. rewrite R, G, Z.mul_0_r, Z.add_0_r in *.
  pose proof (ei_bez1 _ _ _ I) as B. rewrite G in B. destruct (ei_bnd _ _ _ I) as (_ & B1 & _ & B2 & _).
  repeat split; assumption.
Qed.

(** Every value held or formed by the loop, at any turn, is bounded by the operands: the signed double-width type
    cannot overflow. *)
Theorem C21_extended_gcd_bounds a b k : 0 <= a -> 0 <= b ->
  (forall i, (i < k)%nat -> e_r (Nat.iter i egcd_step (egcd_init a b)) <> 0) ->
  let st := Nat.iter k egcd_step (egcd_init a b) in
  let q := Z.quot (e_or st) (e_r st) in
  let M := Z.max 1 (Z.max a b) in
  (Z.abs (e_s st) <= M /\ Z.abs (e_os st) <= M /\ Z.abs (e_t st) <= M /\ Z.abs (e_ot st) <= M /\
   0 <= e_r st <= M /\ 0 <= e_or st <= M) /\
  (e_r st <> 0 -> 0 <= q <= M /\ Z.abs (q * e_s st) <= M /\ Z.abs (q * e_t st) <= M /\ 0 <= q * e_r st <= M).
Proof.
  intros Ha Hb H st q M. pose proof (egcd_inv_iter a b k Ha Hb H) as I. fold st in I.
  assert (M1 : Z.max 1 a <= M /\ Z.max 1 b <= M /\ Z.max a b <= M) by (unfold M; lia).
  split.
  - destruct (ei_bnd _ _ _ I) as (B1 & B2 & B3 & B4 & B5 & B6).
    pose proof (ei_r _ _ _ I). pose proof (ei_or _ _ _ I).
    destruct M1 as (X1 & X2 & X3). clear - B1 B2 B3 B4 B5 B6 H0 H1 X1 X2 X3.
    repeat split; eauto using Z.le_trans.
  - intros Hne. destruct (egcd_products a b st Ha Hb I Hne) as ((P1 & P2) & P3 & P4 & P5 & P6). fold q in P1, P2, P3, P4, P5, P6.
    destruct M1 as (X1 & X2 & X3). repeat split; eauto using Z.le_trans.
Qed.

Example C21_case : option_map (fun st => (e_or st, e_os st, e_ot st)) (extended_gcd 240 46) = Some (2, -9, 47).
Proof. reflexivity. Qed.
End C21.

(** * C22 Chinese remainder *)
Section C22.
Open Scope Z_scope.
Theorem C22_chinese_remainder l : Forall (fun an => 0 < snd an) l -> pairwise_coprime l ->
  exists x, chinese_remainder l = Some x /\ 0 <= x < zprod l /\
    (forall a n, In (a, n) l -> x mod n = a mod n) /\
    (forall y, 0 <= y < zprod l -> (forall a n, In (a, n) l -> y mod n = a mod n) -> y = x).
Proof.
  intros H1 H2. destruct (chinese_remainder_ok l H1 H2) as (x & E & B & M). exists x.
  split; [exact E|]. split; [exact B|]. split; [exact M|].
  intros y By My. apply (crt_unique l); auto. intros a n Hi. rewrite (M a n Hi). now apply My.
Qed.

Example C22_case :
  let l := [(4, 107); (2, 74)] in
  Forall (fun an => 0 < snd an) l /\ pairwise_coprime l /\ chinese_remainder l = Some 5996.
Proof. split; [repeat constructor|]. split; [repeat constructor|]. vm_compute. reflexivity. Qed.
End C22.

Open Scope N_scope.

(** * C23 Primality and factorisation *)
Theorem C23_is_prime h n : 0 < h -> 2 <= n -> n < 2 ^ (2 * h) -> is_prime (2 * h) n = true <-> primeN n.
Proof. intros; now apply is_prime_spec. Qed.

Theorem C23_factor_prime h n : 0 < h -> n <> 0 -> n < 2 ^ (2 * h) ->
  exists l, factor_prime (2 * h) n = Some l /\ factorisation n l.
Proof. intros; now apply factor_prime_spec. Qed.

Theorem C23_get_prime_factors h n : 0 < h -> n <> 0 -> n < 2 ^ (2 * h) ->
  exists l, get_prime_factors (2 * h) n = Some l /\ Forall primeN l /\ list_prod l = n /\ StronglySorted N.le l.
Proof. intros; now apply get_prime_factors_spec. Qed.

Theorem C23_factor_distinct_prime h n : 0 < h -> n <> 0 -> n < 2 ^ (2 * h) ->
  exists l, factor_distinct_prime (2 * h) n = Some l /\ StronglySorted N.lt l /\
    forall p, In p l <-> primeN p /\ (p | n).
Proof. intros; now apply factor_distinct_prime_spec. Qed.

Theorem C23_get_coprime_factors h n : 0 < h -> n <> 0 -> n < 2 ^ (2 * h) ->
  exists l, get_coprime_factors (2 * h) n = Some l /\ list_prod l = n /\
    Forall (fun q => exists p e, primeN p /\ 0 < e /\ q = p ^ e) l /\ ForallOrdPairs (fun a b => N.gcd a b = 1) l.
Proof. intros; now apply get_coprime_factors_spec. Qed.

Theorem C23_get_proper_divisors h n : 0 < h -> n <> 0 -> n < 2 ^ (2 * h) ->
  exists l, get_proper_divisors (2 * h) n = Some l /\
    forall d, In d l <-> exists p, primeN p /\ p < n /\ n = d * p.
Proof. intros; now apply get_proper_divisors_spec. Qed.

Theorem C23_get_all_divisors h n : 0 < h -> n <> 0 -> n < 2 ^ (2 * h) ->
  forall d, In d (get_all_divisors (2 * h) n) <-> (d | n).
Proof. intros; now apply get_all_divisors_spec. Qed.

(** The bound [2 <= n] is needed: the code calls 0 and 1 prime. *)
Theorem C23_is_prime_small_refuted : exists n, is_prime 32 n = true /\ ~ primeN n.
Proof. exists 1. split; [reflexivity|]. intros [H _]. now apply N.lt_irrefl in H. Qed.

(** The list of all divisors repeats the square root of a perfect square. *)
Theorem C23_get_all_divisors_nodup_refuted : exists n, n <> 0 /\ n < 2 ^ 32 /\ ~ NoDup (get_all_divisors 32 n).
Proof.
  exists 9. split; [lia|]. split; [reflexivity|]. vm_compute. intros H.
  repeat match goal with H : NoDup (_ :: _) |- _ => inversion_clear H end. cbn in *. intuition congruence.
Qed.

Example C23_case : is_prime 32 65537 = true /\ is_prime 32 65535 = false /\
  factor_prime 32 3600 = Some [(2, 4); (3, 2); (5, 2)] /\
  get_proper_divisors 32 3600 = Some [1800; 1200; 720] /\
  get_coprime_factors 32 3600 = Some [16; 9; 25] /\
  get_all_divisors 32 12 = [1; 2; 3; 4; 6; 12].
Proof. repeat split; vm_compute; reflexivity. Qed.

(** * C25 Code lengths *)
(** From a list of factors in the order the loop meets them: a divisor of the order, at least [n], and no longer so
    when divided by some factor. *)
Theorem C25_get_code_len_high_compo fs n : 2 <= n -> Forall (fun f => 0 < f) fs -> n <= list_prod fs ->
  exists r, get_code_len_high_compo fs n = Some r /\ n <= r /\ (r | list_prod fs) /\
    exists f, In f fs /\ r / f < n.
Proof. apply get_code_len_high_compo_spec. Qed.

Theorem C25_get_code_len_high_compo_none fs n : 2 <= n -> Forall (fun f => 0 < f) fs -> list_prod fs < n ->
  get_code_len_high_compo fs n = None.
Proof. apply get_code_len_high_compo_none. Qed.

(** In a field of [2^t + 1] elements: the smallest power of two that is at least [n]. *)
Theorem C25_code_len_fermat h card t n : 0 < h -> card <= 2 ^ (2 * h) -> card = 2 ^ t + 1 -> 2 <= n -> n <= 2 ^ t ->
  exists e, e <= t /\ ring_code_len_high_compo (2 * h) card n = Some (2 ^ e) /\ n <= 2 ^ e /\
    forall e', n <= 2 ^ e' -> e <= e'.
Proof.
  intros H1 H2 H3 H4 H5. destruct (ring_code_len_pow2 h card t n H1 H2 H3 H4 H5) as (e & E1 & E2 & E3 & E4).
  exists e. split; [exact E1|]. split; [exact E2|]. split; [exact E3|]. intros e' He.
  destruct (N.le_gt_cases e e') as [|Hl]; [assumption|exfalso].
  assert (2 ^ (e' + 1) <= 2 ^ e) by (apply N.pow_le_mono_r; lia). rewrite N.pow_add_r in H. lia.
Qed.

Theorem C25_get_code_len h order n : 0 < h -> order < 2 ^ (2 * h) -> 0 < n -> n <= order ->
  exists r, get_code_len (2 * h) order n = Some r /\ (r | order) /\ n <= r.
Proof. apply get_code_len_spec. Qed.

(** The comment of get_code_len (arith.h:648) promises the smallest such divisor: this does not hold. *)
Theorem C25_get_code_len_smallest_refuted : exists order n r d, get_code_len 32 order n = Some r /\
  (d | order) /\ n <= d /\ d < r.
Proof. exists 14, 3, 14, 7. split; [reflexivity|]. split; [exists 2; reflexivity|]. lia. Qed.

(** With at least two factors and [n = 1] the function returns 0, which divides nothing. *)
Theorem C25_high_compo_one_refuted : exists fs, Forall (fun f => 0 < f) fs /\ 1 <= list_prod fs /\
  get_code_len_high_compo fs 1 = Some 0.
Proof. exists [2; 2]. repeat split; try constructor; try lia; try constructor; try lia; try constructor. vm_compute. discriminate. Qed.

Example C25_case : get_code_len_high_compo [2; 2; 3; 3; 5; 7] 20 = Some 36 /\
  ring_code_len_high_compo 32 65537 20 = Some 32 /\ get_code_len 32 65536 1000 = Some 1024.
Proof. repeat split; vm_compute; reflexivity. Qed.

(** * C26 Integer helpers *)
Theorem C26_sqrt h n : 0 < h -> n < 2 ^ (2 * h) ->
  sqrt (2 * h) n * sqrt (2 * h) n <= n < (sqrt (2 * h) n + 1) * (sqrt (2 * h) n + 1).
Proof. apply sqrt_spec. Qed.

Theorem C26_exp w b e : 0 < w -> exp w b e = b ^ e mod 2 ^ w.
Proof. apply exp_spec. Qed.

Theorem C26_exp_mod w b e m : m <> 0 -> m * m <= 2 ^ w -> exp_mod w b e m = b ^ e mod m.
Proof. apply exp_mod_spec. Qed.

(** Without the bound on the modulus the products wrap. *)
Theorem C26_exp_mod_wide_refuted : exists b e m, m <> 0 /\ m < 2 ^ 32 /\ b < m /\ exp_mod 32 b e m <> b ^ e mod m.
Proof. exists 65538, 2, 65539. repeat split; try lia. vm_compute. discriminate. Qed.

Theorem C26_is_power_of_2 n : is_power_of_2 n = true <-> exists k, n = 2 ^ k.
Proof. apply is_power_of_2_spec. Qed.

Theorem C26_log2 n : n <> 0 -> exists l, log2 n = Some l /\ 2 ^ l <= n < 2 ^ (l + 1).
Proof.
  intros H. exists (N.log2 n). split; [now apply log2_correct|]. rewrite N.add_1_r. apply N.log2_spec. lia.
Qed.

Theorem C26_ceil2 n : n <> 0 -> exists e, ceil2 n = Some (2 ^ e) /\ n <= 2 ^ e /\ forall e', n <= 2 ^ e' -> e <= e'.
Proof.
  intros H. destruct (ceil2_spec n H) as (e & E1 & E2 & E3). exists e. split; [exact E1|]. split; [exact E2|].
  intros e' He. destruct (N.le_gt_cases e e') as [|Hl]; [assumption|exfalso].
  assert (2 ^ (e' + 1) <= 2 ^ e) by (apply N.pow_le_mono_r; lia). rewrite N.pow_add_r in H0. lia.
Qed.

Theorem C26_gcd u v : (gcd u v | u) /\ (gcd u v | v) /\ forall d, (d | u) -> (d | v) -> (d | gcd u v).
Proof.
  rewrite gcd_spec. split; [apply N.gcd_divide_l|]. split; [apply N.gcd_divide_r|]. intros; now apply N.gcd_greatest.
Qed.

Example C26_case : sqrt 32 4294967295 = 65535 /\ exp 32 3 21 = 3 ^ 21 mod 2 ^ 32 /\ exp_mod 32 7 100 257 = 7 ^ 100 mod 257 /\
  log2 65537 = Some 16 /\ ceil2 65537 = Some 131072 /\ gcd 270 192 = 6.
Proof. repeat split; vm_compute; reflexivity. Qed.

Print Assumptions C21_extended_gcd.
Print Assumptions C21_extended_gcd_bounds.
Print Assumptions C22_chinese_remainder.
Print Assumptions C23_is_prime.
Print Assumptions C23_factor_prime.
Print Assumptions C23_get_prime_factors.
Print Assumptions C23_factor_distinct_prime.
Print Assumptions C23_get_coprime_factors.
Print Assumptions C23_get_proper_divisors.
Print Assumptions C23_get_all_divisors.
Print Assumptions C25_get_code_len_high_compo.
Print Assumptions C25_code_len_fermat.
Print Assumptions C25_get_code_len.
Print Assumptions C26_sqrt.
Print Assumptions C26_exp_mod.
Print Assumptions C26_log2.
Print Assumptions C26_ceil2.
Print Assumptions C26_gcd.
