(** The generator of benchmark/prng.h: its checksum is injective, its period is 2^64. *)
From Coq Require Import List NArith ZArith Arith Bool Lia Znumtheory.
From Verif.Model Require Import Common Header Prng.
Import ListNotations.
Open Scope N_scope.

(** ** The checksum *)
Lemma crc_bit_spec c i : N.testbit (crc_bit c) i = xorb (N.testbit c (N.succ i)) (N.testbit c 0 && N.testbit crc_poly i).
Proof.
  unfold crc_bit. replace (N.land c 1) with (c mod 2 ^ 1) by (rewrite <- N.land_ones; reflexivity).
  change (2 ^ 1) with 2. rewrite <- N.bit0_mod. destruct (N.testbit c 0); cbn [N.b2n andb].
  - change (1 =? 0) with false. cbv iota. rewrite N.lxor_spec, N.shiftr_spec'. f_equal. f_equal. lia.
  - change (0 =? 0) with true. cbv iota. rewrite N.shiftr_spec', xorb_false_r. f_equal. lia.
Qed.
Lemma crc_bit_lin a b : crc_bit (N.lxor a b) = N.lxor (crc_bit a) (crc_bit b).
Proof.
  apply N.bits_inj. intros i. rewrite N.lxor_spec, !crc_bit_spec, !N.lxor_spec.
  destruct (N.testbit a (N.succ i)), (N.testbit b (N.succ i)), (N.testbit a 0), (N.testbit b 0), (N.testbit crc_poly i); reflexivity.
Qed.
Lemma small_bits x i : x < 2 ^ 32 -> 32 <= i -> N.testbit x i = false.
Proof.
  intros H Hi. rewrite <- (N.mod_small x (2 ^ 32)) by exact H. now apply N.mod_pow2_bits_high.
Qed.
Lemma bits_small x : (forall i, 32 <= i -> N.testbit x i = false) -> x < 2 ^ 32.
Proof.
  intros H. assert (E : x mod 2 ^ 32 = x).
  { apply N.bits_inj. intros i. destruct (N.lt_ge_cases i 32) as [A|A]; [now rewrite N.mod_pow2_bits_low|].
    rewrite N.mod_pow2_bits_high by exact A. symmetry. now apply H. }
  rewrite <- E. apply N.mod_lt. discriminate.
Qed.
Lemma poly_bound : crc_poly < 2 ^ 32. Proof. reflexivity. Qed.
Lemma crc_bit_lt c : c < 2 ^ 32 -> crc_bit c < 2 ^ 32.
Proof.
  intros H. apply bits_small. intros i Hi. rewrite crc_bit_spec, (small_bits c) by (try exact H; lia).
  rewrite (small_bits crc_poly) by (try exact poly_bound; lia). rewrite andb_false_r. reflexivity.
Qed.
Lemma crc_bit_inj a b : a < 2 ^ 32 -> b < 2 ^ 32 -> crc_bit a = crc_bit b -> a = b.
Proof.
  intros Ha Hb E. assert (B : forall i, N.testbit (crc_bit a) i = N.testbit (crc_bit b) i) by (intros; now rewrite E).
  assert (B0 : N.testbit a 0 = N.testbit b 0).
  { specialize (B 31). rewrite !crc_bit_spec in B. change (N.succ 31) with 32 in B. rewrite (small_bits a), (small_bits b) in B by (try assumption; lia).
    change (N.testbit crc_poly 31) with true in B. rewrite !andb_true_r in B. destruct (N.testbit a 0), (N.testbit b 0); try reflexivity; discriminate B. }
  apply N.bits_inj. intros i. destruct (N.eq_dec i 0) as [->|Hi]; [exact B0|].
  specialize (B (N.pred i)). rewrite !crc_bit_spec, N.succ_pred, B0 in B by exact Hi.
  destruct (N.testbit a i), (N.testbit b i), (N.testbit b 0), (N.testbit crc_poly (N.pred i)); try discriminate; reflexivity.
Qed.

Notation T n := (Nat.iter n crc_bit).
Lemma iterS {A} (f : A -> A) n x : Nat.iter (S n) f x = f (Nat.iter n f x).
Proof. reflexivity. Qed.
Lemma iter_plus {A} (f : A -> A) m n x : Nat.iter (m + n) f x = Nat.iter m f (Nat.iter n f x).
Proof. induction m as [|m IH]; [reflexivity|]. change (S m + n)%nat with (S (m + n)). now rewrite !iterS, IH. Qed.
Lemma T_lin n a b : T n (N.lxor a b) = N.lxor (T n a) (T n b).
Proof. induction n as [|n IH]; [reflexivity|]. rewrite !iterS, IH. apply crc_bit_lin. Qed.
Lemma T_lt n c : c < 2 ^ 32 -> T n c < 2 ^ 32.
Proof. intros H. induction n as [|n IH]; [exact H|]. rewrite iterS. now apply crc_bit_lt. Qed.
Lemma T_inj n : forall a b, a < 2 ^ 32 -> b < 2 ^ 32 -> T n a = T n b -> a = b.
Proof.
  induction n as [|n IH]; intros a b Ha Hb E; [exact E|]. rewrite !iterS in E.
  apply crc_bit_inj in E; [|now apply T_lt|now apply T_lt]. now apply IH.
Qed.
Lemma crc_bit_double v : crc_bit (2 * v) = v.
Proof.
  apply N.bits_inj. intros i. rewrite crc_bit_spec, N.double_bits_succ, N.testbit_even_0. apply xorb_false_r.
Qed.
Lemma iter_out {A} (f : A -> A) n x : Nat.iter (S n) f x = Nat.iter n f (f x).
Proof. induction n as [|n IH]; [reflexivity|]. now rewrite iterS, IH, <- iterS. Qed.
Lemma T_shift n v : T n (v * 2 ^ N.of_nat n) = v.
Proof.
  induction n as [|n IH]; [cbn; lia|]. rewrite iter_out.
  replace (v * 2 ^ N.of_nat (S n)) with (2 * (v * 2 ^ N.of_nat n)) by (rewrite Nat2N.inj_succ, N.pow_succ_r'; lia).
  now rewrite crc_bit_double.
Qed.

(** [l], little endian. *)
Fixpoint le (l : list N) : N := match l with [] => 0 | b :: l => b + 256 * le l end.
Definition bytes (l : list N) : Prop := Forall (fun b => b < 256) l.
Lemma le_lt l : bytes l -> le l < 256 ^ N.of_nat (length l).
Proof.
  induction 1 as [|b l Hb _ IH]; [reflexivity|]. cbn [le length]. rewrite Nat2N.inj_succ, N.pow_succ_r'. lia.
Qed.
Lemma le_app l v : le (l ++ [v]) = le l + v * 256 ^ N.of_nat (length l).
Proof.
  induction l as [|b l IH]; [cbn; lia|]. cbn [app le length]. rewrite IH, Nat2N.inj_succ, N.pow_succ_r'. lia.
Qed.
Lemma le_inj l : forall l', length l = length l' -> bytes l -> bytes l' -> le l = le l' -> l = l'.
Proof.
  induction l as [|b l IH]; intros [|b' l'] L H H' E; try discriminate; [reflexivity|]. inversion H; subst. inversion H'; subst. cbn [le] in E.
  assert (b = b') by lia. subst b'. f_equal. apply IH; auto. lia.
Qed.
Lemma le_xor l v : bytes l -> le l + v * 256 ^ N.of_nat (length l) = N.lxor (le l) (v * 2 ^ N.of_nat (8 * length l)).
Proof.
  intros H. pose proof (le_lt l H) as B. replace (256 ^ N.of_nat (length l)) with (2 ^ N.of_nat (8 * length l)) in *
    by (rewrite Nat2N.inj_mul, N.pow_mul_r; reflexivity).
  apply N.add_nocarry_lxor. apply N.bits_inj. intros i. rewrite N.land_spec, N.bits_0.
  destruct (N.lt_ge_cases i (N.of_nat (8 * length l))) as [A|A].
  - rewrite N.mul_pow2_bits_low by exact A. apply andb_false_r.
  - rewrite <- (N.mod_small (le l) _ B), N.mod_pow2_bits_high by exact A. reflexivity.
Qed.
Lemma crc_fold l c : (length l <= 4)%nat -> bytes l -> fold_left crc_byte l c = T (8 * length l) (N.lxor c (le l)).
Proof.
  revert c. induction l as [|v l IH] using rev_ind; intros c L H; [cbn; now rewrite N.lxor_0_r|].
  apply Forall_app in H. destruct H as (H & Hv). rewrite app_length in L. cbn [length] in L.
  rewrite fold_left_app, IH by (try assumption; lia). cbn [fold_left]. unfold crc_byte.
  replace (N.lxor (T (8 * length l) (N.lxor c (le l))) v) with (T (8 * length l) (N.lxor c (le (l ++ [v])))).
  - rewrite <- iter_plus. f_equal. rewrite app_length. cbn [length]. lia.
  - rewrite le_app, le_xor by exact H. rewrite <- N.lxor_assoc. rewrite T_lin. f_equal. apply T_shift.
Qed.
Lemma crc_byte_lt c v : c < 2 ^ 32 -> v < 256 -> crc_byte c v < 2 ^ 32.
Proof.
  intros Hc Hv. apply T_lt. apply bits_small. intros i Hi. rewrite N.lxor_spec, !small_bits; auto. lia.
Qed.
Lemma xor_lt a b : a < 2 ^ 32 -> b < 2 ^ 32 -> N.lxor a b < 2 ^ 32.
Proof. intros Ha Hb. apply bits_small. intros i Hi. now rewrite N.lxor_spec, !small_bits. Qed.
Lemma crc_lt l : bytes l -> forall c, c < 2 ^ 32 -> fold_left crc_byte l c < 2 ^ 32.
Proof. induction 1 as [|v l Hv _ IH]; intros c Hc; [exact Hc|]. cbn [fold_left]. apply IH. now apply crc_byte_lt. Qed.
Lemma xor_cancel a b x : N.lxor a x = N.lxor b x -> a = b.
Proof. intros E. apply (f_equal (fun y => N.lxor y x)) in E. now rewrite !N.lxor_assoc, N.lxor_nilpotent, !N.lxor_0_r in E. Qed.
Lemma xor_cancel_l a b x : N.lxor x a = N.lxor x b -> a = b.
Proof. rewrite !(N.lxor_comm x). apply xor_cancel. Qed.
Lemma crc_tail l : bytes l -> forall a b, a < 2 ^ 32 -> b < 2 ^ 32 -> fold_left crc_byte l a = fold_left crc_byte l b -> a = b.
Proof.
  induction 1 as [|v l Hv _ IH]; intros a b Ha Hb E; [exact E|]. cbn [fold_left] in E. apply IH in E; try now apply crc_byte_lt.
  unfold crc_byte in E. apply T_inj in E; try (apply xor_lt; auto; lia). now apply xor_cancel in E.
Qed.
(** A burst of at most four bytes changes the checksum. *)
Lemma crc_burst a x y b c : c < 2 ^ 32 -> bytes (a ++ x ++ b) -> bytes y -> length x = length y -> (length x <= 4)%nat ->
  fold_left crc_byte (a ++ x ++ b) c = fold_left crc_byte (a ++ y ++ b) c -> x = y.
Proof.
  intros Hc Hb Hy L L4 E. apply Forall_app in Hb. destruct Hb as (Ha & Hb). apply Forall_app in Hb. destruct Hb as (Hx & Hb).
  rewrite !fold_left_app in E. pose proof (crc_lt a Ha c Hc) as B. apply crc_tail in E; [|exact Hb|now apply crc_lt|now apply crc_lt].
  rewrite (crc_fold x), (crc_fold y) in E by (try assumption; lia). rewrite <- L in E.
  assert (P : 256 ^ N.of_nat (length x) <= 2 ^ 32) by (change (2 ^ 32) with (256 ^ 4); apply N.pow_le_mono_r; lia).
  pose proof (le_lt x Hx) as X. pose proof (le_lt y Hy) as Y. rewrite <- L in Y.
  apply T_inj in E; try (apply xor_lt; auto; lia). apply xor_cancel_l in E. now apply le_inj in E.
Qed.

(** ** The four bytes of the checksum *)
Lemma word_bytes_bytes x : bytes (word_bytes x).
Proof. repeat constructor; apply N.mod_lt; discriminate. Qed.
Lemma bytes_word_le b0 b1 b2 b3 l : bytes [b0; b1; b2; b3] -> bytes_word (b0 :: b1 :: b2 :: b3 :: l) = le [b0; b1; b2; b3].
Proof.
  intros H. inversion H as [|? ? H0 A0]; subst. inversion A0 as [|? ? H1 A1]; subst. inversion A1 as [|? ? H2 A2]; subst. inversion A2 as [|? ? H3 _]; subst.
  unfold bytes_word, get. cbn [nth le]. rewrite !N.shiftl_mul_pow2.
  assert (D : forall a b n, a < 2 ^ n -> N.lor a (b * 2 ^ n) = a + b * 2 ^ n).
  { intros a b n Ha. rewrite N.add_nocarry_lxor; [rewrite N.lxor_lor; [reflexivity|]|];
    (apply N.bits_inj; intros i; rewrite N.land_spec, N.bits_0; destruct (N.lt_ge_cases i n) as [A|A];
     [rewrite N.mul_pow2_bits_low by exact A; apply andb_false_r|rewrite <- (N.mod_small a _ Ha), N.mod_pow2_bits_high by exact A; reflexivity]). }
  replace (N.lor (b2 * 2 ^ 16) (b3 * 2 ^ 24)) with ((b2 + b3 * 2 ^ 8) * 2 ^ 16)
    by (rewrite <- (D b2 b3 8) by exact H2; rewrite <- !N.shiftl_mul_pow2, N.shiftl_lor, N.shiftl_shiftl; reflexivity).
  replace (N.lor (b1 * 2 ^ 8) ((b2 + b3 * 2 ^ 8) * 2 ^ 16)) with ((b1 + (b2 + b3 * 2 ^ 8) * 2 ^ 8) * 2 ^ 8)
    by (rewrite <- (D b1 (b2 + b3 * 2 ^ 8) 8) by exact H1; rewrite <- !N.shiftl_mul_pow2, N.shiftl_lor, N.shiftl_shiftl; reflexivity).
  rewrite D by exact H0. change (2 ^ 8) with 256. lia.
Qed.
Lemma word_bytes_le x : x < 2 ^ 32 -> le (word_bytes x) = x.
Proof.
  intros H. unfold word_bytes, wrap. cbn [le]. rewrite !N.shiftr_div_pow2.
  pose proof (N.div_mod' x (2 ^ 8)) as A. pose proof (N.div_mod' (x / 2 ^ 8) (2 ^ 8)) as B. pose proof (N.div_mod' (x / 2 ^ 8 / 2 ^ 8) (2 ^ 8)) as C.
  rewrite !N.div_div in * by discriminate. change (2 ^ 8 * 2 ^ 8) with (2 ^ 16) in *. change (2 ^ 16 * 2 ^ 8) with (2 ^ 24) in *.
  change (2 ^ 8 * 2 ^ 16) with (2 ^ 24) in *. rewrite (N.mod_small (x / 2 ^ 24) (2 ^ 8)) by (apply N.div_lt_upper_bound; [discriminate|exact H]).
  change (2 ^ 8) with 256 in *. lia.
Qed.
Lemma not32_inv x : not32 (not32 x) = x.
Proof. unfold not32. now rewrite N.lxor_assoc, N.lxor_nilpotent, N.lxor_0_r. Qed.
Lemma not32_lt x : x < 2 ^ 32 -> not32 x < 2 ^ 32.
Proof. intros H. apply xor_lt; [exact H|reflexivity]. Qed.
Lemma init_lt : crc_init < 2 ^ 32. Proof. reflexivity. Qed.

(** ** The period *)
Section Period.
Open Scope Z_scope.
Variables (a c : Z).
Hypothesis Ha : a mod 4 = 1.
Fixpoint geo (n : nat) : Z := match n with O => 0 | S n => a * geo n + 1 end.
Lemma geo_pow n : (a - 1) * geo n = a ^ Z.of_nat n - 1.
Proof.
  induction n as [|n IH]; [cbn; lia|]. cbn [geo]. rewrite Nat2Z.inj_succ, Z.pow_succ_r by lia. nia.
Qed.
Lemma geo_double n : geo (n + n) = geo n * (1 + a ^ Z.of_nat n).
Proof.
  assert (G : forall m, geo (m + n) = a ^ Z.of_nat m * geo n + geo m).
  { induction m as [|m IH]; [cbn [Nat.add geo]; change (a ^ Z.of_nat 0) with 1; lia|].
    cbn [Nat.add geo]. rewrite IH, Nat2Z.inj_succ, Z.pow_succ_r by lia. lia. }
  rewrite G. lia.
Qed.
Lemma pow_mod4 n : (a ^ Z.of_nat n) mod 4 = 1.
Proof.
  induction n as [|n IH]; [reflexivity|]. rewrite Nat2Z.inj_succ, Z.pow_succ_r by lia. rewrite Z.mul_mod, Ha, IH by lia. reflexivity.
Qed.
Lemma geo_parity n : (geo n) mod 2 = Z.of_nat n mod 2.
Proof.
  assert (A2 : a mod 2 = 1) by (pose proof (Z.div_mod a 4 ltac:(lia)); rewrite H, Ha; replace (4 * (a / 4) + 1) with (1 + (2 * (a / 4)) * 2) by lia;
    rewrite Z.mod_add by lia; reflexivity).
  induction n as [|n IH]; [reflexivity|]. cbn [geo]. rewrite Z.add_mod, Z.mul_mod, A2, IH, Nat2Z.inj_succ by lia.
  rewrite Z.mul_1_l, Z.mod_mod, <- Z.add_mod by lia. reflexivity.
Qed.
Lemma odd_gauss t e : forall x, (2 ^ Z.of_nat e | x * (1 + 2 * t)) -> (2 ^ Z.of_nat e | x).
Proof.
  induction e as [|e IH]; intros x H; [apply Z.divide_1_l|]. rewrite Nat2Z.inj_succ, Z.pow_succ_r in * by lia.
  destruct H as (q & H). destruct (Z.Even_or_Odd x) as [(y & ->)|(y & ->)].
  - destruct (IH y) as (z & ->); [exists q; lia|]. exists z. lia.
  - exfalso. assert (X : 2 * (q * 2 ^ Z.of_nat e - t - y - 2 * y * t) = 1) by lia. lia.
Qed.
Lemma geo_val e : forall n, (2 ^ Z.of_nat e | geo n) <-> (2 ^ Z.of_nat e | Z.of_nat n).
Proof.
  induction e as [|e IH]; intros n; [split; intros _; apply Z.divide_1_l|].
  rewrite Nat2Z.inj_succ, Z.pow_succ_r by lia. set (M := 2 ^ Z.of_nat e) in *.
  assert (HM : 0 < M) by (apply Z.pow_pos_nonneg; lia).
  assert (E2 : forall x, (2 * M | x) -> x mod 2 = 0) by (intros x (q & ->); rewrite Z.mul_assoc, (Z.mul_comm q), <- Z.mul_assoc, Z.mul_comm; apply Z.mod_mul; lia).
  destruct (Nat.Even_or_Odd n) as [(p & Hp)|(p & Hp)].
  - replace n with (p + p)%nat by lia. rewrite geo_double. pose proof (pow_mod4 p) as Q. pose proof (Z.div_mod (a ^ Z.of_nat p) 4 ltac:(lia)) as D.
    set (t := a ^ Z.of_nat p / 4) in *. replace (geo p * (1 + a ^ Z.of_nat p)) with (2 * (geo p * (1 + 2 * t))) by (rewrite D, Q; lia).
    replace (Z.of_nat (p + p)) with (2 * Z.of_nat p) by lia.
    assert (C : forall x, (2 * M | 2 * x) <-> (M | x)) by (intros x; apply Z.mul_divide_cancel_l; lia).
    rewrite !C, <- IH. split; intros H.
    + now apply odd_gauss in H.
    + now apply Z.divide_mul_l.
  - split; intros H; apply E2 in H; [rewrite geo_parity in H|]; subst n; rewrite Nat2Z.inj_add, Nat2Z.inj_mul in H;
    replace (Z.of_nat 2 * Z.of_nat p + Z.of_nat 1) with (1 + Z.of_nat p * 2) in H by lia; rewrite Z.mod_add in H by lia; discriminate.
Qed.
End Period.

Lemma nodup_map {A B} (f : A -> B) l : NoDup l -> (forall x y, In x l -> In y l -> f x = f y -> x = y) -> NoDup (map f l).
Proof.
  induction 1 as [|a l Ha _ IH]; intros F; [constructor|]. cbn [map]. constructor.
  - intros H. apply in_map_iff in H. destruct H as (b & E & Hb). apply F in E; [|now right|now left]. now subst b.
  - apply IH. intros x y Hx Hy. apply F; now right.
Qed.
Section Lcg.
Open Scope Z_scope.
Variables (a c : Z).
Hypothesis Ha : a mod 4 = 1.
Hypothesis Hc : Z.odd c = true.
Variable e : nat.
Notation M := (2 ^ Z.of_nat e).
Notation step := (fun s => (s * a + c) mod M).
Lemma lcg_iter s n : 0 <= s < M -> Nat.iter n step s = (a ^ Z.of_nat n * s + c * geo a n) mod M.
Proof.
  intros Hs. induction n as [|n IH]; [cbn [Nat.iter nat_rect geo]; rewrite Z.mul_0_r, Z.add_0_r; change (a ^ Z.of_nat 0) with 1;
    rewrite Z.mul_1_l, Z.mod_small by exact Hs; reflexivity|].
  rewrite iterS, IH. assert (HM : M <> 0) by (apply Z.pow_nonzero; lia).
  rewrite <- Z.add_mod_idemp_l, Z.mul_mod_idemp_l, Z.add_mod_idemp_l by exact HM. f_equal. cbn [geo].
  rewrite Nat2Z.inj_succ, Z.pow_succ_r by lia. lia.
Qed.
Lemma lcg_period s n : 0 <= s < M -> (Nat.iter n step s = s <-> (M | Z.of_nat n)).
Proof.
  intros Hs. rewrite lcg_iter by exact Hs. assert (HM : 0 < M) by (apply Z.pow_pos_nonneg; lia). rewrite <- (geo_val a Ha e n).
  assert (E : a ^ Z.of_nat n * s + c * geo a n = s + geo a n * ((a - 1) * s + c)) by (pose proof (geo_pow a n); nia).
  assert (O : exists t, (a - 1) * s + c = 1 + 2 * t).
  { apply Z.odd_spec in Hc. destruct Hc as (y & ->). pose proof (Z.div_mod a 4 ltac:(lia)) as D. exists (2 * (a / 4) * s + y). rewrite D at 1. rewrite Ha. lia. }
  destruct O as (t & O). rewrite E, O. split; intros H.
  - apply odd_gauss with t. apply Z.mod_divide; [lia|].
    replace (geo a n * (1 + 2 * t)) with (s + geo a n * (1 + 2 * t) - s) by lia. rewrite Zminus_mod, H, (Z.mod_small s) by exact Hs.
    rewrite Z.sub_diag. apply Z.mod_0_l. lia.
  - rewrite Z.add_mod by lia. destruct H as (q & ->). replace (q * M * (1 + 2 * t)) with (q * (1 + 2 * t) * M) by lia.
    rewrite Z.mod_mul, Z.add_0_r, Z.mod_mod by lia. apply Z.mod_small. exact Hs.
Qed.
Lemma lcg_lt s n : 0 <= s < M -> 0 <= Nat.iter n step s < M.
Proof. intros H. destruct n as [|n]; [exact H|]. rewrite iterS. apply Z.mod_pos_bound. apply Z.pow_pos_nonneg; lia. Qed.
Lemma lcg_inj s i j : 0 <= s < M -> (i <= j)%nat -> (Z.of_nat j < M) -> Nat.iter i step s = Nat.iter j step s -> i = j.
Proof.
  intros Hs Hij Hj E. replace j with ((j - i) + i)%nat in E by lia. rewrite iter_plus in E. symmetry in E. apply lcg_period in E; [|now apply lcg_lt].
  destruct E as (q & E). destruct (Z.eq_dec q 0) as [->|]; [lia|]. nia.
Qed.
Lemma lcg_surj s t : 0 <= s < M -> 0 <= t < M -> exists n, Z.of_nat n < M /\ Nat.iter n step s = t.
Proof.
  intros Hs Ht. set (g := fun n => Z.to_nat (Nat.iter n step s)). set (N := Z.to_nat M).
  assert (HN : Z.of_nat N = M) by (apply Z2Nat.id; lia).
  assert (ND : NoDup (map g (seq 0 N))).
  { apply nodup_map; [apply seq_NoDup|]. intros i j Hi Hj E. apply in_seq in Hi, Hj. unfold g in E.
    apply Z2Nat.inj in E; try (apply lcg_lt; exact Hs). destruct (Nat.le_ge_cases i j) as [A|A].
    - apply lcg_inj with s; auto; lia.
    - symmetry. apply lcg_inj with s; auto; lia. }
  assert (I : incl (seq 0 N) (map g (seq 0 N))).
  { apply NoDup_length_incl; [exact ND|now rewrite map_length|]. intros x Hx. apply in_map_iff in Hx. destruct Hx as (n & <- & _).
    apply in_seq. pose proof (lcg_lt s n Hs). unfold g. lia. }
  specialize (I (Z.to_nat t)). rewrite in_map_iff in I. destruct I as (n & E & Hn); [apply in_seq; lia|]. exists n. apply in_seq in Hn. split; [lia|].
  unfold g in E. apply Z2Nat.inj in E; [exact E| |lia]. now apply lcg_lt.
Qed.
End Lcg.
