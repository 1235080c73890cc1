(** Property C64: the chunks of the benchmark, benchmark/prng.h. *)
From Coq Require Import List NArith ZArith Arith Bool Lia.
From Verif.Model Require Import Common Header Prng.
From Verif.Proof Require Import PrngP.
Import ListNotations.
Open Scope N_scope.

(** * The words drawn: the bits 27 to 58 of [state xor (state >> 18)], rotated to the right by the upper five bits of the state. *)
Theorem C64_output p : p_state p < 2 ^ 64 ->
  fst (prng_rand p) < 2 ^ 32 /\
  (forall i, i < 32 ->
     let j := (i + p_state p / 2 ^ 59) mod 32 in
     N.testbit (fst (prng_rand p)) i = xorb (N.testbit (p_state p) (27 + j)) (N.testbit (p_state p) (45 + j))) /\
  p_state (snd (prng_rand p)) = (p_state p * 6364136223846793005 + p_inc p) mod 2 ^ 64 /\ p_inc (snd (prng_rand p)) = p_inc p.
Proof.
  intros H. unfold prng_rand. cbn [fst snd]. set (s := p_state p) in *.
  set (x := wrap 32 (N.shiftr (N.lxor (N.shiftr s 18) s) 27)).
  assert (Hr : s / 2 ^ 59 < 32) by (apply N.div_lt_upper_bound; [discriminate|exact H]).
  replace (wrap 32 (N.shiftr s 59)) with (s / 2 ^ 59)
    by (unfold wrap; rewrite N.shiftr_div_pow2, (N.mod_small _ (2 ^ 32)); [reflexivity|]; apply N.lt_trans with 32; [exact Hr|reflexivity]).
  set (r := s / 2 ^ 59) in *.
  assert (Hx : x < 2 ^ 32) by (apply N.mod_lt; discriminate).
  assert (Hn : N.land (wrap 32 (2 ^ 32 - r)) 31 = (32 - r) mod 32).
  { change 31 with (N.ones 5). rewrite N.land_ones. unfold wrap. destruct (N.eq_dec r 0) as [->|Hr0]; [reflexivity|].
    change (2 ^ 5) with 32. rewrite (N.mod_small _ (2 ^ 32)) by (change (2 ^ 32) with 4294967296; lia).
    rewrite (N.mod_small (32 - r)) by lia. change (2 ^ 32) with (134217727 * 32 + 32).
    replace (134217727 * 32 + 32 - r) with (32 - r + 134217727 * 32) by lia. rewrite N.mod_add by discriminate. apply N.mod_small. lia. }
  rewrite Hn. set (q := (32 - r) mod 32). split; [|split; [|split; reflexivity]].
  - apply bits_small. intros i Hi. rewrite N.lor_spec, N.shiftr_spec'. rewrite (small_bits x) by (try exact Hx; lia).
    unfold wrap. rewrite N.mod_pow2_bits_high by exact Hi. reflexivity.
  - intros i Hi. cbv zeta. assert (Bx : forall j, j < 32 -> N.testbit x j = xorb (N.testbit s (27 + j)) (N.testbit s (45 + j))).
    { intros j Hj. unfold x, wrap. rewrite N.mod_pow2_bits_low by exact Hj. rewrite N.shiftr_spec', N.lxor_spec, N.shiftr_spec', xorb_comm.
      f_equal; f_equal; lia. }
    rewrite <- Bx by (apply N.mod_lt; discriminate). rewrite N.lor_spec, N.shiftr_spec'. unfold wrap. rewrite N.mod_pow2_bits_low by exact Hi.
    assert (C : r = 0 /\ q = 0 \/ 0 < r /\ q = 32 - r).
    { unfold q. destruct (N.eq_dec r 0) as [->|]; [left; split; reflexivity|right; split; [lia|apply N.mod_small; lia]]. }
    destruct C as [(-> & ->)|(Hr0 & ->)].
    + rewrite N.shiftl_0_r, N.add_0_r, (N.mod_small i) by exact Hi. apply orb_diag.
    + destruct (N.lt_ge_cases (i + r) 32) as [A|A].
      * rewrite N.shiftl_spec_low, orb_false_r, N.mod_small by lia. reflexivity.
      * rewrite (small_bits x) by (try exact Hx; lia). rewrite N.shiftl_spec_high' by lia. cbn [orb]. f_equal.
        replace (i + r) with (i - (32 - r) + 1 * 32) by lia. rewrite N.mod_add, N.mod_small by lia. reflexivity.
Qed.

(** * The period: with an odd increment the generator is back in a state after exactly the multiples of 2^64 calls, and comes
    through every state. *)
Lemma next_iter n p : Nat.iter n prng_next p = mkPrng (p_state (Nat.iter n prng_next p)) (p_inc p).
Proof. induction n as [|n IH]; [destruct p; reflexivity|]. rewrite iterS, IH. reflexivity. Qed.
Definition lcg_mul : Z := 6364136223846793005.
Lemma state_iter n p : p_state p < 2 ^ 64 ->
  Z.of_N (p_state (Nat.iter n prng_next p)) = Nat.iter n (fun s => ((s * lcg_mul + Z.of_N (p_inc p)) mod 2 ^ Z.of_nat 64)%Z) (Z.of_N (p_state p)).
Proof.
  intros H. induction n as [|n IH]; [reflexivity|]. rewrite !iterS, <- IH. rewrite next_iter at 1. cbn [prng_next p_state p_inc]. unfold wrap.
  rewrite N2Z.inj_mod, N2Z.inj_add, N2Z.inj_mul. reflexivity.
Qed.
Lemma state_lt n p : p_state p < 2 ^ 64 -> p_state (Nat.iter n prng_next p) < 2 ^ 64.
Proof. intros H. destruct n as [|n]; [exact H|]. rewrite iterS. apply N.mod_lt. discriminate. Qed.

Theorem C64_period p : p_state p < 2 ^ 64 -> N.odd (p_inc p) = true ->
  (forall n, Nat.iter n prng_next p = p <-> (2 ^ 64 | N.of_nat n)) /\
  (forall s, s < 2 ^ 64 -> exists n, N.of_nat n < 2 ^ 64 /\ p_state (Nat.iter n prng_next p) = s).
Proof.
  intros H Ho. assert (Hc : Z.odd (Z.of_N (p_inc p)) = true) by (destruct (p_inc p) as [|[]]; [discriminate|reflexivity|discriminate|reflexivity]).
  assert (R : (0 <= Z.of_N (p_state p) < 2 ^ Z.of_nat 64)%Z) by (change (2 ^ Z.of_nat 64)%Z with (Z.of_N (2 ^ 64)); lia).
  split.
  - intros n. pose proof (lcg_period lcg_mul (Z.of_N (p_inc p)) eq_refl Hc 64 (Z.of_N (p_state p)) n R) as L. rewrite <- state_iter in L by exact H.
    change (2 ^ Z.of_nat 64)%Z with (Z.of_N (2 ^ 64)) in L. rewrite <- nat_N_Z in L. rewrite next_iter. split.
    + intros E. apply (f_equal p_state) in E. cbn [p_state] in E. destruct (proj1 L) as (q & Q); [now rewrite E|].
      exists (Z.to_N q). apply N2Z.inj. rewrite Q, N2Z.inj_mul, Z2N.id; [reflexivity|]. lia.
    + intros (q & Q). destruct p as [s c]. cbn [p_state p_inc] in *. f_equal. apply N2Z.inj. apply L. exists (Z.of_N q). rewrite Q. apply N2Z.inj_mul.
  - intros s Hs. destruct (lcg_surj lcg_mul (Z.of_N (p_inc p)) eq_refl Hc 64 (Z.of_N (p_state p)) (Z.of_N s) R) as (n & Hn & E).
    + change (2 ^ Z.of_nat 64)%Z with (Z.of_N (2 ^ 64)). lia.
    + rewrite <- state_iter in E by exact H. exists n. change (2 ^ Z.of_nat 64)%Z with (Z.of_N (2 ^ 64)) in Hn. split; [lia|]. now apply N2Z.inj.
Qed.

(** srandom always makes such a generator. *)
Theorem C64_srandom initstate initseq :
  let p := prng_srandom initstate initseq in
  p_state p < 2 ^ 64 /\ p_inc p < 2 ^ 64 /\ N.odd (p_inc p) = true /\
  p_inc p = (2 * initseq + 1) mod 2 ^ 64.
Proof.
  cbv zeta. unfold prng_srandom, prng_rand, prng_next. cbn [fst snd p_state p_inc]. split; [apply N.mod_lt; discriminate|].
  assert (E : N.lor (wrap 64 (N.shiftl initseq 1)) 1 = (2 * initseq + 1) mod 2 ^ 64).
  { unfold wrap. rewrite N.shiftl_mul_pow2. change (2 ^ 1) with 2. rewrite (N.mul_comm initseq). change (2 ^ 64) with (2 * 2 ^ 63).
    rewrite N.mul_mod_distr_l by discriminate. rewrite N.add_comm, (N.mod_eq (1 + 2 * initseq)) by discriminate.
    assert (D : (1 + 2 * initseq) / (2 * 2 ^ 63) = initseq / 2 ^ 63).
    { rewrite <- N.div_div by discriminate. f_equal. rewrite (N.mul_comm 2), N.div_add by discriminate. reflexivity. }
    rewrite D. pose proof (N.div_mod' initseq (2 ^ 63)). change (2 ^ 63) with 9223372036854775808 in *.
    assert (L : forall x, N.lor (2 * x) 1 = 2 * x + 1) by (intros [|x]; reflexivity). rewrite L. clear L D.
    revert H. generalize (initseq / 9223372036854775808) (initseq mod 9223372036854775808). intros q r ->. lia. }
  rewrite E. split; [apply N.mod_lt; discriminate|]. split; [|reflexivity]. rewrite <- E, <- N.bit0_odd, N.lor_spec. apply orb_true_r.
Qed.

(** * The chunks *)
Lemma gen_loop_spec n : forall p crc,
  let l := map (fun i => fst (prng_rand (Nat.iter i prng_next p)) mod 256) (seq 0 n) in
  gen_loop n p crc = (l, fold_left crc_byte l crc, Nat.iter n prng_next p).
Proof.
  induction n as [|n IH]; intros p crc; [reflexivity|]. cbv zeta in *. cbn [gen_loop]. destruct (prng_rand p) as [r p1] eqn:E.
  assert (E1 : p1 = prng_next p) by (unfold prng_rand in E; congruence). rewrite (IH p1).
  cbn [seq map fold_left]. replace (map _ (seq 1 n)) with (map (fun i => fst (prng_rand (Nat.iter i prng_next p1)) mod 256) (seq 0 n)).
  - replace (fst (prng_rand (Nat.iter 0 prng_next p))) with r by (change (Nat.iter 0 prng_next p) with p; now rewrite E).
    rewrite E1, iter_out. reflexivity.
  - rewrite <- seq_shift, map_map. apply map_ext. intros i. rewrite iter_out, E1. reflexivity.
Qed.

(** What gen_chunk writes: the checksum and the low bytes of the words drawn; below four bytes one byte repeated. *)
Theorem C64_chunk p size : (0 < size)%nat ->
  exists chunk p', gen_chunk p size = Ret (chunk, p') /\ length chunk = size /\ bytes chunk /\ check_chunk chunk = Ret true /\
    p' = Nat.iter (if (size <? 4)%nat then 1 else size - 4) prng_next p /\
    ((size < 4)%nat -> forall i, (i < size)%nat -> nth i chunk 0 = fst (prng_rand p) mod 256) /\
    ((4 <= size)%nat -> forall i, (4 <= i < size)%nat -> nth i chunk 0 = fst (prng_rand (Nat.iter (i - 4) prng_next p)) mod 256).
Proof.
  intros Hs. unfold gen_chunk. destruct (Nat.eqb_spec size 0) as [|_]; [lia|]. destruct (Nat.ltb_spec size 4) as [Hlt|Hge].
  - destruct (prng_rand p) as [r p1] eqn:E. exists (repeat (wrap 8 r) size), p1. split; [reflexivity|]. rewrite repeat_length. split; [reflexivity|].
    assert (B : wrap 8 r < 256) by (apply N.mod_lt; discriminate).
    split; [apply Forall_forall; intros x Hx; apply repeat_spec in Hx; now subst x|]. split; [|split; [|split; [|lia]]].
    + destruct size as [|size]; [lia|]. unfold check_chunk. cbn [repeat length]. rewrite repeat_length.
      destruct (Nat.ltb_spec (S size) 4) as [_|]; [|lia]. f_equal. apply forallb_forall. intros x Hx. apply repeat_spec in Hx. subst x. apply N.eqb_refl.
    + unfold prng_rand in E. change (Nat.iter 1 prng_next p) with (prng_next p). congruence.
    + intros _ i Hi. rewrite (nth_indep _ 0 (wrap 8 r)) by now rewrite repeat_length. rewrite nth_repeat. reflexivity.
  - pose proof (gen_loop_spec (size - 4) p crc_init) as G. cbv zeta in G. rewrite G. clear G.
    set (l := map _ _). set (crc := fold_left crc_byte l crc_init).
    assert (Ll : length l = (size - 4)%nat) by (unfold l; now rewrite map_length, seq_length).
    assert (Bl : bytes l) by (apply Forall_map, Forall_forall; intros; apply N.mod_lt; discriminate).
    assert (Hc : crc < 2 ^ 32) by (apply crc_lt; [exact Bl|exact init_lt]).
    exists (word_bytes (not32 crc) ++ l), (Nat.iter (size - 4) prng_next p). split; [reflexivity|]. rewrite app_length, Ll. split; [cbn [word_bytes length]; lia|].
    split; [apply Forall_app; split; [apply word_bytes_bytes|exact Bl]|]. split; [|split; [reflexivity|split; [lia|]]].
    + unfold check_chunk, word_bytes. cbn [app length]. change (S (S (S (S (length l)))) <? 4)%nat with false. cbv iota. cbn [skipn]. fold crc. f_equal.
      rewrite bytes_word_le by apply word_bytes_bytes. apply N.eqb_eq. apply word_bytes_le. now apply not32_lt.
    + intros _ i Hi. rewrite app_nth2 by (cbn [word_bytes length]; lia). replace (i - length (word_bytes (not32 crc)))%nat with (i - 4)%nat by reflexivity.
      unfold l. rewrite (nth_indep _ 0 (fst (prng_rand (Nat.iter 0 prng_next p)) mod 256)) by (rewrite map_length, seq_length; lia).
      rewrite (map_nth (fun i => fst (prng_rand (Nat.iter i prng_next p)) mod 256)), seq_nth by lia. reflexivity.
Qed.

Lemma check_split h t : length h = 4%nat -> bytes h -> check_chunk (h ++ t) = Ret (le h =? not32 (fold_left crc_byte t crc_init)).
Proof.
  intros L H. destruct h as [|b0 [|b1 [|b2 [|b3 [|]]]]]; try discriminate. unfold check_chunk. cbn [app length].
  change (S (S (S (S (length t)))) <? 4)%nat with false. cbv iota. cbn [skipn]. now rewrite bytes_word_le.
Qed.

(** * Changes are seen: a chunk that is accepted is rejected after a change of at most four consecutive bytes, all of them before or
    all of them behind the end of the checksum. *)
Theorem C64_detect_partial a x y b :
  let chunk := a ++ x ++ b in
  (4 <= length chunk)%nat -> bytes chunk -> check_chunk chunk = Ret true ->
  bytes y -> length y = length x -> (length x <= 4)%nat -> y <> x ->
  (4 <= length a \/ length a + length x <= 4)%nat ->
  check_chunk (a ++ y ++ b) = Ret false.
Proof.
  cbv zeta. intros L4 Hb Hc Hy L Lx Hne Hpos. assert (Hb' := Hb). apply Forall_app in Hb'. destruct Hb' as (Ha & Hb').
  apply Forall_app in Hb'. destruct Hb' as (Hx & Hbb). destruct Hpos as [Hpos|Hpos].
  - assert (La : length (firstn 4 a) = 4%nat) by (apply firstn_length_le; exact Hpos).
    rewrite <- (firstn_skipn 4 a) in Hc, Ha, Hb |- *. set (h := firstn 4 a) in *. set (a' := skipn 4 a) in *. clearbody h a'.
    apply Forall_app in Ha. destruct Ha as (Hh & Ha). rewrite <- app_assoc in Hc, Hb |- *. rewrite check_split in * by auto.
    injection Hc as Hc. apply N.eqb_eq in Hc. f_equal. apply N.eqb_neq. rewrite Hc. intros E. apply Hne.
    apply (f_equal not32) in E. rewrite !not32_inv in E. symmetry. apply Forall_app in Hb. destruct Hb as (_ & Hb).
    now apply (crc_burst a' x y b crc_init init_lt).
  - set (n := (4 - length a - length x)%nat). rewrite !app_length in L4.
    assert (Lb : length (firstn n b) = n) by (apply firstn_length_le; unfold n; lia).
    rewrite <- (firstn_skipn n b) in Hc, Hbb |- *. set (b1 := firstn n b) in *. set (t := skipn n b) in *. clearbody b1 t.
    apply Forall_app in Hbb. destruct Hbb as (Hb1 & _).
    replace (a ++ x ++ b1 ++ t) with ((a ++ x ++ b1) ++ t) in Hc by now rewrite <- !app_assoc.
    replace (a ++ y ++ b1 ++ t) with ((a ++ y ++ b1) ++ t) by now rewrite <- !app_assoc.
    assert (B1 : bytes (a ++ x ++ b1)) by (repeat (apply Forall_app; split); assumption).
    assert (B2 : bytes (a ++ y ++ b1)) by (repeat (apply Forall_app; split); assumption).
    rewrite check_split in * by (auto; rewrite !app_length; lia). injection Hc as Hc. apply N.eqb_eq in Hc.
    f_equal. apply N.eqb_neq. rewrite <- Hc. intros E. apply le_inj in E; auto; [|rewrite !app_length; lia].
    apply app_inv_head, app_inv_tail in E. now apply Hne.
Qed.

(** In chunks of two and three bytes a change of one byte is seen. *)
Theorem C64_detect_small_partial a x y b : (2 <= length (a ++ x :: b) <= 3)%nat -> check_chunk (a ++ x :: b) = Ret true -> y <> x ->
  check_chunk (a ++ y :: b) = Ret false.
Proof.
  intros L Hc Hne. rewrite app_length in L. cbn [length] in L.
  assert (Q : forall u v, N.eqb u v = true -> u = v) by (intros u v H; now apply N.eqb_eq in H).
  assert (NQ : forall u v, u <> v -> N.eqb u v = false) by (intros u v H; now apply N.eqb_neq).
  assert (X : N.eqb y x = false) by now apply NQ. assert (X' : N.eqb x y = false) by (apply NQ; congruence).
  destruct a as [|a0 [|a1 [|a2 [|]]]]; destruct b as [|b0 [|b1 [|b2 [|]]]]; cbn [length] in L; try lia; unfold check_chunk in *;
    cbn [app length forallb Nat.ltb Nat.leb] in *; injection Hc as Hc; rewrite ?andb_true_r, ?andb_true_iff in Hc; f_equal;
    rewrite ?andb_true_r; repeat match goal with H : _ /\ _ |- _ => destruct H end;
    repeat match goal with H : N.eqb ?u ?v = true |- _ => apply Q in H end; subst; rewrite ?X, ?X', ?andb_false_r; reflexivity.
Qed.

(** * Not seen: four bytes across the end of the checksum; the same change of all the bytes of a chunk of less than four. *)
Theorem C64_detect_refuted : exists chunk chunk' : list N, length chunk = 5%nat /\ length chunk' = 5%nat /\ bytes chunk /\ bytes chunk' /\
  hd 0 chunk = hd 0 chunk' /\ nth 4 chunk 0 <> nth 4 chunk' 0 /\ check_chunk chunk = Ret true /\ check_chunk chunk' = Ret true.
Proof.
  exists [81; 83; 125; 82; 0], [81; 197; 112; 188; 93].
  repeat split; try (repeat constructor; fail); try discriminate.
Qed.
Theorem C64_small_refuted x n : (n < 3)%nat -> check_chunk (repeat x (S n)) = Ret true.
Proof. intros H. destruct n as [|[|[|]]]; [..|lia]; unfold check_chunk; cbn; now rewrite ?N.eqb_refl. Qed.

(** A chunk of no bytes is written and read all the same; the default generator only ever gives 0. *)
Theorem C64_empty_refuted p : gen_chunk p 0 = Ub /\ check_chunk [] = Ub.
Proof. split; reflexivity. Qed.
Theorem C64_default_refuted n : Nat.iter n prng_next (prng_new 0 0) = prng_new 0 0 /\ fst (prng_rand (prng_new 0 0)) = 0.
Proof. split; [|reflexivity]. induction n as [|n IH]; [reflexivity|]. rewrite iterS, IH. reflexivity. Qed.

(** * Cases.  CRC-32C of "123456789" is 0xE3069283; PCG32 seeded with 42 and 54 begins with 0xa15c02b7, 0x7b47f409. *)
Example C64_crc_case : not32 (fold_left crc_byte [49; 50; 51; 52; 53; 54; 55; 56; 57] crc_init) = 3808858755.
Proof. vm_compute. reflexivity. Qed.
Example C64_pcg_case : let p := prng_srandom 42 54 in
  fst (prng_rand p) = 2707161783 /\ fst (prng_rand (snd (prng_rand p))) = 2068313097 /\ N.odd (p_inc p) = true.
Proof. vm_compute. repeat split. Qed.
Example C64_chunk_case : exists p', gen_chunk (prng_srandom 42 54) 6 = Ret ([33; 141; 51; 72; 183; 9], p') /\
  check_chunk [33; 141; 51; 72; 183; 9] = Ret true /\ check_chunk [33; 141; 51; 72; 183; 10] = Ret false.
Proof. eexists. vm_compute. repeat split. Qed.

Print Assumptions C64_output.
Print Assumptions C64_period.
Print Assumptions C64_srandom.
Print Assumptions C64_chunk.
Print Assumptions C64_detect_partial.
Print Assumptions C64_detect_small_partial.
Print Assumptions C64_detect_refuted.
Print Assumptions C64_small_refuted.
Print Assumptions C64_empty_refuted.
Print Assumptions C64_default_refuted.
