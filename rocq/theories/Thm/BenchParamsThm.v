(** Properties C66 and C67: the parameters and the statistics of the benchmark, and what goes wrong. *)
From Coq Require Import List NArith ZArith Arith Bool Lia Permutation.
From Verif.Model Require Import Common Arith Ring Fft2n Radix2 Poly Props Fnt Nf4 Header Streams HCodes VCodes Prng Gf2n Bench.
From Verif.Spec Require Import Widths Session Bench.
From Verif.Proof Require Import ListP BitRev PrngP BenchP.
From Verif.Thm Require Import PrngThm.
Import ListNotations.
Open Scope N_scope.

(** ** C66: the parameters that are accepted *)

(** The size of the chunks is the least multiple of the size of a packet that is not below the one asked for. *)
Theorem C66_chunk_size t T ws n pkt chunk L : check_params t T ws n pkt chunk = Accepted L ->
  0 < pkt -> pkt * ws < 2 ^ 64 -> chunk + pkt * ws < 2 ^ 64 ->
  (pkt * ws | L) /\ chunk <= L < chunk + pkt * ws /\ forall L', (pkt * ws | L') -> chunk <= L' -> L <= L'.
Proof.
  intros H Hp Hq Hc. unfold check_params in H. destruct (N.eqb_spec ws 0) as [|Hw]; [discriminate|].
  repeat match type of H with (if ?b then _ else _) = Accepted _ => destruct b; [discriminate|] end.
  destruct (if (n <? 0)%Z then Some 0 else log2 (Z.to_N n)) as [l|]; [|discriminate]. destruct (_ <? l + 1); [discriminate|].
  rewrite (proj2 (N.ltb_lt 0 pkt) Hp) in H. cbv zeta in H. unfold wrap in H. rewrite (N.mod_small (pkt * ws)) in H by exact Hq.
  set (q := pkt * ws) in *. assert (Q0 : q <> 0) by (unfold q; apply N.neq_mul_0; lia). rewrite (proj2 (N.eqb_neq q 0) Q0) in H.
  pose proof (N.div_mod chunk q Q0) as DM. pose proof (N.mod_lt chunk q Q0) as ML.
  assert (Least : forall x, (q | x) -> chunk <= x < chunk + q -> forall L', (q | L') -> chunk <= L' -> x <= L').
  { intros x (a & ->) Hx L' (b & ->) Hb. assert (a < b + 1) by (apply (N.mul_lt_mono_pos_r q); lia). apply N.mul_le_mono_r. lia. }
  destruct (N.ltb_spec 0 (chunk mod q)) as [Hr|Hr]; injection H as <-.
  - assert (E : (chunk - 1) / q = chunk / q).
    { symmetry. apply (N.div_unique _ _ _ (chunk mod q - 1)); lia. }
    rewrite E. assert (Sm : (chunk / q + 1) * q < chunk + q) by nia. rewrite N.mod_small by lia.
    assert (X : (q | (chunk / q + 1) * q)) by (exists (chunk / q + 1); reflexivity).
    assert (Y : chunk <= (chunk / q + 1) * q < chunk + q) by nia. split; [exact X|]. split; [exact Y|]. now apply Least.
  - assert (X : (q | chunk)) by (apply N.mod_divide; lia). split; [exact X|]. split; [lia|]. apply Least; [exact X|lia].
Qed.

(** What is accepted for rs-fnt and rs-fnt-sys fits the field and the type, when there are not too many data. *)
Theorem C66_accepted_fnt_partial t T ws k m pkt chunk L : is_fnt t = true -> In T [2; 4; 8] -> (0 < k)%nat -> (0 < m)%nat ->
  check_params t T (N.of_nat ws) (Z.of_nat (k + m)) pkt chunk = Accepted L ->
  fnt_width (8 * T) ws /\ N.of_nat (k + m) < 256 ^ N.of_nat ws /\
  (2 * N.of_nat k <= 256 ^ N.of_nat ws -> fnt_sizes ws k m).
Proof.
  intros Ht HT Hk Hm H. unfold check_params in H. rewrite Ht in H. cbn [orb andb] in H.
  destruct (N.eqb_spec (N.of_nat ws) 0) as [|Hw]; [discriminate|]. destruct (is_nf4 t && _); [discriminate|].
  destruct (N.ltb_spec T (N.of_nat ws)); [discriminate|]. destruct (N.leb_spec T (N.of_nat ws)); [discriminate|].
  destruct (N.ltb_spec 2 (N.of_nat ws)); [discriminate|]. destruct (is_nf4 t && _); [discriminate|].
  replace (Z.of_nat (k + m) <? 0)%Z with false in H by (symmetry; apply Z.ltb_ge; lia).
  rewrite (log2_correct (Z.to_N (Z.of_nat (k + m)))) in H by (clear -Hk; lia).
  match type of H with (if ?b then _ else _) = _ => destruct b eqn:E; [discriminate|clear H] end.
  apply N.ltb_ge in E. assert (Ew : ws = 1%nat \/ ws = 2%nat) by lia.
  assert (Sm : N.of_nat (k + m) < 256 ^ N.of_nat ws).
  { replace (Z.to_N (Z.of_nat (k + m))) with (N.of_nat (k + m)) in E by lia.
    destruct (N.log2_spec (N.of_nat (k + m)) ltac:(lia)) as (_ & U). eapply N.lt_le_trans; [exact U|].
    replace 256 with (2 ^ 8) by reflexivity. rewrite <- N.pow_mul_r. apply N.pow_le_mono_r; [lia|].
    destruct Ew as [-> | ->]; [change (wrap 64 (8 * N.of_nat 1)) with 8 in E; change (8 * N.of_nat 1) with 8|change (wrap 64 (8 * N.of_nat 2)) with 16 in E; change (8 * N.of_nat 2) with 16]; lia. }
  split; [|split; [exact Sm|]].
  - destruct Ew as [-> | ->]; [left|right]; (split; [reflexivity|]); destruct HT as [<-|[<-|[<-|[]]]]; cbn; auto. cbn in *. lia.
  - intros Hh. split; [exact Hk|]. split; [exact Hm|]. split; [lia|exact Hh].
Qed.

(** With more data than half of the field the parameters are accepted, and the code cannot be made. *)
Theorem C66_accepted_fnt_refuted : exists k m, (0 < k)%nat /\ (0 < m)%nat /\
  check_params TRsFnt 2 1 (Z.of_nat (k + m)) 1024 512 = Accepted 1024 /\ forall pkt, fnt_new 0 16 false 1 k m pkt = None.
Proof. exists 200%nat, 1%nat. split; [lia|]. split; [lia|]. split; [reflexivity|]. intros pkt. vm_compute. reflexivity. Qed.

(** Chunks of no byte are accepted, and all the scenarios write outside of them. *)
Theorem C66_empty_refuted : check_params TRsGf2nV 4 1 5 1024 0 = Accepted 0 /\
  forall c p samples s, (0 < cd_k c)%nat -> enc_only c 0 samples p s = BUb /\ dec_only c 0 samples p s = BUb /\ enc_dec c 0 samples p s = BUb.
Proof.
  split; [reflexivity|]. intros c p samples s Hk. assert (E : gen_data (cd_k c) 0 p s = BUb).
  { unfold gen_data. destruct (cd_k c); [lia|]. reflexivity. }
  unfold enc_only, dec_only, enc_dec, then_res. rewrite E. auto.
Qed.

(** No parity is accepted; with a systematic code decoding shuffles for ever. *)
Theorem C66_no_parity_refuted : check_params TRsGf2nV 4 1 3 1024 512 = Accepted 1024 /\
  forall c s, cd_sys c = true -> cd_m c = 0%nat -> Permutation (seq 0 (cd_k c)) (be_ids s) -> shuffles (be_shuf s) -> bench_decode c s = BMore.
Proof.
  split; [reflexivity|]. intros c s Hs Hm Hp Hsh. unfold bench_decode. rewrite Hs.
  replace (get_avail true (cd_k c) (be_shuf s) (be_ids s)) with (@None (list nat * list (list nat -> list nat))); [reflexivity|].
  set (k := cd_k c) in *. revert Hp Hsh. generalize (be_ids s). induction (be_shuf s) as [|f l IH]; intros ids Hp Hsh; [reflexivity|].
  cbn [get_avail]. inversion Hsh as [|? ? Hf Hl]; subst. assert (Hp' : Permutation (seq 0 k) (f ids)) by (transitivity ids; auto).
  replace (length _ =? k)%nat with true; [cbn [andb]; now apply IH|]. symmetry. apply Nat.eqb_eq.
  assert (Ll : length (f ids) = k) by (apply Permutation_length in Hp'; rewrite seq_length in Hp'; lia).
  rewrite firstn_all2 by lia. transitivity (length (f ids)); [|exact Ll]. apply Nat.eqb_eq. rewrite all_count. apply forallb_forall. intros j Hj.
  apply (Permutation_in _ (Permutation_sym Hp')) in Hj. apply in_seq in Hj. apply Nat.ltb_lt. lia.
Qed.

(** With "all", the type of integers is that of the first code: with words of four bytes rs-nf4 and rs-gfp-fft are refused, that run
    when they are asked for alone. *)
Theorem C66_all_refuted t n pkt chunk : In t [TRsNf4; TRsGfpFft] -> (0 < n < 2 ^ 31)%Z -> 0 < pkt -> pkt * 4 < 2 ^ 64 ->
  exists T T', In (t, T) (run_benchmark TAll None 4) /\ check_params t T 4 n pkt chunk = ErrComptT /\
    run_benchmark t None 4 = [(t, T')] /\ In T' [2; 4; 8; 16] /\ exists L, check_params t T' 4 n pkt chunk = Accepted L.
Proof.
  intros Ht Hn Hp Hq. exists 4, 8. assert (In (t, 4) (run_benchmark TAll None 4) /\ run_benchmark t None 4 = [(t, 8)]) as (X & Y).
  { cbn in Ht. destruct Ht as [<-|[<-|[]]]; vm_compute; auto 10. }
  split; [exact X|]. split; [cbn in Ht; destruct Ht as [<-|[<-|[]]]; reflexivity|]. split; [exact Y|]. split; [cbn; auto|].
  assert (Z0 : (n <? 0)%Z = false) by (apply Z.ltb_ge; lia).
  assert (Lg : N.log2 (Z.to_N n) + 1 <= 32).
  { assert (N.log2 (Z.to_N n) < 31); [|lia]. apply N.log2_lt_pow2; [lia|]. change (2 ^ 31) with (Z.to_N (2 ^ 31)). lia. }
  assert (E : (wrap 64 (8 * 4) <? N.log2 (Z.to_N n) + 1) = false) by (apply N.ltb_ge; exact Lg).
  assert (Q : (wrap 64 (pkt * 4) =? 0) = false) by (unfold wrap; rewrite N.mod_small by exact Hq; apply N.eqb_neq; lia).
  cbn in Ht. unfold check_params. rewrite Z0, (log2_correct (Z.to_N n)) by lia. rewrite E, (proj2 (N.ltb_lt 0 pkt) Hp). cbv zeta. rewrite Q.
  destruct Ht as [<-|[<-|[]]]; cbn [is_nf4 is_fnt is_gfp andb orb]; change (4 =? 0) with false; change (4 <? 2) with false;
    change (8 <? 4) with false; change (8 <=? 4) with false; change (8 <? wrap 64 (2 * 4)) with false; cbv iota;
    destruct (0 <? chunk mod wrap 64 (pkt * 4)); eexists; reflexivity.
Qed.

(** ** C66: the type that is chosen *)
Definition words_of (t : ec_type) : list N :=
  match t with TAll => [] | TRsFnt | TRsFntSys => [1; 2] | TRsNf4 => [2; 4; 8] | TRsGfpFft => [1; 2; 4] | _ => [1; 2; 4; 8; 16] end.

(** For a code asked for alone, the type of integers chosen is the smallest of those of 4, 8 and 16 bytes with which the parameters
    are accepted. *)
Theorem C66_default_type t ws n pkt chunk : In ws (words_of t) -> (0 < n < 2 ^ 31)%Z -> (n < 2 ^ (8 * Z.of_N ws))%Z -> pkt * ws < 2 ^ 64 ->
  exists T, run_benchmark t None ws = [(t, T)] /\ In T [4; 8; 16] /\ (exists L, check_params t T ws n pkt chunk = Accepted L) /\
    forall T', In T' [4; 8; 16] -> T' < T -> check_params t T' ws n pkt chunk = ErrComptT.
Proof.
  intros Hw Hn Hl Hq. assert (Z0 : (n <? 0)%Z = false) by (apply Z.ltb_ge; lia).
  assert (W : ws <= 16 /\ 0 < ws) by (destruct t; cbn in Hw; lia).
  assert (E : (wrap 64 (8 * ws) <? N.log2 (Z.to_N n) + 1) = false).
  { apply N.ltb_ge. unfold wrap. rewrite N.mod_small by lia. assert (N.log2 (Z.to_N n) < 8 * ws); [|lia]. apply N.log2_lt_pow2; [lia|].
    replace (2 ^ (8 * ws)) with (Z.to_N (2 ^ (8 * Z.of_N ws))); [lia|]. rewrite Z2N.inj_pow by lia. f_equal. lia. }
  assert (Acc : exists L, (if 0 <? pkt then let q := wrap 64 (pkt * ws) in
      if q =? 0 then DivZero else if 0 <? chunk mod q then Accepted (wrap 64 (((chunk - 1) / q + 1) * q)) else Accepted chunk
      else Accepted chunk) = Accepted L).
  { destruct (N.ltb_spec 0 pkt) as [Hp|]; [|eauto]. cbv zeta.
    assert (Q : (wrap 64 (pkt * ws) =? 0) = false) by (unfold wrap; rewrite N.mod_small by exact Hq; apply N.eqb_neq; lia).
    rewrite Q. destruct (0 <? _); eauto. }
  destruct Acc as (L & Acc). cbv zeta in Acc.
  assert (Lg : log2 (Z.to_N n) = Some (N.log2 (Z.to_N n))) by (apply log2_correct; lia).
  destruct t; cbn in Hw;
    repeat (destruct Hw as [<-|Hw];
      [eexists; split; [vm_compute; reflexivity|]; split; [cbn; tauto|]; split;
        [exists L; unfold check_params; rewrite Z0, Lg, E, Acc; reflexivity|
         intros T' HT' Lt; cbn in HT'; destruct HT' as [<-|[<-|[<-|[]]]]; try (exfalso; revert Lt; clear; lia); reflexivity]|]); destruct Hw.
Qed.

(** Words of three bytes are accepted, and there is no such field. *)
Theorem C66_word_size_refuted : run_benchmark TRsGf2nV None 3 = [(TRsGf2nV, 4)] /\ check_params TRsGf2nV 4 3 5 1024 512 = Accepted 3072 /\
  forall junk, new_bin_ext junk 32 (8 * 3) = None.
Proof. split; [reflexivity|]. split; [reflexivity|]. intros junk. reflexivity. Qed.

(** ** C66: wrong repairs that are reported *)

Lemma check_all l : check l = Ret true -> forall i, (i < length l)%nat -> check_chunk (nth i l []) = Ret true.
Proof.
  induction l as [|b l IH]; intros H i Hi; [cbn in Hi; lia|]. cbn [check] in H. destruct (check_chunk b) as [|[|]] eqn:E; try discriminate.
  destruct i as [|i]; [exact E|]. apply IH; [exact H|cbn in Hi; lia].
Qed.

(** For any coder: decoding succeeds only when the decoder does, and every repaired chunk then has the same checksum as the data chunk,
    which is the right one for what it holds. *)
Theorem C66_accepted_repair c s s' : bench_decode c s = BTrue s' ->
  be_d s' = be_d s /\ be_dec s' = S (be_dec s) /\ length (be_d s) = cd_k c /\ length (be_r s') = cd_k c /\
  forall i, (i < cd_k c)%nat -> get_crc (nth i (be_d s) []) = get_crc (nth i (be_r s') []) /\
    check_chunk (nth i (be_d s) []) = Ret true /\ check_chunk (nth i (be_r s') []) = Ret true.
Proof.
  unfold bench_decode. destruct (get_avail _ _ _ _) as [[ids shuf]|]; [|discriminate]. cbv zeta.
  destruct (cd_dec c _ _ _ _ _ _ _) as [[b outs]|]; [|discriminate]. destruct b; [cbn [negb]|discriminate].
  set (r := map _ (seq 0 (cd_k c))). assert (Lr : length r = cd_k c) by (unfold r; now rewrite map_length, seq_length).
  destruct (compare (be_d s) r) as [|[|]] eqn:EC; try discriminate. destruct (check r) as [|[|]] eqn:ER; try discriminate.
  intros H. injection H as <-. cbn [be_d be_dec be_r]. unfold compare in EC.
  destruct (Nat.eqb_spec (length (be_d s)) (length r)) as [El|]; [cbn [negb] in EC|discriminate].
  destruct (forallb _ _) eqn:EF; [cbn [negb] in EC|discriminate]. destruct (check (be_d s)) as [|[|]] eqn:ED; try discriminate.
  split; [reflexivity|]. split; [reflexivity|]. split; [lia|]. split; [exact Lr|]. intros i Hi. split; [|split].
  - rewrite forallb_forall in EF. apply N.eqb_eq. apply EF. apply in_seq. lia.
  - apply check_all; [exact ED|lia].
  - apply check_all; [exact ER|lia].
Qed.

Lemma word_inj a b c d : a < 256 -> b < 256 -> c < 256 -> d < 256 ->
  N.lor a (N.lor (N.shiftl b 8) (N.lor (N.shiftl c 16) (N.shiftl d 24))) = a + 256 * (b + 256 * (c + 256 * d)).
Proof.
  intros Ha Hb Hc Hd. rewrite !N.shiftl_mul_pow2. change (2 ^ 24) with (2 ^ 16 * 256). change (2 ^ 16) with (2 ^ 8 * 256). rewrite !N.mul_assoc.
  assert (D : forall x y, x < 2 ^ 8 -> N.lor x (y * 2 ^ 8) = x + y * 2 ^ 8).
  { intros x y Hx. rewrite <- N.lxor_lor, <- N.add_nocarry_lxor; [reflexivity| |]; apply N.bits_inj_0; intros i;
      rewrite N.land_spec; destruct (N.lt_ge_cases i 8) as [Hi|Hi];
      try (rewrite N.mul_pow2_bits_low by exact Hi; apply andb_false_r);
      (replace (N.testbit x i) with false; [reflexivity|]); symmetry; destruct (N.eq_dec x 0) as [->|X]; try apply N.bits_0;
      apply N.bits_above_log2; (apply N.lt_le_trans with 8; [apply (proj1 (N.log2_lt_pow2 x 8 (proj1 (N.neq_0_lt_0 x) X))); exact Hx|exact Hi]). }
  assert (S : forall x y, N.lor (x * 2 ^ 8) (y * 2 ^ 8) = N.lor x y * 2 ^ 8).
  { intros x y. rewrite <- !N.shiftl_mul_pow2. symmetry. apply N.shiftl_lor. }
  replace (c * 2 ^ 8 * 256) with (c * 2 ^ 8 * 2 ^ 8) by reflexivity. replace (d * 2 ^ 8 * 256 * 256) with (d * 2 ^ 8 * 2 ^ 8 * 2 ^ 8) by reflexivity.
  rewrite !S, (D c d Hc), (D b _ Hb), (D a _ Ha). change (2 ^ 8) with 256. lia.
Qed.

Lemma bytes_nth l i : bytes l -> nth i l 0 < 256.
Proof. intros H. destruct (Nat.lt_ge_cases i (length l)) as [Hi|Hi]; [|rewrite nth_overflow by exact Hi; reflexivity]. apply (proj1 (Forall_forall _ l) H). now apply nth_In. Qed.

Lemma crc_first a b : (4 <= length a)%nat -> (4 <= length b)%nat -> bytes a -> bytes b -> get_crc a = get_crc b ->
  forall i, (i < 4)%nat -> nth i a 0 = nth i b 0.
Proof.
  intros La Lb Ba Bb. unfold get_crc. destruct (Nat.ltb_spec (length a) 4); [lia|]. destruct (Nat.ltb_spec (length b) 4); [lia|].
  unfold bytes_word, get. rewrite !word_inj by now apply bytes_nth. pose proof (fun i => bytes_nth a i Ba) as A. pose proof (fun i => bytes_nth b i Bb) as B.
  pose proof (A 0%nat); pose proof (A 1%nat); pose proof (A 2%nat); pose proof (A 3%nat).
  pose proof (B 0%nat); pose proof (B 1%nat); pose proof (B 2%nat); pose proof (B 3%nat). intros E i Hi.
  destruct i as [|[|[|[|]]]]; lia.
Qed.

(** A decoder that changes up to four consecutive bytes of a chunk, be it in its checksum, is found out. *)
Theorem C66_detects c s s' j a x y b : bench_decode c s = BTrue s' -> (j < cd_k c)%nat ->
  nth j (be_d s) [] = a ++ x ++ b -> nth j (be_r s') [] = a ++ y ++ b ->
  (4 <= length (a ++ x ++ b))%nat -> bytes (a ++ x ++ b) -> bytes y -> length y = length x -> (length x <= 4)%nat -> y = x.
Proof.
  intros H Hj Ed Er L4 Bd By Ly Lx. destruct (C66_accepted_repair _ _ _ H) as (_ & _ & _ & _ & HA). destruct (HA j Hj) as (Ecrc & Cd & Cr).
  rewrite Ed, Er in *. clear HA H Ed Er. destruct (list_eq_dec N.eq_dec y x) as [|Hne]; [assumption|exfalso].
  assert (Br : bytes (a ++ y ++ b)).
  { apply Forall_app in Bd. destruct Bd as (Ba & Bd). apply Forall_app in Bd. apply Forall_app. split; [exact Ba|]. apply Forall_app. tauto. }
  assert (L4' : (4 <= length (a ++ y ++ b))%nat) by (rewrite !app_length in *; lia).
  pose proof (crc_first _ _ L4 L4' Bd Br Ecrc) as F.
  destruct (Nat.le_gt_cases 4 (length a)) as [Ha|Ha].
  - pose proof (C64_detect_partial a x y b L4 Bd Cd By Ly Lx Hne (or_introl Ha)). congruence.
  - destruct (Nat.le_gt_cases (length a + length x) 4) as [Hax|Hax].
    + pose proof (C64_detect_partial a x y b L4 Bd Cd By Ly Lx Hne (or_intror Hax)). congruence.
    + set (p := (4 - length a)%nat). assert (Ex := firstn_skipn p x). assert (Ey := firstn_skipn p y).
      assert (Lp : length (firstn p x) = p /\ length (firstn p y) = p) by (rewrite !firstn_length; lia).
      assert (E1 : firstn p y = firstn p x).
      { apply nth_ext with (d := 0) (d' := 0); [lia|]. intros i Hi. specialize (F (length a + i)%nat ltac:(lia)).
        assert (N : forall u v : list N, (length u = p)%nat -> nth (length a + i) (a ++ (u ++ v) ++ b) 0 = nth i u 0).
        { intros u v Lu. rewrite app_nth2 by lia. replace (length a + i - length a)%nat with i by lia. rewrite <- app_assoc. apply app_nth1. lia. }
        rewrite <- Ex, <- Ey, !N in F by lia. symmetry. exact F. }
      assert (Q : check_chunk ((a ++ firstn p x) ++ skipn p y ++ b) = Ret false).
      { apply (C64_detect_partial (a ++ firstn p x) (skipn p x) (skipn p y) b).
        - rewrite <- Ex in L4. rewrite !app_length in *. lia.
        - rewrite <- Ex in Bd. rewrite <- !app_assoc in *. exact Bd.
        - rewrite <- Ex in Cd. rewrite <- !app_assoc in *. exact Cd.
        - rewrite <- Ey in By. apply Forall_app in By. apply By.
        - rewrite !skipn_length. lia.
        - rewrite skipn_length. lia.
        - intros E2. apply Hne. rewrite <- Ex, <- Ey, E1, E2. reflexivity.
        - left. rewrite app_length. lia. }
      rewrite <- Ey, E1 in Cr. rewrite <- !app_assoc in *. congruence.
Qed.

(** A decoder that answers with a wrong byte: decoding is not accepted. *)
Example C66_detects_case : let d := [33; 141; 51; 72; 183; 9] in
  let c := fun x => mkCoder false 1 1 (fun _ _ o p => Some (o, p)) (fun _ _ _ _ _ _ _ => Some (true, [[33; 141; 51; 72; 183; x]])) in
  let s := mkBench [d] [d; d] [d] [[]; []] [0; 1]%nat [fun l => l] 1 0 in
  (exists s', bench_decode (c 9) s = BTrue s') /\ exists s', bench_decode (c 10) s = BFalse s'.
Proof. cbv zeta. split; (eexists; vm_compute; reflexivity). Qed.

(** ** C67: the statistics *)
Definition total (l : list N) : N := fold_right N.add 0 l.
Definition stats_of (l : list N) : stats := fold_left stats_add l stats_begin.

Lemma stats_from l : forall s, s_nb s < 2 ^ 64 -> s_sum s < 2 ^ 64 -> s_sum2 s < 2 ^ 64 ->
  let r := fold_left stats_add l s in
  s_nb r = (s_nb s + N.of_nat (length l)) mod 2 ^ 64 /\ s_sum r = (s_sum s + total l) mod 2 ^ 64 /\
  s_sum2 r = (s_sum2 s + total (map (fun v => v * v) l)) mod 2 ^ 64.
Proof.
  induction l as [|v l IH]; intros s A B C r.
  - unfold r. cbn [fold_left length map total fold_right N.of_nat]. rewrite !N.add_0_r, !N.mod_small by assumption. auto.
  - unfold r. cbn [fold_left]. destruct (IH (stats_add s v)) as (X & Y & Z); try (cbn; unfold wrap; now apply N.mod_lt).
    rewrite X, Y, Z. cbn [stats_add s_nb s_sum s_sum2 length map total fold_right]. fold (total l). fold (total (map (fun v => v * v) l)). unfold wrap.
    rewrite Nat2N.inj_succ. split; [|split].
    + rewrite N.add_mod_idemp_l by discriminate. f_equal. lia.
    + rewrite N.add_mod_idemp_l by discriminate. f_equal. lia.
    + rewrite N.add_mod_idemp_l by discriminate.
      rewrite <- N.add_assoc, (N.add_comm (_ mod _)), N.add_assoc. rewrite N.add_mod_idemp_r by discriminate. f_equal. lia.
Qed.

Lemma square_sum v x : 2 * v * x <= v * v + x * x.
Proof. pose proof (Z.square_nonneg (Z.of_N v - Z.of_N x)). lia. Qed.
Lemma cross l v : 2 * v * total l <= N.of_nat (length l) * (v * v) + total (map (fun v => v * v) l).
Proof.
  induction l as [|x l IH]; [cbn; lia|]. cbn [length map total fold_right]. fold (total l). fold (total (map (fun v => v * v) l)).
  rewrite Nat2N.inj_succ, N.mul_succ_l, N.mul_add_distr_l. pose proof (square_sum v x). lia.
Qed.

(** The number, the sum and the sum of the squares of what was added, modulo 2^64.  While nothing wraps, what the square root of the
    deviation is taken of is not negative: nb * sum_2 is at least sum^2. *)
Theorem C67_stats l : s_nb (stats_of l) = N.of_nat (length l) mod 2 ^ 64 /\ s_sum (stats_of l) = total l mod 2 ^ 64 /\
  s_sum2 (stats_of l) = total (map (fun v => v * v) l) mod 2 ^ 64 /\
  (N.of_nat (length l) < 2 ^ 64 -> total l < 2 ^ 64 -> total (map (fun v => v * v) l) < 2 ^ 64 ->
   s_sum (stats_of l) * s_sum (stats_of l) <= s_nb (stats_of l) * s_sum2 (stats_of l)).
Proof.
  destruct (stats_from l stats_begin) as (X & Y & Z); try reflexivity. fold (stats_of l) in X, Y, Z. cbn [stats_begin s_nb s_sum s_sum2] in X, Y, Z.
  rewrite !N.add_0_l in *. split; [exact X|]. split; [exact Y|]. split; [exact Z|]. intros H1 H2 H3.
  rewrite X, Y, Z, !N.mod_small by assumption. clear.
  induction l as [|x l IH]; [cbn; lia|]. pose proof (cross l x) as C. cbn [length map total fold_right]. fold (total l).
  fold (total (map (fun v => v * v) l)). rewrite Nat2N.inj_succ. revert C IH. generalize (total l) (total (map (fun v => v * v) l)) (N.of_nat (length l)).
  intros a b n C IH. rewrite N.mul_succ_l, !N.mul_add_distr_l, !N.mul_add_distr_r. lia.
Qed.

(** A value of 2^32 microseconds, about 72 minutes: its square is lost, and the deviation is the square root of a negative number. *)
Theorem C67_deviation_refuted : exists v, v < 2 ^ 64 /\ let s := stats_of [v] in s_nb s * s_sum2 s < s_sum s * s_sum s.
Proof. exists (2 ^ 32). split; reflexivity. Qed.

Example C67_case : stats_of [3; 10; 5] = mkStats 3 18 134.
Proof. reflexivity. Qed.
Example C66_params_case : check_params TRsFnt 4 2 100 1024 5000 = Accepted 6144 /\ check_params TRsFntSys 2 1 256 1024 5000 = ErrCodeLen /\
  check_params TRsNf4 4 4 5 1024 512 = ErrComptT /\ check_params TRsGf2nC 4 1 0 1024 512 = ErrDomain /\ get_sizeof TRsNf4 4 = 8.
Proof. vm_compute. repeat split. Qed.

Print Assumptions C66_chunk_size.
Print Assumptions C66_accepted_fnt_partial.
Print Assumptions C66_accepted_fnt_refuted.
Print Assumptions C66_empty_refuted.
Print Assumptions C66_no_parity_refuted.
Print Assumptions C66_all_refuted.
Print Assumptions C67_stats.
Print Assumptions C67_deviation_refuted.
Print Assumptions C66_default_type.
Print Assumptions C66_word_size_refuted.
Print Assumptions C66_accepted_repair.
Print Assumptions C66_detects.
