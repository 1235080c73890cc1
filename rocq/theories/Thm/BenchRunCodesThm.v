(** Properties C66 and C71 together, for rs-gf2n-v, rs-gf2n-c, rs-gf2n-fft, rs-gf2n-fft-add and rs-gfp-fft. *)
Set Warnings "-notation-overridden,-ambiguous-paths".
From Coq Require Import Ascii String List NArith ZArith Arith Bool Lia.
From mathcomp Require ssreflect ssrbool ssrnat.
From Verif.Model Require Import Common Arith Ring Radix2 Poly Gf2n Props Fnt Matrix MixedFft FftCodes Additive AddCode HCodes Prng Bench BenchMain.
From Verif.Spec Require Import Session HStreams Bench Gf2n Matrix.
From Verif.Proof Require Import MatrixL HCodesP DriverH FftC AddL AddI AddC.
From Verif.Thm Require Import MatrixThm FftCodesThm AddCodeThm GfpThm HCodesThm HCodesGfpThm BenchParamsThm BenchMainThm BenchCodesThm BenchRunThm.
Import ListNotations.
Open Scope string_scope.
Open Scope nat_scope.

Definition word_sizes : list nat := [1; 2; 4; 8; 16].
(** The size of the integers, in bytes: that of the words, at least 4. *)
Definition int_size (ws : nat) : N := N.of_nat (Nat.max 4 ws).
Definition on_words (t : ec_type) : Prop := In t [TRsGf2nV; TRsGf2nC; TRsGf2nFft; TRsGf2nFftAdd].

Lemma sup_of ws : In ws word_sizes -> supported (8 * int_size ws) (8 * N.of_nat ws).
Proof.
  intros H. cbn in H.
  assert (C : ws = 1 \/ ws = 2 \/ ws = 4 \/ ws = 8 \/ ws = 16) by intuition congruence.
  destruct C as [->|[->|[->|[->| ->]]]]; (split; [cbn; tauto|]; split; [cbn; tauto|]; split; [discriminate|]; intros Hle;
    try reflexivity; exfalso; now apply Hle).
Qed.
Lemma pos k : 0 < k -> is_true (ssrnat.leq 1 k).
Proof. intros H. now apply (ssrbool.introT ssrnat.leP). Qed.
Lemma checks_of p t ws k m pkt : asks p t ws k m pkt -> on_words t -> In ws word_sizes -> 0 < k -> 0 < m -> (N.of_nat (k + m) < 2 ^ 31)%N ->
  exists L, bench_checks p = Some [((t, int_size ws), Accepted (N.of_nat L))] /\
    (p_chunk p <= N.of_nat L < p_chunk p + N.of_nat (pkt * ws))%N /\ 0 < L /\ L mod ws = 0 /\ L mod (pkt * ws) = 0.
Proof.
  intros A Ht Hw Hk Hm Hn. assert (Q : In (N.of_nat ws) (words_of t) /\ run_benchmark t None (N.of_nat ws) = [(t, int_size ws)]).
  { assert (C : ws = 1 \/ ws = 2 \/ ws = 4 \/ ws = 8 \/ ws = 16) by (cbn in Hw; intuition congruence).
    assert (Ct : t = TRsGf2nV \/ t = TRsGf2nC \/ t = TRsGf2nFft \/ t = TRsGf2nFftAdd) by (unfold on_words in Ht; cbn in Ht; intuition congruence).
    clear - C Ct. destruct Ct as [->|[->|[->| ->]]]; destruct C as [->|[->|[->|[->| ->]]]]; (split; [cbn; tauto|reflexivity]). }
  destruct Q as [Q1 Q2]. exact (asked_checks p t ws k m pkt (int_size ws) A Q1 Hk Hm Hn Q2).
Qed.
Lemma below p t ws k m pkt : asks p t ws k m pkt -> (N.of_nat (k + m) <= 2 ^ (8 * N.of_nat ws))%N.
Proof. intros (_ & _ & _ & _ & _ & _ & _ & _ & _ & H). rewrite N.pow_mul_r. change (2 ^ 8)%N with 256%N. lia. Qed.

(** Matrices of Vandermonde and Cauchy: the latter for the losses of C36. *)
Theorem C71_rs_gf2n p (vdm : bool) ws k m pkt junk junk' oute outd : asks p (if vdm then TRsGf2nV else TRsGf2nC) ws k m pkt -> In ws word_sizes ->
  0 < k -> 0 < m -> (N.of_nat (k + m) < 2 ^ 31)%N ->
  exists L, bench_checks p = Some [((if vdm then TRsGf2nV else TRsGf2nC, int_size ws), Accepted (N.of_nat L))] /\
    (p_chunk p <= N.of_nat L < p_chunk p + N.of_nat (pkt * ws))%N /\ L mod (pkt * ws) = 0 /\
    forall X, new_bin_ext junk (8 * int_size ws) (8 * N.of_nat ws) = Some X ->
    let gdiv := fun a b => odef (x_div X a b) in
    let D := fun d => exists D0, mat_ok (2 ^ (8 * N.of_nat ws)) k k D0 /\
      d = mat_v (bin_ops X) gdiv junk' ws k m (code_matrix (bin_ops X) gdiv junk' vdm k m) D0 in
    forall e d, (forall t, D (e t) /\ D (d t)) -> (forall t, length (oute t) = m) -> (forall t, length (outd t) = k) ->
    runs_well (h_coder true k m e d oute outd) L (fun missing => if vdm then True else cauchy_pattern k m missing).
Proof.
  intros A Hw Hk Hm Hn. destruct (checks_of p _ ws k m pkt A) as (L & K & B & L0 & M1 & M2); try assumption; [destruct vdm; cbn; auto|].
  exists L. split; [exact K|]. split; [exact B|]. split; [exact M2|]. intros X EX gdiv D e d Hd Lo Lo'.
  exact (C66_rs_gf2n (sup_of ws Hw) (pos k Hk) (pos m Hm) L0 M1 EX (below _ _ _ _ _ _ A) Hd Lo Lo').
Qed.

Theorem C71_rs_gf2n_fft p ws k m pkt junk oute outd : asks p TRsGf2nFft ws k m pkt -> In ws word_sizes -> 0 < k -> 0 < m ->
  (N.of_nat (k + m) < 2 ^ 31)%N -> (N.of_nat (k + m) <= smooth_part ws)%N -> (N.of_nat (2 * k) <= smooth_part ws)%N ->
  exists L c, bench_checks p = Some [((TRsGf2nFft, int_size ws), Accepted (N.of_nat L))] /\
    (p_chunk p <= N.of_nat L < p_chunk p + N.of_nat (pkt * ws))%N /\ L mod (pkt * ws) = 0 /\ gf2n_new junk (8 * int_size ws) ws k m = Some c /\
    forall epv epv' dm dm', (forall t, dmem_ok c (dm t) /\ dmem_ok c (dm' t)) -> (forall t, length (oute t) = f_n c) -> (forall t, length (outd t) = k) ->
    runs_well (h_coder false k m (fun t => gf2n_v c ws m (epv t) (dm t)) (fun t => gf2n_v c ws m (epv' t) (dm' t)) oute outd) L (fun _ => True).
Proof.
  intros A Hw Hk Hm Hn H1 H2. destruct (checks_of p _ ws k m pkt A) as (L & K & B & L0 & M1 & M2); try assumption; [cbn; auto|].
  destruct (@C66_rs_gf2n_fft junk (8 * int_size ws) ws k m L oute outd (sup_of ws Hw) (pos k Hk) (pos m Hm) L0 M1 H1 H2) as (c & Ec & R).
  exists L, c. split; [exact K|]. split; [exact B|]. split; [exact M2|]. split; [exact Ec|exact R].
Qed.

Theorem C71_rs_gf2n_fft_add p ws k m pkt junk oute outd : asks p TRsGf2nFftAdd ws k m pkt -> In ws word_sizes -> 0 < k -> 0 < m ->
  (N.of_nat (k + m) < 2 ^ 31)%N -> (2 * N.of_nat k <= 2 ^ (8 * N.of_nat ws) - 1)%N ->
  exists L c, bench_checks p = Some [((TRsGf2nFftAdd, int_size ws), Accepted (N.of_nat L))] /\
    (p_chunk p <= N.of_nat L < p_chunk p + N.of_nat (pkt * ws))%N /\ L mod (pkt * ws) = 0 /\ acode_new junk (8 * int_size ws) ws k m = Some c /\
    let D := fun d => exists out0 pS, length out0 = a_n c /\ length (p_buf pS) = k /\ d = add_v junk c ws m out0 pS in
    forall e d, (forall t, D (e t) /\ D (d t)) -> (forall t, length (oute t) = a_n c) -> (forall t, length (outd t) = k) ->
    runs_well (h_coder false k m e d oute outd) L (fun _ => True).
Proof.
  intros A Hw Hk Hm Hn H2. destruct (checks_of p _ ws k m pkt A) as (L & K & B & L0 & M1 & M2); try assumption; [cbn; auto|].
  destruct (@C66_rs_gf2n_fft_add junk (8 * int_size ws) ws k m L oute outd (sup_of ws Hw) (pos k Hk) (pos m Hm) L0 M1 (below _ _ _ _ _ _ A) H2) as (c & Ec & R).
  exists L, c. split; [exact K|]. split; [exact B|]. split; [exact M2|]. split; [exact Ec|]. intros D e d Hd. apply R. intros t. destruct (Hd t) as (H & H').
  destruct H as (o & q & X1 & X2 & X3), H' as (o' & q' & X1' & X2' & X3'). split; [exists o, q|exists o', q']; split; assumption.
Qed.

(** rs-gfp-fft, with integers of 4 bytes for words of 1 and 2 bytes and of 8 bytes for words of 4; with SIMD not for words of 1 byte, but for one or
    two data chunks (gfp_build_ok). *)
Definition gfp_int (ws : nat) : N := if ws =? 4 then 8%N else 4%N.
Theorem C71_rs_gfp_fft p ws k m pkt nh oute outd : asks p TRsGfpFft ws k m pkt -> In ws [1; 2; 4] -> gfp_sizes ws k m ->
  gfp_build_ok nh (8 * gfp_int ws) ws k ->
  exists L c, bench_checks p = Some [((TRsGfpFft, gfp_int ws), Accepted (N.of_nat L))] /\
    (p_chunk p <= N.of_nat L < p_chunk p + N.of_nat (pkt * ws))%N /\ L mod (pkt * ws) = 0 /\ gfp_new nh (8 * gfp_int ws) ws k m = Some c /\
    forall epv epv' dm dm', (forall t, dmem_ok c (dm t) /\ dmem_ok c (dm' t)) -> (forall t, length (oute t) = f_n c) -> (forall t, length (outd t) = k) ->
    runs_well (h_coder false k m (fun t => gfp_v c ws m (epv t) (dm t)) (fun t => gfp_v c ws m (epv' t) (dm' t)) oute outd) L (fun _ => True).
Proof.
  intros A Hw Hs Hb. assert (C : ws = 1 \/ ws = 2 \/ ws = 4) by (cbn in Hw; intuition congruence).
  assert (W : gfp_width (8 * gfp_int ws) ws).
  { unfold gfp_width. destruct C as [->|[->| ->]]; [left|right; left|right; right]; (split; [reflexivity|]); cbn; tauto. }
  assert (S : 0 < k /\ 0 < m /\ (N.of_nat (k + m) < 2 ^ 31)%N).
  { destruct Hs as [H1 H2 H3]. split; [exact (ssrbool.elimT ssrnat.leP H1)|]. split; [exact (ssrbool.elimT ssrnat.leP H2)|].
    change (ssrnat.addn k m) with (k + m) in H3. destruct C as [->|[->| ->]]; cbn [ssrnat.leq ssrnat.subn] in H3; destruct H3 as [H3 _];
      (eapply N.le_lt_trans; [exact H3|reflexivity]). }
  destruct S as (Hk & Hm & Hn). destruct (asked_checks p TRsGfpFft ws k m pkt (gfp_int ws) A) as (L & K & B & L0 & M1 & M2); try assumption.
  - destruct C as [->|[->| ->]]; cbn; tauto.
  - destruct C as [->|[->| ->]]; reflexivity.
  - destruct (@C66_rs_gfp_fft nh (8 * gfp_int ws) ws k m L oute outd Hb W Hs L0 M1) as (c & Ec & R).
    exists L, c. split; [exact K|]. split; [exact B|]. split; [exact M2|]. split; [exact Ec|exact R].
Qed.

(** Concrete case: 5 and 3 chunks, words of 8 bytes, on the default packets. *)
Example C71_case_words : exists p, bench_main [BE (DriverMain.txt "rs-gf2n-v"); BNum FK (DriverMain.txt "5"); BNum FM (DriverMain.txt "3"); BNum FW (DriverMain.txt "8")] = BRun p /\
  asks p TRsGf2nV 8 5 3 1024 /\ bench_checks p = Some [((TRsGf2nV, 8%N), Accepted 8192%N)].
Proof.
  eexists. split; [reflexivity|]. split; [|reflexivity]. unfold asks. repeat match goal with |- _ /\ _ => split end; try reflexivity. apply Nat.lt_0_succ.
Qed.

Print Assumptions C71_rs_gfp_fft.
Print Assumptions C71_rs_gf2n.
Print Assumptions C71_rs_gf2n_fft.
Print Assumptions C71_rs_gf2n_fft_add.
