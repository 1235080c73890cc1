(** Property C66 with the codes that work word by word: the benchmark with rs-gf2n-fft, rs-gf2n-fft-add, rs-gf2n-v, rs-gf2n-c and
    rs-gfp-fft. *)
Set Warnings "-notation-overridden,-ambiguous-paths".
From Coq Require Import NArith ZArith Arith.
From Coq Require List.
From Verif.Model Require Import Common Arith Ring Radix2 Poly Gf2n Props Fnt Matrix MixedFft FftCodes Additive AddCode HCodes Prng Bench.
From Verif.Spec Require Import Session HStreams Bench.
From Verif.Proof Require Import MatrixL HCodesP DriverH.
From Verif.Thm Require Import BenchThm.
From mathcomp Require Import all_ssreflect ssralg finalg poly.
From mathcomp Require Import zify.
From Verif.Spec Require Import Gf2n Matrix.
From Verif.Proof Require Import Pres MatrixB MatrixI MatrixC MatrixK MatrixE FftC AddL AddI AddC.
From Verif.Thm Require Import MatrixThm FftCodesThm AddCodeThm GfpThm HCodesThm HCodesGfpThm.
Set Implicit Arguments.
Unset Strict Implicit.
Unset Printing Implicit Defensive.

Lemma ws_pos ws : word_size_ok ws = true -> (0 < ws)%coq_nat.
Proof. by case: ws => // ws _; lia. Qed.

Section Codes.
Variables (junk w : N) (ws k m L : nat) (oute outd : nat -> list N).
Hypothesis sup : supported w (8 * N.of_nat ws).
Hypothesis Hk : (0 < k)%N.
Hypothesis Hm : (0 < m)%N.
Hypothesis HL : (0 < L)%coq_nat.
Hypothesis EL : Nat.modulo L ws = 0.

(** The memory of an object at each call is given: [epv], [dm], and so on. *)
Theorem C66_rs_gf2n_fft : (N.of_nat (k + m) <= smooth_part ws)%num -> (N.of_nat (2 * k) <= smooth_part ws)%num ->
  exists c, gf2n_new junk w ws k m = Some c /\
  forall epv epv' dm dm', (forall t, dmem_ok c (dm t) /\ dmem_ok c (dm' t)) -> (forall t, length (oute t) = f_n c) -> (forall t, length (outd t) = k) ->
  runs_well (h_coder false k m (fun t => gf2n_v c ws m (epv t) (dm t)) (fun t => gf2n_v c ws m (epv' t) (dm' t)) oute outd) L (fun _ => True).
Proof.
  move=> H1 H2; have [c [Ec HC]] := C54_rs_gf2n_fft junk sup Hk Hm H1 H2; exists c; split=> // epv epv' dm dm' Hd Lo Lo'.
  apply: (@h_runs false ws k m _ _ _ _ L (fun t d => exists dm, dmem_ok c dm /\ d = gf2n_v c ws m (epv t) dm) (fun _ => True)) => //.
  - exact: ws_pos (sup_words sup).
  - move=> t; have De : exists dm1, dmem_ok c dm1 /\ gf2n_v c ws m (epv t) (dm t) = gf2n_v c ws m (epv t) dm1 by exists (dm t); split=> //; case: (Hd t).
    by case: (HC (epv t) _ De).
  - move=> t t'; exists (gf2n_v c ws m (epv t) (dm' t')); split; last by move=> *; apply: dec_noenc.
    by exists (dm' t'); split=> //; case: (Hd t').
Qed.

Theorem C66_rs_gf2n_fft_add : (N.of_nat (k + m) <= 2 ^ (8 * N.of_nat ws))%num -> (2 * N.of_nat k <= 2 ^ (8 * N.of_nat ws) - 1)%num ->
  exists c, acode_new junk w ws k m = Some c /\
  let D := fun d => exists out0 pS, [/\ size out0 = a_n c, size (p_buf pS) = k & d = add_v junk c ws m out0 pS] in
  forall e d, (forall t, D (e t) /\ D (d t)) -> (forall t, length (oute t) = a_n c) -> (forall t, length (outd t) = k) ->
  runs_well (h_coder false k m e d oute outd) L (fun _ => True).
Proof.
  move=> Hn H2; have [c [Ec HC]] := C54_rs_gf2n_fft_add junk sup Hk Hm Hn H2; exists c; split=> // D e d Hd Lo Lo'.
  apply: (@h_runs false ws k m e d oute outd L (fun _ => D) (fun _ => True)) => //.
  - exact: ws_pos (sup_words sup).
  - by move=> t; case: (HC _ (proj1 (Hd t))).
  - by move=> t; rewrite Lo; case: (proj1 (Hd t)) => out0 [pS [_ _ ->]].
  - by move=> t t'; exists (d t'); split=> //; case: (Hd t').
Qed.

(** [cauchy_pattern]: see C54_rs_gf2n; the condition is on all the orders that come up. *)
Theorem C66_rs_gf2n X junk' (vdm : bool) : new_bin_ext junk w (8 * N.of_nat ws) = Some X ->
  (N.of_nat (k + m) <= 2 ^ (8 * N.of_nat ws))%num ->
  let gdiv := fun a b => odef (x_div X a b) in
  let D := fun d => exists D0, mat_ok (2 ^ (8 * N.of_nat ws)) k k D0 /\
    d = mat_v (bin_ops X) gdiv junk' ws k m (code_matrix (bin_ops X) gdiv junk' vdm k m) D0 in
  forall e d, (forall t, D (e t) /\ D (d t)) -> (forall t, length (oute t) = m) -> (forall t, length (outd t) = k) ->
  runs_well (h_coder true k m e d oute outd) L (fun missing => if vdm then True else cauchy_pattern k m missing).
Proof.
  move=> EX Hn gdiv D e d Hd Lo Lo'.
  apply: (@h_runs true ws k m e d oute outd L (fun _ => D)) => //.
  - exact: ws_pos (sup_words sup).
  - by move=> t; case: (@C54_rs_gf2n junk w ws k m X junk' sup EX Hk Hm Hn vdm _ (proj1 (Hd t))).
  - by move=> t; rewrite Lo; case: (proj1 (Hd t)) => D0 [_ ->].
  - by move=> t t'; exists (d t'); split=> //; case: (Hd t').
Qed.
End Codes.

Theorem C66_rs_gfp_fft nh w ws k m L oute outd : gfp_build_ok nh w ws k -> gfp_width w ws -> gfp_sizes ws k m ->
  (0 < L)%coq_nat -> Nat.modulo L ws = 0 ->
  exists c, gfp_new nh w ws k m = Some c /\
  forall epv epv' dm dm', (forall t, dmem_ok c (dm t) /\ dmem_ok c (dm' t)) -> (forall t, length (oute t) = f_n c) -> (forall t, length (outd t) = k) ->
  runs_well (h_coder false k m (fun t => gfp_v c ws m (epv t) (dm t)) (fun t => gfp_v c ws m (epv' t) (dm' t)) oute outd) L (fun _ => True).
Proof.
  move=> Hb Hw Hs HL EL; have [c [Ec HC]] := C54_rs_gfp_fft nh w ws k m Hb Hw Hs; exists c; split=> // epv epv' dm dm' Hd Lo Lo'.
  apply: (@h_runs false ws k m _ _ _ _ L (fun t d => exists dm, dmem_ok c dm /\ d = gfp_v c ws m (epv t) dm) (fun _ => True)) => //.
  - by case: Hw => [[-> _]|[[-> _]|[-> _]]]; lia.
  - move=> t; have De : exists dm1, dmem_ok c dm1 /\ gfp_v c ws m (epv t) (dm t) = gfp_v c ws m (epv t) dm1 by exists (dm t); split=> //; case: (Hd t).
    by case: (HC (epv t) _ De).
  - move=> t t'; exists (gfp_v c ws m (epv t) (dm' t')); split; last by move=> *; apply: dec_noenc.
    by exists (dm' t'); split=> //; case: (Hd t').
Qed.

Print Assumptions C66_rs_gf2n_fft.
Print Assumptions C66_rs_gf2n_fft_add.
Print Assumptions C66_rs_gf2n.
Print Assumptions C66_rs_gfp_fft.
