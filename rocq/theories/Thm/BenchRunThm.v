(** Properties C66 and C71 together: from the options of the benchmark to the runs of rs-fnt, rs-fnt-sys and rs-nf4. *)
From Coq Require Import Ascii String List NArith ZArith Arith Bool Lia.
From Verif.Model Require Import Common Arith Ring Fft2n Radix2 Poly Props Fnt Nf4 Header Streams HCodes VCodes Prng Cached DriverMain Bench BenchMain.
From Verif.Spec Require Import Modular Code Blocks Widths Session HStreams VCodes Nf4 Bench BenchMain.
From Verif.Proof Require Import ListP BlocksF.
From Verif.Thm Require Import StreamsThm VCodesThm Nf4CodeThm BenchThm BenchParamsThm BenchMainThm.
Import ListNotations.
Open Scope nat_scope.

(** The parameters are those of [k] data and [m] parity chunks of words of [ws] bytes on packets of [pkt] words, without -t; the chunks are not
    empty. *)
Definition asks (p : params) (t : ec_type) (ws k m pkt : nat) : Prop :=
  p_type p = t /\ p_ws p = N.of_nat ws /\ p_k p = Z.of_nat k /\ p_m p = Z.of_nat m /\ p_pkt p = N.of_nat pkt /\ p_T p = (-1)%Z /\
  0 < pkt /\ (N.of_nat pkt < 2 ^ 31)%N /\ (0 < p_chunk p < 2 ^ 63)%N /\ (N.of_nat (k + m) < 256 ^ N.of_nat ws)%N.

Lemma asked_checks p t ws k m pkt T : asks p t ws k m pkt -> In (N.of_nat ws) (words_of t) -> 0 < k -> 0 < m -> (N.of_nat (k + m) < 2 ^ 31)%N ->
  run_benchmark t None (N.of_nat ws) = [(t, T)] ->
  exists L, bench_checks p = Some [((t, T), Accepted (N.of_nat L))] /\ (p_chunk p <= N.of_nat L < p_chunk p + N.of_nat (pkt * ws))%N /\
    0 < L /\ L mod ws = 0 /\ L mod (pkt * ws) = 0.
Proof.
  intros (Et & Ew & Ek & Em & Ep & ET & P0 & P31 & C & Hn) Hw Hk Hm H31 R.
  assert (W : (1 <= N.of_nat ws <= 16)%N) by (destruct t; cbn in Hw; lia).
  assert (Pow : (2 ^ (8 * Z.of_N (N.of_nat ws)))%Z = Z.of_N (256 ^ N.of_nat ws)).
  { rewrite N2Z.inj_pow, Z.pow_mul_r by lia. reflexivity. }
  destruct (C71_accepted p) as (T' & L & _ & K); rewrite ?Et, ?Ew, ?Ek, ?Em, ?Ep; try assumption; try lia.
  rewrite Et in K.
  assert (K2 : T' = T /\ check_params t T (N.of_nat ws) (Z.of_nat k + Z.of_nat m) (N.of_nat pkt) (p_chunk p) = Accepted L).
  { unfold bench_checks, code_length, size_asked in K. rewrite ET, Ek, Em, Et, Ew, Ep in K. destruct (_ && _)%bool; [|discriminate].
    rewrite Z.eqb_refl, R in K. cbn [map fst snd] in K. injection K as -> K. auto. }
  destruct K2 as (-> & K2).
  assert (Q : (N.of_nat pkt * N.of_nat ws < 2 ^ 35)%N). { assert (2 ^ 35 = 2 ^ 31 * 16)%N as -> by reflexivity. nia. }
  assert (2 ^ 35 + 2 ^ 63 < 2 ^ 64)%N by reflexivity.
  destruct (C66_chunk_size _ _ _ _ _ _ _ K2) as (D & B & _); try lia.
  exists (N.to_nat L). rewrite Nnat.N2Nat.id. split; [exact K|]. split; [rewrite Nnat.Nat2N.inj_mul; exact B|]. split; [lia|].
  destruct D as (z & Ez). assert (EL : N.to_nat L = N.to_nat z * (pkt * ws)) by (rewrite Ez, !Nnat.N2Nat.inj_mul, !Nnat.Nat2N.id; lia).
  rewrite EL. split; [|apply Nat.mod_mul; lia]. rewrite Nat.mul_assoc. apply Nat.mod_mul. lia.
Qed.

(** rs-fnt and rs-fnt-sys: the check is passed with integers of 4 bytes, the object is made, and the three scenarios end well, whatever is in
    the memory.  With SIMD for words of 2 bytes only (C15). *)
Theorem C71_rs_fnt p (sys : bool) ws k m pkt nh : asks p (if sys then TRsFntSys else TRsFnt) ws k m pkt -> ws = 1 \/ ws = 2 -> fnt_sizes ws k m ->
  nh = 0 \/ nh <= 2 /\ ws = 2 ->
  exists L c, bench_checks p = Some [((if sys then TRsFntSys else TRsFnt, 4%N), Accepted (N.of_nat L))] /\
    (p_chunk p <= N.of_nat L < p_chunk p + N.of_nat (pkt * ws))%N /\ L mod (pkt * ws) = 0 /\ fnt_new nh 32 sys ws k m pkt = Some c /\
    forall xe es wc out j1 j2 wc1 ds,
      (forall t, encoder_buffers c xe (es t) (wc t) (out t) /\ length (wc t) = k) ->
      (forall t, decoder_buffers c (j1 t) (j2 t) (wc1 t) (ds t) /\ length (wc1 t) = k) ->
      runs_well (fnt_coder c xe es wc out j1 j2 wc1 ds) L (fun _ => True).
Proof.
  intros A Hw Hs Hb. assert (FW : fnt_width 32 ws) by (unfold fnt_width; destruct Hw as [->| ->]; cbn; auto 6).
  assert (FB : fnt_build nh 32 ws). { unfold fnt_build. destruct Hb as [->|[H ->]]; [now left|]. right. split; [exact H|]. split; [discriminate|auto]. }
  assert (A' := A). destruct A' as (_ & _ & _ & _ & _ & _ & P0 & _ & _ & Hn).
  destruct (object_made 32 sys ws k m FW Hs) as (cw & r & n & _ & _ & Hc & _). destruct (Hc nh pkt FB P0) as (c & Ec & Oc).
  destruct (asked_checks p _ ws k m pkt 4 A) as (L & K & B & L0 & M1 & M2).
  - destruct Hw as [->| ->], sys; cbn; auto.
  - apply Hs.
  - apply Hs.
  - assert (256 ^ N.of_nat ws <= 2 ^ 16)%N by (destruct Hw as [->| ->]; discriminate). assert (2 ^ 16 < 2 ^ 31)%N by reflexivity. lia.
  - destruct Hw as [->| ->], sys; reflexivity.
  - exists L, c. split; [exact K|]. split; [exact B|]. split; [exact M2|]. split; [exact Ec|]. intros xe es wc out j1 j2 wc1 ds He Hd.
    now apply (C66_rs_fnt 32 sys ws k m pkt c).
Qed.

(** rs-nf4 with words of 2, 4 and 8 bytes: integers of twice that size; the scenarios on packets and on words. *)
Theorem C71_rs_nf4 p ws k m pkt : asks p TRsNf4 ws k m pkt -> In ws [2; 4; 8] -> nf4_sizes k m ->
  exists L c, bench_checks p = Some [((TRsNf4, N.of_nat (2 * ws)), Accepted (N.of_nat L))] /\
    (p_chunk p <= N.of_nat L < p_chunk p + N.of_nat (pkt * ws))%N /\ L mod (pkt * ws) = 0 /\
    nf4_new Nf4.Plain (16 * N.of_nat ws) ws k m = Some c /\
    (forall nh d b q, nh <= 2 -> (forall t, nf4_decoder c ws (d t)) -> (forall t, enc_buffers ws k (nf_n c) (nf4_penc nh c pkt ws) (b t)) ->
       (forall t, dec_buffers ws k (d t) (q t)) -> runs_well (p_coder k m (nf4_penc nh c pkt ws) d b q) L (fun _ => True)) /\
    let D := fun d => exists j1 j2 vs, length j1 = nf_n c /\ length j2 = nf_l2 c /\ nvs_len c vs /\ d = nf4_v c ws m j1 j2 vs in
    forall e d oute outd, (forall t, D (e t) /\ D (d t) /\ length (oute t) = v_out (e t) /\ length (outd t) = k) ->
      runs_well (h_coder false k m e d oute outd) L (fun _ => True).
Proof.
  intros A Hw Hs. assert (A' := A). destruct A' as (_ & _ & _ & _ & _ & _ & P0 & _ & _ & Hn).
  destruct (asked_checks p _ ws k m pkt (N.of_nat (2 * ws)) A) as (L & K & B & L0 & M1 & M2).
  - cbn in Hw. destruct Hw as [<-|[<-|[<-|[]]]]; cbn; auto.
  - apply Hs.
  - apply Hs.
  - destruct Hs as (_ & _ & H & _). assert (65536 < 2 ^ 31)%N by reflexivity. lia.
  - cbn in Hw. destruct Hw as [<-|[<-|[<-|[]]]]; reflexivity.
  - destruct (C66_rs_nf4 Nf4.Plain (16 * N.of_nat ws) ws k m Hw) as (c & Ec & H1 & H2).
    + cbn in Hw. destruct Hw as [<-|[<-|[<-|[]]]]; (split; [cbn; lia|discriminate]).
    + cbn in Hw. destruct Hw as [<-|[<-|[<-|[]]]]; cbn; auto.
    + exact Hs.
    + exists L, c. split; [exact K|]. split; [exact B|]. split; [exact M2|]. split; [exact Ec|]. split.
      * intros nh d b q Hnh Hd Hb Hq. now apply H1.
      * intros D e d oute outd HD. now apply H2.
Qed.

(** Concrete case: the options "-e rs-fnt -k 5 -m 3 -c 3000". *)
Example C71_case_run : exists p,
  bench_main [BE (txt "rs-fnt"); BNum FK (txt "5"); BNum FM (txt "3"); BNum FC (txt "3000")] = BRun p /\ asks p TRsFnt 2 5 3 1024 /\ fnt_sizes 2 5 3 /\
  bench_checks p = Some [((TRsFnt, 4%N), Accepted 4096%N)].
Proof.
  eexists. split; [reflexivity|]. split; [|split; [|reflexivity]].
  - unfold asks. repeat match goal with |- _ /\ _ => split end; try reflexivity. apply Nat.lt_0_succ.
  - unfold fnt_sizes. repeat match goal with |- _ /\ _ => split end; try discriminate; lia.
Qed.

Print Assumptions C71_rs_fnt.
Print Assumptions C71_rs_nf4.
