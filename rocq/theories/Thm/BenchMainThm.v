(** Property C71: the options of the benchmark. *)
From Coq Require Import List NArith ZArith Arith Bool Ascii String Lia.
From Verif.Model Require Import Common Header Cached DriverMain Bench BenchMain.
From Verif.Spec Require Import BenchMain.
From Verif.Proof Require Import DriverMainP BenchMainP.
From Verif.Thm Require Import BenchParamsThm.
Import ListNotations.
Open Scope N_scope.

(** Every parameter that the threads are started with is that of the last option that gives it, or the default; the numbers of
    words, bytes, samples and threads are reduced modulo 2^64 or 2^32. *)
Theorem C71_run l p : bench_main l = BRun p ->
  Forall bench_good l /\ chosen gives_type l TAll (p_type p) /\ chosen gives_sce l EncDec (p_sce p) /\
  chosen (gives_num FK) l 3%Z (p_k p) /\ chosen (gives_num FM) l 2%Z (p_m p) /\ chosen (gives_num FX) l (-1)%Z (p_extra p) /\
  chosen (gives_num FT) l (-1)%Z (p_T p) /\ chosen (gives_num FF) l 1%Z (p_print p) /\
  unsigned 64 FW l 2 (p_ws p) /\ unsigned 64 FP l 1024 (p_pkt p) /\ unsigned 64 FC l 512 (p_chunk p) /\
  unsigned 32 FN l 100 (p_samples p) /\ unsigned 32 FG l 4 (p_threads p) /\
  (p_packet p = true <-> In (p_type p) [TRsFnt; TRsFntSys; TRsNf4] /\ p_pkt p <> 0).
Proof.
  unfold bench_main. destruct (bparse l params0) as [| |q] eqn:E; [discriminate..|]. intros H. injection H as Hp.
  destruct (parse_run l params0 q E) as (A & B & C & D & F).
  assert (Q : p_type p = p_type q /\ p_sce p = p_sce q /\ (forall f, stored f p = stored f q) /\ p_packet p = on_packet (p_type q) (p_pkt q)).
  { rewrite <- Hp. cbn [p_packet params0] in D. destruct (on_packet (p_type q) (p_pkt q)) eqn:O; [rewrite D; auto|].
    split; [now destruct q|]. split; [now destruct q|]. split; [intros f; now destruct q, f|now destruct q]. }
  destruct Q as (Q1 & Q2 & Q3 & Q4). rewrite Q1, Q2. split; [exact A|]. split; [exact B|]. split; [exact C|].
  destruct (F FK 3%Z eq_refl) as (zk & Ck & Sk). destruct (F FM 2%Z eq_refl) as (zm & Cm & Sm).
  destruct (F FX (-1)%Z eq_refl) as (zx & Cx & Sx). destruct (F FT (-1)%Z eq_refl) as (zt & Ct & St).
  destruct (F FF 1%Z eq_refl) as (zf & Cf & Sf). destruct (F FW 2%Z eq_refl) as (zw & Cw & Sw).
  destruct (F FP 1024%Z eq_refl) as (zp & Cp & Sp). destruct (F FC 512%Z eq_refl) as (zc & Cc & Sc).
  destruct (F FN 100%Z eq_refl) as (zn & Cn & Sn). destruct (F FG 4%Z eq_refl) as (zg & Cg & Sg).
  pose proof (Q3 FP) as Ep. cbn [stored] in Ep.
  rewrite <- Q3 in Sk, Sm, Sx, St, Sf, Sw, Sp, Sc, Sn, Sg. cbn [stored conv] in Sk, Sm, Sx, St, Sf, Sw, Sp, Sc, Sn, Sg.
  split; [now rewrite Sk|]. split; [now rewrite Sm|]. split; [now rewrite Sx|]. split; [now rewrite St|]. split; [now rewrite Sf|].
  split; [exists zw; auto|]. split; [exists zp; auto|]. split; [exists zc; auto|]. split; [exists zn; auto|]. split; [exists zg; auto|].
  rewrite Q4. apply N2Z.inj in Ep. rewrite Ep. unfold on_packet. rewrite andb_true_iff, negb_true_iff, N.eqb_neq.
  cbn [In]. destruct (p_type q); cbn [is_fnt is_nf4 orb]; intuition discriminate.
Qed.
(** Known options start the threads; at the first unknown one, or number that is not an int, the program ends. *)
Theorem C71_ends l : (Forall bench_good l -> exists p, bench_main l = BRun p) /\
  (forall l1 o l2, l = l1 ++ o :: l2 -> Forall bench_good l1 -> bench_throws o -> bench_main l = BThrow) /\
  (forall l1 o l2, l = l1 ++ o :: l2 -> Forall bench_good l1 -> ~ bench_good o -> ~ bench_throws o -> bench_main l = BUsage).
Proof.
  split; [|split].
  - intros H. destruct (parse_good l params0 H []) as (p & E). rewrite app_nil_r in E. unfold bench_main. rewrite E. cbn [bparse]. eauto.
  - intros l1 o l2 -> H (f & a & -> & E). destruct (parse_good l1 params0 H (BNum f a :: l2)) as (p & Ep). unfold bench_main. rewrite Ep.
    cbn [bparse]. now rewrite E.
  - intros l1 o l2 -> H Hg Ht. destruct (parse_good l1 params0 H (o :: l2)) as (p & Ep). unfold bench_main. rewrite Ep.
    destruct o as [a|a|f a|]; cbn [bparse].
    + destruct (fec_of a) as [t|] eqn:E; [|reflexivity]. apply fec_some in E. destruct E as (s & Hs & ->). exfalso. apply Hg. left.
      exists t, s. auto.
    + destruct (sce_of a) as [t|] eqn:E; [|reflexivity]. apply sce_some in E. destruct E as (s & Hs & ->). exfalso. apply Hg. right. left.
      exists t, s. auto.
    + destruct (stoi a) as [z|] eqn:E; [exfalso; apply Hg; right; right; exists f, z, a; auto|exfalso; apply Ht; exists f, a; auto].
    + reflexivity.
Qed.
(** One code and sizes that it has, without -t: the check of its benchmark is passed. *)
Theorem C71_accepted p : In (p_ws p) (words_of (p_type p)) -> (0 < p_k p)%Z -> (0 < p_m p)%Z ->
  (p_k p + p_m p < 2 ^ 31)%Z -> (p_k p + p_m p < 2 ^ (8 * Z.of_N (p_ws p)))%Z -> p_T p = (-1)%Z -> p_pkt p < 2 ^ 31 ->
  exists T L, In T [4; 8; 16] /\ bench_checks p = Some [((p_type p, T), Accepted L)].
Proof.
  intros Hw Hk Hm Hn Hl HT Hp.
  assert (W : p_ws p <= 16) by (destruct (p_type p); cbn in Hw; lia).
  destruct (C66_default_type (p_type p) (p_ws p) (p_k p + p_m p) (p_pkt p) (p_chunk p) Hw ltac:(lia) Hl) as (T & R & I & (L & K) & _).
  { apply N.le_lt_trans with (p_pkt p * 16); [apply N.mul_le_mono_l; exact W|lia]. }
  exists T, L. split; [exact I|]. unfold bench_checks, code_length, size_asked. rewrite HT.
  assert (E : ((- 2 ^ 31 <=? p_k p + p_m p) && (p_k p + p_m p <? 2 ^ 31))%Z = true).
  { apply andb_true_iff. split; [apply Z.leb_le|apply Z.ltb_lt]; lia. }
  rewrite E, Z.eqb_refl, R. cbn [map fst snd]. now rewrite K.
Qed.

(** ** What does not hold *)
(** Negative numbers are not refused: -1 threads are 4294967295, and -1 samples. *)
Theorem C71_threads_refuted : exists l p, gives_num FG (BNum FG (txt "-1")) (-1)%Z /\ In (BNum FG (txt "-1")) l /\
  bench_main l = BRun p /\ p_threads p = 2 ^ 32 - 1 /\ p_samples p = 2 ^ 32 - 1.
Proof.
  exists [BNum FG (txt "-1"); BNum FN (txt "-1")]. eexists. split; [exists (txt "-1"); split; reflexivity|].
  split; [now left|]. split; [reflexivity|]. split; reflexivity.
Qed.
(** A chunk size of -1 is accepted and becomes 0: nothing is measured. *)
Theorem C71_chunk_refuted : exists l p, bench_main l = BRun p /\ In (BNum FC (txt "-1")) l /\ p_chunk p = 2 ^ 64 - 1 /\
  bench_checks p = Some [((TRsFnt, 4), Accepted 0)].
Proof. exists [BE (txt "rs-fnt"); BNum FC (txt "-1")]. eexists. split; [reflexivity|]. split; [right; now left|]. split; vm_compute; reflexivity. Qed.
(** A number with a unit loses it. *)
Theorem C71_unit_refuted : exists l p, l = [BNum FC (txt "64k")] /\ bench_main l = BRun p /\ p_chunk p = 64.
Proof. eexists. eexists. split; [reflexivity|]. split; reflexivity. Qed.
(** Numbers of chunks whose sum is not an int are started. *)
Theorem C71_overflow_refuted : exists l p, bench_main l = BRun p /\ (0 < p_k p)%Z /\ (0 < p_m p)%Z /\ bench_checks p = None.
Proof. exists [BNum FK (txt "2147483647"); BNum FM (txt "1")]. eexists. split; [reflexivity|]. split; [reflexivity|]. split; reflexivity. Qed.
(** Without options rs-fnt is one of the codes that are run, and it is not run on packets; asked for alone it is. *)
Theorem C71_packets_refuted : exists p q, bench_main [] = BRun p /\ bench_main [BE (txt "rs-fnt")] = BRun q /\
  In (TRsFnt, 4) (run_benchmark (p_type p) (size_asked p) (p_ws p)) /\ In (TRsFnt, 4) (run_benchmark (p_type q) (size_asked q) (p_ws q)) /\
  p_packet p = false /\ p_packet q = true /\ p_pkt p = p_pkt q.
Proof. do 2 eexists. split; [reflexivity|]. split; [reflexivity|]. split; [left; reflexivity|]. split; [left; reflexivity|]. repeat split. Qed.

(** Concrete cases. *)
Definition case_opts : list bopt := [BE (txt "all"); BNum FW (txt "4"); BE (txt "rs-gf2n-fft"); BNum FK (txt " +50x"); BNum FM (txt "20"); BNum FW (txt "1");
  BS (txt "dec_only"); BNum FG (txt "1")].
Example C71_case_run : bench_main case_opts = BRun (mkParams TRsGf2nFft 1 50 20 false 1024 512 100 (-1) (-1) DecOnly 1 1) /\
  bench_checks (mkParams TRsGf2nFft 1 50 20 false 1024 512 100 (-1) (-1) DecOnly 1 1) = Some [((TRsGf2nFft, 4), Accepted 1024)] /\
  In 1 (words_of TRsGf2nFft).
Proof. split; [reflexivity|]. split; [vm_compute; reflexivity|]. now left. Qed.
Example C71_case_ends : bench_main [BNum FK (txt "5"); BE (txt "rs-fft")] = BUsage /\ bench_main [BNum FK (txt "five"); BBad] = BThrow /\
  bench_main [BNum FK (txt "2147483648")] = BThrow /\ bench_main [BS (txt "enc"); BNum FK (txt "x")] = BUsage.
Proof. repeat split. Qed.

Print Assumptions C71_run.
Print Assumptions C71_ends.
Print Assumptions C71_accepted.
Print Assumptions C71_threads_refuted.
Print Assumptions C71_chunk_refuted.
Print Assumptions C71_unit_refuted.
Print Assumptions C71_overflow_refuted.
Print Assumptions C71_packets_refuted.
