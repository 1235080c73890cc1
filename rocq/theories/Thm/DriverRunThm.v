(** Properties C63 and C68 together: from the options of the driver to the files it gives back. *)
Set Warnings "-notation-overridden,-ambiguous-paths".
From Coq Require Import Ascii String List NArith ZArith Arith Bool Lia.
From mathcomp Require ssreflect ssrbool ssrnat.
From Verif.Model Require Import Common Arith Ring Radix2 Poly Gf2n Props Fnt Nf4 Matrix MixedFft FftCodes Additive AddCode HCodes Header Streams Cached Driver DriverMain.
From Verif.Spec Require Import Modular Code Blocks Widths Session HStreams Gf2n Matrix Nf4 DriverMain.
From Verif.Proof Require Import ListP BlocksF MatrixL HCodesP DriverH FftC AddL AddI AddC.
From Verif.Thm Require Import VCodesThm Nf4CodeThm MatrixThm FftCodesThm AddCodeThm GfpThm HCodesThm DriverThm DriverHThm DriverCodesThm DriverNf4Thm DriverGfpThm DriverMainThm.
Import ListNotations.
Open Scope nat_scope.

(** The options ask for a code by its name, for words of [ws] bytes, [k] data and [m] parity files and a prefix, and for something to do; not for -t, that
    stops when the code is made. *)
Definition asked (l : list opt) (name : string) (ws k m : nat) (pfx : text) : Prop :=
  Forall good_opt l /\ last_is arg_e l (txt name) /\
  (exists a, last_is arg_w l a /\ stoi a = Some (Z.of_nat ws)) /\ (exists a, last_is arg_n l a /\ stoi a = Some (Z.of_nat k)) /\
  (exists a, last_is arg_m l a /\ stoi a = Some (Z.of_nat m)) /\ last_is arg_p l pfx /\ (In OC l \/ In OR l \/ In OU l) /\ ~ In OT l /\
  0 < k /\ 0 < m /\ (Z.of_nat (k + m) < 2 ^ 31)%Z /\ (N.of_nat (k + m) <= 256 ^ N.of_nat ws)%N.

(** What main() runs: repair if -r is given. *)
Definition runs_code (l : list opt) (e : ecode) (mat : option bool) (w : N) (ws k m : nat) (pfx : text) : Prop :=
  exists vdm r, main l = ARun e vdm w (N.of_nat ws) (Z.of_nat k) (Z.of_nat m) r false pfx /\ (forall b, mat = Some b -> vdm = b) /\
    (r = true <-> In OR l).

Lemma asked_run l name e mat ws k m pfx : asked l name ws k m pfx -> In (name, (e, mat)) driver_codes -> In ws (code_words e) ->
  exists w, runs_code l e mat w ws k m pfx /\ type_fits e w ws k.
Proof.
  intros (Hl & He & (aw & Hw & Ew) & (an & Hn & En) & (am & Hm & Em) & Hp & Hdo & Nt & K & M & L & B) Hname Hws.
  destruct (C68_run l name e mat aw an am pfx ws k m Hl Hname He Hw Ew Hn En Hm Em Hp Hdo Hws K M L (fun _ => B)) as (vdm & w & r & t & E & V & T & R & Et).
  exists w. split; [|exact T]. exists vdm, r. destruct t; [now destruct Nt; apply Et|auto].
Qed.
Lemma leq1 k : 0 < k -> is_true (ssrnat.leq 1 k).
Proof. intros H. now apply (ssrbool.introT ssrnat.leP). Qed.
Lemma asked_pos l name ws k m pfx : asked l name ws k m pfx -> 0 < k /\ 0 < m /\ (N.of_nat (k + m) <= 2 ^ (8 * N.of_nat ws))%N.
Proof. intros (_ & _ & _ & _ & _ & _ & _ & _ & K & M & _ & B). rewrite N.pow_mul_r. now change (2 ^ 8)%N with 256%N. Qed.

(** rs-gf2n-v and rs-gf2n-c: main() runs the code with the matrix of that name on integers for which the field can be made; the files come back,
    with the matrix of Cauchy for the losses of C36. *)
Theorem C68_rs_gf2n l (vdm : bool) ws k m pfx junk junk' : asked l (if vdm then "rs-gf2n-v" else "rs-gf2n-c") ws k m pfx -> In ws [1; 2; 4; 8; 16] ->
  exists w, runs_code l DGf2n (Some vdm) w ws k m pfx /\ supported w (8 * N.of_nat ws) /\
    forall X, new_bin_ext junk w (8 * N.of_nat ws) = Some X ->
    let gdiv := fun a b => odef (x_div X a b) in
    let V := mat_v (bin_ops X) gdiv junk' ws k m (code_matrix (bin_ops X) gdiv junk' vdm k m) in
    let E := fun e => exists D0, e = V D0 in
    let D := fun d => exists D0, mat_ok (2 ^ (8 * N.of_nat ws)) k k D0 /\ d = V D0 in
    files_back true ws k m E D (fun missing => if vdm then True else cauchy_pattern k m missing) /\ files_emptied true k m E D.
Proof.
  intros A Hw. destruct (asked_pos _ _ _ _ _ _ A) as (K & M & B).
  destruct (asked_run l _ DGf2n (Some vdm) ws k m pfx A) as (w & R & T); [destruct vdm; cbn; auto|exact Hw|].
  exists w. split; [exact R|]. split; [exact T|]. intros X EX.
  exact (C63_rs_gf2n junk' T EX (leq1 k K) (leq1 m M) B vdm).
Qed.

Theorem C68_rs_gf2n_fft l ws k m pfx junk : asked l "rs-gf2n-fft" ws k m pfx -> In ws [1; 2; 4; 8; 16] ->
  (N.of_nat (k + m) <= smooth_part ws)%N -> (N.of_nat (2 * k) <= smooth_part ws)%N ->
  exists w c, runs_code l DGf2nFft None w ws k m pfx /\ gf2n_new junk w ws k m = Some c /\
    let E := fun e => exists epv dm, e = gf2n_v c ws m epv dm in
    let D := fun d => exists epv dm, dmem_ok c dm /\ d = gf2n_v c ws m epv dm in
    files_back false ws k m E D (fun _ => True) /\ files_emptied false k m E D.
Proof.
  intros A Hw S1 S2. destruct (asked_pos _ _ _ _ _ _ A) as (K & M & B).
  destruct (asked_run l _ DGf2nFft None ws k m pfx A) as (w & R & T); [cbn; auto|exact Hw|].
  destruct (C63_rs_gf2n_fft junk T (leq1 k K) (leq1 m M) S1 S2) as (c & Ec & H). exists w, c. split; [exact R|]. split; [exact Ec|exact H].
Qed.

Theorem C68_rs_gf2n_fft_add l ws k m pfx junk : asked l "rs-gf2n-fft-add" ws k m pfx -> In ws [1; 2; 4; 8; 16] ->
  (2 * N.of_nat k <= 2 ^ (8 * N.of_nat ws) - 1)%N ->
  exists w c, runs_code l DGf2nFftAdd None w ws k m pfx /\ acode_new junk w ws k m = Some c /\
    let E := fun e => exists out0 pS, e = add_v junk c ws m out0 pS in
    let D := fun d => exists out0 pS, (length out0 = a_n c /\ length (p_buf pS) = k) /\ d = add_v junk c ws m out0 pS in
    files_back false ws k m E D (fun _ => True) /\ files_emptied false k m E D.
Proof.
  intros A Hw S. destruct (asked_pos _ _ _ _ _ _ A) as (K & M & B).
  destruct (asked_run l _ DGf2nFftAdd None ws k m pfx A) as (w & R & T); [cbn; auto|exact Hw|].
  destruct (C63_rs_gf2n_fft_add junk T (leq1 k K) (leq1 m M) B S) as (c & Ec & H1 & H2). exists w, c. split; [exact R|]. split; [exact Ec|].
  intros E D. split.
  - intros pfx' fs data L ce cd oute outd He Lo Lm L64 Hd Hf. destruct (H1 pfx' fs data L ce cd oute outd He Lo Lm L64 Hd Hf) as (fs1 & F1 & F2 & F3 & F4).
    exists fs1. split; [exact F1|]. split; [exact F2|]. split; [exact F3|]. intros fs2 ce' cd' oute' outd' He' (o & s & (La & Lb) & ->) Lo' Ld' Hl Hk.
    apply F4; try assumption. now exists o, s.
  - intros pfx' fs ce cd oute outd He (o & s & (La & Lb) & ->) Lo Hd Hk Hp. apply H2; try assumption. now exists o, s.
Qed.

Theorem C68_rs_gfp_fft l ws k m pfx nh : asked l "rs-gfp-fft" ws k m pfx -> In ws [1; 2; 4] -> gfp_sizes ws k m -> nh <= 2 ->
  exists w c, runs_code l DGfpFft None w ws k m pfx /\ gfp_new nh w ws k m = Some c /\
    let E := fun e => exists epv dm, e = gfp_v c ws m epv dm in
    let D := fun d => exists epv dm, dmem_ok c dm /\ d = gfp_v c ws m epv dm in
    files_back false ws k m E D (fun _ => True) /\ files_emptied false k m E D.
Proof.
  intros A Hw S Hh. destruct (asked_run l _ DGfpFft None ws k m pfx A) as (w & R & (T1 & T2)); [cbn; auto 10|exact Hw|].
  destruct (C63_rs_gfp_fft nh w ws k m (T2 nh Hh) T1 S) as (c & Ec & H). exists w, c. split; [exact R|]. split; [exact Ec|exact H].
Qed.

Theorem C68_rs_nf4 l ws k m pfx : asked l "rs-nf4" ws k m pfx -> In ws [2; 4; 8] -> nf4_sizes k m ->
  exists w c, runs_code l DNf4 None w ws k m pfx /\ nf4_new Nf4.Plain w ws k m = Some c /\
    let E := fun e => exists j1 j2 vs, e = nf4_v c ws m j1 j2 vs in
    let D := fun d => exists j1 j2 vs, length j1 = nf_n c /\ length j2 = nf_l2 c /\ nvs_len c vs /\ d = nf4_v c ws m j1 j2 vs in
    files_back false ws k m E D (fun _ => True) /\ files_emptied false k m E D.
Proof.
  intros A Hw S. destruct (asked_run l _ DNf4 None ws k m pfx A) as (w & R & (T1 & T2)); [cbn; auto 10|exact Hw|].
  destruct (C63_rs_nf4 Nf4.Plain w ws k m Hw T2 T1 S) as (c & Ec & H). exists w, c. split; [exact R|]. split; [exact Ec|exact H].
Qed.

(** rs-fnt and rs-fnt-sys: the object is made, and every repair gives the files back (C63_repair), whatever is in the memory. *)
Theorem C68_rs_fnt l (sys : bool) ws k m pfx pkt : asked l (if sys then "rs-fnt-sys" else "rs-fnt") ws k m pfx -> In ws [1; 2] -> fnt_sizes ws k m -> 0 < pkt ->
  exists w c, runs_code l (if sys then DFntSys else DFnt) None w ws k m pfx /\ fnt_new 0 w sys ws k m pkt = Some c /\
  forall xe es wc out fs data L, encoder_buffers c xe es wc out -> length wc = k ->
  L mod ws = 0 -> (N.of_nat L < 2 ^ 64)%N -> blocks k L data ->
  (forall j, j < k -> find_file fs (data_name pfx k j) = Some (nth j data [])) ->
  forall j1 j2 w1 ds, exists fs1, run_fec_rs_fnt c j1 j2 w1 ds xe es wc out pfx false fs = Some fs1 /\
  forall fs2 j1' j2' wc1' ds' xe' es' wc' out',
    some_lost pfx k (n_outs sys k m) fs1 fs2 -> k <= fragments sys pfx k m fs2 \/ all_data fs2 pfx k ->
    decoder_buffers c j1' j2' wc1' ds' -> length wc1' = k -> encoder_buffers c xe' es' wc' out' -> length wc' = k ->
    exists fs3, run_fec_rs_fnt c j1' j2' wc1' ds' xe' es' wc' out' pfx true fs2 = Some fs3 /\
      (forall name, In name (names pfx k (n_outs sys k m)) -> find_file fs3 name = find_file fs1 name) /\
      (forall name, ~ In name (names pfx k (n_outs sys k m)) -> find_file fs3 name = find_file fs2 name).
Proof.
  intros A Hw S P0. destruct (asked_run l _ (if sys then DFntSys else DFnt) None ws k m pfx A) as (w & R & T); [destruct sys; cbn; auto 10|destruct sys; exact Hw|].
  assert (T' : fnt_width w ws) by (destruct sys; exact T). clear T.
  destruct (object_made w sys ws k m T' S) as (cw & r & n & _ & _ & Hc & _).
  destruct (Hc 0 pkt (plain_fnt_build w ws) P0) as (c & Ec & Oc). exists w, c. split; [exact R|]. split; [exact Ec|].
  intros xe es wc out fs data L He Lw EL HL Hd Hf j1 j2 w1 ds.
  destruct (C63_repair w sys ws k m pkt pkt c c xe es wc out pfx fs data L Oc Oc He Lw EL HL Hd Hf j1 j2 w1 ds) as (fs1 & F1 & _ & _ & F4).
  exists fs1. split; [exact F1|exact F4].
Qed.

(** A case: the options of the driver's tests for rs-gf2n-c on words of 2 bytes. *)
Example C68_case_files : asked (cmd "rs-gf2n-c" 2 5 3) "rs-gf2n-c" 2 5 3 (txt "foo").
Proof.
  assert (F : forall l1 o l2 f a, f o = Some a -> (forall o', In o' l2 -> f o' = None) -> last_is f (l1 ++ o :: l2) a).
  { intros l1 o l2 f a H H'. now exists l1, o, l2. }
  assert (Z : cmd "rs-gf2n-c" 2 5 3 = [OC; OE (txt "rs-gf2n-c"); OW (number 2); ON (number 5); OM (number 3); OP (txt "foo")]) by reflexivity.
  rewrite Z. unfold asked. split.
  { repeat constructor; cbn [good_opt].
    - exists "rs-gf2n-c"%string, (DGf2n, Some false). split; [unfold driver_codes; cbn [In]; tauto|reflexivity].
    - eexists; reflexivity.
    - eexists; reflexivity.
    - eexists; reflexivity. }
  split; [apply (F [OC]); [reflexivity|cbn [In]; intuition (subst; reflexivity)]|].
  split; [exists (number 2); split; [apply (F [OC; OE (txt "rs-gf2n-c")]); [reflexivity|cbn [In]; intuition (subst; reflexivity)]|reflexivity]|].
  split; [exists (number 5); split; [apply (F [OC; OE (txt "rs-gf2n-c"); OW (number 2)]); [reflexivity|cbn [In]; intuition (subst; reflexivity)]|reflexivity]|].
  split; [exists (number 3); split; [apply (F [OC; OE (txt "rs-gf2n-c"); OW (number 2); ON (number 5)]); [reflexivity|cbn [In]; intuition (subst; reflexivity)]|reflexivity]|].
  split; [apply (F [OC; OE (txt "rs-gf2n-c"); OW (number 2); ON (number 5); OM (number 3)]); [reflexivity|cbn [In]; intuition (subst; reflexivity)]|].
  split; [left; now left|]. split; [cbn [In]; intuition discriminate|]. repeat split; try lia; discriminate.
Qed.
