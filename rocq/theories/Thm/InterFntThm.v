(** Property C65 for rs-fnt and rs-fnt-sys: objects of any types, builds and packet sizes. *)
From Coq Require Import List NArith ZArith Arith Bool Lia Permutation.
From Verif.Model Require Import Common Arith Ring Fft2n Radix2 Poly Props Bytes Fnt Blocks Header Streams Cached Driver.
From Verif.Spec Require Import Primes Modular Code Blocks Widths Session.
From Verif.Proof Require Import ListP BytesP PropsP BlocksP FntNew FntInst FntAll BlocksF StreamsL StreamsF TextP DriverP.
From Verif.Thm Require Import BlocksThm StreamsThm DriverThm.
Import ListNotations.
Open Scope nat_scope.

(** One code for all the objects. *)
Lemma objects_made sys ws k m w0 : fnt_width w0 ws -> fnt_sizes ws k m ->
  exists cw r n, poly_code sys (256 ^ N.of_nat ws + 1) r n k cw /\
   forall w pkt c, fnt_object w sys ws k m pkt c -> fnt_made w sys ws k m pkt n cw c.
Proof.
  intros Hw0 (k0 & m0 & km & k2).
  assert (G : forall h1 t, (256 ^ N.of_nat ws = 2 ^ t)%N -> primeN (2 ^ t + 1) -> (t < 32)%N -> ws < 4 -> width_ok h1 t 3 ws ->
     jacobi 100 3 (Z.of_N (2 ^ t + 1)) = Some (-1)%Z -> (forall w, fnt_width w ws -> exists h, w = (2 * h)%N /\ width_ok h t 3 ws) ->
     exists cw r n, poly_code sys (256 ^ N.of_nat ws + 1) r n k cw /\
     forall w pkt c, fnt_object w sys ws k m pkt c -> fnt_made w sys ws k m pkt n cw c).
  { intros h1 t Et Hp Ht Hws W1 Hj HW. rewrite Et in km, k2.
    destruct (fnt_new_widths t 3 h1 sys ws k m Hp Ht (ssrbool.introT ssrnat.ltP Hws) W1 Hj (ssrbool.introT ssrnat.ltP k0) (ssrbool.introT ssrnat.ltP m0) km k2)
      as (cw & r & n & HP & H).
    exists cw, r, n. rewrite Et. split; [exact HP|]. intros w pkt c (Hw & _ & P & nh & Hb & Ec). destruct (HW w Hw) as (h & -> & W).
    pose proof (fun nh pkt n r f f2 rpow => made_build nh h sys ws k m pkt n r f f2 rpow) as MB. rewrite Et in MB.
    destruct (H h W (fun nh => fnt_build nh (2 * h) ws) MB nh pkt Hb (ssrbool.introT ssrnat.ltP P)) as (c' & [E1 E2 E4 [[A1 A2 A3 A4 A5] A6]]).
    rewrite Ec in E1. injection E1 as <-. unfold fnt_made. rewrite A6, Et. split; [exists nh; auto|]. do 7 (split; [assumption|]). reflexivity. }
  destruct Hw0 as [[-> Hw0]|[-> Hw0]].
  - apply (G 16%N 8%N); [reflexivity|exact prime257|reflexivity|lia| |exact jac257|].
    + split; [reflexivity|vm_compute; discriminate|reflexivity|vm_compute; reflexivity].
    + intros w [[_ Hw]|[? _]]; [|discriminate]. destruct Hw as [<-|[<-|[<-|[]]]]; [exists 8%N|exists 16%N|exists 32%N]; (split; [reflexivity|]);
        (split; [reflexivity|vm_compute; discriminate|reflexivity|vm_compute; reflexivity]).
  - apply (G 16%N 16%N); [reflexivity|exact prime65537|reflexivity|lia| |exact jac65537|].
    + split; [reflexivity|vm_compute; discriminate|reflexivity|vm_compute; reflexivity].
    + intros w [[? _]|[_ Hw]]; [discriminate|]. destruct Hw as [<-|[<-|[]]]; [exists 16%N|exists 32%N]; (split; [reflexivity|]);
        (split; [reflexivity|vm_compute; discriminate|reflexivity|vm_compute; reflexivity]).
Qed.

(** * Encoding: blocks and streams. *)
Theorem C65_rs_fnt w w' sys ws k m pkt pkt' c c' xe xe' es es' wc wc' out out' data L :
  fnt_object w sys ws k m pkt c -> fnt_object w' sys ws k m pkt' c' ->
  encoder_buffers c xe es wc out -> encoder_buffers c' xe' es' wc' out' -> length wc = k -> length wc' = k -> blocks k L data ->
  (forall old ps, length old = n_outs sys k m -> length ps = n_outs sys k m ->
     exists r1 r2 outs recs, encode_streams c xe es wc out data old ps = Some (r1, outs, recs) /\
       encode_streams c' xe' es' wc' out' data old ps = Some (r2, outs, recs)) /\
  (forall par ps wanted, blocks (n_outs sys k m) L par -> length ps = n_outs sys k m ->
     exists r1 r2 par' recs, encode_blocks c xe es wc out data par ps wanted L = Some (r1, par', recs) /\
       encode_blocks c' xe' es' wc' out' data par ps wanted L = Some (r2, par', recs)).
Proof.
  intros HO HO' He He' Lw Lw' Hd. assert (Hw : fnt_width w ws) by apply HO. assert (Hw' : fnt_width w' ws) by apply HO'.
  assert (Hs : fnt_sizes ws k m) by apply HO. assert (P1 : 0 < pkt) by apply HO. assert (P2 : 0 < pkt') by apply HO'.
  destruct (objects_made sys ws k m w Hw Hs) as (cw & r & n & HP & H). split.
  - intros old ps Lo Lps.
    destruct (streams_made w sys ws k m Hw pkt n cw c P1 (H _ _ _ HO) data old ps L xe es wc out Hd He Lw Lo Lps) as (r1 & _ & R1).
    destruct (streams_made w' sys ws k m Hw' pkt' n cw c' P2 (H _ _ _ HO') data old ps L xe' es' wc' out' Hd He' Lw' Lo Lps) as (r2 & _ & R2).
    eexists r1, r2, _, _. split; [exact R1|exact R2].
  - intros par ps wanted Hp Lps. pose proof (div_mul_le w ws Hw L) as Hle.
    destruct (encode_made w sys ws k m Hw pkt n cw c P1 (H _ _ _ HO) data L Hd xe es wc out par ps wanted He (proj1 Hp) Lps) as (r1 & _ & R1).
    { intros q Hq _. rewrite (proj1 (proj2 Hp q Hq)). exact Hle. }
    destruct (encode_made w' sys ws k m Hw' pkt' n cw c' P2 (H _ _ _ HO') data L Hd xe' es' wc' out' par ps wanted He' (proj1 Hp) Lps) as (r2 & _ & R2).
    { intros q Hq _. rewrite (proj1 (proj2 Hp q Hq)). exact Hle. }
    eexists r1, r2, _, _. split; [exact R1|exact R2].
Qed.

(** * Decoding: streams written with one object are read with another. *)
Theorem C65_rs_fnt_streams w w' sys ws k m pkt pkt' c c' xe xe' es es' wc wc' out out' data old ps L :
  fnt_object w sys ws k m pkt c -> fnt_object w' sys ws k m pkt' c' ->
  encoder_buffers c xe es wc out -> encoder_buffers c' xe' es' wc' out' -> length wc = k -> length wc' = k ->
  L mod ws = 0 -> blocks k L data -> length old = n_outs sys k m -> length ps = n_outs sys k m ->
  exists es1 frags ps', encode_streams c xe es wc out data old ps =
      Some (es1, map (fun q => nth q old [] ++ nth q frags []) (seq 0 (n_outs sys k m)), ps') /\
    blocks (n_outs sys k m) L frags /\
  forall missing wanted rdata rpar rps old' wd ds junk1 junk2,
    decoder_buffers c' junk1 junk2 wd ds -> length wd = k ->
    received sys k m missing data frags ps' rdata rpar rps -> (sys = true -> length rdata = k) -> length old' = k ->
    (sys = true -> exists j, j < k /\ nth j missing true = true) -> k <= length (present k m missing) ->
    exists outs ps'', decode_streams c' junk1 junk2 wd ds rdata rpar rps missing wanted old' = Some (true, outs, ps'') /\
      length outs = k /\
      forall j, j < k -> nth j outs [] = nth j old' [] ++ (if nth j wanted false then nth j data [] else []).
Proof.
  intros HO HO' He He' Lw Lw' EL Hd Lo Lps.
  destruct (proj1 (C65_rs_fnt w w' sys ws k m pkt pkt' c c' xe xe' es es' wc wc' out out' data L HO HO' He He' Lw Lw' Hd) old ps Lo Lps)
    as (r1 & r2 & outs & recs & R1 & R2).
  destruct (streams_recovered_if sys (fun k missing => sys = true -> exists j, j < k /\ nth j missing true = true) (fun _ _ H => H)
    w' ws k m pkt' pkt' c' c' xe' es' wc' out' data old ps L HO' HO' He' Lw' EL Hd Lo Lps) as (es2 & frags & ps' & E & B & D).
  rewrite R2 in E. injection E as <- -> <-. exists r1, frags, recs. split; [exact R1|]. split; [exact B|exact D].
Qed.

(** * The file driver (C63_repair): the two runs with objects of different types. *)
Theorem C65_rs_fnt_files w w' sys ws k m pkt pkt' c c' xe es wc out pfx fs data L :
  fnt_object w sys ws k m pkt c -> fnt_object w' sys ws k m pkt' c' -> encoder_buffers c xe es wc out -> length wc = k ->
  L mod ws = 0 -> (N.of_nat L < 2 ^ 64)%N -> blocks k L data ->
  (forall j, j < k -> find_file fs (data_name pfx k j) = Some (nth j data [])) ->
  forall j1 j2 w1 ds, exists fs1, run_fec_rs_fnt c j1 j2 w1 ds xe es wc out pfx false fs = Some fs1 /\
    (forall j, j < k -> find_file fs1 (data_name pfx k j) = Some (nth j data [])) /\
    (forall name, ~ In name (names pfx k (n_outs sys k m)) -> find_file fs1 name = find_file fs name) /\
  forall fs2 j1' j2' wc1' ds' xe' es' wc' out',
    some_lost pfx k (n_outs sys k m) fs1 fs2 -> k <= fragments sys pfx k m fs2 \/ all_data fs2 pfx k ->
    decoder_buffers c' j1' j2' wc1' ds' -> length wc1' = k -> encoder_buffers c' xe' es' wc' out' -> length wc' = k ->
    exists fs3, run_fec_rs_fnt c' j1' j2' wc1' ds' xe' es' wc' out' pfx true fs2 = Some fs3 /\
      (forall name, In name (names pfx k (n_outs sys k m)) -> find_file fs3 name = find_file fs1 name) /\
      (forall name, ~ In name (names pfx k (n_outs sys k m)) -> find_file fs3 name = find_file fs2 name).
Proof.
  intros HO HO' He Lw EL HL Hd Hf j1 j2 w1 ds.
  destruct (C63_repair w sys ws k m pkt pkt c c xe es wc out pfx fs data L HO HO He Lw EL HL Hd Hf j1 j2 w1 ds) as (fs1 & R1 & D1 & K1 & _).
  exists fs1. split; [exact R1|]. split; [exact D1|]. split; [exact K1|].
  intros fs2 j1' j2' wc1' ds' xe' es' wc' out' Hl Hen Hdb Lw1 He' Lw'.
  destruct (C63_repair w' sys ws k m pkt' pkt' c' c' xe' es' wc' out' pfx fs data L HO' HO' He' Lw' EL HL Hd Hf j1' j2' wc1' ds') as (fs1' & R1' & _ & _ & H).
  assert (E : fs1' = fs1).
  { assert (Hw : fnt_width w ws) by apply HO. assert (Hs : fnt_sizes ws k m) by apply HO.
    destruct (proj1 (C65_rs_fnt w w' sys ws k m pkt pkt' c c' xe xe' es es' wc wc' out out' data L HO HO' He He' Lw Lw' Hd)
      (repeat [] (n_outs sys k m)) (repeat [] (n_outs sys k m)) (repeat_length _ _) (repeat_length _ _)) as (r1 & r2 & outs & recs & S1 & S2).
    destruct (objects_made sys ws k m w Hw Hs) as (cw & r & n & _ & HM).
    destruct (made_parts _ _ _ _ _ _ _ _ _ (HM _ _ _ HO)) as (_ & _ & _ & _ & K2 & _ & _ & _ & K6 & _).
    destruct (made_parts _ _ _ _ _ _ _ _ _ (HM _ _ _ HO')) as (_ & _ & _ & _ & K2' & _ & _ & _ & K6' & _).
    unfold run_fec_rs_fnt, create_coding_files in R1, R1'. rewrite K2, K6 in R1. rewrite K2', K6' in R1'.
    rewrite (all_some_map _ (fun i => nth i data [])) in R1, R1' by (intros a Ha; apply in_seq in Ha; apply Hf; lia).
    assert (Ed : map (fun i => nth i data []) (seq 0 k) = data).
    { apply nth_ext with (d := []) (d' := []); [rewrite map_length, seq_length; symmetry; apply Hd|]. intros i Hi. rewrite map_length, seq_length in Hi.
      now rewrite nth_map_seq. }
    rewrite Ed in R1, R1'.
    rewrite S1 in R1. rewrite S2 in R1'. congruence. }
  subst fs1'. exact (H fs2 j1' j2' wc1' ds' xe' es' wc' out' Hl Hen Hdb Lw1 He' Lw').
Qed.

(** The files of C63_case, written by the object with uint32_t and packets of 2 symbols, repaired by a SIMD object with uint16_t
    and packets of 9 symbols. *)
Definition i_run (rflag : bool) (fs : files) : option files :=
  match fnt_new 1 16 false 1 2 2 9 with
  | Some c => run_fec_rs_fnt c (repeat 8%N 4) (repeat 9%N 4) (repeat (repeat 8%N 9) 2)
      (mkDscratch (repeat (repeat 6%N 9) 4) (repeat (repeat 6%N 9) 4) (repeat (repeat 6%N 9) 4)) (case_ctx false)
      (mkEscratch (repeat (repeat 6%N 9) 4) (repeat (repeat 6%N 9) 4) []) (repeat (repeat 8%N 9) 2) (repeat (repeat 8%N 9) 4) f_pfx rflag fs
  | None => None
  end.
Example C65_fnt_case : fnt_width 16 1 /\ fnt_build 1 16 1 /\ i_run false f_data = f_run false f_data /\ f_show (f_run false f_data) <> [] /\
  f_show (i_run true (f_only (f_run false f_data) f_kept)) = f_show (f_run false f_data).
Proof. split; [left; cbn; auto|]. split; [right; repeat split; [lia|discriminate]|]. vm_compute. repeat split; discriminate. Qed.

Print Assumptions C65_rs_fnt.
Print Assumptions C65_rs_fnt_streams.
Print Assumptions C65_rs_fnt_files.
