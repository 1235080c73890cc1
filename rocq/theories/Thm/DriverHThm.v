(** Property C63 for the codes of the driver that work word by word. *)
From Coq Require Import List NArith ZArith Arith Bool Lia Permutation.
From Verif.Model Require Import Common Props Bytes Header Streams Horizontal HCodes Cached Driver.
From Verif.Spec Require Import Modular Code Blocks Session HStreams.
From Verif.Proof Require Import ListP BytesP PropsP StreamsL TextP HorizontalP HCodesP DriverP DriverH.
From Verif.Thm Require Import DriverThm.
Import ListNotations.
Open Scope nat_scope.

(** The files come back, as in C63_repair.  [E]: the encoders, [D]: the decoders (one code, any contents of its memory); [pat]: a
    condition on the fragments that are there, for the code that is not always decodable. *)
Definition files_back (sys : bool) (ws k m : nat) (E D : vcode -> Prop) (pat : list bool -> Prop) : Prop :=
  forall pfx fs data L ce cd oute outd, E ce -> length oute = v_out ce ->
  L mod ws = 0 -> (N.of_nat L < 2 ^ 64)%N -> blocks k L data ->
  (forall j, j < k -> find_file fs (data_name pfx k j) = Some (nth j data [])) ->
  exists fs1, run_fec cd ce outd oute pfx false fs = Some fs1 /\
    (forall j, j < k -> find_file fs1 (data_name pfx k j) = Some (nth j data [])) /\
    (forall name, ~ In name (names pfx k (n_outs sys k m)) -> find_file fs1 name = find_file fs name) /\
  forall fs2 ce' cd' oute' outd', E ce' -> D cd' -> length oute' = v_out ce' -> length outd' = k ->
    some_lost pfx k (n_outs sys k m) fs1 fs2 ->
    k <= fragments sys pfx k m fs2 /\ pat (lost_files sys pfx k m fs2) \/ all_data fs2 pfx k ->
    exists fs3, run_fec cd' ce' outd' oute' pfx true fs2 = Some fs3 /\
      (forall name, In name (names pfx k (n_outs sys k m)) -> find_file fs3 name = find_file fs1 name) /\
      (forall name, ~ In name (names pfx k (n_outs sys k m)) -> find_file fs3 name = find_file fs2 name).

(** With no data file and fewer fragments than data all the files are emptied. *)
Definition files_emptied (sys : bool) (k m : nat) (E D : vcode -> Prop) : Prop :=
  forall pfx fs ce cd oute outd, E ce -> D cd -> length oute = v_out ce ->
  (forall j, j < k -> has fs (data_name pfx k j) = false) -> fragments sys pfx k m fs < k ->
  (forall q, q < n_outs sys k m -> has fs (props_name pfx (n_outs sys k m) q) = true ->
     exists r, find_file fs (props_name pfx (n_outs sys k m) q) = Some (print_props r) /\
       Forall (fun p => (fst p < 2 ^ 64 /\ snd p < 2 ^ 32)%N) r) ->
  exists fs', run_fec cd ce outd oute pfx true fs = Some fs' /\
    (forall j, j < k -> find_file fs' (data_name pfx k j) = Some []) /\
    (forall q, q < n_outs sys k m -> find_file fs' (code_name pfx (n_outs sys k m) q) = Some []).

Section Generic.
Variables (sys : bool) (ws k m vo : nat) (F : list props -> N -> list N -> list N * list props).
Variables (D : vcode -> Prop) (pat : list bool -> Prop) (e0 : vcode).
Notation no := (n_outs sys k m).
Notation E := (plain_encode ws k no vo F).
Hypothesis W0 : 0 < ws.
Hypothesis K0 : 0 < k.
Hypothesis He0 : E e0.
Hypothesis HD : forall d, D d -> v_k d = k /\ v_sys d = sys /\ v_nout d = no /\ word_size_ok (v_ws d) = true.
Hypothesis HS : streams_back sys ws k m e0 D pat.
Hypothesis HF : forall d, D d -> streams_too_few sys k m d.
Hypothesis Hpat : sys = false -> forall l, pat l.

Lemma create_h data L : blocks k L data -> L mod ws = 0 -> (N.of_nat L < 2 ^ 64)%N ->
  exists frags recs, blocks no L frags /\ length recs = no /\
    (forall q, Forall (fun p => (fst p < 2 ^ 64 /\ snd p < 2 ^ 32)%N) (nth q recs [])) /\
    (forall ce oute, E ce -> length oute = vo -> forall pfx fs,
      (forall j, j < k -> find_file fs (data_name pfx k j) = Some (nth j data [])) ->
      create_coding_files_h ce oute pfx fs = Some (put_codes pfx no frags recs (seq 0 no) fs)) /\
    forall d missing wanted rdata rpar rps out', D d ->
      received sys k m missing data frags recs rdata rpar rps -> (sys = true -> length rdata = k) -> length out' = k ->
      k <= length (present k m missing) -> pat missing ->
      exists outs ps'', decode_vstreams d out' rdata rpar rps missing wanted (repeat [] k) = Some (true, outs, ps'') /\ length outs = k /\
        forall j, j < k -> nth j wanted false = true -> (sys = true -> nth j missing true = true) -> nth j outs [] = nth j data [].
Proof.
  intros Hd EL HL. destruct (He0) as ((A1 & A2 & A3 & A4) & _).
  destruct (HS (repeat 0%N vo) data (repeat [] no) (repeat [] no) L) as (frags & recs & R & B & Lr & Dec); try apply repeat_length; auto.
  { rewrite A4. apply repeat_length. }
  assert (EL2 : L / ws * ws = L) by (pose proof (Nat.div_mod L ws ltac:(lia)); lia). rewrite EL2 in *.
  assert (Ef : map (fun q => nth q (repeat [] no) [] ++ nth q frags []) (seq 0 no) = frags).
  { apply nth_ext with (d := []) (d' := []); [rewrite map_length, seq_length; symmetry; apply B|].
    intros i Hi. rewrite map_length, seq_length in Hi. rewrite nth_map_seq by exact Hi. now rewrite nth_repeat. }
  rewrite Ef in R. exists frags, recs. split; [exact B|]. split; [exact Lr|]. split; [|split].
  - intros q. apply Forall_forall. intros p Hp.
    destruct (encode_plain ws k no vo F W0 K0 data L Hd e0 e0 (repeat 0%N vo) (repeat 0%N vo) (repeat [] no) (repeat [] no) He0 He0) as (_ & X);
      try apply repeat_length. specialize (X _ R q p Hp). lia.
  - intros ce oute He Lo pfx fs Hf. destruct (He) as ((B1 & B2 & B3 & B4) & _). unfold create_coding_files_h. rewrite B2, B3.
    rewrite (all_some_map _ (fun i => nth i data [])) by (intros a Ha; apply in_seq in Ha; apply Hf; lia).
    replace (map (fun i => nth i data []) (seq 0 k)) with data.
    + destruct (encode_plain ws k no vo F W0 K0 data L Hd ce e0 oute (repeat 0%N vo) (repeat [] no) (repeat [] no) He He0 Lo) as (-> & _); [apply repeat_length|].
      rewrite R. reflexivity.
    + apply nth_ext with (d := []) (d' := []); [rewrite map_length, seq_length; apply Hd|]. intros i Hi. rewrite (proj1 Hd) in Hi.
      now rewrite nth_map_seq.
  - intros d missing wanted rdata rpar rps out' Dd Hr Lrd Lo' Hn Hp.
    destruct (Dec d missing wanted rdata rpar rps (repeat [] k) out' Dd Hr Lrd (repeat_length _ _) Lo' Hn Hp) as (outs & ps'' & R' & Lo & O).
    exists outs, ps''. split; [exact R'|]. split; [exact Lo|]. intros j Hj Hw Hm. rewrite (O j Hj), Hw, nth_repeat. cbn [andb app].
    replace (sys && forallb (fun i => negb (nth i missing true)) (seq 0 k)) with false.
    + cbn [negb]. rewrite firstn_all2; [reflexivity|]. rewrite (proj1 (proj2 Hd j Hj)). lia.
    + destruct sys; [|reflexivity]. cbn [andb]. symmetry. apply not_true_is_false. intros X. rewrite forallb_forall in X.
      specialize (X j ltac:(apply in_seq; lia)). rewrite (Hm eq_refl) in X. discriminate.
Qed.

Lemma driver_back : files_back sys ws k m E D pat.
Proof.
  intros pfx fs data L ce cd oute outd He Lo EL HL Hd Hf. destruct (He) as ((_ & _ & _ & Ev) & _). rewrite Ev in Lo.
  destruct (create_h data L Hd EL HL) as (frags & recs & Bf & Lr & Hq & HC & HDec). specialize (HC) as HC1.
  specialize (HC1 ce oute He Lo pfx fs Hf).
  assert (Keep : forall outs ps name G, ~ In name (names pfx k no) -> find_file (put_codes pfx no outs ps (seq 0 no) G) name = find_file G name).
  { intros outs ps name G Hn. apply put_codes_other. intros i Hi. apply in_seq in Hi. rewrite in_names in Hn.
    split; intros X; apply Hn; right; [left|right]; exists i; split; auto; lia. }
  assert (KeepD : forall outs ps j G, find_file (put_codes pfx no outs ps (seq 0 no) G) (data_name pfx k j) = find_file G (data_name pfx k j)).
  { intros. apply put_codes_other. intros i _. split; [apply data_code|apply data_props]. }
  set (fs1 := put_codes pfx no frags recs (seq 0 no) fs) in *.
  assert (D1 : forall j, j < k -> find_file fs1 (data_name pfx k j) = Some (nth j data [])).
  { intros j Hj. unfold fs1. rewrite KeepD. now apply Hf. }
  assert (C1 : forall q, q < no -> find_file fs1 (code_name pfx no q) = Some (nth q frags [])).
  { intros q Q. unfold fs1. rewrite put_codes_code by (apply in_seq; lia). reflexivity. }
  assert (P1 : forall q, q < no -> find_file fs1 (props_name pfx no q) = Some (print_props (nth q recs []))).
  { intros q Q. unfold fs1. rewrite put_codes_props by (apply in_seq; lia). reflexivity. }
  exists fs1. split; [unfold run_fec; exact HC1|]. split; [exact D1|]. split; [intros name Hn; now apply Keep|].
  intros fs2 ce' cd' oute' outd' He' Hcd Lo' Lod (Hl & Hlp) Hen. destruct (He') as ((_ & _ & _ & Ev') & _). rewrite Ev' in Lo'.
  destruct (HD cd' Hcd) as (S1 & S2 & S3 & S4).
  assert (In1 : forall j, j < k -> In (data_name pfx k j) (names pfx k no)) by (intros j Hj; apply in_names; left; now exists j).
  assert (In2 : forall j, j < no -> In (code_name pfx no j) (names pfx k no)) by (intros j Hj; apply in_names; right; left; now exists j).
  assert (In3 : forall j, j < no -> In (props_name pfx no j) (names pfx k no)) by (intros j Hj; apply in_names; right; right; now exists j).
  set (lost := lost_files sys pfx k m fs2) in *. set (d := d_files pfx k fs2). set (cf := c_files sys pfx k m fs2).
  set (rps := map (fun q => if has fs2 (props_name pfx no q) then nth q recs [] else []) (seq 0 no)).
  assert (Eps : all_some (map (fun i => match find_file fs2 (props_name pfx no i) with None => Some [] | Some t => parse_props t [] end) (seq 0 no)) = Some rps).
  { apply all_some_map. intros q Q. apply in_seq in Q. unfold has. destruct (Hl _ (In3 q ltac:(lia))) as [X|X].
    - rewrite X, P1 by lia. apply parse_print. apply Hq.
    - rewrite X. reflexivity. }
  assert (Wd : forall j, j < k -> nth j (map is_missing d) false = negb (has fs2 (data_name pfx k j))).
  { intros j Hj. unfold d, d_files. rewrite map_map, nth_map_seq by exact Hj. unfold has. destruct (find_file _ _); reflexivity. }
  assert (Lc : length (map contents cf) = no) by (unfold cf, c_files; now rewrite !map_length, seq_length).
  assert (Ldd : length (map contents d) = k) by (unfold d, d_files; now rewrite !map_length, seq_length).
  assert (Lrp : length rps = no) by (unfold rps; now rewrite map_length, seq_length).
  assert (Dec : exists b outs ps', decode_vstreams cd' outd' (map contents d) (map contents cf) rps lost (map is_missing d) (repeat [] k) =
      Some (b, outs, ps') /\ forall j, j < k -> has fs2 (data_name pfx k j) = false -> nth j outs [] = nth j data []).
  { assert (Hrec : received sys k m lost data frags recs (map contents d) (map contents cf) rps).
    { split; [|split; [exact Lc|split; [exact Lrp|]]].
      - intros Hsy j Hj Hm. unfold lost in Hm. rewrite (lost_data sys pfx k m fs2 j Hsy Hj) in Hm. apply negb_false_iff in Hm.
        unfold d, d_files. rewrite map_map, nth_map_seq by exact Hj. unfold has in Hm. destruct (Hl _ (In1 j Hj)) as [X|X].
        + rewrite X, D1 by exact Hj. reflexivity.
        + rewrite X in Hm. discriminate.
      - intros q Q Hm. unfold lost in Hm. rewrite (lost_code sys pfx k m fs2 q Q) in Hm. apply negb_false_iff in Hm.
        specialize (Hlp q Q Hm). unfold cf, c_files, rps. rewrite map_map, !nth_map_seq by exact Q. rewrite Hlp. split; [|apply Permutation_refl].
        unfold has in Hm. destruct (Hl _ (In2 q Q)) as [X|X].
        + rewrite X, C1 by exact Q. reflexivity.
        + rewrite X in Hm. discriminate. }
    assert (Cdata : (forall j, j < k -> has fs2 (data_name pfx k j) = true) \/ exists j, j < k /\ has fs2 (data_name pfx k j) = false).
    { clear. generalize k at 1 3. intros n. induction n as [|n [IH|(j & A & B)]].
      - left. lia.
      - destruct (has fs2 (data_name pfx k n)) eqn:X; [left|right; exists n; split; [lia|exact X]].
        intros j Hj. destruct (Nat.eq_dec j n) as [->|]; [exact X|apply IH; lia].
      - right. exists j. split; [lia|exact B]. }
    assert (Finish : k <= length (present k m lost) -> pat lost ->
      exists b outs ps', decode_vstreams cd' outd' (map contents d) (map contents cf) rps lost (map is_missing d) (repeat [] k) =
        Some (b, outs, ps') /\ forall j, j < k -> has fs2 (data_name pfx k j) = false -> nth j outs [] = nth j data []).
    { intros Hn Hp. destruct (HDec cd' lost (map is_missing d) (map contents d) (map contents cf) rps outd' Hcd Hrec (fun _ => Ldd) Lod Hn Hp)
        as (outs & ps'' & R & _ & O).
      exists true, outs, ps''. split; [exact R|]. intros j Hj Hh. apply O; [exact Hj|rewrite Wd, Hh by exact Hj; reflexivity|].
      intros Hsy. unfold lost. rewrite (lost_data sys pfx k m fs2 j Hsy Hj), Hh. reflexivity. }
    destruct Hen as [(Hn & Hp)|Hall].
    - apply Finish; [unfold lost; now rewrite lost_count|exact Hp].
    - destruct sys eqn:Es.
      + exists true, (repeat [] k), rps. split; [|intros j Hj Hh; rewrite (Hall j Hj) in Hh; discriminate].
        unfold decode_vstreams. rewrite S2, S1, S3, S4. cbv zeta.
        match goal with |- (if ?b then _ else _) = _ => replace b with true end.
        2: { symmetry. rewrite !andb_true_iff. repeat split; try (apply Nat.eqb_eq); auto. apply repeat_length. }
        cbn [andb].
        replace (length (filter (fun i => negb (get true lost i)) (seq 0 k)) =? k) with true; [reflexivity|]. symmetry. apply Nat.eqb_eq.
        rewrite <- (seq_length k 0) at 2. f_equal. clear -Hall Es.
        assert (X : forall j, In j (seq 0 k) -> negb (get true lost j) = true).
        { intros j Hj. apply in_seq in Hj. unfold get, lost. rewrite (lost_data true pfx k m fs2 j eq_refl ltac:(lia)), (Hall j ltac:(lia)). reflexivity. }
        induction (seq 0 k) as [|a l IH]; [reflexivity|]. cbn [filter]. rewrite (X a) by now left. f_equal. apply IH. intros j Hj. apply X. now right.
      + assert (Few : length (present k m lost) < k \/ k <= length (present k m lost)) by lia.
        destruct Few as [Few|Few]; [|apply Finish; [exact Few|now apply Hpat]].
        exists false, (repeat [] k), rps. split; [|intros j Hj Hh; rewrite (Hall j Hj) in Hh; discriminate].
        apply (HF cd' Hcd); auto. apply repeat_length. }
  destruct Dec as (b & outs & ps' & Rdec & Hout).
  set (fs2' := put_data pfx k d outs (seq 0 k) fs2).
  assert (Rrep : repair_data_files_h cd' outd' pfx fs2 = Some fs2').
  { unfold repair_data_files_h. rewrite S1, S2, S3, Eps. unfold d, cf, lost, lost_files, d_files, c_files in Rdec. rewrite Rdec. reflexivity. }
  assert (D2 : forall j, j < k -> find_file fs2' (data_name pfx k j) = Some (nth j data [])).
  { intros j Hj. unfold fs2'. destruct (has fs2 (data_name pfx k j)) eqn:Eh.
    - rewrite put_data_other.
      + unfold has in Eh. destruct (Hl _ (In1 j Hj)) as [X|X]; [rewrite X; now apply D1|]. rewrite X in Eh. discriminate.
      + intros i Hi. apply in_seq in Hi. destruct (Nat.eq_dec i j) as [->|Ne]; [right; unfold d; rewrite d_missing, Eh by exact Hj; reflexivity|].
        left. intros X. apply data_inj in X. congruence.
    - rewrite put_data_data; [unfold get; now rewrite Hout|apply in_seq; lia|unfold d; rewrite d_missing, Eh by exact Hj; reflexivity]. }
  specialize (HC ce' oute' He' Lo' pfx fs2' D2).
  exists (put_codes pfx no frags recs (seq 0 no) fs2').
  split; [unfold run_fec; rewrite Rrep; exact HC|]. split.
  - intros name Hn. apply in_names in Hn. destruct Hn as [(j & Hj & ->)|[(q & Q & ->)|(q & Q & ->)]].
    + rewrite KeepD, D2, D1 by exact Hj. reflexivity.
    + rewrite put_codes_code, C1 by (try apply in_seq; lia). reflexivity.
    + rewrite put_codes_props, P1 by (try apply in_seq; lia). reflexivity.
  - intros name Hn. rewrite Keep by exact Hn. unfold fs2'. apply put_data_other. intros i Hi. left. intros X. apply Hn. subst name.
    apply In1. apply in_seq in Hi. lia.
Qed.

Lemma driver_emptied : files_emptied sys k m E D.
Proof.
  intros pfx fs ce cd oute outd He Hcd Lo Hnd Hfew Hpr. destruct (He) as ((_ & _ & _ & Ev) & _). rewrite Ev in Lo.
  destruct (HD cd Hcd) as (S1 & S2 & S3 & S4).
  assert (B0 : blocks k 0 (repeat [] k)).
  { split; [apply repeat_length|]. intros i Hi. rewrite nth_repeat. split; [reflexivity|constructor]. }
  destruct (create_h (repeat [] k) 0 B0 (Nat.mod_0_l ws ltac:(lia)) ltac:(reflexivity)) as (frags & recs & Bf & Lr & _ & HC & _).
  set (lost := lost_files sys pfx k m fs). set (d := d_files pfx k fs). set (cf := c_files sys pfx k m fs).
  assert (Eps : exists rps, all_some (map (fun i => match find_file fs (props_name pfx no i) with None => Some [] | Some t => parse_props t [] end) (seq 0 no)) = Some rps
    /\ length rps = no).
  { exists (map (fun i => match find_file fs (props_name pfx no i) with None => []
                       | Some t => match parse_props t [] with Some p => p | None => [] end end) (seq 0 no)).
    split; [|now rewrite map_length, seq_length]. apply all_some_map. intros q Q. apply in_seq in Q. specialize (Hpr q ltac:(lia)). unfold has in Hpr.
    destruct (find_file fs (props_name pfx no q)) as [t|]; [|reflexivity]. destruct (Hpr eq_refl) as (rr & Et & Hr).
    injection Et as ->. rewrite parse_print by exact Hr. reflexivity. }
  destruct Eps as (rps & Eps & Lrp).
  assert (Rdec : decode_vstreams cd outd (map contents d) (map contents cf) rps lost (map is_missing d) (repeat [] k) = Some (false, repeat [] k, rps)).
  { apply (HF cd Hcd); auto; try apply repeat_length.
    - unfold lost. now rewrite lost_count.
    - intros _. unfold d, d_files. now rewrite !map_length, seq_length.
    - unfold cf, c_files. now rewrite !map_length, seq_length. }
  set (fs2 := put_data pfx k d (repeat [] k) (seq 0 k) fs).
  assert (Rrep : repair_data_files_h cd outd pfx fs = Some fs2).
  { unfold repair_data_files_h. rewrite S1, S2, S3, Eps. unfold d, cf, lost, lost_files, d_files, c_files in Rdec. rewrite Rdec. reflexivity. }
  assert (D2 : forall j, j < k -> find_file fs2 (data_name pfx k j) = Some []).
  { intros j Hj. unfold fs2. rewrite put_data_data; [unfold get; now rewrite nth_repeat|apply in_seq; lia|].
    unfold d. rewrite d_missing, (Hnd j Hj) by exact Hj. reflexivity. }
  specialize (HC ce oute He Lo pfx fs2 ltac:(intros j Hj; rewrite nth_repeat; now apply D2)).
  exists (put_codes pfx no frags recs (seq 0 no) fs2).
  split; [unfold run_fec; rewrite Rrep; exact HC|]. split.
  - intros j Hj. rewrite put_codes_other by (intros i _; split; [apply data_code|apply data_props]). now apply D2.
  - intros q Q. rewrite put_codes_code by (apply in_seq; lia). f_equal. unfold get. apply length_zero_iff_nil. apply (proj2 Bf q Q).
Qed.
End Generic.

(** For one code: [E] and [D] are its objects as encoders and as decoders, [D0] those for which C54 is stated. *)
Lemma driver_code sys ws k m vo F (E D D0 : vcode -> Prop) pat e0 : 0 < ws -> 0 < k ->
  (forall e, E e -> plain_encode ws k (n_outs sys k m) vo F e) -> E e0 ->
  (forall d, D d -> (exists d', D0 d' /\ forall o a p r ms wd old, decode_vstreams d' o a p r ms wd old = decode_vstreams d o a p r ms wd old) /\
     v_k d = k /\ v_sys d = sys /\ v_nout d = n_outs sys k m /\ word_size_ok (v_ws d) = true) ->
  streams_back sys ws k m e0 D0 pat -> (forall d, D0 d -> streams_too_few sys k m d) -> (sys = false -> forall l, pat l) ->
  files_back sys ws k m E D pat /\ files_emptied sys k m E D.
Proof.
  intros W0 K0 HE E0 HD HS HF Hp.
  assert (HS' : streams_back sys ws k m e0 D pat).
  { intros output data old ps L A1 A2 A3 A4. destruct (HS output data old ps L A1 A2 A3 A4) as (frags & ps' & B1 & B2 & B3 & B4).
    exists frags, ps'. repeat (split; auto). intros d missing wanted rdata rpar rps old' out' Dd.
    destruct (proj1 (HD d Dd)) as (d' & Dd' & Ed). rewrite <- Ed. now apply B4. }
  assert (HF' : forall d, D d -> streams_too_few sys k m d).
  { intros d Dd missing wanted data par ps old out'. destruct (proj1 (HD d Dd)) as (d' & Dd' & Ed). rewrite <- Ed. now apply HF. }
  split.
  - pose proof (driver_back sys ws k m vo F D pat e0 W0 K0 (HE e0 E0) (fun d H => proj2 (HD d H)) HS' HF' Hp) as X.
    intros pfx fs data L ce cd oute outd He Lo A1 A2 A3 A4.
    destruct (X pfx fs data L ce cd oute outd (HE ce He) Lo A1 A2 A3 A4) as (fs1 & B1 & B2 & B3 & B4).
    exists fs1. repeat (split; auto).
  - intros pfx fs ce cd oute outd He. apply (driver_emptied sys ws k m vo F D pat e0 W0 K0 (HE e0 E0) (fun d H => proj2 (HD d H)) HS' HF' Hp).
    now apply HE.
Qed.

Print Assumptions driver_code.
