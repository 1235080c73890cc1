(** Property C63: the driver test/ec_driver.cpp with the codes rs-fnt and rs-fnt-sys. *)
From Coq Require Import List NArith Arith Bool Lia Permutation.
From Verif.Model Require Import Common Arith Ring Fft2n Radix2 Poly Props Bytes Fnt Blocks Header Streams Cached Driver.
From Verif.Spec Require Import Modular Code Blocks Widths Session.
From Verif.Proof Require Import ListP BytesP PropsP BlocksP FntInst BlocksF StreamsL StreamsF TextP DriverP.
From Verif.Thm Require Import BlocksThm StreamsThm.
Import ListNotations.
Open Scope nat_scope.

(** The files of one set: data, fragments, records. *)
Definition names (pfx : text) (k no : nat) : list text :=
  map (data_name pfx k) (seq 0 k) ++ map (code_name pfx no) (seq 0 no) ++ map (props_name pfx no) (seq 0 no).
Definition has (fs : files) (name : text) : bool := match find_file fs name with Some _ => true | None => false end.
Definition all_data (fs : files) (pfx : text) (k : nat) : Prop := forall j, j < k -> has fs (data_name pfx k j) = true.

(** The number of fragments that are there; the data files of a systematic code are fragments too. *)
Definition fragments (sys : bool) (pfx : text) (k m : nat) (fs : files) : nat :=
  (if sys then length (filter (fun j => has fs (data_name pfx k j)) (seq 0 k)) else 0) +
  length (filter (fun q => has fs (code_name pfx (n_outs sys k m) q)) (seq 0 (n_outs sys k m))).

(** Files are lost: those of the set that remain are as they were, and every fragment that remains has its records. *)
Definition some_lost (pfx : text) (k no : nat) (fs1 fs2 : files) : Prop :=
  (forall name, In name (names pfx k no) -> find_file fs2 name = find_file fs1 name \/ find_file fs2 name = None) /\
  (forall q, q < no -> has fs2 (code_name pfx no q) = true -> has fs2 (props_name pfx no q) = true).

Lemma in_names pfx k no name : In name (names pfx k no) <->
  (exists j, j < k /\ name = data_name pfx k j) \/ (exists q, q < no /\ name = code_name pfx no q) \/
  (exists q, q < no /\ name = props_name pfx no q).
Proof.
  unfold names. rewrite !in_app_iff, !in_map_iff. setoid_rewrite in_seq. split.
  - intros [(j & E & H)|[(j & E & H)|(j & E & H)]]; [left|right; left|right; right]; exists j; split; auto; lia.
  - intros [(j & H & E)|[(j & H & E)|(j & H & E)]]; [left|right; left|right; right]; exists j; split; auto; lia.
Qed.

(** What create_coding_files writes depends on the data only. *)
Lemma create_made w sys ws k m L : fnt_width w ws -> fnt_sizes ws k m -> (N.of_nat L < 2 ^ 64)%N ->
  exists (frags : list (list N) -> list (list N)) (recs : list (list N) -> list props),
  (forall data, length (frags data) = n_outs sys k m /\ length (recs data) = n_outs sys k m /\
     forall q, q < n_outs sys k m -> length (nth q (frags data) []) = L /\
       Forall (fun p => (fst p < 2 ^ 64 /\ snd p < 2 ^ 32)%N) (nth q (recs data) [])) /\
  (forall pkt c xe es wc out data, fnt_object w sys ws k m pkt c -> encoder_buffers c xe es wc out -> length wc = k -> blocks k L data ->
     (exists es', encode_streams c xe es wc out data (repeat [] (n_outs sys k m)) (repeat [] (n_outs sys k m)) = Some (es', frags data, recs data)) /\
     forall pfx fs, (forall j, j < k -> find_file fs (data_name pfx k j) = Some (nth j data [])) ->
       create_coding_files c xe es wc out pfx fs =
         Some (put_codes pfx (n_outs sys k m) (frags data) (recs data) (seq 0 (n_outs sys k m)) fs)).
Proof.
  intros Hw Hs HL. pose proof (ws_pos w ws Hw) as W0. destruct (object_made w sys ws k m Hw Hs) as (cw & r & n & HP & _ & _ & H).
  exists (fun data => map (fun q => stream_of ws (coded ws cw data (position sys k q)) L) (seq 0 (n_outs sys k m))).
  exists (fun data => map (fun q => record (256 ^ N.of_nat ws) (coded ws cw data (position sys k q)) (nwords ws L)) (seq 0 (n_outs sys k m))).
  split.
  - intros data. rewrite !map_length, seq_length. split; [reflexivity|]. split; [reflexivity|]. intros q Hq.
    rewrite !nth_map_seq by exact Hq. split; [apply stream_length|]. unfold record. apply Forall_map, Forall_forall.
    intros t Ht. apply filter_In in Ht. destruct Ht as (Ht & _). apply in_seq in Ht. cbn [fst snd]. split; [|reflexivity].
    pose proof (nwords_bounds ws L W0) as (_ & B). assert (t <= L) by nia. lia.
  - intros pkt c xe es wc out data HO He Lw Hd. assert (P : 0 < pkt) by apply HO.
    destruct (made_parts _ _ _ _ _ _ _ _ _ (H _ _ HO)) as (CS & En & Esys & E1 & E2 & E3 & E4 & E5 & E6 & E7).
    destruct (streams_made w sys ws k m Hw pkt n cw c P (H _ _ HO) data (repeat [] (n_outs sys k m)) (repeat [] (n_outs sys k m)) L xe es wc out
      Hd He Lw) as (es' & _ & R); try apply repeat_length.
    assert (R' : encode_streams c xe es wc out data (repeat [] (n_outs sys k m)) (repeat [] (n_outs sys k m)) =
      Some (es', map (fun q => stream_of ws (coded ws cw data (position sys k q)) L) (seq 0 (n_outs sys k m)),
        map (fun q => record (256 ^ N.of_nat ws) (coded ws cw data (position sys k q)) (nwords ws L)) (seq 0 (n_outs sys k m)))).
    { rewrite R. f_equal. f_equal. f_equal. apply map_ext. intros q. rewrite nth_repeat. reflexivity. }
    split; [exists es'; exact R'|]. intros pfx fs Hf. unfold create_coding_files. rewrite E2, E6.
    rewrite (all_some_map _ (fun i => nth i data [])) by (intros a Ha; apply in_seq in Ha; apply Hf; lia).
    replace (map (fun i => nth i data []) (seq 0 k)) with data; [rewrite R'; reflexivity|].
    apply nth_ext with (d := []) (d' := []); [rewrite map_length, seq_length; apply Hd|]. intros i Hi. rewrite (proj1 Hd) in Hi.
    now rewrite nth_map_seq.
Qed.

(** The presence patterns of the decoder. *)
Lemma count_map {A} (f : A -> bool) (g : nat -> A) l : length (filter (fun i => f (g i)) l) = length (filter f (map g l)).
Proof. induction l as [|a l IH]; [reflexivity|]. cbn [filter map]. destruct (f (g a)); cbn [length]; auto. Qed.
Lemma count_app {A} (f : A -> bool) l1 l2 : length (filter f (l1 ++ l2)) = length (filter f l1) + length (filter f l2).
Proof. induction l1 as [|a l IH]; [reflexivity|]. cbn [filter app]. destruct (f a); cbn [length]; lia. Qed.
Lemma present_count k m lost : length lost = k + m -> length (present k m lost) = length (filter negb lost).
Proof.
  intros H. unfold present. rewrite (count_map negb (fun i => nth i lost true)). f_equal. f_equal.
  apply nth_ext with (d := true) (d' := true); [now rewrite map_length, seq_length|]. intros i Hi. rewrite map_length, seq_length in Hi.
  now rewrite nth_map_seq.
Qed.

Section Lost.
Variables (sys : bool) (pfx : text) (k m : nat) (fs : files).
Notation no := (n_outs sys k m).
Definition d_files := map (fun i => find_file fs (data_name pfx k i)) (seq 0 k).
Definition c_files := map (fun i => find_file fs (code_name pfx no i)) (seq 0 no).
Definition lost_files := (if sys then map is_missing d_files else []) ++ map is_missing c_files.

Lemma lost_count : length (present k m lost_files) = fragments sys pfx k m fs.
Proof.
  assert (F : forall g l, length (filter negb (map is_missing (map (fun i : nat => find_file fs (g i)) l))) = length (filter (fun i => has fs (g i)) l)).
  { intros g l. induction l as [|a l IH]; [reflexivity|]. cbn [map filter]. unfold has at 1. destruct (find_file fs (g a)); cbn [is_missing negb length]; auto. }
  rewrite present_count.
  - unfold lost_files, fragments. rewrite count_app. unfold c_files. rewrite F. destruct sys; [unfold d_files; rewrite F|]; reflexivity.
  - unfold lost_files, c_files, d_files, n_outs. destruct sys; rewrite app_length, ?map_length, ?seq_length; cbn [length]; rewrite ?map_length, ?seq_length; lia.
Qed.
Lemma lost_code q : q < no -> nth (position sys k q) lost_files true = negb (has fs (code_name pfx no q)).
Proof.
  intros Hq. assert (nth q (map is_missing c_files) true = negb (has fs (code_name pfx no q))) as E.
  { unfold c_files. rewrite map_map, nth_map_seq by exact Hq. unfold has. destruct (find_file _ _); reflexivity. }
  unfold lost_files, position. destruct sys; [|exact E].
  rewrite app_nth2 by (unfold d_files; rewrite !map_length, seq_length; lia). unfold d_files at 1. rewrite !map_length, seq_length.
  replace (k + q - k) with q by lia. exact E.
Qed.
Lemma lost_data j : sys = true -> j < k -> nth j lost_files true = negb (has fs (data_name pfx k j)).
Proof.
  intros Hs Hj. unfold lost_files. rewrite Hs. cbv iota. rewrite app_nth1 by (unfold d_files; rewrite !map_length, seq_length; lia).
  unfold d_files. rewrite map_map, nth_map_seq by exact Hj. unfold has. destruct (find_file _ _); reflexivity.
Qed.
Lemma d_missing j : j < k -> is_missing (get None d_files j) = negb (has fs (data_name pfx k j)).
Proof. intros Hj. unfold get, d_files. rewrite nth_map_seq by exact Hj. unfold has. destruct (find_file _ _); reflexivity. Qed.
End Lost.

(** * The files come back.  Data files of [L] bytes, a multiple of the word size; coded once ([rflag] false); any files lost;
    repaired ([rflag] true) by another run: every file of the set is again as it was, and no other file has changed. *)
Theorem C63_repair w sys ws k m pkt pkt' c c' xe es wc out pfx fs data L :
  fnt_object w sys ws k m pkt c -> fnt_object w sys ws k m pkt' c' -> encoder_buffers c xe es wc out -> length wc = k ->
  L mod ws = 0 -> (N.of_nat L < 2 ^ 64)%N -> blocks k L data ->
  (forall j, j < k -> find_file fs (data_name pfx k j) = Some (nth j data [])) ->
  forall j1 j2 w1 ds, exists fs1, run_fec_rs_fnt c j1 j2 w1 ds xe es wc out pfx false fs = Some fs1 /\
    (forall j, j < k -> find_file fs1 (data_name pfx k j) = Some (nth j data [])) /\
    (forall name, ~ In name (names pfx k (n_outs sys k m)) -> find_file fs1 name = find_file fs name) /\
  forall fs2 j1' j2' wc1' ds' xe' es' wc' out',
    some_lost pfx k (n_outs sys k m) fs1 fs2 -> k <= fragments sys pfx k m fs2 \/ all_data fs2 pfx k ->
    decoder_buffers c' j1' j2' wc1' ds' -> length wc1' = k -> encoder_buffers c' xe' es' wc' out' -> length wc' = k ->
    exists fs3, run_fec_rs_fnt c' j1' j2' wc1' ds' xe' es' wc' out' pfx true fs2 = Some fs3 /\
      (forall name, In name (names pfx k (n_outs sys k m)) -> find_file fs3 name = find_file fs1 name) /\
      (forall name, ~ In name (names pfx k (n_outs sys k m)) -> find_file fs3 name = find_file fs2 name).
Proof.
  intros HO HO' He Lw EL HL Hd Hf j1 j2 w1 ds. assert (Hw : fnt_width w ws) by apply HO. assert (Hs : fnt_sizes ws k m) by apply HO.
  set (no := n_outs sys k m).
  destruct (create_made w sys ws k m L Hw Hs HL) as (frags & recs & Hlen & HC). fold no in Hlen, HC.
  destruct (HC pkt c xe es wc out data HO He Lw Hd) as ((es1 & Renc) & R1). specialize (R1 pfx fs Hf).
  destruct (Hlen data) as (Lf & Lr & Hq).
  assert (Keep : forall outs ps name F, ~ In name (names pfx k no) -> find_file (put_codes pfx no outs ps (seq 0 no) F) name = find_file F name).
  { intros outs ps name F Hn. apply put_codes_other. intros i Hi. apply in_seq in Hi. rewrite in_names in Hn.
    split; intros E; apply Hn; right; [left|right]; exists i; split; auto; lia. }
  assert (KeepD : forall outs ps j F, find_file (put_codes pfx no outs ps (seq 0 no) F) (data_name pfx k j) = find_file F (data_name pfx k j)).
  { intros. apply put_codes_other. intros i _. split; [apply data_code|apply data_props]. }
  set (fs1 := put_codes pfx no (frags data) (recs data) (seq 0 no) fs) in *.
  assert (D1 : forall j, j < k -> find_file fs1 (data_name pfx k j) = Some (nth j data [])).
  { intros j Hj. unfold fs1. rewrite KeepD. now apply Hf. }
  assert (C1 : forall q, q < no -> find_file fs1 (code_name pfx no q) = Some (nth q (frags data) [])).
  { intros q Q. unfold fs1. rewrite put_codes_code by (apply in_seq; lia). reflexivity. }
  assert (P1 : forall q, q < no -> find_file fs1 (props_name pfx no q) = Some (print_props (nth q (recs data) []))).
  { intros q Q. unfold fs1. rewrite put_codes_props by (apply in_seq; lia). reflexivity. }
  exists fs1. split; [unfold run_fec_rs_fnt; exact R1|]. split; [exact D1|]. split; [intros name Hn; now apply Keep|].
  intros fs2 j1' j2' wc1' ds' xe' es' wc' out' (Hl & Hlp) Hen Hdb Lw1 He' Lw'.
  destruct (object_made w sys ws k m Hw Hs) as (cw & r & n & HP & _ & _ & H).
  destruct (made_parts _ _ _ _ _ _ _ _ _ (H _ _ HO')) as (CS & En & Esys & E1 & E2 & E3 & E4 & E5 & E6 & E7). fold no in E6.
  assert (In1 : forall j, j < k -> In (data_name pfx k j) (names pfx k no)) by (intros j Hj; apply in_names; left; now exists j).
  assert (In2 : forall j, j < no -> In (code_name pfx no j) (names pfx k no)) by (intros j Hj; apply in_names; right; left; now exists j).
  assert (In3 : forall j, j < no -> In (props_name pfx no j) (names pfx k no)) by (intros j Hj; apply in_names; right; right; now exists j).
  set (lost := lost_files sys pfx k m fs2). set (d := d_files pfx k fs2). set (cf := c_files sys pfx k m fs2).
  set (rps := map (fun q => if has fs2 (props_name pfx no q) then nth q (recs data) [] else []) (seq 0 no)).
  assert (Eps : all_some (map (fun i => match find_file fs2 (props_name pfx no i) with None => Some [] | Some t => parse_props t [] end) (seq 0 no)) = Some rps).
  { apply all_some_map. intros q Q. apply in_seq in Q. unfold has. destruct (Hl _ (In3 q ltac:(lia))) as [E|E].
    - rewrite E, P1 by lia. apply parse_print. apply Hq. lia.
    - rewrite E. reflexivity. }
  (* the decoder gives back the missing data *)
  assert (Dec : exists b outs ps', decode_streams c' j1' j2' wc1' ds' (map contents d) (map contents cf) rps lost (map is_missing d) (repeat [] k) =
      Some (b, outs, ps') /\ forall j, j < k -> has fs2 (data_name pfx k j) = false -> nth j outs [] = nth j data []).
  { assert (Lc : length (map contents cf) = no) by (unfold cf, c_files; now rewrite !map_length, seq_length).
    assert (Ldd : length (map contents d) = k) by (unfold d, d_files; now rewrite !map_length, seq_length).
    assert (Lrp : length rps = no) by (unfold rps; now rewrite map_length, seq_length).
    assert (Cdata : (forall j, j < k -> has fs2 (data_name pfx k j) = true) \/ exists j, j < k /\ has fs2 (data_name pfx k j) = false).
    { clear. generalize k at 1 3. intros n. induction n as [|n [IH|(j & A & B)]].
      - left. lia.
      - destruct (has fs2 (data_name pfx k n)) eqn:E; [left|right; exists n; split; [lia|exact E]].
        intros j Hj. destruct (Nat.eq_dec j n) as [->|]; [exact E|apply IH; lia].
      - right. exists j. split; [lia|exact B]. }
    assert (Hrec : received sys k m lost data (frags data) (recs data) (map contents d) (map contents cf) rps).
    { split; [|split; [exact Lc|split; [exact Lrp|]]].
      - intros Hsy j Hj Hm. unfold lost in Hm. rewrite (lost_data sys pfx k m fs2 j Hsy Hj) in Hm. apply negb_false_iff in Hm.
        unfold d, d_files. rewrite map_map, nth_map_seq by exact Hj. unfold has in Hm. destruct (Hl _ (In1 j Hj)) as [E|E].
        + rewrite E, D1 by exact Hj. reflexivity.
        + rewrite E in Hm. discriminate.
      - intros q Q Hm. unfold lost in Hm. rewrite (lost_code sys pfx k m fs2 q Q) in Hm. apply negb_false_iff in Hm. fold no in Q, Hm.
        specialize (Hlp q Q Hm). unfold cf, c_files, rps. fold no. rewrite map_map, !nth_map_seq by exact Q. rewrite Hlp. split; [|apply Permutation_refl].
        unfold has in Hm. destruct (Hl _ (In2 q Q)) as [E|E].
        + rewrite E, C1 by exact Q. reflexivity.
        + rewrite E in Hm. discriminate. }
    assert (Wd : forall j, j < k -> nth j (map is_missing d) false = negb (has fs2 (data_name pfx k j))).
    { intros j Hj. unfold d, d_files. rewrite map_map, nth_map_seq by exact Hj. unfold has. destruct (find_file _ _); reflexivity. }
    assert (Finish : (sys = true -> exists j, j < k /\ nth j lost true = true) -> k <= length (present k m lost) ->
      exists b outs ps', decode_streams c' j1' j2' wc1' ds' (map contents d) (map contents cf) rps lost (map is_missing d) (repeat [] k) =
        Some (b, outs, ps') /\ forall j, j < k -> has fs2 (data_name pfx k j) = false -> nth j outs [] = nth j data []).
    { intros Hms Hn. assert (SR : exists P : nat -> list bool -> Prop, streams_recovered sys P /\ P k lost).
      { destruct sys; [eexists; split; [apply C03_systematic_partial|exact (Hms eq_refl)]|eexists; split; [apply C03_nonsystematic|exact I]]. }
      destruct SR as (P & SR & HPk).
      destruct (SR w ws k m pkt pkt' c c' xe es wc out data (repeat [] no) (repeat [] no) L HO HO' He Lw EL Hd)
        as (es2 & frags2 & ps2 & Renc2 & B2 & D2); try apply repeat_length.
      rewrite Renc in Renc2. injection Renc2 as _ Efr Eps2. subst ps2.
      assert (Ef : frags data = frags2).
      { rewrite Efr. apply nth_ext with (d := []) (d' := []); [rewrite map_length, seq_length; symmetry; apply B2|].
        intros i Hi. rewrite map_length, seq_length in Hi. rewrite nth_map_seq by exact Hi. now rewrite nth_repeat. }
      subst frags2. destruct (D2 lost (map is_missing d) (map contents d) (map contents cf) rps (repeat [] k) wc1' ds' j1' j2' Hdb Lw1 Hrec
        (fun _ => Ldd) (repeat_length _ _) HPk Hn) as (outs & ps'' & R & _ & O).
      exists true, outs, ps''. split; [exact R|]. intros j Hj Hh. rewrite (O j Hj), Wd, Hh, nth_repeat by exact Hj. reflexivity. }
    destruct Cdata as [All|(jm & Hjm & Hmm)].
    - assert (Few : length (present k m lost) < k \/ k <= length (present k m lost)) by lia. destruct sys eqn:Es.
      + exists true, (repeat [] k), rps. split.
        * unfold no, n_outs in *. apply (C03_all_present w ws k m pkt'); auto; try apply repeat_length.
          intros j Hj. unfold lost. rewrite (lost_data true pfx k m fs2 j eq_refl Hj), (All j Hj). reflexivity.
        * intros j Hj Hh. rewrite (All j Hj) in Hh. discriminate.
      + destruct Few as [Few|Few]; [|apply Finish; [discriminate|exact Few]].
        exists false, (repeat [] k), rps. split.
        * apply (C05_streams_too_few w false ws k m pkt'); auto; try apply repeat_length.
        * intros j Hj Hh. rewrite (All j Hj) in Hh. discriminate.
    - apply Finish.
      + intros Hsy. exists jm. split; [exact Hjm|]. unfold lost. rewrite (lost_data sys pfx k m fs2 jm Hsy Hjm), Hmm. reflexivity.
      + destruct Hen as [Hen|Hen]; [unfold lost; now rewrite lost_count|]. rewrite (Hen jm Hjm) in Hmm. discriminate. }
  destruct Dec as (b & outs & ps' & Rdec & Hout).
  set (fs2' := put_data pfx k d outs (seq 0 k) fs2).
  assert (Rrep : repair_data_files c' j1' j2' wc1' ds' pfx fs2 = Some fs2').
  { unfold repair_data_files. rewrite E2, E6, Esys, Eps. unfold d, cf, lost, lost_files, d_files, c_files in Rdec. fold no in Rdec.
    rewrite Rdec. reflexivity. }
  assert (D2 : forall j, j < k -> find_file fs2' (data_name pfx k j) = Some (nth j data [])).
  { intros j Hj. unfold fs2'. destruct (has fs2 (data_name pfx k j)) eqn:Eh.
    - rewrite put_data_other.
      + unfold has in Eh. destruct (Hl _ (In1 j Hj)) as [E|E]; [rewrite E; now apply D1|]. rewrite E in Eh. discriminate.
      + intros i Hi. apply in_seq in Hi. destruct (Nat.eq_dec i j) as [->|Ne]; [right; unfold d; rewrite d_missing, Eh by exact Hj; reflexivity|].
        left. intros E. apply data_inj in E. congruence.
    - rewrite put_data_data; [unfold get; now rewrite Hout|apply in_seq; lia|unfold d; rewrite d_missing, Eh by exact Hj; reflexivity]. }
  destruct (HC pkt' c' xe' es' wc' out' data HO' He' Lw' Hd) as (_ & R3). specialize (R3 pfx fs2' D2).
  exists (put_codes pfx no (frags data) (recs data) (seq 0 no) fs2').
  split; [unfold run_fec_rs_fnt; rewrite Rrep; exact R3|]. split.
  - intros name Hn. apply in_names in Hn. destruct Hn as [(j & Hj & ->)|[(q & Q & ->)|(q & Q & ->)]].
    + rewrite KeepD, D2, D1 by exact Hj. reflexivity.
    + rewrite put_codes_code, C1 by (try apply in_seq; lia). reflexivity.
    + rewrite put_codes_props, P1 by (try apply in_seq; lia). reflexivity.
  - intros name Hn. rewrite Keep by exact Hn. unfold fs2'. apply put_data_other. intros i Hi. left. intros E. apply Hn. subst name.
    apply In1. apply in_seq in Hi. lia.
Qed.

(** * Too few fragments.  The driver does not look at the answer of the decoder: with no data file and fewer fragments than
    data it succeeds, makes empty data files, and then codes them, which empties the fragments that remained. *)
Theorem C63_too_few_refuted w sys ws k m pkt c pfx fs j1 j2 wc1 ds xe es wc out :
  fnt_object w sys ws k m pkt c -> encoder_buffers c xe es wc out -> length wc = k ->
  (forall j, j < k -> has fs (data_name pfx k j) = false) -> fragments sys pfx k m fs < k ->
  (forall q, q < n_outs sys k m -> has fs (props_name pfx (n_outs sys k m) q) = true ->
     exists r, find_file fs (props_name pfx (n_outs sys k m) q) = Some (print_props r) /\
       Forall (fun p => (fst p < 2 ^ 64 /\ snd p < 2 ^ 32)%N) r) ->
  exists fs', run_fec_rs_fnt c j1 j2 wc1 ds xe es wc out pfx true fs = Some fs' /\
    (forall j, j < k -> find_file fs' (data_name pfx k j) = Some []) /\
    (forall q, q < n_outs sys k m -> find_file fs' (code_name pfx (n_outs sys k m) q) = Some []).
Proof.
  intros HO He Lw Hnd Hfew Hpr. assert (Hw : fnt_width w ws) by apply HO. assert (Hs : fnt_sizes ws k m) by apply HO.
  set (no := n_outs sys k m) in *.
  destruct (create_made w sys ws k m 0 Hw Hs ltac:(reflexivity)) as (frags & recs & Hlen & HC). fold no in Hlen, HC.
  destruct (object_made w sys ws k m Hw Hs) as (cw & r & n & HP & _ & _ & H).
  destruct (made_parts _ _ _ _ _ _ _ _ _ (H _ _ HO)) as (CS & En & Esys & E1 & E2 & E3 & E4 & E5 & E6 & E7). fold no in E6.
  set (lost := lost_files sys pfx k m fs). set (d := d_files pfx k fs). set (cf := c_files sys pfx k m fs).
  assert (Eps : exists rps, all_some (map (fun i => match find_file fs (props_name pfx no i) with None => Some [] | Some t => parse_props t [] end) (seq 0 no)) = Some rps
    /\ length rps = no).
  { exists (map (fun i => match find_file fs (props_name pfx no i) with None => []
                       | Some t => match parse_props t [] with Some p => p | None => [] end end) (seq 0 no)).
    split; [|now rewrite map_length, seq_length]. apply all_some_map. intros q Q. apply in_seq in Q. specialize (Hpr q ltac:(lia)). unfold has in Hpr.
    destruct (find_file fs (props_name pfx no q)) as [t|]; [|reflexivity]. destruct (Hpr eq_refl) as (rr & Et & Hr).
    injection Et as ->. rewrite parse_print by exact Hr. reflexivity. }
  destruct Eps as (rps & Eps & Lrp).
  assert (Rdec : decode_streams c j1 j2 wc1 ds (map contents d) (map contents cf) rps lost (map is_missing d) (repeat [] k) = Some (false, repeat [] k, rps)).
  { apply (C05_streams_too_few w sys ws k m pkt); auto; try apply repeat_length.
    - unfold lost. now rewrite lost_count.
    - intros _. unfold d, d_files. now rewrite !map_length, seq_length.
    - unfold cf, c_files. now rewrite !map_length, seq_length. }
  set (fs2 := put_data pfx k d (repeat [] k) (seq 0 k) fs).
  assert (Rrep : repair_data_files c j1 j2 wc1 ds pfx fs = Some fs2).
  { unfold repair_data_files. rewrite E2, E6, Esys, Eps. unfold d, cf, lost, lost_files, d_files, c_files in Rdec. fold no in Rdec.
    rewrite Rdec. reflexivity. }
  assert (D2 : forall j, j < k -> find_file fs2 (data_name pfx k j) = Some []).
  { intros j Hj. unfold fs2. rewrite put_data_data; [unfold get; now rewrite nth_repeat|apply in_seq; lia|].
    unfold d. rewrite d_missing, (Hnd j Hj) by exact Hj. reflexivity. }
  assert (B0 : blocks k 0 (repeat [] k)).
  { split; [apply repeat_length|]. intros i Hi. rewrite nth_repeat. split; [reflexivity|constructor]. }
  destruct (HC pkt c xe es wc out (repeat [] k) HO He Lw B0) as (_ & R3).
  specialize (R3 pfx fs2 ltac:(intros j Hj; rewrite nth_repeat; now apply D2)).
  exists (put_codes pfx no (frags (repeat [] k)) (recs (repeat [] k)) (seq 0 no) fs2).
  split; [unfold run_fec_rs_fnt; rewrite Rrep; exact R3|]. split.
  - intros j Hj. rewrite put_codes_other by (intros i _; split; [apply data_code|apply data_props]). now apply D2.
  - intros q Q. rewrite put_codes_code by (apply in_seq; lia). f_equal.
    destruct (proj2 (proj2 (Hlen (repeat [] k))) q Q) as (X & _). unfold get. now apply length_zero_iff_nil.
Qed.

(** * Cases: the code of BlocksThm.v (two data, two more fragments, packets of 2 symbols). *)
Definition f_pfx : text := [102]%N.
Definition f_data : files := [(data_name f_pfx 2 0, nth 0 case_data []); (data_name f_pfx 2 1, nth 1 case_data [])].
Definition f_run (rflag : bool) (fs : files) : option files :=
  run_fec_rs_fnt (case_fnt false) (repeat 7%N 4) (repeat 7%N 4) (sevens 2 2) case_ds (case_ctx false) case_es (sevens 2 2) (sevens 4 2) f_pfx rflag fs.
Definition f_show (o : option files) : list (option text) :=
  match o with
  | Some fs => map (find_file fs) (names f_pfx 2 4)
  | None => []
  end.
Definition f_only (fs : option files) (l : list text) : files :=
  match fs with
  | Some fs => filter (fun f => existsb (text_eqb (fst f)) l) fs
  | None => []
  end.

(** The names are "f.d0", "f.c3" and "f.c3.props"; with 11 files the numbers have two digits. *)
Example C63_names : data_name f_pfx 2 0 = [102; 46; 100; 48]%N /\ props_name f_pfx 4 3 = [102; 46; 99; 51; 46; 112; 114; 111; 112; 115]%N /\
  code_name f_pfx 11 3 = [102; 46; 99; 48; 51]%N.
Proof. repeat split; reflexivity. Qed.

(** Both data files and two fragments are lost; the repair brings back all the files. *)
Definition f_kept : list text := [code_name f_pfx 4 0; props_name f_pfx 4 0; code_name f_pfx 4 2; props_name f_pfx 4 2].
Example C63_case : f_show (f_run false f_data) <> [] /\ length (f_only (f_run false f_data) f_kept) = 4 /\
  f_show (f_run true (f_only (f_run false f_data) f_kept)) = f_show (f_run false f_data).
Proof. vm_compute. repeat split; discriminate. Qed.

(** Only one fragment is left: everything is emptied. *)
Example C63_destroyed_case : fragments false f_pfx 2 2 (f_only (f_run false f_data) (firstn 2 f_kept)) = 1 /\
  nth 2 (f_show (Some (f_only (f_run false f_data) (firstn 2 f_kept)))) None = Some [0; 30; 7]%N /\
  firstn 6 (f_show (f_run true (f_only (f_run false f_data) (firstn 2 f_kept)))) = repeat (Some []) 6.
Proof. vm_compute. repeat split. Qed.

(** A fragment whose file of records is lost: the run succeeds with wrong data. *)
Theorem C63_records_refuted : exists fs1 fs2 fs3, f_run false f_data = Some fs1 /\
  (forall name, In name (names f_pfx 2 4) -> find_file fs2 name = find_file fs1 name \/ find_file fs2 name = None) /\
  fragments false f_pfx 2 2 fs2 = 2 /\
  f_run true fs2 = Some fs3 /\ find_file fs3 (data_name f_pfx 2 0) <> None /\
  find_file fs3 (data_name f_pfx 2 0) <> find_file fs1 (data_name f_pfx 2 0).
Proof.
  destruct (f_run false f_data) as [fs1|] eqn:E1; [|vm_compute in E1; discriminate].
  exists fs1, (f_only (Some fs1) (tl (tl f_kept) ++ [code_name f_pfx 4 0])).
  destruct (f_run true (f_only (Some fs1) (tl (tl f_kept) ++ [code_name f_pfx 4 0]))) as [fs3|] eqn:E3.
  - exists fs3. vm_compute in E1. injection E1 as <-. vm_compute in E3. injection E3 as <-.
    split; [reflexivity|]. split.
    + intros name Hn. repeat (destruct Hn as [<-|Hn]; [vm_compute; auto|]). destruct Hn.
    + vm_compute. repeat split; discriminate.
  - vm_compute in E1. injection E1 as <-. vm_compute in E3. discriminate.
Qed.

Print Assumptions C63_repair.
Print Assumptions C63_too_few_refuted.
Print Assumptions C63_records_refuted.
