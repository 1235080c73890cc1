(** Horizontal streams of any code: from words to streams. *)
From Coq Require Import List NArith ZArith Arith Bool Lia Permutation Sorted.
From Verif.Model Require Import Common Props Bytes Streams Horizontal HCodes.
From Verif.Spec Require Import Modular Code Blocks Session.
From Verif.Proof Require Import ListP BytesP PropsP StreamsL HorizontalP.
Import ListNotations.
Open Scope nat_scope.

(** The calls of encode and of decode, without the streams. *)
Fixpoint venc (c : vcode) (t : nat) (out : list N) (ps : list props) (W : list (list N)) : option (list (list N) * list props) :=
  match W with
  | [] => Some ([], ps)
  | w :: W' => match v_encode c t out ps (N.of_nat t) w with
               | None => None
               | Some (out', ps') => match venc c (t + 1) out' ps' W' with Some (cws, p) => Some (out' :: cws, p) | None => None end
               end
  end.
Fixpoint vdec (c : vcode) (x : v_state c) (t : nat) (out : list N) (ps : list props) (R : list (list N)) : option (list (list N)) :=
  match R with
  | [] => Some []
  | r :: R' => match v_decode c x t out ps (N.of_nat t) r with
               | None => None
               | Some (x', out') => option_map (cons out') (vdec c x' (t + 1) out' ps R')
               end
  end.

Definition wordsat (ws : nat) (bl : list (list N)) (t : nat) : list N := map (fun b => word_at ws b t) bl.

Lemma map_nth_seq A (d : A) l n : length l = n -> map (fun i => nth i l d) (seq 0 n) = l.
Proof.
  intros <-. apply (list_ext _ d); [now rewrite map_length, seq_length|]. intros i Hi. rewrite map_length, seq_length in Hi.
  now rewrite nth_map_seq.
Qed.

Section Loops.
Variables (c : vcode) (bl : list (list N)) (T : nat).
Let ws := v_ws c.
Hypothesis B0 : bl <> [].
Hypothesis Hb : forall b, In b bl -> T * ws <= length b < (T + 1) * ws.

Lemma vencode_loop_spec fuel : forall o output outs ps cws ps', T - o < fuel -> o <= T -> length outs = v_nout c ->
  venc c o output ps (map (wordsat ws bl) (seq o (T - o))) = Some (cws, ps') ->
  vencode_loop fuel c o (map (at_word ws o) bl) output outs ps =
  Some (map (fun q => nth q outs [] ++ flat_map (fun cw => bytes_of_word ws (nth q cw 0%N)) cws) (seq 0 (v_nout c)), ps').
Proof.
  induction fuel as [|fuel IH]; intros o output outs ps cws ps' Hf Ho Lo E; [lia|]. cbn [vencode_loop]. fold ws.
  destruct (Nat.eq_dec o T) as [->|Hne].
  - pose proof (readw_all_none ws T bl B0 ltac:(intros b X; specialize (Hb b X); lia)) as R.
    destruct (readw_all ws _) as [ins r]. cbn in R. subst r. rewrite Nat.sub_diag in E. cbn in E. injection E as <- <-. cbn [flat_map].
    f_equal. f_equal. symmetry. etransitivity; [apply map_ext; intros; apply app_nil_r|]. now apply map_nth_seq.
  - rewrite readw_all_some by (intros b X; specialize (Hb b X); pose proof (Nat.mul_le_mono_r (o + 1) T ws ltac:(lia)); lia).
    replace (T - o) with (S (T - (o + 1))) in E by lia. cbn [seq map venc] in E. unfold wordsat at 1 in E.
    destruct (v_encode c o output ps (N.of_nat o) _) as [[out1 ps1]|]; [|discriminate]. replace (S o) with (o + 1) in E by lia.
    destruct (venc c (o + 1) out1 ps1 _) as [[cws1 ps2]|] eqn:E1; [|discriminate]. injection E as <- <-.
    erewrite IH; [|lia|lia|now rewrite map_length, seq_length|exact E1]. f_equal. f_equal.
    apply map_ext_in. intros q Hq. apply in_seq in Hq. rewrite nth_map_seq by lia. cbn [flat_map]. now rewrite <- app_assoc.
Qed.

Lemma vdecode_loop_spec fuel wanted : forall o x output ps outs R, T - o < fuel -> o <= T -> length outs = v_k c ->
  vdec c x o output ps (map (wordsat ws bl) (seq o (T - o))) = Some R ->
  vdecode_loop fuel c x ps wanted o (map (at_word ws o) bl) output outs =
  Some (map (fun j => if nth j wanted false then nth j outs [] ++ flat_map (fun r => bytes_of_word ws (nth j r 0%N)) R
                      else nth j outs []) (seq 0 (v_k c))).
Proof.
  induction fuel as [|fuel IH]; intros o x output ps outs R Hf Ho Lo E; [lia|]. cbn [vdecode_loop]. fold ws.
  destruct (Nat.eq_dec o T) as [->|Hne].
  - pose proof (readw_all_none ws T bl B0 ltac:(intros b X; specialize (Hb b X); lia)) as Rd.
    destruct (readw_all ws _) as [ins r]. cbn in Rd. subst r. rewrite Nat.sub_diag in E. cbn in E. injection E as <-. cbn [flat_map].
    f_equal. rewrite <- (map_nth_seq _ [] outs (v_k c) Lo) at 1. apply map_ext. intros j. rewrite app_nil_r. now destruct (nth j wanted false).
  - rewrite readw_all_some by (intros b X; specialize (Hb b X); pose proof (Nat.mul_le_mono_r (o + 1) T ws ltac:(lia)); lia).
    replace (T - o) with (S (T - (o + 1))) in E by lia. cbn [seq map vdec] in E. unfold wordsat at 1 in E.
    destruct (v_decode c x o output ps (N.of_nat o) _) as [[x1 out1]|]; [|discriminate]. replace (S o) with (o + 1) in E by lia.
    destruct (vdec c x1 (o + 1) out1 ps _) as [R1|] eqn:E1; [|discriminate]. injection E as <-.
    erewrite IH; [|lia|lia|now rewrite map_length, seq_length|exact E1]. f_equal.
    apply map_ext_in. intros q Hq. apply in_seq in Hq. rewrite nth_map_seq by lia. cbn [flat_map]. unfold get.
    destruct (nth q wanted false); [now rewrite <- app_assoc|reflexivity].
Qed.
End Loops.

Lemma venc_length c : forall W t out ps cws ps', venc c t out ps W = Some (cws, ps') -> length cws = length W.
Proof.
  induction W as [|w W IH]; intros t out ps cws ps' E; cbn in E; [now injection E as <- <-|].
  destruct (v_encode c t out ps (N.of_nat t) w) as [[o p]|]; [|discriminate]. destruct (venc c (t + 1) o p W) as [[cw p2]|] eqn:E1; [|discriminate].
  injection E as <- <-. cbn. f_equal. eauto.
Qed.

(** ** Words *)
(** The fragments in use. *)
Definition v_ad (c : vcode) (data : nat -> bool) : list nat := if v_sys c then filter data (seq 0 (v_k c)) else [].
Definition v_ap (c : vcode) (data par : nat -> bool) : list nat :=
  firstn (v_k c - length (v_ad c data)) (filter par (seq 0 (v_nout c))).
Definition v_ids (c : vcode) (data par : nat -> bool) : list nat :=
  v_ad c data ++ (if v_sys c then map (fun i => v_k c + i) (v_ap c data par) else v_ap c data par).
(** The symbols they hold. *)
Definition v_recv (c : vcode) (data par : nat -> bool) (w cw : list N) : list N :=
  map (fun i => nth i w 0%N) (v_ad c data) ++ map (fun q => nth q cw 0%N) (v_ap c data par).
Definition symbols_of (ws k : nat) (l : list N) : Prop := length l = k /\ Forall (fun x => (x < 256 ^ N.of_nat ws)%N) l.

(** Words survive: [pat] restricts the fragments that are there. *)
Definition words_back (c : vcode) (pat : (nat -> bool) -> (nat -> bool) -> Prop) : Prop :=
  forall output W, length output = v_out c -> Forall (symbols_of (v_ws c) (v_k c)) W ->
  exists cws ps, venc c 0 output (repeat [] (v_nout c)) W = Some (cws, ps) /\ length ps = v_nout c /\
    Forall (fun cw => forall q, q < v_nout c -> (nth q cw 0 < 256 ^ N.of_nat (v_ws c))%N) cws /\
    forall data par rps out', length (v_ids c data par) = v_k c -> length (v_ad c data) < v_k c -> pat data par ->
      length out' = v_k c -> length rps = v_nout c ->
      (forall q, In q (v_ap c data par) -> Permutation (nth q rps []) (nth q ps [])) ->
    exists x ps', v_begin c data par (v_ids c data par) rps = Some (x, ps') /\
      vdec c x 0 out' ps' (map (fun wc => v_recv c data par (fst wc) (snd wc)) (combine W cws)) = Some W.

Section Streams.
Variables (c : vcode) (pat : (nat -> bool) -> (nat -> bool) -> Prop).
Hypothesis HW : words_back c pat.
Hypothesis K0 : 0 < v_k c.
Hypothesis Hws : word_size_ok (v_ws c) = true.
Notation ws := (v_ws c).
Notation k := (v_k c).
Notation m := (v_m c).
Notation sys := (v_sys c).

Lemma ws0 : 0 < ws.
Proof. unfold word_size_ok in Hws. cbn [existsb] in Hws. destruct ws; [discriminate|lia]. Qed.

Lemma nout_eq : v_nout c = n_outs sys k m.
Proof. unfold v_nout, n_outs. now destruct sys. Qed.

Lemma div_bounds L : L / ws * ws <= L < (L / ws + 1) * ws.
Proof. pose proof ws0. pose proof (Nat.div_mod L ws ltac:(lia)). pose proof (Nat.mod_upper_bound L ws ltac:(lia)). lia. Qed.

Definition isd (missing : list bool) (i : nat) : bool := negb (nth i missing true).
Definition isp (missing : list bool) (i : nat) : bool := negb (nth (if sys then k + i else i) missing true).

Lemma filter_map_add (f : nat -> bool) a n : filter f (map (fun i => a + i) (seq 0 n)) = map (fun i => a + i) (filter (fun i => f (a + i)) (seq 0 n)).
Proof. induction (seq 0 n) as [|x l IH]; cbn; [reflexivity|]. destruct (f (a + x)); cbn; now rewrite IH. Qed.

(** Enough fragments are there: [k] are in use. *)
Lemma present_split missing : length (present k m missing) =
  length (v_ad c (isd missing)) + length (filter (isp missing) (seq 0 (v_nout c))).
Proof.
  unfold present, v_ad, isd, isp, v_nout. destruct sys; [|reflexivity].
  rewrite seq_app, filter_app, app_length. f_equal. cbn [Nat.add]. replace (seq k m) with (map (fun i => k + i) (seq 0 m)).
  - rewrite filter_map_add, map_length. reflexivity.
  - rewrite map_add_seq. f_equal. lia.
Qed.

Lemma ids_length missing : length (v_ids c (isd missing) (isp missing)) =
  length (v_ad c (isd missing)) + Nat.min (k - length (v_ad c (isd missing))) (length (filter (isp missing) (seq 0 (v_nout c)))).
Proof. unfold v_ids, v_ap. rewrite app_length. f_equal. destruct sys; rewrite ?map_length, firstn_length; reflexivity. Qed.

Lemma ad_le missing : length (v_ad c (isd missing)) <= k.
Proof.
  unfold v_ad. destruct sys; [|cbn; lia]. rewrite <- (seq_length k 0) at 2.
  induction (seq 0 k) as [|x l IH]; cbn; [lia|]. destruct (isd missing x); cbn; lia.
Qed.

Lemma ap_in missing q : In q (v_ap c (isd missing) (isp missing)) -> q < v_nout c /\ nth (position sys k q) missing true = false.
Proof.
  unfold v_ap. intros H. assert (X : In q (filter (isp missing) (seq 0 (v_nout c)))).
  { rewrite <- (firstn_skipn (k - length (v_ad c (isd missing)))). apply in_or_app. now left. }
  apply filter_In in X. destruct X as [X Y]. apply in_seq in X. split; [lia|]. unfold isp in Y. unfold position.
  now apply negb_true_iff in Y.
Qed.

Lemma ad_in missing j : In j (v_ad c (isd missing)) -> sys = true /\ j < k /\ nth j missing true = false.
Proof.
  unfold v_ad. destruct sys eqn:Es; [|intros []]. intros H. apply filter_In in H. destruct H as [H Y]. apply in_seq in H.
  split; [reflexivity|]. split; [lia|]. unfold isd in Y. now apply negb_true_iff in Y.
Qed.

Lemma word_of_frag cws q t : Forall (fun cw => forall q, q < v_nout c -> (nth q cw 0 < 256 ^ N.of_nat ws)%N) cws -> q < v_nout c -> t < length cws ->
  word_at ws (flat_map (fun cw => bytes_of_word ws (nth q cw 0%N)) cws) t = nth q (nth t cws []) 0%N.
Proof.
  intros F Hq Ht. unfold word_at.
  rewrite (slice_flat (fun cw => bytes_of_word ws (nth q cw 0%N)) ws ltac:(intros; apply bytes_of_word_length) [] t cws Ht).
  rewrite word_bytes. apply N.mod_small. rewrite Forall_forall in F. apply F; auto. apply nth_In. exact Ht.
Qed.

Theorem vstreams_roundtrip output data old ps L : length output = v_out c -> blocks k L data ->
  length old = v_nout c -> length ps = v_nout c ->
  exists frags ps', encode_vstreams c output data old ps = Some (map (fun q => nth q old [] ++ nth q frags []) (seq 0 (v_nout c)), ps') /\
    blocks (v_nout c) (L / ws * ws) frags /\ length ps' = v_nout c /\
  forall missing wanted rdata rpar rps old' out',
    received sys k m missing data frags ps' rdata rpar rps -> (sys = true -> length rdata = k) -> length old' = k -> length out' = k ->
    k <= length (present k m missing) -> pat (isd missing) (isp missing) ->
    exists outs ps'', decode_vstreams c out' rdata rpar rps missing wanted old' = Some (true, outs, ps'') /\
      length outs = k /\
      forall j, j < k -> nth j outs [] = nth j old' [] ++
        (if nth j wanted false && negb (sys && (length (filter (isd missing) (seq 0 k)) =? k)) then firstn (L / ws * ws) (nth j data []) else []).
Proof.
  intros Lout [Ld Hd] Lo Lp. pose proof (div_bounds L) as [DB1 DB2]. pose proof ws0 as W0. set (T := L / ws) in *.
  set (W := map (wordsat ws data) (seq 0 T)).
  assert (LW : length W = T) by (unfold W; now rewrite map_length, seq_length).
  assert (HS : Forall (symbols_of ws k) W).
  { unfold W. rewrite Forall_map. apply Forall_forall. intros t _. unfold wordsat. split; [now rewrite map_length|].
    rewrite Forall_map. apply Forall_forall. intros b Hb. destruct (In_nth _ _ [] Hb) as (i & Hi & <-). apply word_at_lt. apply Hd. lia. }
  destruct (HW output W Lout HS) as (cws & ps' & E & Lp' & F & D). clear HW.
  pose proof (venc_length _ _ _ _ _ _ _ E) as Lc. rewrite LW in Lc.
  assert (din : forall b, In b data -> length b = L).
  { intros b Hb. destruct (In_nth _ _ [] Hb) as (i & Hi & <-). apply Hd. lia. }
  set (frag := fun q => flat_map (fun cw => bytes_of_word ws (nth q cw 0%N)) cws).
  assert (Lf : forall q, length (frag q) = T * ws).
  { intros q. unfold frag. rewrite (flat_length _ ws) by (intros; apply bytes_of_word_length). now rewrite Lc. }
  exists (map frag (seq 0 (v_nout c))), ps'. split; [|split; [|split; [exact Lp'|]]].
  - unfold encode_vstreams. rewrite Ld, Lo, Lp, !Nat.eqb_refl, Hws. cbn [andb].
    replace (map (fun b => mkIs b false) data) with (map (at_word ws 0) data) by reflexivity.
    match goal with |- context [map ?f ps] => assert (Eps : map f ps = repeat [] (v_nout c)) end.
    { rewrite <- Lp. clear. induction ps; cbn; [reflexivity|]. now f_equal. }
    rewrite Eps. rewrite (vencode_loop_spec c data T ltac:(intros X; rewrite X in Ld; cbn in Ld; lia)
       ltac:(intros b Hb; rewrite (din b Hb); lia) _ 0 output old _ cws ps'); auto; try lia.
    + f_equal. f_equal. apply map_ext_in. intros q Hq. apply in_seq in Hq. rewrite nth_map_seq by lia. reflexivity.
    + unfold get. rewrite (proj1 (Hd 0 K0)). nia.
    + rewrite Nat.sub_0_r. exact E.
  - split; [now rewrite map_length, seq_length|]. intros q Hq. rewrite nth_map_seq by auto. split; [apply Lf|].
    unfold frag, all_bytes. rewrite Forall_flat_map. apply Forall_forall. intros cw _. apply bytes_of_word_bytes.
  - intros missing wanted rdata rpar rps old' out' (R1 & R2 & R3 & R4) Lrd Lo' Lout' Hen Hp.
    unfold decode_vstreams. rewrite R2, R3, Lo', <- nout_eq, !Nat.eqb_refl, Hws. cbn [andb].
    assert (Ea : negb sys || (length rdata =? k) = true).
    { destruct sys; [|reflexivity]. cbn. apply Nat.eqb_eq. auto. }
    rewrite Ea. cbn [andb]. unfold get. cbv zeta. rewrite <- nout_eq in R4. 
    change (fun i => negb (nth i missing true)) with (isd missing).
    change (fun i => negb (nth (if sys then k + i else i) missing true)) with (isp missing).
    change (if sys then filter (isd missing) (seq 0 k) else []) with (v_ad c (isd missing)).
    change (firstn (k - length (v_ad c (isd missing))) (filter (isp missing) (seq 0 (v_nout c)))) with (v_ap c (isd missing) (isp missing)).
    change (v_ad c (isd missing) ++ (if sys then map (fun i => k + i) (v_ap c (isd missing) (isp missing)) else v_ap c (isd missing) (isp missing)))
      with (v_ids c (isd missing) (isp missing)).
    assert (Eal : sys && (length (v_ad c (isd missing)) =? k) = sys && (length (filter (isd missing) (seq 0 k)) =? k)).
    { unfold v_ad. now destruct sys. }
    rewrite <- Eal. clear Eal.
    destruct (sys && (length (v_ad c (isd missing)) =? k)) eqn:Eall.
    { exists old', rps. split; [reflexivity|]. split; [auto|]. intros j Hj. rewrite andb_false_r. now rewrite app_nil_r. }
    assert (Lad : length (v_ad c (isd missing)) < k).
    { pose proof (ad_le missing). destruct (Nat.eq_dec (length (v_ad c (isd missing))) k) as [X|X]; [|lia].
      apply andb_false_iff in Eall. destruct Eall as [Es|En]; [|apply Nat.eqb_neq in En; lia]. unfold v_ad in X |- *. rewrite Es in *. cbn in *. lia. }
    assert (Lid : length (v_ids c (isd missing) (isp missing)) = k).
    { rewrite ids_length. rewrite present_split in Hen. lia. }
    assert (Lap : length (v_ad c (isd missing)) + length (v_ap c (isd missing) (isp missing)) = k).
    { rewrite <- Lid at 1. unfold v_ids. rewrite app_length. destruct sys; now rewrite ?map_length. }
    rewrite Lap. destruct (Nat.ltb_spec k k); [lia|].
    destruct (D (isd missing) (isp missing) rps out' Lid Lad Hp Lout' ltac:(rewrite nout_eq; exact R3)) as (x & ps2 & Ex & Ed).
    { intros q Hq. destruct (ap_in missing q Hq) as [Q1 Q2]. now apply R4. }
    rewrite Ex. set (src := map (fun i => nth i rdata []) (v_ad c (isd missing)) ++ map (fun i => nth i rpar []) (v_ap c (isd missing) (isp missing))).
    assert (Hsrc : forall b, In b src -> T * ws <= length b < (T + 1) * ws).
    { intros b Hb. unfold src in Hb. apply in_app_or in Hb. destruct Hb as [Hb|Hb]; apply in_map_iff in Hb; destruct Hb as (i & <- & Hi).
      - destruct (ad_in missing i Hi) as (X1 & X2 & X3). rewrite R1 by auto. rewrite (proj1 (Hd i X2)). lia.
      - destruct (ap_in missing i Hi) as [Q1 Q2]. rewrite (proj1 (R4 i Q1 Q2)), nth_map_seq, Lf by auto. lia. }
    assert (Ls : length src = k) by (unfold src; rewrite app_length, !map_length; exact Lap).
    assert (B0 : src <> []) by (intros X; rewrite X in Ls; cbn in Ls; lia).
    replace (map (fun b => mkIs b false) src) with (map (at_word ws 0) src) by reflexivity.
    assert (Ew : map (wordsat ws src) (seq 0 T) =
        map (fun wc => v_recv c (isd missing) (isp missing) (fst wc) (snd wc)) (combine W cws)).
    { apply (list_ext _ []); [rewrite !map_length, seq_length, combine_length; lia|]. intros t Ht. rewrite map_length, seq_length in Ht.
      rewrite nth_map_seq by auto. rewrite (nth_indep _ [] ((fun wc => v_recv c (isd missing) (isp missing) (fst wc) (snd wc)) ([], [])))
        by (rewrite map_length, combine_length; lia).
      rewrite (map_nth (fun wc => v_recv c (isd missing) (isp missing) (fst wc) (snd wc))), combine_nth by lia. cbn [fst snd].
      unfold wordsat, src, v_recv. rewrite map_app, !map_map. f_equal; apply map_ext_in; intros i Hi.
      - destruct (ad_in missing i Hi) as (X1 & X2 & X3). rewrite R1 by auto. unfold W. rewrite nth_map_seq by auto.
        unfold wordsat. rewrite (nth_indep _ 0%N (word_at ws [] t)) by (rewrite map_length; lia).
        symmetry. apply (map_nth (fun b => word_at ws b t)).
      - destruct (ap_in missing i Hi) as [Q1 Q2]. rewrite (proj1 (R4 i Q1 Q2)), nth_map_seq by auto. apply word_of_frag; auto. lia. }
    rewrite (vdecode_loop_spec c src T B0 Hsrc _ wanted 0 x out' ps2 old' W); auto; try lia.
    + exists (map (fun j => if nth j wanted false then nth j old' [] ++ flat_map (fun r => bytes_of_word ws (nth j r 0%N)) W else nth j old' []) (seq 0 k)), ps2.
      split; [reflexivity|]. split; [now rewrite map_length, seq_length|]. intros j Hj. rewrite nth_map_seq by auto. rewrite andb_true_r.
      destruct (nth j wanted false); [|now rewrite app_nil_r]. f_equal.
      assert (E2 : flat_map (fun r => bytes_of_word ws (nth j r 0%N)) W = word_bytes_upto ws (word_at ws (nth j data [])) T).
      { unfold W, word_bytes_upto. rewrite flat_map_concat_map, map_map, <- flat_map_concat_map. apply flat_map_ext. intros t. f_equal.
        unfold wordsat. rewrite (nth_indep _ 0%N (word_at ws [] t)) by (rewrite map_length; lia).
        apply (map_nth (fun b => word_at ws b t)). }
      rewrite E2. pose proof (words_then_self ws (nth j data []) T [] (proj2 (Hd j Hj)) ltac:(rewrite (proj1 (Hd j Hj)); lia)) as X.
      unfold words_then in X. rewrite skipn_nil, !app_nil_r in X. exact X.
    + destruct src as [|s0 src']; [congruence|]. cbn [map get nth at_word is_rest]. unfold at_word. cbn [is_rest Nat.mul skipn].
      specialize (Hsrc s0 (or_introl eq_refl)). nia.
    + rewrite Nat.sub_0_r, Ew. exact Ed.
Qed.

Theorem vstreams_few missing wanted data par (ps : list props) old out' : length (present k m missing) < k ->
  (sys = true -> length data = k) -> length par = v_nout c -> length ps = v_nout c -> length old = k ->
  decode_vstreams c out' data par ps missing wanted old = Some (false, old, ps).
Proof.
  intros Hf Ld Lp Lps Lo. unfold decode_vstreams. rewrite Lp, Lps, Lo, !Nat.eqb_refl, Hws. cbn [andb].
  assert (Ea : negb sys || (length data =? k) = true).
  { destruct sys; [|reflexivity]. cbn. apply Nat.eqb_eq. auto. }
  rewrite Ea. cbn [andb]. unfold get. cbv zeta.
  change (fun i => negb (nth i missing true)) with (isd missing).
  change (fun i => negb (nth (if sys then k + i else i) missing true)) with (isp missing).
  change (if sys then filter (isd missing) (seq 0 k) else []) with (v_ad c (isd missing)).
  change (firstn (k - length (v_ad c (isd missing))) (filter (isp missing) (seq 0 (v_nout c)))) with (v_ap c (isd missing) (isp missing)).
  rewrite present_split in Hf. destruct (sys && (length (v_ad c (isd missing)) =? k)) eqn:Eall.
  { apply andb_true_iff in Eall. destruct Eall as [_ E]. apply Nat.eqb_eq in E. lia. }
  destruct (Nat.ltb_spec (length (v_ad c (isd missing)) + length (v_ap c (isd missing) (isp missing))) k); [reflexivity|].
  unfold v_ap in H. rewrite firstn_length in H. lia.
Qed.
End Streams.
