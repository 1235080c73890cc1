(** Horizontal streams of the codes that the constructor makes. *)
From Coq Require Import List NArith ZArith Arith Bool Lia Permutation.
From Verif.Model Require Import Common Arith Ring Fft2n Radix2 Poly Props Bytes Fnt Blocks Header Streams Horizontal.
From Verif.Spec Require Import Modular Code Blocks Widths Session.
From Verif.Proof Require Import ListP Tac BytesP PropsP StreamsL BlocksP FntInst BlocksF StreamsF HorizontalP.
Import ListNotations.
Open Scope nat_scope.

Lemma nwords_mul ws b : 0 < ws -> nwords ws (b * ws) = b.
Proof. intros H. rewrite (proj1 (nwords_exact ws (b * ws) H (Nat.mod_mul b ws ltac:(lia)))). apply Nat.div_mul. lia. Qed.

Lemma symbol_firstn ws blk a t : (t + 1) * ws <= a -> symbol ws (firstn a blk) t = symbol ws blk t.
Proof.
  intros H. unfold symbol.
  assert (X : forall f g n, (forall i, i < n -> f i = g i) -> sumN f n = sumN g n).
  { intros f0 g0 m0. induction m0; intros X; cbn; [auto|]. rewrite IHm0, X; auto. }
  apply X. intros i Hi. f_equal.
  assert (G : forall (l : list N) a j, j < a -> nth j (firstn a l) 0%N = nth j l 0%N).
  { clear. induction l as [|x l IH]; intros [|a] [|j] Hj; cbn; try lia; auto. apply IH. lia. }
  apply G. nia.
Qed.

Section H.
Variables (w : N) (ws k m : nat).
Hypothesis Hw : fnt_width w ws.
Let h := (256 ^ N.of_nat ws)%N.
Variables (n : nat) (cw : (nat -> N) -> nat -> N) (pkt : nat) (c : fnt).
Hypothesis Hpkt : 0 < pkt.
Hypothesis M : fnt_made w false ws k m pkt n cw c.

Theorem hencode_made data old ps L output : blocks k L data -> length output = c_outlen c -> length old = k + m -> length ps = k + m ->
  encode_hstreams c output data old ps =
  Some (Ret (map (fun q => nth q old [] ++ stream_of ws (coded ws cw data q) (L / ws * ws)) (seq 0 (k + m)),
             map (fun q => record h (coded ws cw data q) (L / ws)) (seq 0 (k + m)))).
Proof.
  intros Hd Lout Lo Lps. pose proof (ws_pos w ws Hw) as W0.
  destruct (made_parts _ _ _ _ _ _ _ _ _ M) as (CS & En & Esys & E1 & E2 & E3 & E4 & E5 & E6 & E7). cbn [n_outs] in E6.
  rewrite (encode_hstreams_any c cw CS Esys ltac:(lia) ltac:(lia) E5 data L); rewrite ?E1, ?E2, ?E6; auto; try apply Hd.
  - assert (X : forall q t, hcoded c cw data q t = coded ws cw data q t).
    { intros q t. unfold hcoded, coded. apply (cs_ext _ _ CS). intros j _. rewrite E1. apply word_symbol. }
    f_equal. f_equal. f_equal; apply map_ext; intros q.
    + f_equal. replace (word_bytes_upto ws (hcoded c cw data q) (L / ws)) with (word_bytes_upto ws (coded ws cw data q) (L / ws))
        by (unfold word_bytes_upto; apply flat_map_ext; intros; now rewrite X).
      rewrite <- (upto_stream ws _ (L / ws) (L / ws * ws)) by lia. symmetry. apply firstn_all2. rewrite upto_length. lia.
    + rewrite record_recs. unfold recs. f_equal. apply filter_ext. intros t. now rewrite X.
  - rewrite Lout. unfold c_outlen. now rewrite Esys.
Qed.

Lemma ids_used missing : ids c missing = used k m missing.
Proof.
  destruct (made_parts _ _ _ _ _ _ _ _ _ M) as (CS & En & Esys & E1 & E2 & E3 & E4 & E5 & E6 & E7).
  unfold ids, used, present. rewrite E2, E3. reflexivity.
Qed.

Lemma in_used_mask missing i : In i (used k m missing) -> negb (nth i (mask k m missing) true) = true.
Proof.
  intros H. destruct (used_in k m missing i H) as [Hi _]. unfold mask. rewrite nth_map_seq by lia. rewrite negb_involutive. now apply in_existsb.
Qed.

Theorem hdecode_cols missing wanted L data buf par (ps : list props) F vs old junk1 junk2 : L mod ws = 0 ->
  usable false ws k m missing L buf par ps -> columns false ws k m cw missing L buf par ps F ->
  length par = k + m -> length ps = k + m -> length old = k -> vs_ok c vs -> length junk1 = c_n c -> length junk2 = c_l2 c ->
  decode_hstreams c junk1 junk2 vs data par ps missing wanted old =
  Some (Ret (true, map (fun j => nth j old [] ++ (if nth j wanted false then stream_of ws (F j) L else [])) (seq 0 k),
             map props_sort ps)).
Proof.
  intros EL U HF Lp Lps Lo Hv J1 J2. pose proof (ws_pos w ws Hw) as W0.
  destruct (made_parts _ _ _ _ _ _ _ _ _ M) as (CS & En & Esys & E1 & E2 & E3 & E4 & E5 & E6 & E7). cbn [n_outs] in E6.
  destruct (nwords_exact ws L W0 EL) as [N1 N2]. destruct HF as (F1 & F2 & F3) eqn:EF. clear EF.
  rewrite (decode_hstreams_any c cw CS Esys ltac:(lia) ltac:(lia) E5 (L / ws) missing wanted data par ps F); rewrite ?E1, ?E2, ?E3, ?E6; auto.
  - f_equal. f_equal. f_equal. f_equal. apply map_ext. intros j. destruct (nth j wanted false); [|now rewrite app_nil_r].
    f_equal. rewrite <- (upto_stream ws _ (L / ws) L) by lia. symmetry. apply firstn_all2. rewrite upto_length. lia.
  - destruct U as [U _]. exact U.
  - rewrite ids_used. intros q Hq. pose proof (used_in k m missing q Hq) as [Hqk _].
    destruct (F_par w false ws k m n cw pkt c Hpkt M missing L buf par ps F U HF q Hqk (in_used_mask missing q Hq)) as (A & B & C).
    cbn [position] in B, C. rewrite N1 in B, C. rewrite N2. split; [exact A|]. split; [|exact C].
    intros t Ht X. rewrite word_symbol. now apply B.
Qed.
End H.

(** Round trip of streams of any length. *)
Theorem hstreams_roundtrip w ws k m pkt pkt' c c' output data old ps L :
  fnt_object w false ws k m pkt c -> fnt_object w false ws k m pkt' c' ->
  length output = c_outlen c -> blocks k L data -> length old = k + m -> length ps = k + m ->
  exists frags ps', encode_hstreams c output data old ps =
      Some (Ret (map (fun q => nth q old [] ++ nth q frags []) (seq 0 (k + m)), ps')) /\
    blocks (k + m) (L / ws * ws) frags /\ length ps' = k + m /\
  forall missing wanted rdata rpar rps old' vs junk1 junk2,
    vs_ok c' vs -> length junk1 = c_n c' -> length junk2 = c_l2 c' ->
    received false k m missing data frags ps' rdata rpar rps -> length old' = k ->
    k <= length (present k m missing) ->
    exists outs ps'', decode_hstreams c' junk1 junk2 vs rdata rpar rps missing wanted old' = Some (Ret (true, outs, ps'')) /\
      length outs = k /\
      forall j, j < k -> nth j outs [] = nth j old' [] ++ (if nth j wanted false then firstn (L / ws * ws) (nth j data []) else []).
Proof.
  intros HO HO' Lout Hd Lo Lps.
  assert (Hw : fnt_width w ws) by apply HO. assert (Hs : fnt_sizes ws k m) by apply HO.
  assert (Hp : 0 < pkt) by apply HO. assert (Hp' : 0 < pkt') by apply HO'. pose proof (ws_pos w ws Hw) as W0.
  destruct (object_made w false ws k m Hw Hs) as (cw & r & n & HP & _ & _ & H).
  set (L' := L / ws * ws). assert (HL' : L' <= L) by apply (div_mul_le w ws Hw).
  assert (EL' : L' mod ws = 0) by (apply Nat.mod_mul; lia). assert (DL' : L' / ws = L / ws) by (apply Nat.div_mul; lia).
  assert (NL' : nwords ws L' = L / ws) by (apply nwords_mul; auto).
  set (data' := map (firstn L') data).
  assert (D' : forall j, nth j data' [] = firstn L' (nth j data [])).
  { intros j. unfold data'. change (nth j (map (firstn L') data) [] = firstn L' (nth j data [])). rewrite <- (map_nth (firstn L')), firstn_nil. reflexivity. }
  assert (Hd' : blocks k L' data').
  { split; [unfold data'; rewrite map_length; apply Hd|]. intros j Hj. rewrite D'. destruct (proj2 Hd j Hj) as [A B]. split.
    - rewrite firstn_length, A. lia.
    - apply Forall_forall. intros x Hx. apply (proj1 (Forall_forall _ _) B). rewrite <- (firstn_skipn L'). apply in_or_app. auto. }
  assert (X : forall q t, t < L / ws -> coded ws cw data q t = coded ws cw data' q t).
  { intros q t Ht. destruct (made_parts _ _ _ _ _ _ _ _ _ (H _ _ HO)) as (CS & _). unfold coded. apply (cs_ext _ _ CS). intros j _.
    rewrite D', symbol_firstn; [auto|]. apply Nat.mul_le_mono_r. lia. }
  exists (map (fun q => stream_of ws (coded ws cw data' q) L') (seq 0 (k + m))),
    (map (fun q => record (256 ^ N.of_nat ws) (coded ws cw data' q) (nwords ws L')) (seq 0 (k + m))).
  split; [|split; [|split]].
  - rewrite (hencode_made w ws k m Hw n cw pkt c Hp (H _ _ HO) data old ps L output Hd Lout Lo Lps). f_equal. f_equal. f_equal.
    + apply map_ext_in. intros q Hq. apply in_seq in Hq. rewrite nth_map_seq by lia. f_equal. apply stream_ext; [auto|].
      fold L'. rewrite NL'. apply X.
    + apply map_ext. intros q. rewrite NL'. unfold record. f_equal. apply filter_ext_in. intros t Ht. apply in_seq in Ht. rewrite X by lia. reflexivity.
  - split; [rewrite map_length, seq_length; auto|]. intros q Hq. rewrite nth_map_seq by auto. split; [apply stream_length|apply stream_bytes].
  - rewrite map_length, seq_length; auto.
  - intros missing wanted rdata rpar rps old' vs junk1 junk2 Hv J1 J2 (R1 & R2 & R3 & R4) Lo' Hen. cbn [n_outs position] in *.
    assert (R4' : forall q, q < n_outs false k m -> nth (position false k q) missing true = false ->
      nth q rpar [] = stream_of ws (coded ws cw data' (position false k q)) L' /\
      Permutation (nth q rps []) (record (256 ^ N.of_nat ws) (coded ws cw data' (position false k q)) (nwords ws L'))).
    { cbn [n_outs position]. intros q Hq Hm. destruct (R4 q Hq Hm) as [A B]. rewrite !nth_map_seq in * by auto. auto. }
    assert (R1' : false = true -> forall j, j < k -> nth j missing true = false -> nth j rdata [] = nth j data' []) by discriminate.
    destruct (received_columns w false ws k m Hw n cw pkt' c' Hp' (H _ _ HO') data' rdata rpar rps missing L' Hd' R1' R4' Hen) as (F & HF & FD).
    pose proof (received_usable w false ws k m n cw pkt' c' Hp' (H _ _ HO') data' rdata rpar rps missing L' Hd' R1' R4' Hen) as U.
    rewrite (hdecode_cols w ws k m Hw n cw pkt' c' Hp' (H _ _ HO') missing wanted L' rdata rdata rpar rps F vs old' junk1 junk2); auto.
    eexists _, _. split; [reflexivity|]. split; [rewrite map_length, seq_length; auto|]. intros j Hj. rewrite nth_map_seq by auto.
    destruct (nth j wanted false); [|auto]. f_equal. rewrite <- D'. destruct (proj2 Hd' j Hj) as [A B].
    rewrite <- (stream_self ws (nth j data' []) W0 B) at 1. rewrite A. apply stream_ext; [auto|]. rewrite NL', <- DL'. intros t Ht. now apply FD.
Qed.
