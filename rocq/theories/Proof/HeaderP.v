(** Serialisation of records. *)
From Coq Require Import List NArith ZArith Arith Bool Lia.
From Verif.Model Require Import Common Props Bytes Header.
From Verif.Spec Require Import Header.
From Verif.Proof Require Import ListP Tac BytesP.
Import ListNotations.
Open Scope nat_scope.

Lemma htonl_lt v : (htonl v < 2 ^ 32)%N.
Proof.
  unfold htonl. change (2 ^ 32)%N with (256 ^ N.of_nat 4)%N.
  rewrite <- (bytes_of_word_length 4 v), <- rev_length. apply word_of_bytes_lt.
  apply Forall_rev, bytes_of_word_bytes.
Qed.

Lemma htonl_htonl v : (v < 2 ^ 32)%N -> htonl (htonl v) = v.
Proof.
  intros Hv. unfold htonl. set (l := rev (bytes_of_word 4 v)).
  assert (Hl : length l = 4) by (unfold l; now rewrite rev_length, bytes_of_word_length).
  assert (Hb : bytes_of_word 4 (word_of_bytes l) = l).
  { rewrite <- Hl. apply bytes_word. unfold l. apply Forall_rev, bytes_of_word_bytes. }
  rewrite Hb. unfold l. rewrite rev_involutive, word_bytes. apply N.mod_small. exact Hv.
Qed.

(** ** Writing *)

Lemma store_ok i v ws : i < length ws -> store i v ws = Ret (set ws i v).
Proof. intros H. unfold store. apply Nat.ltb_lt in H. now rewrite H. Qed.

Lemma store_locations_ok ps : forall i ws, i + length ps <= length ws ->
  exists ws', store_locations i ps ws = Ret ws' /\ length ws' = length ws /\
    forall j, nth j ws' 0%N = if (i <=? j) && (j <? i + length ps) then htonl (wrap 32 (fst (nth (j - i) ps (0, 0)%N))) else nth j ws 0%N.
Proof.
  induction ps as [|[loc mk] t IH]; intros i ws H; cbn [store_locations length] in *.
  - exists ws. split; [auto|]. split; [auto|]. intros j.
    destruct (Nat.leb_spec i j), (Nat.ltb_spec j (i + 0)); cbn [andb]; auto; lia.
  - rewrite store_ok by lia. cbn [bind].
    destruct (IH (S i) (set ws i (htonl (wrap 32 loc)))) as (ws' & E & L & W); [rewrite set_length; lia|].
    exists ws'. split; [exact E|]. rewrite set_length in L. split; [exact L|]. intros j. rewrite W.
    destruct (Nat.eq_dec j i) as [->|Hne].
    + destruct (Nat.leb_spec (S i) i); [lia|]. cbn [andb]. rewrite nth_set_eq by lia.
      destruct (Nat.leb_spec i i), (Nat.ltb_spec i (i + S (length t))); try lia. cbn [andb]. now rewrite Nat.sub_diag.
    + rewrite nth_set_neq by auto.
      destruct (Nat.leb_spec (S i) j), (Nat.leb_spec i j), (Nat.ltb_spec j (S i + length t)), (Nat.ltb_spec j (i + S (length t)));
        cbn [andb]; try lia; auto.
      replace (j - i) with (S (j - S i)) by lia. reflexivity.
Qed.

Lemma fill_words_ok a b v ws : a <= b -> b <= length ws ->
  exists ws', fill_words a b v ws = Ret ws' /\ length ws' = length ws /\
    forall j, nth j ws' 0%N = if (a <=? j) && (j <? b) then v else nth j ws 0%N.
Proof.
  intros Hab Hb. unfold fill_words. destruct (Nat.ltb_spec b a); [lia|].
  assert (X : forall n, n <= b - a -> exists ws', fold_left (fun o i => bind o (store i v)) (seq a n) (Ret ws) = Ret ws' /\
    length ws' = length ws /\ forall j, nth j ws' 0%N = if (a <=? j) && (j <? a + n) then v else nth j ws 0%N).
  { induction n; intros Hn.
    - exists ws. split; [auto|]. split; [auto|]. intros j. destruct (Nat.leb_spec a j), (Nat.ltb_spec j (a + 0)); cbn [andb]; auto; lia.
    - destruct IHn as (w1 & E & L & W); [lia|]. rewrite seq_S, fold_left_app, E. cbn [fold_left bind].
      rewrite store_ok by lia. eexists. split; [reflexivity|]. rewrite set_length. split; [auto|]. intros j.
      destruct (Nat.eq_dec j (a + n)) as [->|Hne].
      + rewrite nth_set_eq by lia. destruct (Nat.leb_spec a (a + n)), (Nat.ltb_spec (a + n) (a + S n)); try lia; auto.
      + rewrite nth_set_neq by auto. rewrite W.
        destruct (Nat.leb_spec a j), (Nat.ltb_spec j (a + n)), (Nat.ltb_spec j (a + S n)); cbn [andb]; auto; lia. }
  destruct (X (b - a) ltac:(lia)) as (ws' & E & L & W). exists ws'. split; [exact E|]. split; [exact L|]. intros j. rewrite W.
  replace (a + (b - a)) with b by lia. reflexivity.
Qed.

(** Everything about a call of fnt_serialize. *)
Lemma serialize_small ps ws : length ws < 2 + length ps -> fnt_serialize ps ws = Ret ((-1)%Z, ws).
Proof. intros H. unfold fnt_serialize. apply Nat.ltb_lt in H. now rewrite H. Qed.

Lemma serialize_exact ps ws : length ws = 2 + length ps -> fnt_serialize ps ws = Ub.
Proof.
  intros H. unfold fnt_serialize. destruct (Nat.ltb_spec (length ws) (2 + length ps)); [lia|].
  rewrite store_ok by lia. cbn [bind].
  destruct (store_locations_ok ps 2 (set ws 0 (htonl FNT1))) as (w2 & E2 & L2 & _); [rewrite set_length; lia|].
  rewrite E2. cbn [bind]. rewrite set_length in L2. rewrite store_ok by lia. cbn [bind].
  unfold fill_words. destruct (Nat.ltb_spec (length ws - 1) (2 + length ps)); [reflexivity|lia].
Qed.

Lemma serialize_fits ps ws : 2 + length ps < length ws -> exists ws', fnt_serialize ps ws = Ret (0%Z, ws') /\
  length ws' = length ws /\
  forall j, nth j ws' 0%N =
    if j =? 0 then htonl FNT1 else if j =? 1 then htonl (N.of_nat (length ps))
    else if j <? 2 + length ps then htonl (wrap 32 (fst (nth (j - 2) ps (0, 0)%N)))
    else if j <? length ws - 1 then 0%N else nth j ws 0%N.
Proof.
  intros H. unfold fnt_serialize. destruct (Nat.ltb_spec (length ws) (2 + length ps)); [lia|].
  rewrite store_ok by lia. cbn [bind].
  destruct (store_locations_ok ps 2 (set ws 0 (htonl FNT1))) as (w2 & E2 & L2 & W2); [rewrite set_length; lia|].
  rewrite E2. cbn [bind]. rewrite set_length in L2. rewrite store_ok by lia. cbn [bind].
  destruct (fill_words_ok (2 + length ps) (length ws - 1) (htonl 0) (set w2 1 (htonl (N.of_nat (2 + length ps - 2)))))
    as (w4 & E4 & L4 & W4); [lia|rewrite set_length; lia|].
  rewrite E4. cbn [bind]. exists w4. split; [reflexivity|]. rewrite set_length in L4. split; [lia|]. intros j. rewrite W4.
  change (htonl 0) with 0%N.
  destruct (Nat.eqb_spec j 0) as [->|Hj0].
  { destruct (Nat.leb_spec (2 + length ps) 0); [lia|]. cbn [andb]. rewrite nth_set_neq by lia. rewrite W2. cbn [Nat.leb andb].
    rewrite nth_set_eq by lia. reflexivity. }
  destruct (Nat.eqb_spec j 1) as [->|Hj1].
  { destruct (Nat.leb_spec (2 + length ps) 1); [lia|]. cbn [andb]. rewrite nth_set_eq by lia. do 2 f_equal. lia. }
  rewrite nth_set_neq by auto. rewrite W2, nth_set_neq by auto.
  destruct (Nat.ltb_spec j (2 + length ps)), (Nat.leb_spec (2 + length ps) j), (Nat.leb_spec 2 j), (Nat.ltb_spec j (length ws - 1));
    cbn [andb]; try lia; auto.
Qed.

(** ** Reading *)

Lemma read_locations_ok rest : forall cnt, (cnt <= N.of_nat (length rest))%N ->
  read_locations cnt rest = Ret (map (fun v => (htonl v, OOR_MARK)) (firstn (N.to_nat cnt) rest)).
Proof.
  induction rest as [|v t IH]; intros cnt H; cbn [read_locations length] in *.
  - assert (cnt = 0%N) by lia. subst. reflexivity.
  - destruct (N.eqb_spec cnt 0) as [->|Hne]; [reflexivity|].
    rewrite IH by lia. cbn [bind]. replace (N.to_nat cnt) with (S (N.to_nat (cnt - 1))) by lia. reflexivity.
Qed.

Lemma read_locations_ub rest : forall cnt, (N.of_nat (length rest) < cnt)%N -> read_locations cnt rest = Ub.
Proof.
  induction rest as [|v t IH]; intros cnt H; cbn [read_locations length] in *.
  - destruct (N.eqb_spec cnt 0); [lia|reflexivity].
  - destruct (N.eqb_spec cnt 0); [lia|]. rewrite IH by lia. reflexivity.
Qed.

(** Exactly when fnt_deserialize leaves the array. *)
Lemma deserialize_ub ps ws : (N.of_nat (length ws) < 2 ^ 32)%N ->
  fnt_deserialize ps ws = Ub <->
  2 <= length ws /\ htonl (nth 0 ws 0%N) = FNT1 /\ (2 ^ 32 - 2 <= htonl (nth 1 ws 0%N))%N.
Proof.
  intros Hn. destruct ws as [|magic [|count rest]]; [split; [discriminate|cbn; lia]..|].
  unfold fnt_deserialize. cbn [nth]. destruct (N.eqb_spec (htonl magic) FNT1) as [Em|Em]; cbn [negb]; [|split; [discriminate|tauto]].
  pose proof (htonl_lt count) as Hc. set (cnt := htonl count) in *. set (n := length (magic :: count :: rest)) in *.
  assert (Ln : length rest = n - 2) by (unfold n; cbn; lia). assert (2 <= n) by (unfold n; cbn; lia).
  destruct (N.ltb_spec cnt (2 ^ 32 - 2)) as [Hs|Hs].
  - assert (Ew : wrap 32 (2 + cnt) = (2 + cnt)%N) by (apply N.mod_small; lia). rewrite Ew.
    destruct (N.ltb_spec (N.of_nat n) (2 + cnt)); [split; [discriminate|lia]|].
    rewrite read_locations_ok by lia. split; [discriminate|lia].
  - assert (Ew : wrap 32 (2 + cnt) = (2 + cnt - 2 ^ 32)%N).
    { unfold wrap. symmetry. apply N.mod_unique with 1%N; [lia|]. change (N.pow 2 32) with (2 ^ 32)%N. lia. }
    rewrite Ew. destruct (N.ltb_spec (N.of_nat n) (2 + cnt - 2 ^ 32)).
    { exfalso. lia. }
    rewrite read_locations_ub by lia. cbn [bind]. split; auto.
Qed.

(** Results of the other calls. *)
Lemma deserialize_bad ps ws : (N.of_nat (length ws) < 2 ^ 32)%N ->
  length ws < 2 \/ htonl (nth 0 ws 0%N) <> FNT1 \/
    (htonl (nth 1 ws 0%N) < 2 ^ 32 - 2)%N /\ (N.of_nat (length ws) < 2 + htonl (nth 1 ws 0%N))%N ->
  fnt_deserialize ps ws = Ret ((-1)%Z, ps).
Proof.
  intros Hn. destruct ws as [|magic [|count rest]]; [reflexivity..|]. cbn [nth]. unfold fnt_deserialize.
  destruct (N.eqb_spec (htonl magic) FNT1) as [Em|Em]; cbn [negb]; [|reflexivity].
  intros [H|[H|[H1 H2]]]; [cbn in H; lia|contradiction|].
  unfold wrap. rewrite (N.mod_small (2 + htonl count)) by lia. apply N.ltb_lt in H2. now rewrite H2.
Qed.

Lemma deserialize_good ps ws : 2 <= length ws -> htonl (nth 0 ws 0%N) = FNT1 ->
  (2 + htonl (nth 1 ws 0%N) <= N.of_nat (length ws))%N -> (N.of_nat (length ws) < 2 ^ 32)%N ->
  fnt_deserialize ps ws = Ret (0%Z, ps ++ map (fun v => (htonl v, OOR_MARK)) (firstn (N.to_nat (htonl (nth 1 ws 0%N))) (skipn 2 ws))).
Proof.
  intros H2 Hm Hc Hn. destruct ws as [|magic [|count rest]]; [cbn in H2; lia..|]. cbn [nth skipn] in *. unfold fnt_deserialize.
  rewrite Hm, N.eqb_refl. cbn [negb]. unfold wrap. rewrite (N.mod_small (2 + htonl count)) by lia.
  destruct (N.ltb_spec (N.of_nat (length (magic :: count :: rest))) (2 + htonl count)); [lia|].
  rewrite read_locations_ok by (cbn [length] in Hc; lia). reflexivity.
Qed.

(** Round trip; locations are reduced modulo 2^32 and markers become 1. *)
Lemma serialize_deserialize ps ws ps0 : 2 + length ps < length ws -> (N.of_nat (length ws) < 2 ^ 32)%N ->
  exists ws', fnt_serialize ps ws = Ret (0%Z, ws') /\ length ws' = length ws /\
    fnt_deserialize ps0 ws' = Ret (0%Z, ps0 ++ map (fun p => (wrap 32 (fst p), OOR_MARK)) ps).
Proof.
  intros H Hn. destruct (serialize_fits ps ws H) as (ws' & E & L & W). exists ws'. split; [exact E|]. split; [exact L|].
  assert (E0 : htonl (nth 0 ws' 0%N) = FNT1). { rewrite W. apply htonl_htonl. reflexivity. }
  assert (E1 : htonl (nth 1 ws' 0%N) = N.of_nat (length ps)). { rewrite W. apply htonl_htonl. lia. }
  rewrite deserialize_good; [|lia|exact E0|rewrite E1; lia|lia]. do 2 f_equal. rewrite E1, Nat2N.id. f_equal.
  apply (list_ext _ (0, 0)%N).
  - rewrite !map_length, firstn_length, skipn_length. lia.
  - rewrite map_length, firstn_length, skipn_length. intros i Hi.
    rewrite (nth_indep _ _ (htonl 0%N, OOR_MARK)) by (rewrite map_length, firstn_length, skipn_length; lia).
    rewrite (map_nth (fun v => (htonl v, OOR_MARK))), nth_firstn, nth_skipn.
    destruct (Nat.ltb_spec i (length ps)); [|lia].
    rewrite (nth_indep (map _ ps) _ ((fun p : N * N => (wrap 32 (fst p), OOR_MARK)) (0, 0)%N)) by (rewrite map_length; lia).
    rewrite (map_nth (fun p : N * N => (wrap 32 (fst p), OOR_MARK))). f_equal. rewrite W.
    destruct (Nat.eqb_spec (2 + i) 0), (Nat.eqb_spec (2 + i) 1), (Nat.ltb_spec (2 + i) (2 + length ps)); try lia.
    rewrite htonl_htonl by (apply N.mod_lt; discriminate). do 2 f_equal. f_equal. lia.
Qed.

(** ** The header as bytes *)
Lemma le32_bytes v : le32 v = bytes_of_word 4 v.
Proof.
  apply (list_ext _ 0%N); [reflexivity|]. cbn [le32 length]. intros i Hi.
  rewrite bytes_of_word_nth by exact Hi. destruct i as [|[|[|[|]]]]; try lia; cbn [le32 nth].
  - change (256 ^ N.of_nat 0)%N with 1%N. now rewrite N.div_1_r.
  - reflexivity.
  - reflexivity.
  - reflexivity.
Qed.

Lemma le32_htonl v : le32 (htonl v) = be32 v.
Proof.
  rewrite le32_bytes. unfold htonl. set (l := rev (bytes_of_word 4 v)).
  assert (Hl : length l = 4) by (unfold l; now rewrite rev_length, bytes_of_word_length).
  replace (bytes_of_word 4 (word_of_bytes l)) with l.
  - unfold l. rewrite <- le32_bytes. reflexivity.
  - rewrite <- Hl. symmetry. apply bytes_word. unfold l. apply Forall_rev, bytes_of_word_bytes.
Qed.

Lemma nth_last (l : list N) : nth (length l - 1) l 0%N = last l 0%N.
Proof.
  induction l as [|a [|b t] IH]; [reflexivity..|]. change (last (a :: b :: t) 0%N) with (last (b :: t) 0%N). rewrite <- IH.
  cbn [length]. replace (S (S (length t)) - 1) with (S (S (length t) - 1)) by lia. reflexivity.
Qed.

Lemma serialize_words ps ws : 2 + length ps < length ws -> exists ws', fnt_serialize ps ws = Ret (0%Z, ws') /\
  ws' = htonl FNT1 :: htonl (N.of_nat (length ps)) :: map (fun p => htonl (wrap 32 (fst p))) ps ++
        repeat 0%N (length ws - 3 - length ps) ++ [last ws 0%N].
Proof.
  intros H. destruct (serialize_fits ps ws H) as (ws' & E & L & W). exists ws'. split; [exact E|].
  apply (list_ext _ 0%N).
  - cbn [length]. rewrite !app_length, map_length, repeat_length. cbn [length]. lia.
  - intros i Hi. rewrite W. destruct i as [|[|i]]; [reflexivity..|]. cbn [Nat.eqb nth].
    destruct (Nat.ltb_spec (S (S i)) (2 + length ps)).
    + rewrite app_nth1 by (rewrite map_length; lia).
      rewrite (nth_indep _ _ (htonl (wrap 32 (fst (0, 0)%N)))) by (rewrite map_length; lia).
      rewrite (map_nth (fun p : N * N => htonl (wrap 32 (fst p)))). do 3 f_equal. f_equal. lia.
    + rewrite app_nth2, map_length by (rewrite map_length; lia).
      destruct (Nat.ltb_spec (S (S i)) (length ws - 1)).
      * rewrite app_nth1 by (rewrite repeat_length; lia). now rewrite nth_repeat.
      * rewrite app_nth2, repeat_length by (rewrite repeat_length; lia).
        replace (i - length ps - (length ws - 3 - length ps)) with 0 by lia. cbn [nth].
        replace (S (S i)) with (length ws - 1) by lia. apply nth_last.
Qed.

Lemma memory_app a b : memory (a ++ b) = memory a ++ memory b.
Proof. apply flat_map_app. Qed.

Lemma memory_repeat n : memory (repeat 0%N n) = repeat 0%N (4 * n).
Proof.
  induction n; [reflexivity|]. replace (4 * S n) with (4 + 4 * n) by lia. rewrite repeat_app, <- IHn. reflexivity.
Qed.

Lemma memory_map f l : memory (map (fun p : N * N => htonl (f p)) l) = flat_map be32 (map f l).
Proof. induction l as [|a t IH]; [reflexivity|]. cbn [map memory flat_map] in *. rewrite le32_htonl. f_equal. exact IH. Qed.

Lemma serialize_memory ps ws : 2 + length ps < length ws -> exists ws', fnt_serialize ps ws = Ret (0%Z, ws') /\
  memory ws' = header (map (fun p => fst p mod 2 ^ 32)%N ps) ++ repeat 0%N (4 * (length ws - 3 - length ps)) ++ le32 (last ws 0%N).
Proof.
  intros H. destruct (serialize_words ps ws H) as (ws' & E & W). exists ws'. split; [exact E|]. rewrite W. unfold header.
  rewrite map_length, <- !app_assoc. change (magic) with (be32 FNT1). rewrite <- (memory_map (fun p => fst p mod 2 ^ 32)%N).
  cbn [memory flat_map]. rewrite !le32_htonl. f_equal. f_equal.
  change (flat_map le32 ?l) with (memory l). rewrite memory_app, memory_app, memory_repeat. cbn [memory flat_map].
  rewrite app_nil_r. reflexivity.
Qed.

Lemma htonl_net v : htonl v = net_value v.
Proof.
  unfold htonl, net_value. rewrite le32_bytes. set (l := bytes_of_word 4 v).
  assert (Hl : length l = 4) by apply bytes_of_word_length.
  destruct l as [|a [|b [|c [|d [|]]]]]; try discriminate Hl. unfold be_value. cbn [rev app fold_left word_of_bytes]. lia.
Qed.

Lemma net_magic v : le32 v = magic <-> htonl v = FNT1.
Proof.
  split; intros H.
  - rewrite htonl_net. unfold net_value. now rewrite H.
  - rewrite le32_bytes. unfold htonl in H. set (l := bytes_of_word 4 v) in *.
    assert (Hl : length (rev l) = 4) by (unfold l; now rewrite rev_length, bytes_of_word_length).
    assert (E : bytes_of_word 4 (word_of_bytes (rev l)) = rev l).
    { rewrite <- Hl. apply bytes_word. unfold l. apply Forall_rev, bytes_of_word_bytes. }
    rewrite H in E. rewrite <- (rev_involutive l), <- E. reflexivity.
Qed.
