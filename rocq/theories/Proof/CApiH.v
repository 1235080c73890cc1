(** Headers in memory. *)
From Coq Require Import List NArith ZArith Arith Bool Lia.
From Verif.Model Require Import Common Arith Ring Fft2n Radix2 Poly Props Bytes Fnt Blocks Header CApi.
From Verif.Spec Require Import Blocks Header Session CApi.
From Verif.Proof Require Import ListP BytesP HeaderP CApiP.
Import ListNotations.
Open Scope nat_scope.

Lemma metadata_header block : metadata_size block = header_size block.
Proof. unfold metadata_size, header_size. lia. Qed.

Lemma header_words block : header_size block / 4 = 16 + N.to_nat (N.of_nat block / 65536) /\ header_size block = 4 * (header_size block / 4).
Proof.
  unfold header_size. set (a := N.to_nat _). rewrite (Nat.mul_comm 4), Nat.div_mul by lia. lia.
Qed.

Lemma unpack_memory ws : unpack_buf 4 ws = memory ws.
Proof. unfold unpack_buf, memory. induction ws as [|a l IH]; cbn [flat_map]; [reflexivity|]. now rewrite IH, le32_bytes. Qed.

Lemma pack_unpack4 els : (forall v, In v els -> (v < 2 ^ 32)%N) -> pack_buf 4 (length els) (unpack_buf 4 els) = els.
Proof.
  intros H. unfold pack_buf. induction els as [|a l IH]; [reflexivity|].
  cbn [length seq map unpack_buf flat_map]. f_equal.
  - unfold slice. cbn [Nat.mul skipn]. rewrite firstn_app, bytes_of_word_length, Nat.sub_diag, firstn_O, app_nil_r, firstn_all2
      by (rewrite bytes_of_word_length; lia). rewrite word_bytes. apply N.mod_small, H. now left.
  - etransitivity; [|apply IH; intros; apply H; now right]. rewrite <- seq_shift, map_map. apply map_ext. intros i. reflexivity.
Qed.

Lemma unpack_length4 els : length (unpack_buf 4 els) = 4 * length els.
Proof. unfold unpack_buf. induction els as [|a l IH]; [reflexivity|]. cbn [flat_map]. rewrite app_length, bytes_of_word_length, IH. cbn. lia. Qed.

Lemma unpack_bytes4 els : all_bytes (unpack_buf 4 els).
Proof.
  apply Forall_forall. intros b Hb. unfold unpack_buf in Hb. apply in_flat_map in Hb. destruct Hb as (v & _ & Hb).
  revert b Hb. apply Forall_forall. apply bytes_of_word_bytes.
Qed.

Section At.
Variables (block : nat) (p : props) (b : nat) (m : cmem).
Let md := header_size block.
Let buf := nth b m [].
Hypothesis Lb : md <= length buf.
Hypothesis Bb : all_bytes buf.

Lemma head_words : length (pack_buf 4 (md / 4) (firstn md buf)) = 3 + room block.
Proof. unfold pack_buf. rewrite map_length, seq_length. destruct (header_words block) as [E _]. unfold md. rewrite E. unfold room. reflexivity. Qed.

Lemma serialize_at_small : room block + 1 < length p -> serialize_at md p b m = Ret ((-1)%Z, m).
Proof.
  intros H. unfold serialize_at, get. fold buf. destruct (Nat.ltb_spec (length buf) md); [lia|].
  rewrite serialize_small by (rewrite head_words; lia). cbn [bind fst snd]. f_equal. f_equal.
  assert (X : unpack_buf 4 (pack_buf 4 (md / 4) (firstn md buf)) ++ skipn md buf = buf).
  { transitivity (firstn md buf ++ skipn md buf); [|apply firstn_skipn]. f_equal.
    pose proof (words_then_self 4 (firstn md buf) (md / 4) (firstn md buf)) as E. rewrite firstn_skipn in E. unfold words_then in E.
    destruct (header_words block) as [_ Em]. fold md in Em. rewrite (skipn_all2 (n := md / 4 * 4)), app_nil_r in E by (rewrite firstn_length; lia).
    unfold unpack_buf, pack_buf. rewrite flat_map_concat_map, map_map, <- flat_map_concat_map. apply E.
    - apply Forall_forall. intros v Hv. revert v Hv. apply Forall_forall. rewrite <- (firstn_skipn md buf) in Bb. apply Forall_app in Bb. apply Bb.
    - rewrite firstn_length. lia. }
  rewrite X. clear. unfold buf. apply (list_ext _ []); [apply set_length|]. intros i Hi. destruct (Nat.eq_dec i b) as [->|Hn].
  - apply nth_set_eq. now rewrite set_length in Hi.
  - apply nth_set_neq. auto.
Qed.

Lemma serialize_at_exact : length p = room block + 1 -> serialize_at md p b m = Ub.
Proof.
  intros H. unfold serialize_at, get. fold buf. destruct (Nat.ltb_spec (length buf) md); [lia|].
  rewrite serialize_exact by (rewrite head_words; lia). reflexivity.
Qed.

Lemma serialize_at_fits : length p <= room block -> exists h, serialize_at md p b m = Ret (0%Z, set m b (h ++ skipn md buf)) /\
  h = header_area block (map (fun r => fst r mod 2 ^ 32)%N p) (firstn md buf) /\ length h = md /\ all_bytes h /\
  ((N.of_nat (md / 4) < 2 ^ 32)%N -> fnt_deserialize [] (pack_buf 4 (md / 4) h) = Ret (0%Z, map (fun r => (fst r mod 2 ^ 32, OOR_MARK)%N) p)).
Proof.
  intros H. unfold serialize_at, get. fold buf. destruct (Nat.ltb_spec (length buf) md); [lia|].
  set (ws := pack_buf 4 (md / 4) (firstn md buf)). assert (Lw : length ws = 3 + room block) by apply head_words.
  destruct (serialize_memory p ws ltac:(lia)) as (ws' & E & Em). rewrite E. cbn [bind fst snd]. exists (unpack_buf 4 ws'). split; [reflexivity|].
  destruct (serialize_words p ws ltac:(lia)) as (ws2 & E2 & Ew). rewrite E in E2. injection E2 as <-.
  assert (L' : length ws' = md / 4).
  { rewrite Ew. cbn [length]. rewrite !app_length, map_length, repeat_length. cbn [length]. rewrite Lw. destruct (header_words block) as [X _]. fold md in X. rewrite X. unfold room in *. lia. }
  destruct (header_words block) as [X1 X2]. fold md in X1, X2.
  split; [|split; [rewrite unpack_length4, L'; lia|split; [apply unpack_bytes4|]]].
  - rewrite unpack_memory, Em. unfold header_area. fold md. f_equal. rewrite map_length. f_equal.
    + f_equal. rewrite Lw, X2, X1. unfold room. lia.
    + rewrite le32_bytes, <- nth_last, Lw. unfold ws, pack_buf. rewrite nth_map_seq by (rewrite X1; unfold room; lia).
      replace (md - 4) with ((3 + room block - 1) * 4) by (rewrite X2, X1; unfold room; lia).
      unfold slice. set (a := (3 + room block - 1) * 4). assert (La : length (skipn a (firstn md buf)) = 4).
      { rewrite skipn_length, firstn_length. unfold a. rewrite Nat.min_l by lia. rewrite X2, X1. unfold room. lia. }
      rewrite (firstn_all2 (n := 4)) by lia. rewrite <- La. apply bytes_word.
      rewrite <- (firstn_skipn md buf) in Bb. apply Forall_app in Bb. destruct Bb as [Bb' _].
      rewrite <- (firstn_skipn a) in Bb'. apply Forall_app in Bb'. apply Bb'.
  - intros Hn. rewrite <- L' at 1. rewrite pack_unpack4.
    + destruct (serialize_deserialize p ws [] ltac:(lia)) as (ws3 & E3 & _ & D).
      * rewrite Lw. replace (3 + room block) with (md / 4) by (rewrite X1; unfold room; lia). exact Hn.
      * rewrite E in E3. injection E3 as <-. exact D.
    + intros v Hv. rewrite Ew in Hv. destruct Hv as [<-|[<-|Hv]]; try apply htonl_lt. apply in_app_or in Hv. destruct Hv as [Hv|Hv].
      * apply in_map_iff in Hv. destruct Hv as (r & <- & _). apply htonl_lt.
      * apply in_app_or in Hv. destruct Hv as [Hv|[<-|[]]]; [apply repeat_spec in Hv; subst; reflexivity|].
        rewrite <- nth_last. unfold ws, pack_buf. rewrite map_length, seq_length, nth_map_seq by lia.
        change (2 ^ 32)%N with (256 ^ N.of_nat 4)%N.
        apply (word_at_lt 4 (firstn md buf)). rewrite <- (firstn_skipn md buf) in Bb. apply Forall_app in Bb. apply Bb.
Qed.
End At.

(** [h] is a header with the locations of [p] over the old header [old]; it is read back. *)
Definition good_head (block : nat) (p : props) (old h : list N) : Prop :=
  h = header_area block (map (fun r => fst r mod 2 ^ 32)%N p) old /\ length h = header_size block /\ all_bytes h /\
  ((N.of_nat (header_size block / 4) < 2 ^ 32)%N ->
   fnt_deserialize [] (pack_buf 4 (header_size block / 4) h) = Ret (0%Z, map (fun r => (fst r mod 2 ^ 32, OOR_MARK)%N) p)).

Definition sized (block : nat) (m : cmem) (b : nat) : Prop :=
  b < length m /\ header_size block <= length (nth b m []) /\ all_bytes (nth b m []).

Lemma sized_set block m b h b' : sized block m b -> length h = header_size block -> all_bytes h -> sized block m b' ->
  sized block (set m b (h ++ skipn (header_size block) (nth b m []))) b'.
Proof.
  intros (S1 & S2 & S3) Lh Bh (T1 & T2 & T3). split; [now rewrite set_length|]. destruct (Nat.eq_dec b' b) as [->|Hn].
  - rewrite nth_set_eq by auto. rewrite app_length, Lh. split; [lia|]. apply Forall_app. split; [exact Bh|].
    unfold all_bytes in S3. rewrite <- (firstn_skipn (header_size block)) in S3. apply Forall_app in S3. apply S3.
  - rewrite nth_set_neq by auto. auto.
Qed.

Lemma serialize_all_fits block l : forall m, (forall b p, In (b, p) l -> sized block m b /\ length p <= room block) -> NoDup (map fst l) ->
  exists m', serialize_all (header_size block) l m = Ret (0%Z, m') /\ length m' = length m /\
   (forall b p, In (b, p) l -> exists h, good_head block p (firstn (header_size block) (nth b m [])) h /\
       nth b m' [] = h ++ skipn (header_size block) (nth b m [])) /\
   (forall b, ~ In b (map fst l) -> nth b m' [] = nth b m []).
Proof.
  induction l as [|[b p] l IH]; intros m H ND.
  - exists m. split; [reflexivity|]. split; [auto|]. split; [intros ? ? []|auto].
  - cbn [serialize_all]. destruct (H b p (or_introl eq_refl)) as [S Lp]. pose proof S as (S1 & S2 & S3).
    destruct (serialize_at_fits block p b m S2 S3 Lp) as (h & E & Hh). rewrite E. cbn [bind fst snd].
    change ((0 =? -1)%Z) with false. cbn iota. cbn [map fst] in ND. inversion ND as [|? ? N1 N2]; subst.
    destruct (IH (set m b (h ++ skipn (header_size block) (nth b m [])))) as (m' & E' & L' & A & B); [|exact N2|].
    { intros b' p' Hin. destruct (H b' p' (or_intror Hin)) as [S' L']. split; [|exact L']. apply sized_set; auto; apply Hh. }
    exists m'. split; [exact E'|]. split; [now rewrite L', set_length|]. split.
    + intros b' p' [Hin|Hin].
      * injection Hin as <- <-. exists h. split; [exact Hh|]. rewrite B by auto. now rewrite nth_set_eq.
      * assert (Hne : b' <> b). { intros ->. apply N1. apply in_map_iff. exists (b, p'). auto. }
        destruct (A b' p' Hin) as (h' & Hh' & E2). rewrite nth_set_neq in Hh', E2 by auto. exists h'. auto.
    + intros b' Hb. cbn [map fst In] in Hb. rewrite B by tauto. apply nth_set_neq. intros ->. tauto.
Qed.

(** The first header that does not fit decides. *)
Lemma serialize_all_stop block l1 b p l2 : forall m, (forall b' p', In (b', p') l1 -> sized block m b' /\ length p' <= room block) ->
  sized block m b ->
  (length p = room block + 1 -> serialize_all (header_size block) (l1 ++ (b, p) :: l2) m = Ub) /\
  (room block + 1 < length p -> exists m', serialize_all (header_size block) (l1 ++ (b, p) :: l2) m = Ret ((-1)%Z, m') /\ length m' = length m).
Proof.
  induction l1 as [|[b1 p1] l1 IH]; intros m H S.
  - pose proof S as (S1 & S2 & S3). cbn [app serialize_all]. split; intros Hp.
    + rewrite (serialize_at_exact block p b m S2 Hp). reflexivity.
    + rewrite (serialize_at_small block p b m S2 S3 Hp). cbn. exists m. auto.
  - cbn [app serialize_all]. destruct (H b1 p1 (or_introl eq_refl)) as [T Lp]. pose proof T as (T1 & T2 & T3).
    destruct (serialize_at_fits block p1 b1 m T2 T3 Lp) as (h & E & Hh). rewrite E. cbn [bind fst snd].
    change ((0 =? -1)%Z) with false. cbn iota.
    destruct (IH (set m b1 (h ++ skipn (header_size block) (nth b1 m [])))) as [A B].
    + intros b' p' Hin. destruct (H b' p' (or_intror Hin)) as [S' L']. split; [|exact L']. apply sized_set; auto; apply Hh.
    + apply sized_set; auto; apply Hh.
    + split; [exact A|]. intros Hp. destruct (B Hp) as (m' & E' & L'). exists m'. rewrite set_length in L'. auto.
Qed.

Lemma first_bad {A} (P : A -> bool) l : forallb P l = false -> exists l1 a l2, l = l1 ++ a :: l2 /\ (forall x, In x l1 -> P x = true) /\ P a = false.
Proof.
  induction l as [|x l IH]; cbn [forallb]; [discriminate|]. destruct (P x) eqn:E; cbn [andb]; intros H.
  - destruct (IH H) as (l1 & a & l2 & -> & Q & R). exists (x :: l1), a, l2. split; [reflexivity|]. split; [|exact R].
    intros y [<-|Hy]; auto.
  - exists [], x, l. split; [reflexivity|]. split; [intros ? []|exact E].
Qed.

(** Result 0: all the headers fit. *)
Lemma serialize_all_zero block l m m' : (forall b p, In (b, p) l -> sized block m b) ->
  serialize_all (header_size block) l m = Ret (0%Z, m') -> forall b p, In (b, p) l -> length p <= room block.
Proof.
  intros H E. destruct (forallb (fun bp => length (snd bp) <=? room block) l) eqn:F.
  - rewrite forallb_forall in F. intros b p Hin. specialize (F _ Hin). cbn [snd] in F. now apply Nat.leb_le.
  - exfalso. apply first_bad in F. destruct F as (l1 & [b p] & l2 & -> & Q & R). cbn [snd] in R. apply Nat.leb_gt in R.
    destruct (serialize_all_stop block l1 b p l2 m) as [A B].
    + intros b' p' Hin. split; [apply (H b' p'), in_or_app; auto|]. apply Q in Hin. now apply Nat.leb_le.
    + apply (H b p), in_or_app. right. now left.
    + destruct (Nat.eq_dec (length p) (room block + 1)) as [Ep|Ep]; [rewrite (A Ep) in E; discriminate|].
      assert (Hb : room block + 1 < length p) by lia. destruct (B Hb) as (m2 & E2 & _). rewrite E2 in E. discriminate.
Qed.

Lemma deserialize_all_ok md missing m (R : nat -> props) l : forall ps : list props,
  (forall q p, In (q, p) l -> q < length ps /\ (nth p missing true = false ->
     md <= length (nth p m []) /\ fnt_deserialize [] (pack_buf 4 (md / 4) (firstn md (nth p m []))) = Ret (0%Z, R q))) ->
  NoDup (map fst l) ->
  exists ps', deserialize_all md l missing m ps = Ret (Some ps') /\ length ps' = length ps /\
    (forall q p, In (q, p) l -> nth p missing true = false -> nth q ps' [] = R q).
Proof.
  induction l as [|[q p] l IH]; intros ps H ND.
  - exists ps. split; [reflexivity|]. split; [auto|]. intros ? ? [].
  - cbn [deserialize_all]. unfold get. cbn [map fst] in ND. inversion ND as [|? ? N1 N2]; subst.
    destruct (H q p (or_introl eq_refl)) as [Hq Hd]. destruct (nth p missing true) eqn:Mi.
    + destruct (IH ps) as (ps' & E & L & A); [intros; apply H; now right|exact N2|]. exists ps'. split; [exact E|]. split; [exact L|].
      intros q' p' [X|Hin]; [injection X as <- <-; congruence|]. now apply A.
    + destruct (Hd eq_refl) as [Lp D]. unfold deserialize_at, get. destruct (Nat.ltb_spec (length (nth p m [])) md); [lia|].
      rewrite D. cbn [bind fst snd]. change ((0 =? -1)%Z) with false. cbn iota.
      destruct (IH (set ps q (R q))) as (ps' & E & L & A); [intros q' p' Hin; rewrite set_length; apply H; now right|exact N2|].
      exists ps'. split; [exact E|]. split; [now rewrite L, set_length|]. intros q' p' [X|Hin] Mi'.
      * injection X as <- <-. assert (Y : forall l0 ps0 ps1, deserialize_all md l0 missing m ps0 = Ret (Some ps1) -> ~ In q (map fst l0) -> nth q ps1 [] = nth q ps0 []).
        { clear. induction l0 as [|[q0 p0] l0 IH]; intros ps0 ps1 E Hn.
          - cbn in E. injection E as <-. reflexivity.
          - cbn [deserialize_all] in E. cbn [map fst In] in Hn. destruct (get true missing p0).
            + apply IH in E; tauto.
            + destruct (deserialize_at md p0 m) as [|r]; cbn [bind] in E; [discriminate|]. destruct (fst r =? -1)%Z; [discriminate|].
              apply IH in E; [|tauto]. rewrite E. apply nth_set_neq. intros ->. tauto. }
        rewrite (Y _ _ _ E N1). now apply nth_set_eq.
      * now apply (A q' p').
Qed.

(** The last loop of decode. *)
Lemma reset_headers_ok block nps l : forall m, (forall i, In i l -> i < nps) ->
  reset_headers (header_size block) nps l m = serialize_all (header_size block) (map (fun i => (i, [])) l) m.
Proof.
  induction l as [|i l IH]; intros m H; [reflexivity|]. cbn [reset_headers map serialize_all].
  destruct (Nat.leb_spec nps i) as [X|_]; [specialize (H i (or_introl eq_refl)); lia|].
  destruct (serialize_at (header_size block) [] i m) as [|r]; [reflexivity|]. cbn [bind]. destruct (fst r =? -1)%Z; [reflexivity|].
  apply IH. intros j Hj. apply H. now right.
Qed.

Lemma reset_headers_over block nps k : forall m, nps < k -> (forall i, i <= nps -> sized block m i) ->
  reset_headers (header_size block) nps (seq 0 k) m = Ub.
Proof.
  intros m Hk H. replace k with (nps + S (k - nps - 1)) by lia. rewrite seq_app. cbn [seq Nat.add].
  assert (G : forall a n m, (forall i, i <= nps -> sized block m i) -> a + n = nps ->
    reset_headers (header_size block) nps (seq a n ++ nps :: seq (S nps) (k - nps - 1)) m = Ub).
  { clear m H. intros a n. revert a. induction n; intros a m H Ea; cbn [seq app reset_headers].
    - now rewrite Nat.leb_refl.
    - destruct (Nat.leb_spec nps a); [lia|]. pose proof (H a ltac:(lia)) as S. pose proof S as (S1 & S2 & S3).
      destruct (serialize_at_fits block [] a m S2 S3 ltac:(cbn; lia)) as (h & E & Hh). rewrite E. cbn [bind fst snd].
      change ((0 =? -1)%Z) with false. cbn iota. apply IHn; [|lia]. intros i Hi. apply sized_set; auto; apply Hh. }
  apply (G 0 nps m H). lia.
Qed.

Lemma store_all_over wanted pp ws offset copy oc n m : length wanted < n -> store_all wanted pp ws offset copy oc n m = Ub.
Proof.
  intros H. unfold store_all. replace n with (length wanted + S (n - length wanted - 1)) by lia. rewrite seq_app, foldM_app.
  destruct (foldM _ (seq 0 (length wanted)) m) as [|m']; [reflexivity|]. cbn [bind seq foldM Nat.add]. now rewrite Nat.leb_refl.
Qed.
