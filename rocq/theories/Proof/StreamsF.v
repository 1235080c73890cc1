(** Streams of the codes that the constructor makes, and decoding of any fragments. *)
From Coq Require Import List NArith ZArith Arith Bool Lia Permutation.
From Verif.Model Require Import Common Arith Ring Fft2n Radix2 Poly Props Bytes Fnt Blocks Streams.
From Verif.Spec Require Import Modular Code Blocks Widths Session.
From Verif.Proof Require Import ListP Tac BytesP PropsP StreamsL BlocksP FntInst BlocksF.
Import ListNotations.
Open Scope nat_scope.

(** Number of words of a stream of [len] bytes, the last one possibly incomplete. *)
Definition nwords (ws len : nat) : nat := (len + (ws - 1)) / ws.

Lemma nwords_bounds ws len : 0 < ws -> len <= nwords ws len * ws /\ nwords ws len * ws < len + ws.
Proof.
  intros H. unfold nwords. pose proof (Nat.div_mod (len + (ws - 1)) ws ltac:(lia)) as E.
  pose proof (Nat.mod_upper_bound (len + (ws - 1)) ws ltac:(lia)). rewrite (Nat.mul_comm ws) in E. lia.
Qed.

Lemma nwords_exact ws len : 0 < ws -> len mod ws = 0 -> nwords ws len = len / ws /\ len / ws * ws = len.
Proof.
  intros H E. pose proof (Nat.div_mod len ws ltac:(lia)) as D. rewrite E, Nat.add_0_r in D.
  pose proof (nwords_bounds ws len H) as [B1 B2].
  set (n := nwords ws len) in *. set (q := len / ws) in *. split; [nia|lia].
Qed.

Lemma div_le_nwords ws len : 0 < ws -> len / ws <= nwords ws len.
Proof. intros H. unfold nwords. apply Nat.div_le_mono; lia. Qed.

Lemma firstn_seq n : forall a m, firstn n (seq a m) = seq a (Nat.min n m).
Proof. induction n; intros a [|m]; cbn; auto. now rewrite IHn. Qed.

Lemma upto_stream ws f n len : 0 < ws -> len <= n * ws -> firstn len (word_bytes_upto ws f n) = stream_of ws f len.
Proof.
  intros H0 Hl. pose proof (words_then_overwrite ws f n [] H0) as E. unfold words_then, overwrite in E.
  rewrite !skipn_nil, !app_nil_r in E. unfold word_bytes_upto. rewrite E, firstn_map, firstn_seq. unfold stream_of.
  replace (Nat.min len (n * ws)) with len by lia. reflexivity.
Qed.

Lemma nth_zeros n i : nth i (repeat 0%N n) 0%N = 0%N.
Proof. revert i. induction n; intros [|i]; cbn; auto. Qed.

Lemma word_symbol ws blk t : word_at ws blk t = symbol ws blk t.
Proof.
  transitivity (word_at ws (blk ++ repeat 0%N ((t + 1) * ws)) t).
  - unfold word_at, slice. rewrite skipn_app, skipn_zeros, firstn_app, firstn_zeros. symmetry. apply word_of_bytes_zeros.
  - rewrite word_at_symbol by (rewrite app_length, repeat_length; lia). unfold symbol.
    assert (E : forall f g n, (forall i, i < n -> f i = g i) -> sumN f n = sumN g n).
    { intros f g n. induction n; intros X; cbn; [auto|]. rewrite IHn, X; auto. }
    apply E. intros i _. f_equal. destruct (Nat.lt_ge_cases (t * ws + i) (length blk)).
    + now rewrite app_nth1.
    + rewrite app_nth2 by auto. rewrite nth_zeros. symmetry. now apply nth_overflow.
Qed.

Lemma symbol_lt ws blk t : all_bytes blk -> (symbol ws blk t < 256 ^ N.of_nat ws)%N.
Proof. rewrite <- word_symbol. apply word_at_lt. Qed.

Lemma symbol_out ws blk t n : length blk <= n * ws -> n <= t -> symbol ws blk t = 0%N.
Proof.
  intros H Ht. rewrite <- word_symbol. unfold word_at, slice. rewrite skipn_all2, firstn_nil; [reflexivity|nia].
Qed.

(** A block is the stream of its symbols. *)
Lemma stream_self ws blk : 0 < ws -> all_bytes blk -> stream_of ws (symbol ws blk) (length blk) = blk.
Proof.
  intros H0 Hb. set (n := nwords ws (length blk)). pose proof (nwords_bounds ws (length blk) H0) as [B1 B2]. fold n in B1, B2.
  rewrite <- (upto_stream ws _ n) by auto. set (z := blk ++ repeat 0%N (n * ws)).
  assert (Hz : all_bytes z).
  { apply Forall_app. split; [auto|]. apply Forall_forall. intros x Hx. apply repeat_spec in Hx. subst. lia. }
  replace (word_bytes_upto ws (symbol ws blk) n) with (firstn (n * ws) z).
  - rewrite firstn_firstn. replace (Nat.min (length blk) (n * ws)) with (length blk) by lia. unfold z.
    rewrite firstn_app, Nat.sub_diag, firstn_all. cbn. apply app_nil_r.
  - pose proof (words_then_self ws z n [] Hz ltac:(unfold z; rewrite app_length, repeat_length; lia)) as E.
    unfold words_then in E. rewrite !skipn_nil, !app_nil_r in E. rewrite <- E. unfold word_bytes_upto.
    rewrite !flat_map_concat_map. f_equal. apply map_ext. intros t. f_equal. rewrite <- (word_symbol ws blk).
    unfold z, word_at, slice. rewrite skipn_app, skipn_zeros, firstn_app, firstn_zeros. apply word_of_bytes_zeros.
Qed.

Lemma stream_ext ws f g len : 0 < ws -> (forall t, t < nwords ws len -> f t = g t) -> stream_of ws f len = stream_of ws g len.
Proof.
  intros H0 H. unfold stream_of. apply map_ext_in. intros b Hb. apply in_seq in Hb. rewrite H; [auto|].
  pose proof (nwords_bounds ws len H0) as [B1 B2]. apply Nat.div_lt_upper_bound; lia.
Qed.

Lemma stream_length ws f len : length (stream_of ws f len) = len.
Proof. unfold stream_of. now rewrite map_length, seq_length. Qed.

Lemma stream_bytes ws f len : all_bytes (stream_of ws f len).
Proof.
  apply Forall_forall. intros x Hx. unfold stream_of in Hx. apply in_map_iff in Hx. destruct Hx as (b & <- & _).
  apply N.mod_upper_bound. discriminate.
Qed.

(** Full words of a stream, cut to their bytes. *)
Lemma symbol_stream ws f len t : 0 < ws -> (t + 1) * ws <= len ->
  symbol ws (stream_of ws f len) t = (f t mod 256 ^ N.of_nat ws)%N.
Proof.
  intros H0 Ht. set (n := nwords ws len). pose proof (nwords_bounds ws len H0) as [B1 B2]. fold n in B1, B2.
  pose proof (symbol_overwrite ws n f (repeat 0%N (n * ws)) t H0 ltac:(rewrite repeat_length; lia) ltac:(nia)) as E.
  rewrite <- E. unfold symbol.
  assert (X : forall f g n, (forall i, i < n -> f i = g i) -> sumN f n = sumN g n).
  { intros f0 g0 m0. induction m0; intros X; cbn; [auto|]. rewrite IHm0, X; auto. }
  apply X. intros i Hi. f_equal. unfold overwrite. rewrite skipn_all2 by (rewrite repeat_length; lia). rewrite app_nil_r.
  unfold stream_of. rewrite !nth_map_seq by nia. reflexivity.
Qed.

(** Stream written to an empty stream, and the block written over. *)
Lemma stream_overwrite ws f len blk : 0 < ws -> len mod ws = 0 -> length blk = len ->
  overwrite ws (len / ws) f blk = stream_of ws f len.
Proof.
  intros H0 E L. destruct (nwords_exact ws len H0 E) as [_ E2]. unfold overwrite. rewrite E2, skipn_all2 by lia. apply app_nil_r.
Qed.

Section F.
Variables (w : N) (sys : bool) (ws k m : nat).
Hypothesis Hw : fnt_width w ws.
Let h := (256 ^ N.of_nat ws)%N.

Section M.
Variables (pkt n : nat) (cw : (nat -> N) -> nat -> N) (c : fnt).
Hypothesis Hpkt : 0 < pkt.
Hypothesis M : fnt_made w sys ws k m pkt n cw c.

Theorem streams_made data old ps L xe es wc out : blocks k L data -> encoder_buffers c xe es wc out -> length wc = k ->
  length old = n_outs sys k m -> length ps = n_outs sys k m ->
  exists es', encoder_buffers c xe es' wc out /\ encode_streams c xe es wc out data old ps =
    Some (es', map (fun q => nth q old [] ++ stream_of ws (coded ws cw data (position sys k q)) L) (seq 0 (n_outs sys k m)),
          map (fun q => record h (coded ws cw data (position sys k q)) (nwords ws L)) (seq 0 (n_outs sys k m))).
Proof.
  intros Hd (He & Hwc & Ho) Lw Lo Lps. pose proof (ws_pos w ws Hw) as W0.
  destruct (made_parts _ _ _ _ _ _ _ _ _ M) as (CS & En & Esys & E1 & E2 & E3 & E4 & E5 & E6 & E7).
  set (sym := fun j t => symbol ws (nth j data []) t). set (bs := nwords ws L).
  pose proof (nwords_bounds ws L W0) as HL. fold bs in HL.
  assert (Eo : forall q, outs c cw sym q = coded ws cw data (position sys k q)).
  { intros q. unfold outs, cws, coded. rewrite E7. reflexivity. }
  destruct (encode_streams_any c cw CS ltac:(lia) ltac:(lia) E5 sym bs) with (data := data) (L := L) (xe := xe) (old := old)
    (es := es) (wc := wc) (out := out) (ps := ps) as (es' & He' & R); try (rewrite ?E1, ?E2, ?E4, ?E6; assumption); try assumption.
  - rewrite E1, E2. intros j t Hj. apply N.lt_le_incl. apply symbol_lt, (proj2 Hd j Hj).
  - intros j t Ht. destruct (Nat.lt_ge_cases j k).
    + apply symbol_out with bs; [|auto]. rewrite (proj1 (proj2 Hd j H)). lia.
    + unfold sym. rewrite nth_overflow by (rewrite (proj1 Hd); auto). apply symbol_out with 0; cbn; lia.
  - rewrite E2. apply Hd.
  - rewrite E1, E2. intros j Hj. split; [apply (proj2 Hd j Hj)|]. intros t _. apply word_symbol.
  - exists es'. split; [split; [exact He'|split; assumption]|]. rewrite R, E6, E1. f_equal. f_equal; [f_equal|].
    + apply map_ext. intros q. f_equal. rewrite Eo. apply upto_stream; lia.
    + apply map_ext. intros q. rewrite Eo, record_recs. reflexivity.
Qed.

(** ** Fragments actually used *)
Definition used (missing : list bool) : list nat := firstn k (present k m missing).
Definition mask (missing : list bool) : list bool :=
  map (fun i => negb (existsb (Nat.eqb i) (used missing))) (seq 0 (k + m)).
End M.
End F.

Lemma in_existsb l i : existsb (Nat.eqb i) l = true <-> In i l.
Proof.
  rewrite existsb_exists. split.
  - intros (x & Hx & E). apply Nat.eqb_eq in E. now subst.
  - intros H. exists i. split; [auto|]. apply Nat.eqb_refl.
Qed.

Lemma sel_filter P l : NoDup l -> forall n,
  filter (fun i => existsb (Nat.eqb i) (firstn n (filter P l))) l = firstn n (filter P l).
Proof.
  induction 1 as [|a l Hn Hd IH]; intros n; [now rewrite firstn_nil|].
  assert (Hin : forall n x, In x (firstn n (filter P l)) -> In x l).
  { intros n' x Hx. apply (filter_In P). rewrite <- (firstn_skipn n'). apply in_or_app. auto. }
  cbn [filter]. destruct (P a) eqn:Ea.
  - destruct n as [|n].
    + cbn. clear. induction l; cbn; auto.
    + cbn [firstn existsb]. rewrite Nat.eqb_refl. cbn [orb]. f_equal. etransitivity; [|apply IH].
      apply filter_ext_in. intros x Hx. destruct (Nat.eqb_spec x a) as [->|]; [contradiction|reflexivity].
  - destruct (existsb (Nat.eqb a) (firstn n (filter P l))) eqn:E; [|apply IH].
    apply in_existsb in E. apply Hin in E. contradiction.
Qed.

Lemma present_mask k m missing : present k m (mask k m missing) = used k m missing.
Proof.
  transitivity (filter (fun i => existsb (Nat.eqb i) (used k m missing)) (seq 0 (k + m))); [|apply sel_filter, seq_NoDup].
  unfold present at 1. apply filter_ext_in.
  intros i Hi. apply in_seq in Hi. unfold mask. rewrite nth_map_seq by lia. rewrite negb_involutive. reflexivity.
Qed.

Lemma used_in k m missing i : In i (used k m missing) -> i < k + m /\ nth i missing true = false.
Proof.
  intros H. assert (X : In i (present k m missing)).
  { rewrite <- (firstn_skipn k). apply in_or_app. left. exact H. }
  apply filter_In in X. destruct X as [X Y]. apply in_seq in X. apply negb_true_iff in Y. split; [lia|auto].
Qed.

Section G.
Variables (w : N) (sys : bool) (ws k m : nat).
Hypothesis Hw : fnt_width w ws.
Let h := (256 ^ N.of_nat ws)%N.
Variables (n : nat) (cw : (nat -> N) -> nat -> N).

(** Value at position [pos] of the codeword of column [t], as the fragments tell. *)
Definition told (buf par : list (list N)) (ps : list props) (pos t : nat) : N :=
  if sys && (pos <? k) then symbol ws (nth pos buf []) t
  else stored_symbol h ws (nth (if sys then pos - k else pos) par []) (nth (if sys then pos - k else pos) ps []) t.

(** Usable fragments: [L] bytes, records with good places; only those that are used count. *)
Definition usable (missing : list bool) (L : nat) (buf par : list (list N)) (ps : list props) : Prop :=
  k <= length (present k m missing) /\
  (sys = true -> forall j, j < k -> In j (used k m missing) -> length (nth j buf []) = L /\ all_bytes (nth j buf [])) /\
  (forall q, q < n_outs sys k m -> In (position sys k q) (used k m missing) ->
     length (nth q par []) = L /\ all_bytes (nth q par []) /\ good_record (nwords ws L) (nth q ps [])).

(** The columns of data symbols that the fragments in use determine. *)
Definition columns (missing : list bool) (L : nat) (buf par : list (list N)) (ps : list props) (F : nat -> nat -> N) : Prop :=
  (forall j t, j < k -> (F j t <= h)%N) /\ (forall j t, nwords ws L <= t -> F j t = 0%N) /\
  forall pos t, In pos (used k m missing) -> t < nwords ws L -> cw (fun j => F j t) pos = told buf par ps pos t.


Section M.
Variables (pkt : nat) (c : fnt).
Hypothesis Hpkt : 0 < pkt.
Hypothesis M : fnt_made w sys ws k m pkt n cw c.

Lemma told_lt missing L buf par ps pos t : usable missing L buf par ps -> In pos (used k m missing) ->
  (told buf par ps pos t <= h)%N.
Proof.
  intros (_ & U1 & U2) Hin. destruct (used_in k m missing pos Hin) as [Hb _]. unfold told.
  destruct sys eqn:Es; cbn [andb].
  - destruct (Nat.ltb_spec pos k) as [Hk|Hk].
    + apply N.lt_le_incl. apply symbol_lt. apply (U1 eq_refl pos Hk Hin).
    + unfold stored_symbol. destruct (existsb _ _); [lia|]. apply N.lt_le_incl. apply symbol_lt.
      apply (U2 (pos - k)); unfold n_outs, position; [lia|]. replace (k + (pos - k)) with pos by lia. exact Hin.
  - unfold stored_symbol. destruct (existsb _ _); [lia|]. apply N.lt_le_incl. apply symbol_lt. apply (U2 pos); auto.
Qed.

Lemma columns_exist missing L buf par (ps : list props) : usable missing L buf par ps ->
  exists F, columns missing L buf par ps F.
Proof.
  intros U. destruct (made_parts _ _ _ _ _ _ _ _ _ M) as (CS & En & Esys & E1 & E2 & E3 & E4 & E5 & E6 & E7).
  assert (Hf : frags c (used k m missing)).
  { split; [unfold used; rewrite firstn_length, E2; destruct U as [U _]; lia|]. split.
    - apply NoDup_firstn, NoDup_filter, seq_NoDup.
    - intros i Hi. apply used_in in Hi. pose proof (cs_n _ _ CS). lia. }
  destruct (choice_fin (fun _ : nat => 0%N) (fun t col => (forall j, j < k -> (col j <= h)%N) /\
      forall pos, In pos (used k m missing) -> cw col pos = told buf par ps pos t) (nwords ws L) (fun t => t)) as [g Hg].
  { intros t Ht. destruct (cs_onto _ _ CS (used k m missing) (fun i => told buf par ps (nth i (used k m missing) 0) t) Hf) as (col & C1 & C2).
    - intros i Hi. rewrite E5, E1. fold h. pose proof (told_lt missing L buf par ps (nth i (used k m missing) 0) t U) as X.
      assert (In (nth i (used k m missing) 0) (used k m missing)) by (apply nth_In; rewrite (proj1 Hf); lia). specialize (X H). lia.
    - exists col. split.
      + intros j Hj. specialize (C1 j ltac:(lia)). rewrite E5, E1 in C1. fold h in C1. lia.
      + intros pos Hp. destruct (In_nth _ _ 0 Hp) as (i & Hi & <-). apply C2. rewrite <- (proj1 Hf). exact Hi. }
  exists (fun j t => if t <? nwords ws L then g t j else 0%N). split; [|split].
  - intros j t Hj. destruct (Nat.ltb_spec t (nwords ws L)); [now apply Hg|lia].
  - intros j t Ht. destruct (Nat.ltb_spec t (nwords ws L)); [lia|auto].
  - intros pos t Hp Ht. destruct (Nat.ltb_spec t (nwords ws L)); [|lia]. apply Hg; auto.
Qed.

Lemma avail_mask missing : avail_data c (mask k m missing) = avail_data c missing /\ avail_par c (mask k m missing) = avail_par c missing.
Proof.
  destruct (made_parts _ _ _ _ _ _ _ _ _ M) as (CS & En & Esys & E1 & E2 & E3 & E4 & E5 & E6 & E7).
  assert (X : forall mi, avail_data c mi ++ (if c_sys c then map (fun i => c_k c + i) (avail_par c mi) else avail_par c mi) = used k m mi).
  { pose proof (ws_pos w ws Hw). intros mi. rewrite (ids_eq c ltac:(lia) ltac:(lia) E5). unfold ids, used, present. rewrite E2, E3. reflexivity. }
  assert (U : used k m (mask k m missing) = used k m missing).
  { unfold used at 1. rewrite present_mask. unfold used. rewrite firstn_firstn, Nat.min_id. reflexivity. }
  assert (Y : avail_data c (mask k m missing) ++ (if c_sys c then map (fun i => c_k c + i) (avail_par c (mask k m missing)) else avail_par c (mask k m missing)) =
     avail_data c missing ++ (if c_sys c then map (fun i => c_k c + i) (avail_par c missing) else avail_par c missing))
    by (rewrite !X; exact U).
  destruct (c_sys c) eqn:Es.
  - assert (Z : forall mi, filter (fun i => i <? c_k c) (avail_data c mi ++ map (fun i => c_k c + i) (avail_par c mi)) = avail_data c mi).
    { intros mi. rewrite filter_app.
      replace (filter (fun i => i <? c_k c) (map (fun i => c_k c + i) (avail_par c mi))) with (@nil nat).
      - rewrite app_nil_r. unfold avail_data. rewrite Es.
        assert (G : forall l, (forall x, In x l -> x < c_k c) -> filter (fun i => i <? c_k c) l = l).
        { induction l as [|a l IH]; intros H; [reflexivity|]. cbn [filter]. destruct (Nat.ltb_spec a (c_k c)).
          - f_equal. apply IH. intros; apply H; cbn; auto.
          - specialize (H a (or_introl eq_refl)). lia. }
        apply G. intros x Hx. apply filter_In in Hx. destruct Hx as [Hx _]. apply in_seq in Hx. lia.
      - induction (avail_par c mi) as [|a l IH]; [reflexivity|]. cbn [map filter]. destruct (Nat.ltb_spec (c_k c + a) (c_k c)); [lia|exact IH]. }
    assert (A : avail_data c (mask k m missing) = avail_data c missing) by (rewrite <- (Z (mask k m missing)), Y; apply Z).
    split; [exact A|]. rewrite A in Y. apply app_inv_head in Y.
    assert (G : forall l l', map (fun i => c_k c + i) l = map (fun i => c_k c + i) l' -> l = l').
    { induction l as [|a l IH]; intros [|b l'] H; try discriminate; [reflexivity|]. injection H as H1 H2. f_equal; [lia|auto]. }
    now apply G.
  - unfold avail_data in *. rewrite Es in *. cbn [app] in Y. auto.
Qed.

Lemma decode_blocks_mask missing junk1 junk2 wc ds buf par ps wanted bytes :
  decode_blocks c junk1 junk2 wc ds buf par ps (mask k m missing) wanted bytes =
  decode_blocks c junk1 junk2 wc ds buf par ps missing wanted bytes.
Proof. unfold decode_blocks. destruct (avail_mask missing) as [-> ->]. reflexivity. Qed.

Lemma decode_streams_mask missing junk1 junk2 wc ds data par ps wanted old :
  decode_streams c junk1 junk2 wc ds data par ps (mask k m missing) wanted old =
  decode_streams c junk1 junk2 wc ds data par ps missing wanted old.
Proof. unfold decode_streams. destruct (avail_mask missing) as [-> ->]. reflexivity. Qed.

Lemma good_perm bs (rec : props) f : good_record bs rec ->
  (forall t, t < bs -> f t = h <-> existsb (fun r => (fst r =? N.of_nat t)%N) rec = true) ->
  Permutation rec (recs h f (seq 0 bs)).
Proof.
  intros [Hn Hg] Hf. apply NoDup_Permutation.
  - eapply NoDup_map_inv. exact Hn.
  - unfold recs. apply FinFun.Injective_map_NoDup; [|apply NoDup_filter, seq_NoDup]. intros x y E. injection E as E. lia.
  - intros [o mk]. rewrite <- record_recs, record_in. split.
    + intros Hin. destruct (Hg o mk Hin) as [-> Ho]. split; [auto|]. exists (N.to_nat o). split; [lia|]. split; [lia|].
      apply Hf; [lia|]. apply existsb_exists. exists (o, 1%N). split; [auto|]. cbn. apply N.eqb_eq. lia.
    + intros (-> & t & Ht & -> & E). apply Hf in E; [|auto]. apply existsb_exists in E. destruct E as ([o mk] & Hin & E).
      cbn in E. apply N.eqb_eq in E. subst o. destruct (Hg _ _ Hin) as [-> _]. exact Hin.
Qed.

Section Dec.
Variables (missing wanted : list bool) (L : nat) (buf par : list (list N)) (ps : list props) (F : nat -> nat -> N).
Hypothesis U : usable missing L buf par ps.
Hypothesis HF : columns missing L buf par ps F.

Lemma masked i : i < k + m -> negb (nth i (mask k m missing) true) = true -> In i (used k m missing).
Proof.
  intros Hi. unfold mask. rewrite nth_map_seq by auto. rewrite negb_involutive. apply in_existsb.
Qed.

Lemma masked_enough : k <= length (present k m (mask k m missing)).
Proof. rewrite present_mask. unfold used. rewrite firstn_length. destruct U as [U1 _]. lia. Qed.

Lemma F_data : sys = true -> forall j, j < k -> negb (nth j (mask k m missing) true) = true ->
  length (nth j buf []) = L /\ forall t, t < nwords ws L -> symbol ws (nth j buf []) t = F j t /\ (F j t < h)%N.
Proof.
  intros Hs j Hj Hm. apply masked in Hm; [|lia]. destruct U as (_ & U1 & _), HF as (F1 & F2 & F3).
  destruct (U1 Hs j Hj Hm) as [L1 B1]. split; [exact L1|]. intros t Ht. specialize (F3 j t Hm Ht).
  destruct (made_parts _ _ _ _ _ _ _ _ _ M) as (CS & En & Esys & E1 & E2 & E3 & E4 & E5 & E6 & E7).
  rewrite (cs_sys _ _ CS) in F3; [|congruence| |lia].
  - unfold told in F3. rewrite Hs in F3. cbn [andb] in F3. destruct (Nat.ltb_spec j k); [|lia]. rewrite F3. split; [auto|now apply symbol_lt].
  - intros i Hi. rewrite E5, E1. fold h. specialize (F1 i t ltac:(lia)). lia.
Qed.

Lemma F_par : forall q, q < n_outs sys k m -> negb (nth (position sys k q) (mask k m missing) true) = true ->
  length (nth q par []) = L /\
  (forall t, t < nwords ws L -> cw (fun j => F j t) (position sys k q) <> h ->
     symbol ws (nth q par []) t = cw (fun j => F j t) (position sys k q)) /\
  Permutation (nth q ps []) (recs h (fun t => cw (fun j => F j t) (position sys k q)) (seq 0 (nwords ws L))).
Proof.
  intros q Hq Hm. assert (Hp : position sys k q < k + m) by (unfold position, n_outs in *; destruct sys; lia).
  apply masked in Hm; [|auto]. destruct U as (_ & _ & U2), HF as (F1 & F2 & F3). destruct (U2 q Hq Hm) as (L1 & B1 & G1).
  assert (T : forall t, told buf par ps (position sys k q) t = stored_symbol h ws (nth q par []) (nth q ps []) t).
  { intros t. unfold told, position. destruct sys; cbn [andb]; [|reflexivity].
    destruct (Nat.ltb_spec (k + q) k); [lia|]. replace (k + q - k) with q by lia. reflexivity. }
  assert (T2 : forall t, t < nwords ws L -> cw (fun j => F j t) (position sys k q) = stored_symbol h ws (nth q par []) (nth q ps []) t).
  { intros t Ht. rewrite F3 by auto. apply T. }
  split; [exact L1|]. split.
  - intros t Ht X. rewrite T2 in X |- * by auto. unfold stored_symbol in *. destruct (existsb _ _); [congruence|reflexivity].
  - apply good_perm; [exact G1|]. intros t Ht. rewrite T2 by auto. unfold stored_symbol. destruct (existsb _ _); [tauto|].
    split; [|discriminate]. intros E. pose proof (symbol_lt ws (nth q par []) t B1). fold h in H. lia.
Qed.

Theorem decode_streams_cols junk1 junk2 wc ds old : decoder_buffers c junk1 junk2 wc ds -> length wc = k ->
  (sys = true -> length buf = k) -> length par = n_outs sys k m -> length ps = n_outs sys k m -> length old = k ->
  exists ps', decode_streams c junk1 junk2 wc ds buf par ps missing wanted old =
    Some (true, if sys && (length (avail_data c missing) =? k) then old
                else map (fun j => if nth j wanted false then nth j old [] ++ stream_of ws (F j) L else nth j old []) (seq 0 k), ps').
Proof.
  intros (J1 & J2 & Hwc & Hds) Lw Lb Lp Lps Lo. rewrite <- decode_streams_mask. pose proof (ws_pos w ws Hw) as W0.
  destruct (made_parts _ _ _ _ _ _ _ _ _ M) as (CS & En & Esys & E1 & E2 & E3 & E4 & E5 & E6 & E7).
  pose proof (nwords_bounds ws L W0) as HL. destruct HF as (F1 & F2 & F3).
  destruct (decode_streams_any c cw CS ltac:(lia) ltac:(lia) E5 F (nwords ws L)) with (L := L) (missing := mask k m missing)
    (wanted := wanted) (data := buf) (par := par) (ps := ps) (old := old) (wc := wc) (ds := ds) (junk1 := junk1) (junk2 := junk2)
    as (ps' & R); try (rewrite ?E1, ?E2, ?E3, ?E4, ?E6; first [assumption|exact masked_enough]); try assumption.
  - rewrite E1, E2, Esys. intros Hs j Hj Hm. destruct (F_data Hs j Hj Hm) as [A B]. split; [exact A|]. intros t Ht.
    rewrite word_symbol. apply B; auto.
  - rewrite E1, E6. intros q Hq Hm. rewrite E7 in Hm. destruct (F_par q Hq Hm) as (A & B & C). unfold outs, cws. rewrite E7.
    split; [exact A|]. split; [|exact C]. intros t Ht X. rewrite word_symbol. now apply B.
  - rewrite Esys, E2. exact Lb.
  - exists ps'. rewrite R, Esys, E2, E1. destruct (avail_mask missing) as [-> _]. f_equal. f_equal. f_equal.
    destruct (sys && _); [reflexivity|]. apply map_ext. intros j. unfold new_outs, get. destruct (nth j wanted false); [|auto].
    f_equal. apply upto_stream; lia.
Qed.

Theorem decode_blocks_cols junk1 junk2 wc ds : L mod ws = 0 -> decoder_buffers c junk1 junk2 wc ds ->
  (forall j, j < k -> nth j wanted false = true -> length (nth j buf []) = L) ->
  length buf = k -> length par = n_outs sys k m -> length ps = n_outs sys k m ->
  (forall j, j < k -> all_bytes (nth j buf [])) ->
  exists ps', decode_blocks c junk1 junk2 wc ds buf par ps missing wanted L =
    Some (true, map (fun j => if nth j wanted false then stream_of ws (F j) L else nth j buf []) (seq 0 k), ps').
Proof.
  intros Em (J1 & J2 & Hwc & Hds) Hwant Lb Lp Lps Hby. rewrite <- decode_blocks_mask. pose proof (ws_pos w ws Hw) as W0.
  destruct (made_parts _ _ _ _ _ _ _ _ _ M) as (CS & En & Esys & E1 & E2 & E3 & E4 & E5 & E6 & E7).
  destruct (nwords_exact ws L W0 Em) as [N1 N2]. destruct HF as (F1 & F2 & F3).
  destruct (decode_blocks_any c cw CS ltac:(lia) ltac:(lia) E5 F (nwords ws L)) with (missing := mask k m missing)
    (wanted := wanted) (buf := buf) (par := par) (ps := ps) (wc := wc) (ds := ds) (junk1 := junk1) (junk2 := junk2) (bytes := L)
    as (ps' & R); try (rewrite ?E1, ?E2, ?E3, ?E4, ?E6; first [assumption|exact masked_enough]); try assumption.
  - rewrite E1, E2, Esys. intros Hs j Hj Hm. destruct (F_data Hs j Hj Hm) as [A B]. split; [rewrite A, N1; lia|]. intros t Ht.
    rewrite word_symbol. apply B; auto.
  - rewrite E1, E6. intros q Hq Hm. rewrite E7 in Hm. destruct (F_par q Hq Hm) as (A & B & C). unfold outs, cws. rewrite E7.
    split; [rewrite A, N1; lia|]. split; [|exact C]. intros t Ht X. rewrite word_symbol. now apply B.
  - rewrite E1, E2. intros j Hj Hwj. rewrite (Hwant j Hj Hwj), N1. lia.
  - exists ps'. rewrite R, E2, E1. f_equal. f_equal. f_equal. apply map_ext_in. intros j Hj. apply in_seq in Hj. unfold get.
    destruct (nth j wanted false) eqn:Ej; [|auto]. rewrite upto_words_then by (rewrite (Hwant j ltac:(lia) Ej), N1; lia).
    rewrite <- (upto_stream ws (F j) (nwords ws L)) by lia. symmetry. apply firstn_all2. rewrite upto_length. lia.
Qed.
End Dec.
End M.
End G.

(** ** What a decoder receives from an encoder *)
Section R.
Variables (w : N) (sys : bool) (ws k m : nat).
Hypothesis Hw : fnt_width w ws.
Variables (n : nat) (cw : (nat -> N) -> nat -> N) (pkt : nat) (c : fnt).
Hypothesis Hpkt : 0 < pkt.
Hypothesis M : fnt_made w sys ws k m pkt n cw c.
Let h := (256 ^ N.of_nat ws)%N.
Variables (data rdata rpar : list (list N)) (rps : list props) (missing : list bool) (L : nat).
Hypothesis Hd : blocks k L data.
Let frag q := stream_of ws (coded ws cw data (position sys k q)) L.
Let rec q := record h (coded ws cw data (position sys k q)) (nwords ws L).
Hypothesis Hsysr : sys = true -> forall j, j < k -> nth j missing true = false -> nth j rdata [] = nth j data [].
Hypothesis Hparr : forall q, q < n_outs sys k m -> nth (position sys k q) missing true = false ->
  nth q rpar [] = frag q /\ Permutation (nth q rps []) (rec q).
Hypothesis Hen : k <= length (present k m missing).

Lemma record_good f bs : good_record bs (record h f bs).
Proof.
  split.
  - unfold record. rewrite map_map. cbn [fst]. apply FinFun.Injective_map_NoDup; [|apply NoDup_filter, seq_NoDup].
    intros x y E. lia.
  - intros o mk Hin. apply record_in in Hin. destruct Hin as (-> & t & Ht & -> & _). split; [auto|lia].
Qed.

Lemma good_permuted bs a b : Permutation a b -> good_record bs b -> good_record bs a.
Proof.
  intros P [N1 G]. split.
  - eapply Permutation_NoDup; [apply Permutation_map, Permutation_sym, P|exact N1].
  - intros o mk Hin. apply G. eapply Permutation_in; eassumption.
Qed.

Lemma received_usable : usable sys ws k m missing L rdata rpar rps.
Proof.
  split; [exact Hen|]. split.
  - intros Hs j Hj Hin. apply used_in in Hin. destruct Hin as [_ Hm]. rewrite (Hsysr Hs j Hj Hm). apply (proj2 Hd j Hj).
  - intros q Hq Hin. apply used_in in Hin. destruct Hin as [_ Hm]. destruct (Hparr q Hq Hm) as [-> P].
    split; [apply stream_length|]. split; [apply stream_bytes|]. apply (good_permuted _ _ _ P). apply record_good.
Qed.

Lemma received_told pos t : In pos (used k m missing) -> t < L / ws ->
  cw (fun j => symbol ws (nth j data []) t) pos = told sys ws k rdata rpar rps pos t.
Proof.
  intros Hin Ht. apply used_in in Hin. destruct Hin as [Hb Hm]. pose proof (ws_pos w ws Hw) as W0.
  destruct (made_parts _ _ _ _ _ _ _ _ _ M) as (CS & En & Esys & E1 & E2 & E3 & E4 & E5 & E6 & E7).
  assert (Hfull : (t + 1) * ws <= L).
  { pose proof (div_mul_le w ws Hw L). apply Nat.le_trans with (L / ws * ws); [apply Nat.mul_le_mono_r; lia|lia]. }
  assert (Htn : t < nwords ws L) by (pose proof (div_le_nwords ws L W0); lia).
  assert (Q : forall q, q < n_outs sys k m -> nth (position sys k q) missing true = false ->
     cw (fun j => symbol ws (nth j data []) t) (position sys k q) = stored_symbol h ws (nth q rpar []) (nth q rps []) t).
  { intros q Hq Hq'. destruct (Hparr q Hq Hq') as [-> P]. unfold stored_symbol.
    change (cw (fun j => symbol ws (nth j data []) t) (position sys k q)) with (coded ws cw data (position sys k q) t).
    set (f := coded ws cw data (position sys k q)) in *.
    assert (Hf : (f t <= h)%N).
    { pose proof (cs_lt _ _ CS (fun j => symbol ws (nth j data []) t) (position sys k q)) as Y. rewrite E5, E1 in Y.
      unfold f, coded, h. lia. }
    destruct (existsb (fun r => (fst r =? N.of_nat t)%N) (nth q rps [])) eqn:Ex.
    - apply existsb_exists in Ex. destruct Ex as ([o mk] & Hin & E). cbn in E. apply N.eqb_eq in E. subst o.
      apply (Permutation_in _ P) in Hin. unfold rec in Hin. apply record_in in Hin. destruct Hin as (_ & t' & _ & E & E').
      assert (t' = t) by lia. now subst t'.
    - unfold frag. rewrite symbol_stream by auto. fold f h. symmetry. apply N.mod_small.
      destruct (N.eq_dec (f t) h) as [E|E]; [|lia]. exfalso.
      assert (X : existsb (fun r => (fst r =? N.of_nat t)%N) (nth q rps []) = true); [|congruence].
      apply existsb_exists. exists (N.of_nat t, 1%N). split; [|cbn; apply N.eqb_refl].
      apply (Permutation_in _ (Permutation_sym P)). apply record_in. split; [auto|]. exists t. auto. }
  unfold told. destruct sys eqn:Es; cbn [andb].
  - destruct (Nat.ltb_spec pos k) as [Hk|Hk].
    + rewrite (cs_sys _ _ CS); [|congruence| |lia].
      * rewrite (Hsysr eq_refl pos Hk Hm). reflexivity.
      * intros j Hj. rewrite E5, E1. pose proof (symbol_lt ws (nth j data []) t (proj2 (proj2 Hd j ltac:(lia)))). lia.
    + specialize (Q (pos - k)). unfold position, n_outs in Q. replace (k + (pos - k)) with pos in Q by lia.
      apply Q; [lia|auto].
  - apply (Q pos); auto.
Qed.

Lemma received_columns : exists F, columns sys ws k m cw missing L rdata rpar rps F /\
  forall j t, j < k -> t < L / ws -> F j t = symbol ws (nth j data []) t.
Proof.
  destruct (columns_exist w sys ws k m n cw pkt c Hpkt M missing L rdata rpar rps received_usable) as (F & F1 & F2 & F3).
  pose proof (ws_pos w ws Hw) as W0.
  exists (fun j t => if t <? L / ws then symbol ws (nth j data []) t else F j t). split; [split; [|split]|].
  - intros j t Hj. destruct (Nat.ltb_spec t (L / ws)); [|auto]. apply N.lt_le_incl, symbol_lt, (proj2 Hd j Hj).
  - intros j t Ht. pose proof (div_le_nwords ws L W0). destruct (Nat.ltb_spec t (L / ws)); [lia|auto].
  - intros pos t Hin Ht. destruct (Nat.ltb_spec t (L / ws)); [now apply received_told|now apply F3].
  - intros j t Hj Ht. destruct (Nat.ltb_spec t (L / ws)); [auto|lia].
Qed.
End R.

Lemma firstn_stream ws f a len : firstn a (stream_of ws f len) = stream_of ws f (Nat.min a len).
Proof. unfold stream_of. rewrite firstn_map, firstn_seq. reflexivity. Qed.

(** Round trip of streams of any length, encoder and decoder possibly with different packet sizes. *)
Theorem streams_roundtrip w sys ws k m pkt pkt' c c' xe es wc out data old ps L :
  fnt_object w sys ws k m pkt c -> fnt_object w sys ws k m pkt' c' ->
  encoder_buffers c xe es wc out -> length wc = k -> blocks k L data ->
  length old = n_outs sys k m -> length ps = n_outs sys k m ->
  exists es' frags ps', encode_streams c xe es wc out data old ps =
      Some (es', map (fun q => nth q old [] ++ nth q frags []) (seq 0 (n_outs sys k m)), ps') /\
    blocks (n_outs sys k m) L frags /\
  forall missing wanted rdata rpar rps old' wc' ds junk1 junk2,
    decoder_buffers c' junk1 junk2 wc' ds -> length wc' = k ->
    received sys k m missing data frags ps' rdata rpar rps -> (sys = true -> length rdata = k) -> length old' = k ->
    (sys = true -> exists j, j < k /\ nth j missing true = true) ->
    k <= length (present k m missing) ->
    exists outs ps'', decode_streams c' junk1 junk2 wc' ds rdata rpar rps missing wanted old' = Some (true, outs, ps'') /\
      length outs = k /\ forall j, j < k -> if nth j wanted false
        then exists b, nth j outs [] = nth j old' [] ++ b /\ length b = L /\ firstn (L / ws * ws) b = firstn (L / ws * ws) (nth j data [])
        else nth j outs [] = nth j old' [].
Proof.
  intros HO HO' He Lw Hd Lo Lps.
  assert (Hw : fnt_width w ws) by apply HO. assert (Hs : fnt_sizes ws k m) by apply HO.
  assert (Hp : 0 < pkt) by apply HO. assert (Hp' : 0 < pkt') by apply HO'. pose proof (ws_pos w ws Hw) as W0.
  destruct (object_made w sys ws k m Hw Hs) as (cw & r & n & HP & _ & _ & H).
  destruct (streams_made w sys ws k m Hw pkt n cw c Hp (H _ _ HO) data old ps L xe es wc out Hd He Lw Lo Lps) as (es' & _ & E).
  exists es', (map (fun q => stream_of ws (coded ws cw data (position sys k q)) L) (seq 0 (n_outs sys k m))). eexists.
  split; [rewrite E; f_equal; f_equal; f_equal; apply map_ext_in; intros q Hq; apply in_seq in Hq; rewrite nth_map_seq by lia; reflexivity|].
  split.
  { split; [rewrite map_length, seq_length; auto|]. intros q Hq. rewrite nth_map_seq by auto. split; [apply stream_length|apply stream_bytes]. }
  intros missing wanted rdata rpar rps old' wc' ds junk1 junk2 Hb Lw' (R1 & R2 & R3 & R4) Lr Lo' Hmiss Hen.
  assert (R4' : forall q, q < n_outs sys k m -> nth (position sys k q) missing true = false ->
    nth q rpar [] = stream_of ws (coded ws cw data (position sys k q)) L /\
    Permutation (nth q rps []) (record (256 ^ N.of_nat ws) (coded ws cw data (position sys k q)) (nwords ws L))).
  { intros q Hq Hm. destruct (R4 q Hq Hm) as [A B]. rewrite !nth_map_seq in * by auto. auto. }
  destruct (received_columns w sys ws k m Hw n cw pkt' c' Hp' (H _ _ HO') data rdata rpar rps missing L Hd R1 R4' Hen) as (F & HF & FD).
  assert (HU : usable sys ws k m missing L rdata rpar rps) by (apply (received_usable w sys ws k m n cw pkt' c' Hp' (H _ _ HO') data rdata rpar rps missing L Hd R1 R4' Hen)).
  destruct (decode_streams_cols w sys ws k m Hw n cw pkt' c' Hp' (H _ _ HO') missing wanted L rdata rpar rps F HU HF
     junk1 junk2 wc' ds old' Hb Lw' Lr R2 R3 Lo') as (ps'' & R).
  destruct (sys && (length (avail_data c' missing) =? k)) eqn:Eall.
  { exfalso. apply andb_prop in Eall. destruct Eall as [Es Ea]. apply Nat.eqb_eq in Ea. destruct (Hmiss Es) as (j & Hj & Hm).
    destruct (made_parts _ _ _ _ _ _ _ _ _ (H _ _ HO')) as (CS & En & Esys & E1 & E2 & _).
    unfold avail_data in Ea. rewrite Esys, Es, E2 in Ea.
    assert (X : forall (P : nat -> bool) l, length (filter P l) = length l -> forall j, In j l -> P j = true).
    { clear. induction l as [|a l IH]; cbn; [contradiction|]. intros E i. pose proof (filter_length_le _ P l).
      destruct (P a) eqn:Ea; cbn in E; [|lia]. intros [<-|Hi]; [auto|]. apply IH; [lia|auto]. }
    specialize (X (fun i => negb (get true missing i)) (seq 0 k)). rewrite seq_length in X. specialize (X Ea j).
    unfold get in X. rewrite Hm in X. cbn in X. assert (false = true) by (apply X, in_seq; lia). discriminate. }
  eexists _, ps''. split; [exact R|]. split; [rewrite map_length, seq_length; auto|]. intros j Hj. rewrite nth_map_seq by auto.
  destruct (nth j wanted false); [|reflexivity]. exists (stream_of ws (F j) L). split; [auto|]. split; [apply stream_length|].
  destruct (proj2 Hd j Hj) as [Lj Bj]. rewrite <- (stream_self ws (nth j data [])) by auto. rewrite Lj, !firstn_stream.
  apply stream_ext; [auto|]. intros t Ht. apply FD; [auto|].
  pose proof (div_mul_le w ws Hw L) as Hle. rewrite Nat.min_l in Ht by auto.
  destruct (nwords_exact ws (L / ws * ws) W0) as [E1 _]; [now apply Nat.mod_mul; lia|]. rewrite E1, Nat.div_mul in Ht by lia. exact Ht.
Qed.
