(** Horizontal streams: exact results of the loops. *)
From Coq Require Import List NArith ZArith Arith Bool Lia Permutation.
From Verif.Model Require Import Common Arith Ring Fft2n Radix2 Poly Props Bytes Fnt Blocks Header Streams Horizontal.
From Verif.Spec Require Import Modular Code Blocks.
From Verif.Proof Require Import ListP BytesP PropsP StreamsL BlocksP.
Import ListNotations.
Open Scope nat_scope.

(** ** Reading *)
Definition at_word (ws o : nat) (b : list N) : istream := mkIs (skipn (o * ws) b) false.

Lemma readw_some ws b o : (o + 1) * ws <= length b -> readw ws (at_word ws o b) = (at_word ws (o + 1) b, Some (word_at ws b o)).
Proof.
  intros H. unfold readw, stream_read, at_word. cbn [is_fail is_rest]. rewrite skipn_length.
  destruct (Nat.leb_spec ws (length b - o * ws)) as [_|X]; [|lia]. rewrite skipn_skipn.
  replace (o * ws + ws) with ((o + 1) * ws) by lia. unfold blit. cbn [firstn app Nat.add]. f_equal. f_equal.
  unfold word_at, slice. rewrite (@skipn_all2 _ _ (repeat 0%N ws)), app_nil_r; [reflexivity|]. rewrite repeat_length, firstn_length, skipn_length. lia.
Qed.

Lemma readw_none ws b o : length b < (o + 1) * ws -> o * ws <= length b -> snd (readw ws (at_word ws o b)) = None.
Proof.
  intros H H2. unfold readw, stream_read, at_word. cbn [is_fail is_rest]. rewrite skipn_length.
  destruct (Nat.leb_spec ws (length b - o * ws)); [lia|]. reflexivity.
Qed.

Lemma readw_all_some ws o bl : (forall b, In b bl -> (o + 1) * ws <= length b) ->
  readw_all ws (map (at_word ws o) bl) = (map (at_word ws (o + 1)) bl, Some (map (fun b => word_at ws b o) bl)).
Proof.
  induction bl as [|b bl IH]; intros H; [reflexivity|]. cbn [map readw_all]. rewrite readw_some by (apply H; left; auto).
  rewrite IH by (intros; apply H; right; auto). reflexivity.
Qed.

Lemma readw_all_none ws o bl : bl <> [] -> (forall b, In b bl -> length b < (o + 1) * ws /\ o * ws <= length b) ->
  snd (readw_all ws (map (at_word ws o) bl)) = None.
Proof.
  destruct bl as [|b bl]; intros Hn H; [congruence|]. cbn [map readw_all]. destruct (H b (or_introl eq_refl)) as [H1 H2].
  pose proof (readw_none ws b o H1 H2) as E. destruct (readw ws (at_word ws o b)) as [s r]. cbn in E. subst r. reflexivity.
Qed.

Lemma nth_nils (ps : list props) q : nth q (map (fun _ : props => ([] : props)) ps) [] = [].
Proof. revert q. induction ps as [|p ps IH]; intros [|q]; cbn; auto. Qed.

Lemma bytes_special ws : bytes_of_word ws (256 ^ N.of_nat ws) = bytes_of_word ws 0.
Proof.
  apply (list_ext _ 0%N); rewrite !bytes_of_word_length; [reflexivity|]. intros i Hi. rewrite !bytes_of_word_nth by auto.
  rewrite N.div_0_l by (apply N.pow_nonzero; discriminate).
  replace (N.of_nat ws) with (1 + (N.of_nat ws - N.of_nat i - 1) + N.of_nat i)%N by lia. rewrite N.pow_add_r, N.div_mul by (apply N.pow_nonzero; discriminate).
  rewrite N.pow_add_r, N.mul_comm, N.pow_1_r, N.mod_mul; [reflexivity|discriminate].
Qed.

(** ** Post-processing *)
Definition post_step (P : nat -> bool) (off : N) (st : list N * list props) (i : nat) : list N * list props :=
  let '(o, p) := st in if P i then (o, p) else (set o i 0%N, set p i (props_add (get [] p i) off OOR_MARK)).

Lemma fold_post (P : nat -> bool) (off : N) n : forall (output : list N) (ps : list props), n <= length output -> n <= length ps ->
  let r := fold_left (post_step P off) (seq 0 n) (output, ps) in
  length (fst r) = length output /\ length (snd r) = length ps /\
  (forall i, nth i (fst r) 0%N = if (i <? n) && negb (P i) then 0%N else nth i output 0%N) /\
  (forall i, nth i (snd r) [] = if (i <? n) && negb (P i) then nth i ps [] ++ [(off, OOR_MARK)] else nth i ps []).
Proof.
  induction n; intros output ps H1 H2; cbn zeta.
  - cbn [seq fold_left fst snd]. split; [auto|]. split; [auto|]. split; intros; reflexivity.
  - rewrite seq_S, fold_left_app. cbn [Nat.add]. specialize (IHn output ps ltac:(lia) ltac:(lia)). cbn zeta in IHn.
    destruct (fold_left (post_step P off) (seq 0 n) (output, ps)) as [o p]. cbn [fst snd] in IHn. destruct IHn as (A & B & C & D).
    cbn [fold_left post_step]. destruct (P n) eqn:En; cbn [fst snd].
    + split; [auto|]. split; [auto|]. split; intros i; rewrite ?C, ?D;
        (destruct (Nat.eq_dec i n) as [->|Hne]; [destruct (Nat.ltb_spec n n), (Nat.ltb_spec n (S n)); try lia; rewrite En; reflexivity|
         destruct (Nat.ltb_spec i n), (Nat.ltb_spec i (S n)); try lia; reflexivity]).
    + rewrite !set_length. split; [auto|]. split; [auto|]. unfold props_add, get. split; intros i;
        (destruct (Nat.eq_dec i n) as [->|Hne];
         [rewrite nth_set_eq by lia; rewrite ?D; destruct (Nat.ltb_spec n n), (Nat.ltb_spec n (S n)); try lia; rewrite En; reflexivity|
          rewrite nth_set_neq by auto; rewrite ?C, ?D; destruct (Nat.ltb_spec i n), (Nat.ltb_spec i (S n)); try lia; reflexivity]).
Qed.

Section Code.
Variables (c : fnt) (cw : (nat -> N) -> nat -> N).
Hypothesis CS : code_spec c cw.
Hypothesis Hns : c_sys c = false.
Hypothesis Hws : 0 < c_ws c.
Hypothesis Hpkt : 0 < c_pkt c.
Hypothesis Hcard : g_card (c_G c) = (256 ^ N.of_nat (c_ws c) + 1)%N.
Let ws := c_ws c.
Let k := c_k c.
Let h := (256 ^ N.of_nat ws)%N.

Lemma nout_n : c_nout c <= c_n c.
Proof. unfold c_nout. rewrite Hns. pose proof (cs_n _ _ CS). lia. Qed.

Lemma cw_le col i : (cw col i <= h)%N.
Proof. pose proof (cs_lt _ _ CS col i) as X. rewrite Hcard in X. fold ws h in X. lia. Qed.

Lemma special col i : (N.land (cw col i) (c_h c) =? 0)%N = negb (cw col i =? h)%N.
Proof.
  rewrite (c_hE c Hws Hpkt Hcard). change (256 ^ N.of_nat (c_ws c))%N with h.
  pose proof (h_pow2 c) as E. change (256 ^ N.of_nat (c_ws c))%N with h in E. rewrite E. apply land_pow2. rewrite <- E. apply cw_le.
Qed.

(** One word from each stream. *)
Lemma encode_vec_spec output ps offset col : length output = c_n c -> length ps = c_nout c ->
  (forall j, j < k -> (col j <= h)%N) ->
  exists out', encode_vec c output ps offset (map col (seq 0 k)) =
    (out', map (fun q => nth q ps [] ++ (if (cw col q =? h)%N then [(offset, OOR_MARK)] else [])) (seq 0 (c_nout c))) /\
    length out' = c_n c /\ forall q, q < c_nout c -> bytes_of_word ws (nth q out' 0%N) = bytes_of_word ws (cw col q).
Proof.
  intros Lo Lp Hc. unfold encode_vec, k in *. rewrite (cs_venc _ _ CS Hns output col Lo); [|intros j Hj; rewrite Hcard; specialize (Hc j Hj); fold ws h; lia].
  unfold post_process_vec.
  set (v := map (cw col) (seq 0 (c_n c))). assert (Lv : length v = c_n c) by (unfold v; now rewrite map_length, seq_length).
  match goal with |- context [fold_left ?f _ _] => set (g := f) end.
  set (P := fun i => negb (cw col i =? h)%N).
  assert (E : fold_left g (seq 0 (c_nout c)) (v, ps) = fold_left (post_step P offset) (seq 0 (c_nout c)) (v, ps)).
  { pose proof nout_n as Hn.
    assert (X : forall m, m <= c_nout c -> fold_left g (seq 0 m) (v, ps) = fold_left (post_step P offset) (seq 0 m) (v, ps)).
    { induction m; intros Hm; [reflexivity|]. rewrite seq_S, !fold_left_app, IHm by lia. cbn [Nat.add].
      pose proof (fold_post P offset m v ps ltac:(lia) ltac:(lia)) as F. cbn zeta in F.
      destruct (fold_left (post_step P offset) (seq 0 m) (v, ps)) as [o p]. cbn [fst snd] in F. destruct F as (_ & _ & F & _).
      cbn [fold_left]. unfold g, post_step. unfold get at 1. rewrite F. destruct (Nat.ltb_spec m m); [lia|]. cbn [andb].
      unfold v. rewrite nth_map_seq by lia. rewrite special. reflexivity. }
    apply X. lia. }
  rewrite E. pose proof nout_n.
  pose proof (fold_post P offset (c_nout c) v ps ltac:(lia) ltac:(lia)) as F. cbn zeta in F.
  destruct (fold_left (post_step P offset) (seq 0 (c_nout c)) (v, ps)) as [o p]. unfold P in F. cbn [fst snd] in F. destruct F as (A & B & C & D).
  exists o. split; [f_equal|split; [lia|]].
  - assert (Lp' : length p = c_nout c) by (etransitivity; [exact B|exact Lp]).
    apply (list_ext _ []); [rewrite map_length, seq_length; exact Lp'|]. intros i Hi. assert (Hi2 : i < c_nout c) by (rewrite <- Lp'; exact Hi). rewrite nth_map_seq by exact Hi2. rewrite D.
    destruct (Nat.ltb_spec i (c_nout c)); [|lia]. rewrite negb_involutive. cbn [andb]. destruct (cw col i =? h)%N; [reflexivity|].
    now rewrite app_nil_r.
  - intros q Hq. rewrite C. destruct (Nat.ltb_spec q (c_nout c)); [|lia]. rewrite negb_involutive. cbn [andb].
    unfold v. rewrite nth_map_seq by lia. destruct (N.eqb_spec (cw col q) h) as [->|]; [|reflexivity].
    symmetry. apply bytes_special.
Qed.

(** ** Encoding *)
Section Enc.
Variables (data : list (list N)) (L : nat).
Let B := L / ws.
Hypothesis Ld : length data = k.
Hypothesis Hd : forall j, j < k -> length (nth j data []) = L /\ all_bytes (nth j data []).
Definition hcoded (q t : nat) : N := cw (fun j => word_at ws (nth j data []) t) q.

Lemma div_bounds : B * ws <= L /\ L < (B + 1) * ws.
Proof.
  unfold B. pose proof (Nat.div_mod L ws ltac:(unfold ws; lia)). pose proof (Nat.mod_upper_bound L ws ltac:(unfold ws; lia)). lia.
Qed.

Lemma data_in b : In b data -> length b = L.
Proof. intros H. destruct (In_nth _ _ [] H) as (i & Hi & <-). apply Hd. lia. Qed.

Lemma hencode_loop_spec fuel : forall o output outs ps, B - o < fuel -> o <= B -> length output = c_n c ->
  length outs = c_nout c -> length ps = c_nout c ->
  hencode_loop fuel c o (map (at_word ws o) data) output outs ps =
  Some (Ret (map (fun q => nth q outs [] ++ flat_map (fun t => bytes_of_word ws (hcoded q t)) (seq o (B - o))) (seq 0 (c_nout c)),
             map (fun q => nth q ps [] ++ recs h (hcoded q) (seq o (B - o))) (seq 0 (c_nout c)))).
Proof.
  pose proof div_bounds as [DB1 DB2]. pose proof (cs_k _ _ CS) as K0. fold k in K0.
  induction fuel as [|fuel IH]; intros o output outs ps Hf Ho Lo Lu Lp; [lia|]. cbn [hencode_loop]. fold ws.
  destruct (Nat.eq_dec o B) as [->|Hne].
  - pose proof (readw_all_none ws B data ltac:(intros ->; cbn in Ld; lia) ltac:(intros b Hb; rewrite (data_in b Hb); lia)) as E.
    destruct (readw_all ws _) as [ins r]. cbn in E. subst r. rewrite Nat.sub_diag. cbn [seq flat_map recs map filter].
    unfold recs. cbn [filter map]. f_equal. f_equal. f_equal; symmetry;
      (etransitivity; [apply map_ext; intros; apply app_nil_r|]); apply map_nth_seq; auto.
  - rewrite readw_all_some by (intros b Hb; rewrite (data_in b Hb); nia).
    destruct (Nat.ltb_spec (length output) (c_n c)); [lia|].
    set (col := fun j => word_at ws (nth j data []) o).
    assert (Ew : map (fun b => word_at ws b o) data = map col (seq 0 k)).
    { rewrite <- (map_nth_seq _ [] data k Ld) at 1. rewrite map_map. reflexivity. }
    rewrite Ew. destruct (encode_vec_spec output ps (N.of_nat o) col Lo Lp) as (out' & E & Lo' & Ho').
    { intros j Hj. apply N.lt_le_incl. apply word_at_lt. apply Hd. exact Hj. }
    rewrite E, IH; [|lia|lia|exact Lo'|now rewrite map_length, seq_length|now rewrite map_length, seq_length].
    replace (B - o) with (S (B - (o + 1))) by lia. cbn [seq flat_map]. replace (S o) with (o + 1) by lia.
    f_equal. f_equal. f_equal; apply map_ext_in; intros q Hq; apply in_seq in Hq; rewrite nth_map_seq by lia.
    + unfold get. rewrite Ho' by lia. rewrite <- app_assoc. reflexivity.
    + rewrite <- app_assoc. f_equal. change (o :: seq (o + 1) (B - (o + 1))) with ([o] ++ seq (o + 1) (B - (o + 1))).
      rewrite recs_app. f_equal. unfold recs. cbn [filter]. unfold hcoded. fold col. destruct (cw col q =? h)%N; reflexivity.
Qed.

Theorem encode_hstreams_any output outs ps : length output = c_n c -> length outs = c_nout c -> length ps = c_nout c ->
  encode_hstreams c output data outs ps =
  Some (Ret (map (fun q => nth q outs [] ++ word_bytes_upto ws (hcoded q) B) (seq 0 (c_nout c)),
             map (fun q => recs h (hcoded q) (seq 0 B)) (seq 0 (c_nout c)))).
Proof.
  intros Lo Lu Lp. unfold encode_hstreams. fold k. rewrite Ld, Lu, Lp, !Nat.eqb_refl. cbn [andb].
  replace (map (fun b => mkIs b false) data) with (map (at_word ws 0) data) by reflexivity.
  pose proof (cs_k _ _ CS) as K0. fold k in K0. pose proof div_bounds as [DB1 DB2].
  rewrite hencode_loop_spec; [|unfold get; rewrite (proj1 (Hd 0 K0)); assert (0 < ws) by exact Hws; nia|lia|exact Lo|exact Lu|now rewrite map_length].
  rewrite Nat.sub_0_r. f_equal. f_equal. f_equal. apply map_ext_in. intros q Hq. apply in_seq in Hq.
  change (@nth props q (map (fun _ : props => []) ps) [] ++ recs h (hcoded q) (seq 0 B) = recs h (hcoded q) (seq 0 B)).
  now rewrite nth_nils.
Qed.
End Enc.

(** ** Decoding *)
Section Dec.
Variables (B : nat) (missing wanted : list bool) (par : list (list N)) (ps : list props) (F : nat -> nat -> N).
Hypothesis Hen : k <= length (filter (fun i => negb (get true missing i)) (seq 0 (k + c_m c))).
Hypothesis HF : forall j t, j < k -> t < B -> (F j t <= h)%N.
Let ids := ids c missing.
Definition val (q t : nat) : N := cw (fun j => F j t) q.
Hypothesis Hpar : forall q, In q ids -> length (nth q par []) = B * ws /\
  (forall t, t < B -> val q t <> h -> word_at ws (nth q par []) t = val q t) /\
  Permutation (nth q ps []) (recs h (val q) (seq 0 B)).
Hypothesis Lps : length ps = c_nout c.
Let ps' := map props_sort ps.

Lemma ids_len : length ids = k.
Proof. unfold ids, BlocksP.ids. rewrite firstn_length. fold k. lia. Qed.

Lemma in_ids_lt q : In q ids -> q < c_nout c.
Proof.
  intros H. destruct (in_ids c Hws Hpkt Hcard missing Hen q H) as [X _]. unfold c_nout. rewrite Hns. exact X.
Qed.

Lemma sorted_ps q : In q ids -> nth q ps' [] = recs h (val q) (seq 0 B).
Proof.
  intros H. unfold ps'. pose proof (in_ids_lt q H).
  rewrite (nth_indep _ _ (props_sort [])) by (rewrite map_length; lia). rewrite map_nth.
  destruct (Hpar q H) as (_ & _ & P). rewrite (sort_perm _ _ P). apply sort_recs.
Qed.

Lemma marked q o : o < B -> In q ids ->
  props_is_marked (nth q ps' []) (cnt h (val q) o) (N.of_nat o) = (val q o =? h)%N /\
  ((val q o =? h)%N = true -> props_marker (nth q ps' []) (cnt h (val q) o) = OOR_MARK) /\
  cnt h (val q) (o + 1) = cnt h (val q) o + (if (val q o =? h)%N then 1 else 0).
Proof.
  intros Ho Hq. rewrite sorted_ps by auto. unfold props_is_marked, props_marker.
  assert (Es : seq o (B - o) = [o] ++ seq (S o) (B - S o)).
  { replace (B - o) with (S (B - S o)) by lia. reflexivity. }
  assert (E : nth_error (recs h (val q) (seq 0 B)) (cnt h (val q) o) = nth_error (recs h (val q) (seq o (B - o))) 0).
  { replace (cnt h (val q) o) with (cnt h (val q) o + 0) by lia. replace (seq 0 B) with (seq 0 (o + (B - o))) by (f_equal; lia).
    apply nth_error_recs. reflexivity. }
  rewrite E, Es, recs_app.
  split; [|split].
  - destruct (N.eqb_spec (val q o) h) as [X|X].
    + unfold recs at 1. cbn [filter]. rewrite (proj2 (N.eqb_eq _ _) X). cbn. apply N.eqb_refl.
    + unfold recs at 1. cbn [filter]. rewrite (proj2 (N.eqb_neq _ _) X). cbn [map app].
      destruct (recs h (val q) (seq (S o) (B - S o))) as [|[a b] l] eqn:Er; [reflexivity|]. cbn.
      assert (Y : In (a, b) (recs h (val q) (seq (S o) (B - S o)))) by (rewrite Er; left; auto).
      unfold recs in Y. apply in_map_iff in Y. destruct Y as (t & Y & Z). apply filter_In in Z. destruct Z as [Z _]. apply in_seq in Z.
      injection Y as Y _. apply N.eqb_neq. lia.
  - intros X. unfold recs at 1. cbn [filter]. rewrite X. reflexivity.
  - unfold cnt. replace (o + 1) with (S o) by lia. rewrite seq_S, recs_app, app_length. f_equal. cbn [Nat.add].
    unfold recs. cbn [filter]. destruct (val q o =? h)%N; reflexivity.
Qed.

Definition hcur (o : nat) (cur : list nat) : Prop :=
  length cur = length ps /\ forall q, In q ids -> nth q cur 0 = cnt h (val q) o.

Lemma prepare_vec o cur words : o < B -> hcur o cur -> length words = k ->
  (forall i, i < k -> val (nth i ids 0) o <> h -> nth i words 0%N = val (nth i ids 0) o) ->
  exists cur', decode_prepare_vec c ids ps' (N.of_nat o) cur words = Ret (cur', map (fun i => val (nth i ids 0) o) (seq 0 k)) /\
    hcur (o + 1) cur'.
Proof.
  intros Ho [Lc Hc] Lw Hw. unfold decode_prepare_vec. fold k.
  assert (Lids := ids_len). assert (Hnd : NoDup ids) by apply ids_NoDup.
  assert (X : forall m, m <= k -> exists cur' words', fold_left (fun o0 i => bind o0 (fun st : list nat * list N =>
      let '(cur, words) := st in
      let j := get 0 ids i in
      if length ps' <=? j then Ub
      else
        let pj := get [] ps' j in
        if props_is_marked pj (get 0 cur j) (N.of_nat o) then
          Ret (set cur j (get 0 cur j + 1),
               if N.eqb (props_marker pj (get 0 cur j)) OOR_MARK then set words i (c_h c) else words)
        else Ret (cur, words)))
    (seq 0 m) (Ret (cur, words)) = Ret (cur', words') /\ length cur' = length ps /\ length words' = k /\
    (forall i, i < k -> nth (nth i ids 0) cur' 0 = cnt h (val (nth i ids 0)) (if i <? m then o + 1 else o)) /\
    (forall i, i < k -> i < m -> nth i words' 0%N = val (nth i ids 0) o) /\
    (forall i, m <= i -> nth i words' 0%N = nth i words 0%N)).
  { induction m; intros Hm.
    - exists cur, words. cbn [seq fold_left]. split; [auto|]. split; [auto|]. split; [auto|]. split; [|split; [lia|auto]].
      intros i Hi. apply Hc. apply nth_In. lia.
    - destruct IHm as (cu & wo & E & L1 & L2 & I1 & I2 & I3); [lia|]. rewrite seq_S, fold_left_app, E. cbn [fold_left Nat.add bind].
      set (j := get 0 ids m). assert (Hj : In j ids) by (apply nth_In; lia). pose proof (in_ids_lt j Hj) as Hjn.
      assert (Lps' : length ps' = c_nout c) by (unfold ps'; now rewrite map_length).
      destruct (Nat.leb_spec (length ps') j); [lia|]. unfold get. cbv zeta.
      assert (Ecu : nth j cu 0 = cnt h (val j) o).
      { unfold j, get. rewrite I1 by lia. destruct (Nat.ltb_spec m m); [lia|reflexivity]. }
      rewrite !Ecu. destruct (marked j o Ho Hj) as (M1 & M2 & M3). change (@nth (list (N * N))) with (@nth props). change (@nth (list (N * N))) with (@nth props) in M1, M2. rewrite M1.
      assert (Ij : forall i, i < k -> nth i ids 0 = j -> i = m).
      { intros i Hi Ei. apply (proj1 (NoDup_nth ids 0) Hnd); [lia|lia|exact Ei]. }
      destruct (val j o =? h)%N eqn:Ev.
      + rewrite M2 by auto. cbn [N.eqb OOR_MARK Pos.eqb]. eexists _, _. split; [reflexivity|]. rewrite !set_length. split; [auto|]. split; [auto|].
        rewrite (c_hE c Hws Hpkt Hcard). fold h. split; [|split].
        * intros i Hi. destruct (Nat.eq_dec i m) as [->|Hne].
          -- change (nth m ids 0) with j. rewrite nth_set_eq by lia. destruct (Nat.ltb_spec m (S m)); [|lia]. rewrite M3. reflexivity.
          -- rewrite nth_set_neq by (intros E0; apply Hne, Ij; auto). rewrite I1 by auto.
             destruct (Nat.ltb_spec i m), (Nat.ltb_spec i (S m)); auto; lia.
        * intros i Hi Him. destruct (Nat.eq_dec i m) as [->|Hne].
          -- rewrite nth_set_eq by lia. change (nth m ids 0) with j. symmetry. now apply N.eqb_eq.
          -- rewrite nth_set_neq by auto. apply I2; lia.
        * intros i Hi. rewrite nth_set_neq by lia. apply I3. lia.
      + exists cu, wo. split; [reflexivity|]. split; [auto|]. split; [auto|]. split; [|split].
        * intros i Hi. rewrite I1 by auto. destruct (Nat.eq_dec i m) as [->|Hne].
          -- change (nth m ids 0) with j. destruct (Nat.ltb_spec m m), (Nat.ltb_spec m (S m)); try lia.
          -- destruct (Nat.ltb_spec i m), (Nat.ltb_spec i (S m)); auto; lia.
        * intros i Hi Him. destruct (Nat.eq_dec i m) as [->|Hne]; [|apply I2; lia].
          rewrite I3 by lia. apply Hw; [lia|]. change (nth m ids 0) with j. now apply N.eqb_neq.
        * intros i Hi. apply I3. lia. }
  destruct (X k (le_n k)) as (cu & wo & E & L1 & L2 & I1 & I2 & _). exists cu. split.
  - etransitivity; [exact E|]. f_equal. f_equal. apply (list_ext _ 0%N); [rewrite map_length, seq_length; auto|].
    intros i Hi. rewrite nth_map_seq by lia. apply I2; lia.
  - split; [auto|]. intros q Hq. destruct (In_nth _ _ 0 Hq) as (i & Hi & <-). rewrite I1 by lia.
    destruct (Nat.ltb_spec i k); [reflexivity|lia].
Qed.

Variable x : ctx.
Variables (junk1 junk2 : list N).
Hypothesis Hx : ctx_new c ids junk1 junk2 = Some x.
Hypothesis Hj1 : length junk1 = c_n c.
Hypothesis Hj2 : length junk2 = c_l2 c.

Lemma hx_ids : x_ids x = ids.
Proof.
  apply (x_idsE c cw CS Hws Hpkt Hcard missing Hen ps Lps x junk1 junk2 Hx Hj1 Hj2).
Qed.

Let src := map (fun i => nth (nth i ids 0) par []) (seq 0 k).

Lemma src_in b : In b src -> length b = B * ws.
Proof.
  intros H. unfold src in H. apply in_map_iff in H. destruct H as (i & <- & Hi). apply in_seq in Hi. apply Hpar. apply nth_In.
  rewrite ids_len. lia.
Qed.

Lemma hdecode_loop_spec fuel : forall o vs cur outs, B - o < fuel -> o <= B -> vs_ok c vs -> hcur o cur -> length outs = k ->
  hdecode_loop fuel c x ps' wanted o (map (at_word ws o) src) vs cur outs =
  Some (Ret (map (fun j => if nth j wanted false
                           then nth j outs [] ++ flat_map (fun t => bytes_of_word ws (F j t)) (seq o (B - o))
                           else nth j outs []) (seq 0 k))).
Proof.
  pose proof (cs_k _ _ CS) as K0. fold k in K0.
  assert (Ls : length src = k) by (unfold src; now rewrite map_length, seq_length).
  induction fuel as [|fuel IH]; intros o vs cur outs Hf Ho Hv Hc Lo; [lia|]. cbn [hdecode_loop]. fold ws.
  destruct (Nat.eq_dec o B) as [->|Hne].
  - pose proof (readw_all_none ws B src ltac:(intros E; rewrite E in Ls; cbn in Ls; lia)
      ltac:(intros b Hb; rewrite (src_in b Hb); assert (0 < ws) by exact Hws; nia)) as E.
    destruct (readw_all ws _) as [ins r]. cbn in E. subst r. rewrite Nat.sub_diag. cbn [seq flat_map].
    f_equal. f_equal. rewrite <- (map_nth_seq _ [] outs k Lo) at 1. apply map_ext. intros j. rewrite app_nil_r. now destruct (nth j wanted false).
  - rewrite readw_all_some by (intros b Hb; rewrite (src_in b Hb); apply Nat.mul_le_mono_r; lia).
    rewrite hx_ids.
    assert (Ew : map (fun b => word_at ws b o) src = map (fun i => word_at ws (nth (nth i ids 0) par []) o) (seq 0 k)).
    { unfold src. rewrite map_map. reflexivity. }
    rewrite Ew. destruct (prepare_vec o cur (map (fun i => word_at ws (nth (nth i ids 0) par []) o) (seq 0 k))
      ltac:(lia) Hc ltac:(rewrite map_length, seq_length; reflexivity)) as (cur' & E & Hc').
    { intros i Hi Hs. rewrite nth_map_seq by auto. apply Hpar; [|lia|exact Hs]. apply nth_In. rewrite ids_len. exact Hi. }
    rewrite E.
    destruct (cs_vdec _ _ CS Hns x ids junk1 junk2 vs (fun j => F j o) Hx) as [V1 V2]; auto.
    { apply (ids_frags c cw CS Hws Hpkt Hcard missing Hen). }
    { intros j Hj. rewrite Hcard. specialize (HF j o Hj ltac:(lia)). fold ws h. lia. }
    fold k in V1, V2. unfold val. destruct (decode_apply_vec c x vs _) as [vs' out]. cbn [fst snd] in V1, V2. subst out.
    rewrite IH; [|lia|lia|exact V1|exact Hc'|now rewrite map_length, seq_length].
    replace (B - o) with (S (B - (o + 1))) by lia. cbn [seq flat_map]. replace (S o) with (o + 1) by lia.
    f_equal. f_equal. apply map_ext_in. intros j Hj. apply in_seq in Hj. unfold get. rewrite !nth_map_seq by (fold k; lia).
    destruct (nth j wanted false); [now rewrite <- app_assoc|reflexivity].
Qed.
End Dec.

Theorem decode_hstreams_any B missing wanted data par (ps : list props) F vs outs junk1 junk2 :
  k <= length (filter (fun i => negb (get true missing i)) (seq 0 (k + c_m c))) ->
  (forall j t, j < k -> t < B -> (F j t <= h)%N) ->
  (forall q, In q (ids c missing) -> length (nth q par []) = B * ws /\
    (forall t, t < B -> cw (fun j => F j t) q <> h -> word_at ws (nth q par []) t = cw (fun j => F j t) q) /\
    Permutation (nth q ps []) (recs h (fun t => cw (fun j => F j t) q) (seq 0 B))) ->
  length par = c_nout c -> length ps = c_nout c -> length outs = k -> vs_ok c vs ->
  length junk1 = c_n c -> length junk2 = c_l2 c ->
  decode_hstreams c junk1 junk2 vs data par ps missing wanted outs =
  Some (Ret (true, map (fun j => if nth j wanted false then nth j outs [] ++ word_bytes_upto ws (F j) B else nth j outs []) (seq 0 k),
             map props_sort ps)).
Proof.
  intros Hen HF Hpar Lp Lps Lo Hv Hj1 Hj2. unfold decode_hstreams. fold k. rewrite Hns, Lp, Lps, Lo, !Nat.eqb_refl. cbn [negb orb andb].
  assert (Ead : avail_data c missing = []) by (unfold avail_data; now rewrite Hns).
  pose proof (ids_eq c Hws Hpkt Hcard missing) as Eids. rewrite Hns in Eids.
  pose proof (par_length c Hws Hpkt Hcard missing Hen) as Lap. rewrite Ead in *. cbn [length app] in *. fold k in Lap.
  rewrite Nat.sub_0_r in Lap. rewrite Lap. cbn [Nat.add].
  destruct (Nat.ltb_spec k k); [lia|]. rewrite Eids.
  destruct (cs_ctx _ _ CS _ junk1 junk2 (ids_frags c cw CS Hws Hpkt Hcard missing Hen) Hj1 Hj2) as [x Hx]. rewrite Hx.
  pose proof (cs_k _ _ CS) as K0. fold k in K0.
  set (ins := map _ (seq 0 k)).
  assert (Ein : ins = map (at_word ws 0) (map (fun i => nth (nth i (ids c missing) 0) par []) (seq 0 k))).
  { unfold ins. rewrite map_map. apply map_ext. intros i. unfold at_word, get. cbn [Nat.mul skipn].
    destruct (Nat.ltb_spec i 0); [lia|]. rewrite Nat.sub_0_r. reflexivity. }
  rewrite Ein.
  rewrite (hdecode_loop_spec B missing wanted par ps F Hen HF Hpar Lps x junk1 junk2 Hx Hj1 Hj2); auto; try lia.
  - rewrite Nat.sub_0_r. reflexivity.
  - unfold get. rewrite map_map, nth_map_seq by auto. unfold at_word. cbn [is_rest Nat.mul skipn].
    destruct (Hpar (nth 0 (ids c missing) 0)) as [-> _].
    { apply nth_In. rewrite (ids_len missing ps Hen Lps). exact K0. }
    assert (0 < ws) by exact Hws. nia.
  - split; [now rewrite repeat_length|]. intros q _. unfold cnt. cbn [seq]. unfold recs. cbn [filter map length]. apply nth_repeat.
Qed.
End Code.

Theorem decode_hstreams_few c (Hws : 0 < c_ws c) (Hpkt : 0 < c_pkt c) (Hcard : g_card (c_G c) = (256 ^ N.of_nat (c_ws c) + 1)%N)
  missing wanted data par (ps : list props) old vs junk1 junk2 :
  length (filter (fun i => negb (get true missing i)) (seq 0 (c_k c + c_m c))) < c_k c ->
  (c_sys c = true -> length data = c_k c) -> length par = c_nout c -> length ps = c_nout c -> length old = c_k c ->
  decode_hstreams c junk1 junk2 vs data par ps missing wanted old = Some (Ret (false, old, ps)).
Proof.
  intros Hen Lb Lp Lps Lo. unfold decode_hstreams.
  assert (Ea : negb (c_sys c) || (length data =? c_k c) = true).
  { destruct (c_sys c); [|auto]. cbn. apply Nat.eqb_eq. auto. }
  rewrite Ea, Lp, Lps, Lo, !Nat.eqb_refl. cbn [andb].
  rewrite present_split, app_length in Hen by auto.
  assert (Ha : (length (avail_data c missing) =? c_k c) = false) by (apply Nat.eqb_neq; lia).
  rewrite Ha, andb_false_r.
  assert (Hap : length (avail_data c missing) + length (avail_par c missing) < c_k c).
  { unfold avail_par. rewrite firstn_length. destruct (c_sys c); rewrite ?map_length in Hen; lia. }
  apply Nat.ltb_lt in Hap. rewrite Hap. reflexivity.
Qed.
