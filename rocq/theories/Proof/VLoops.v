(** Loops over the packets of blocks and streams, for any code that does what is asked on packets. *)
From Coq Require Import List NArith ZArith Arith Bool Lia Permutation.
From Verif.Model Require Import Common Ring Fft2n Radix2 Poly Props Bytes Fnt Blocks Streams HCodes VCodes.
From Verif.Spec Require Import Code Blocks Session VCodes.
From Verif.Proof Require Import ListP BytesP PropsP StreamsL BlocksP.
Import ListNotations.
Open Scope nat_scope.

(** Records of the places of a list where the mark is not 0. *)
Definition vrecs (g : nat -> N) (l : list nat) : props := flat_map (fun t => if (0 <? g t)%N then [(N.of_nat t, g t)] else []) l.

Lemma vrecs_app g a b : vrecs g (a ++ b) = vrecs g a ++ vrecs g b.
Proof. unfold vrecs. apply flat_map_app. Qed.
Lemma vrecs_none g l : (forall t, In t l -> g t = 0%N) -> vrecs g l = [].
Proof.
  induction l as [|t l IH]; intros H; [reflexivity|]. unfold vrecs in *. cbn [flat_map]. rewrite (H t) by now left.
  cbn. apply IH. intros; apply H; now right.
Qed.
Lemma vrecs_cut g o n m : m <= n -> (forall t, o + m <= t < o + n -> g t = 0%N) -> vrecs g (seq o n) = vrecs g (seq o m).
Proof.
  intros Hm H. replace n with (m + (n - m)) by lia. rewrite seq_app, vrecs_app, (vrecs_none _ (seq (o + m) _)).
  - now rewrite app_nil_r.
  - intros t Ht. apply in_seq in Ht. apply H. lia.
Qed.
Lemma vrecs_in g l p : In p (vrecs g l) -> exists t, In t l /\ p = (N.of_nat t, g t) /\ (0 < g t)%N.
Proof.
  unfold vrecs. intros H. apply in_flat_map in H. destruct H as (t & Ht & Hp). exists t. split; [auto|].
  destruct (N.ltb_spec 0 (g t)); [|contradiction]. destruct Hp as [<-|[]]. auto.
Qed.
Lemma vrecs_ge g o n p : In p (vrecs g (seq o n)) -> (N.of_nat o <= fst p)%N.
Proof. intros H. apply vrecs_in in H. destruct H as (t & Ht & -> & _). apply in_seq in Ht. cbn. lia. Qed.
Lemma sort_vrecs g n : forall o, props_sort (vrecs g (seq o n)) = vrecs g (seq o n).
Proof.
  induction n; intros o; [reflexivity|]. cbn [seq].
  change (o :: seq (S o) n) with ([o] ++ seq (S o) n). rewrite vrecs_app. unfold vrecs at 1 3. cbn [flat_map].
  destruct (0 <? g o)%N; cbn [app]; [|apply IHn]. cbn [props_sort]. rewrite IHn.
  pose proof (vrecs_ge g (S o) n) as H. destruct (vrecs g (seq (S o) n)) as [|p l]; [reflexivity|]. cbn [props_insert].
  specialize (H p (or_introl eq_refl)). unfold pair_leb. cbn [fst]. destruct (N.ltb_spec (N.of_nat o) (fst p)); [reflexivity|lia].
Qed.
Lemma vrecs_ext g g' l : (forall t, In t l -> g t = g' t) -> vrecs g l = vrecs g' l.
Proof.
  induction l as [|t l IH]; intros H; [reflexivity|]. unfold vrecs in *. cbn [flat_map]. rewrite (H t) by now left.
  f_equal. apply IH. intros; apply H; now right.
Qed.

Lemma vload_length ws pkt bs offset blk wc : length wc = pkt * ws -> offset <= bs -> bs * ws <= length blk ->
  length (load_pkt ws pkt offset (Nat.min pkt (bs - offset)) blk wc) = pkt * ws.
Proof.
  intros Lw Ho Hb. unfold load_pkt. set (copy := Nat.min pkt (bs - offset)).
  assert (Hc : copy * ws <= pkt * ws) by (apply Nat.mul_le_mono_r; unfold copy; lia).
  assert (Hc2 : (offset + copy) * ws <= length blk) by (transitivity (bs * ws); [apply Nat.mul_le_mono_r; unfold copy; lia|lia]).
  assert (L1 : length (blit wc 0 (slice blk (offset * ws) (copy * ws))) = pkt * ws).
  { rewrite blit_length; [auto|]. rewrite slice_length by lia. lia. }
  destruct (copy <? pkt); [|auto]. rewrite blit_length; [auto|]. rewrite repeat_length. lia.
Qed.

(** [k] different fragments. *)
Definition vfrags (k nout : nat) (ids : list nat) : Prop := length ids = k /\ NoDup ids /\ forall i, In i ids -> i < nout.

Section Loops.
Variables (ws k nout outlen : nat) (cwv mk : (nat -> N) -> nat -> N).
Notation h := (256 ^ N.of_nat ws)%N.

(** What a code does with a column of data symbols: the symbol [cwv col q] of fragment [q] and its mark [mk col q]. *)
Record cols_ok : Prop := ColsOk {
  co_ws : word_size_ok ws = true;
  co_k : 0 < k;
  co_ext : forall col col' q, (forall j, j < k -> col j = col' j) -> cwv col q = cwv col' q /\ mk col q = mk col' q;
  co_lt : forall col q, (cwv col q < h)%N;
  co_zero : forall q, cwv (fun _ => 0%N) q = 0%N /\ mk (fun _ => 0%N) q = 0%N
}.
Record enc_ok (e : penc) : Prop := EncOk {
  eo_bytes : ws <= pe_bytes e;
  eo_ws : pe_ws e = ws;
  eo_k : pe_k e = k;
  eo_nout : pe_nout e = nout;
  eo_pkt : 0 < pe_pkt e;
  eo_enc : forall out ps o f, length out = outlen -> length ps = nout ->
    (forall j t, j < k -> t < pe_pkt e -> (f j t < h)%N) ->
    exists out' words', pe_encode e out ps (N.of_nat o) (pkts k (pe_pkt e) f) =
      (out', map (fun q => nth q ps [] ++ vrecs (fun t => mk (fun j => f j (t - o)) q) (seq o (pe_pkt e))) (seq 0 nout), words') /\
      length out' = outlen /\
      forall q, q < nout -> nth q out' [] = map (fun t => cwv (fun j => f j t) q) (seq 0 (pe_pkt e))
}.
(** [ready ids cur x]: the decoder [x] uses the fragments [ids] and has gone through [cur q] records of fragment [q]. *)
Record dec_ok (d : pdec) (ready : list nat -> (nat -> nat) -> pd_state d -> Prop) : Prop := DecOk {
  do_bytes : ws <= pd_bytes d;
  do_ws : pd_ws d = ws;
  do_k : pd_k d = k;
  do_nout : pd_nout d = nout;
  do_pkt : 0 < pd_pkt d;
  do_ext : forall ids cur cur' x, (forall q, cur q = cur' q) -> ready ids cur x -> ready ids cur' x;
  do_begin : forall ids ps, vfrags k nout ids -> length ps = nout ->
    exists x, pd_begin d ids ps = Some (x, map props_sort ps) /\ ready ids (fun _ => 0) x;
  do_dec : forall x ids ps cur o f, ready ids cur x -> vfrags k nout ids -> length ps = nout ->
    (forall j t, j < k -> t < pd_pkt d -> (f j t < h)%N) ->
    (forall q, In q ids -> exists dn rest, nth q ps [] = dn ++ vrecs (fun t => mk (fun j => f j (t - o)) q) (seq o (pd_pkt d)) ++ rest /\
       length dn = cur q /\ forall p, In p rest -> (N.of_nat (o + pd_pkt d) <= fst p)%N) ->
    exists x' words', pd_decode d x ps (N.of_nat o) (pkts k (pd_pkt d) (fun i t => cwv (fun j => f j t) (nth i ids 0))) = (x', words') /\
      ready ids (fun q => cur q + length (vrecs (fun t => mk (fun j => f j (t - o)) q) (seq o (pd_pkt d)))) x' /\
      pd_out d x' = pkts k (pd_pkt d) f
}.

Hypothesis CO : cols_ok.
Lemma ws_pos : 0 < ws.
Proof. pose proof (co_ws CO) as H. destruct ws; [discriminate|lia]. Qed.

Section Data.
(** Symbol [t] of data block [j], 0 from [bs] on. *)
Variables (sym : nat -> nat -> N) (bs : nat).
Hypothesis sym_lt : forall j t, j < k -> (sym j t < h)%N.
Hypothesis sym_0 : forall j t, bs <= t -> sym j t = 0%N.
Definition ocw (q t : nat) : N := cwv (fun j => sym j t) q.
Definition omk (q t : nat) : N := mk (fun j => sym j t) q.

Lemma ocw_out q t : bs <= t -> ocw q t = 0%N /\ omk q t = 0%N.
Proof.
  intros Ht. unfold ocw, omk. destruct (co_zero CO q) as [Z1 Z2]. destruct (co_ext CO (fun j => sym j t) (fun _ => 0%N) q) as [A B].
  - intros j _. now apply sym_0.
  - split; [rewrite A; exact Z1|rewrite B; exact Z2].
Qed.
Lemma shift_recs q o n : vrecs (fun t => mk (fun j => sym j (o + (t - o))) q) (seq o n) = vrecs (omk q) (seq o n).
Proof. apply vrecs_ext. intros t Ht. apply in_seq in Ht. unfold omk. now replace (o + (t - o)) with t by lia. Qed.
Lemma recs_upto q o n : vrecs (omk q) (seq 0 o) ++ vrecs (omk q) (seq o n) = vrecs (omk q) (seq 0 (o + n)).
Proof. now rewrite seq_app, vrecs_app. Qed.
Lemma recs_bs q n : bs <= n -> vrecs (omk q) (seq 0 n) = vrecs (omk q) (seq 0 bs).
Proof. intros Hn. apply vrecs_cut; auto. intros t Ht. apply ocw_out. lia. Qed.
Lemma recs_min q n : vrecs (omk q) (seq 0 n) = vrecs (omk q) (seq 0 (Nat.min n bs)).
Proof. destruct (Nat.le_ge_cases bs n); [rewrite Nat.min_r by auto; now apply recs_bs|now rewrite Nat.min_l]. Qed.

Definition upto (q o : nat) : props := vrecs (omk q) (seq 0 o).

(** ** Encoding *)
Section Enc.
Variable e : penc.
Hypothesis EO : enc_ok e.
Notation pkt := (pe_pkt e).

Lemma encode_pkt_spec o wc b ps : map (pack_buf ws pkt) wc = pkts k pkt (fun j t => sym j (o + t)) ->
  length (b_out b) = outlen -> ps = map (fun q => upto q o) (seq 0 nout) ->
  exists b', pencode_pkt e o wc b ps = Some (b', map (fun q => upto q (o + pkt)) (seq 0 nout)) /\ b_wc b' = wc /\ length (b_out b') = outlen /\
    forall q, q < nout -> nth q (b_oc b') [] = unpack_buf ws (map (fun t => ocw q (o + t)) (seq 0 pkt)).
Proof.
  intros Hw Lo ->. unfold pencode_pkt. rewrite (eo_ws _ EO). destruct (Nat.ltb_spec (pe_bytes e) ws); [pose proof (eo_bytes _ EO); lia|].
  unfold pack_words. rewrite (co_ws CO), Hw.
  destruct (eo_enc _ EO (b_out b) (map (fun q => upto q o) (seq 0 nout)) o (fun j t => sym j (o + t)) Lo) as (out' & words' & E & L' & Q).
  { rewrite map_length. apply seq_length. }
  { intros; now apply sym_lt. }
  rewrite E. eexists. split; [apply f_equal; apply f_equal2; [reflexivity|]|].
  - apply map_ext_in. intros q Hq. apply in_seq in Hq. rewrite nth_map_seq by lia. rewrite shift_recs. apply recs_upto.
  - cbn [b_wc b_out b_oc]. split; [reflexivity|]. split; [exact L'|]. intros q Hq. unfold unpack_words. rewrite (co_ws CO).
    change (@nil N) with (unpack_buf ws []). rewrite map_nth, Q by auto. reflexivity.
Qed.

Section EncB.
Variables (data : list (list N)) (wanted : list bool) (par : list (list N)).
Hypothesis Hdata : forall j, j < k -> bs * ws <= length (nth j data []) /\ forall t, t < bs -> word_at ws (nth j data []) t = sym j t.
Hypothesis Hpar : forall i, i < nout -> get false wanted i = true -> bs * ws <= length (nth i par []).

Definition parts (o : nat) : list (list N) :=
  map (fun i => if get false wanted i then words_then ws (ocw i) o (nth i par []) else nth i par []) (seq 0 nout).

Lemma load_words o wc : (forall i, i < k -> length (nth i wc []) = pkt * ws) -> o < bs ->
  map (pack_buf ws pkt) (map (fun i => load_pkt ws pkt o (Nat.min pkt (bs - o)) (get [] data i) (get [] wc i)) (seq 0 k)) =
  pkts k pkt (fun j t => sym j (o + t)).
Proof.
  intros Lw Ho. unfold pkts. rewrite map_map. apply map_ext_in. intros j Hj. apply in_seq in Hj. assert (Hjk : j < k) by lia.
  unfold get. etransitivity; [apply load_pkt_words; [now apply Lw|lia|now apply Hdata]|].
  apply map_ext. intros t. destruct (Nat.ltb_spec (o + t) bs); [now apply Hdata|]. symmetry. now apply sym_0.
Qed.

Lemma encode_loop_spec fuel : forall o b ps p, bs - o <= fuel -> (forall i, i < k -> length (nth i (b_wc b) []) = pkt * ws) ->
  length (b_out b) = outlen -> ps = map (fun q => upto q o) (seq 0 nout) -> p = parts (Nat.min o bs) ->
  pencode_loop fuel e data wanted bs o b p ps = Some (parts bs, map (fun q => upto q bs) (seq 0 nout)).
Proof.
  pose proof (eo_pkt _ EO) as Hp. induction fuel; intros o b ps p Hf Lw Lo Eps Ep; cbn [pencode_loop].
  - rewrite Ep, Eps. replace (Nat.min o bs) with bs by lia. do 2 f_equal. apply map_ext. intros q. unfold upto. apply recs_bs. lia.
  - destruct (Nat.ltb_spec o bs) as [Ho|Ho].
    + rewrite (eo_ws _ EO), (eo_k _ EO), (eo_nout _ EO).
      set (wc := map _ (seq 0 k)).
      destruct (encode_pkt_spec o wc b ps) as (b' & E & B1 & B2 & B3); auto; [now apply load_words|]. rewrite E.
      apply IHfuel; auto; [lia| |].
      * intros i Hi. rewrite B1. unfold wc. rewrite nth_map_seq by auto. unfold get. apply vload_length; [now apply Lw|lia|now apply Hdata].
      * unfold parts. apply map_ext_in. intros i Hi. apply in_seq in Hi. rewrite Ep. unfold parts. rewrite get_map_seq by lia.
        destruct (get false wanted i) eqn:Ei; [|auto]. unfold get. rewrite B3 by lia. unfold store_pkt.
        replace (Nat.min o bs) with o by lia. replace (Nat.min (o + pkt) bs) with (o + Nat.min pkt (bs - o)) by lia.
        apply (store_step ws pkt bs o (ocw i)); [lia|]. apply Hpar; auto. lia.
    + rewrite Ep, Eps. replace (Nat.min o bs) with bs by lia. do 2 f_equal. apply map_ext. intros q. unfold upto. now apply recs_bs.
Qed.

Lemma encode_blocks_spec b ps bytes : bs = bytes / ws -> (forall i, i < k -> length (nth i (b_wc b) []) = pkt * ws) ->
  length (b_out b) = outlen -> length data = k -> length par = nout -> length ps = nout ->
  pencode_blocks e b data par ps wanted bytes = Some (parts bs, map (fun q => upto q bs) (seq 0 nout)).
Proof.
  intros Eb Lw Lo Ld Lp Lps. unfold pencode_blocks. rewrite (eo_ws _ EO), (eo_k _ EO), (eo_nout _ EO), Ld, Lp, Lps, !Nat.eqb_refl. cbn [andb].
  rewrite <- Eb. apply encode_loop_spec; auto; [lia| |].
  - rewrite <- Lps. clear. apply (list_ext _ []); [rewrite !map_length, seq_length; auto|].
    rewrite map_length. intros i Hi. rewrite nth_map_seq by auto.
    assert (X : forall (l : list props) i, nth i (map (fun _ => @nil (N * N)) l) [] = []) by (clear; induction l; intros [|i]; cbn; auto).
    now rewrite X.
  - unfold parts. rewrite <- (map_nth_seq _ [] par nout Lp) at 1. apply map_ext. intros i. cbn [Nat.min].
    destruct (get false wanted i); [|auto]. now rewrite words_then_0.
Qed.
End EncB.

Section EncS.
Variables (data old : list (list N)).
Notation L := (bs * ws).
Hypothesis Ldata : length data = k.
Hypothesis HdataS : forall j, j < k -> length (nth j data []) = L /\ forall t, t < bs -> word_at ws (nth j data []) t = sym j t.

Lemma sym_word j t : j < k -> word_at ws (nth j data []) t = sym j t.
Proof.
  intros Hj. destruct (HdataS j Hj) as [Lj Wj]. destruct (Nat.lt_ge_cases t bs) as [H|H]; [auto|]. rewrite sym_0 by auto.
  unfold word_at, slice. rewrite skipn_all2 by (rewrite Lj; nia). rewrite firstn_nil. reflexivity.
Qed.
Lemma svec_words o : map (pack_buf ws pkt)
    (map (fun s => pkt_of (pkt * ws) (is_rest s)) (map (fun b => mkIs (skipn (o * ws) b) false) data)) =
  pkts k pkt (fun j t => sym j (o + t)).
Proof.
  rewrite !map_map. cbn [is_rest]. unfold pkts. rewrite <- (map_nth_seq _ [] data k Ldata) at 1. rewrite map_map.
  apply map_ext_in. intros j Hj. apply in_seq in Hj. rewrite pack_pkt_of. apply map_ext. intros t. apply sym_word. lia.
Qed.

Definition souts (o : nat) : list (list N) := map (fun i => nth i old [] ++ word_bytes_upto ws (ocw i) o) (seq 0 nout).

Lemma encode_sloop_spec fuel : forall o wc b outs0 ps0, L - o * ws < fuel -> o <= bs ->
  length wc = k -> (forall i, i < k -> length (nth i wc []) = pkt * ws) -> length (b_out b) = outlen ->
  outs0 = souts o -> ps0 = map (fun q => upto q o) (seq 0 nout) ->
  pencode_sloop fuel e o (mkRs (map (fun b => mkIs (skipn (o * ws) b) false) data) wc (pkt * ws) true) b outs0 ps0 =
    Some (souts bs, map (fun q => upto q bs) (seq 0 nout)).
Proof.
  pose proof ws_pos as Hws. pose proof (eo_pkt _ EO) as Hp.
  induction fuel; intros o wc b outs0 ps0 Hf Ho Lw Hw Lo E1 E2; [lia|]. cbn [pencode_sloop].
  set (ins := map (fun b => mkIs (skipn (o * ws) b) false) data).
  assert (Li : length ins = k) by (unfold ins; now rewrite map_length).
  rewrite (eo_ws _ EO), (eo_k _ EO), (eo_nout _ EO).
  rewrite (read_turn_spec k (pkt * ws) (L - o * ws)); auto; [|apply (co_k CO)|].
  2: { intros i Hi. unfold ins. rewrite (nth_indep _ _ ((fun b => mkIs (skipn (o * ws) b) false) [])) by (rewrite map_length; lia).
       rewrite (map_nth (fun b => mkIs (skipn (o * ws) b) false)). cbn [is_fail is_rest]. split; [reflexivity|].
       rewrite skipn_length. destruct (HdataS i Hi) as [-> _]. reflexivity. }
  cbn [rs_bytes rs_cont rs_wc].
  assert (Hps : 0 < pkt * ws) by (apply Nat.mul_pos_pos; auto).
  destruct (encode_pkt_spec o (map (fun s => pkt_of (pkt * ws) (is_rest s)) ins) b ps0) as (b' & E & B1 & B2 & B3); auto; [apply svec_words|].
  destruct (Nat.leb_spec (pkt * ws) (L - o * ws)) as [Hfull|Hlast].
  - destruct (Nat.eqb_spec (pkt * ws) 0); [lia|]. rewrite E.
    assert (Hpb : o + pkt <= bs) by (apply Nat.mul_le_mono_pos_r with ws; [auto|nia]).
    unfold ins at 1. rewrite map_map. cbn [is_rest].
    destruct (Nat.ltb_spec (L - o * ws) (pkt * ws)); [lia|].
    replace (map (fun x => mkIs (skipn (pkt * ws) (skipn (o * ws) x)) false) data) with
      (map (fun b => mkIs (skipn ((o + pkt) * ws) b) false) data).
    2: { apply map_ext. intros x. rewrite skipn_skipn. do 2 f_equal. lia. }
    apply IHfuel; auto; try nia.
    + rewrite map_length. exact Li.
    + intros i Hi. unfold ins. rewrite map_map. cbn [is_rest].
      rewrite (nth_indep _ _ ((fun b => pkt_of (pkt * ws) (skipn (o * ws) b)) [])) by (rewrite map_length; lia).
      rewrite (map_nth (fun b => pkt_of (pkt * ws) (skipn (o * ws) b))). apply pkt_of_length.
    + rewrite E1. unfold souts. apply map_ext_in. intros i Hi. apply in_seq in Hi. rewrite get_map_seq by lia.
      unfold get. rewrite B3, <- app_assoc, upto_full by lia. reflexivity.
  - destruct (Nat.eqb_spec (L - o * ws) 0) as [H0|H0].
    + assert (o = bs) by nia. subst o. now rewrite E1, E2.
    + rewrite E. destruct (Nat.ltb_spec (L - o * ws) (pkt * ws)); [|lia].
      assert (Hpb : bs <= o + pkt) by nia. f_equal. f_equal.
      * rewrite E1. unfold souts. apply map_ext_in. intros i Hi. apply in_seq in Hi. rewrite get_map_seq by lia.
        unfold get. rewrite B3, <- app_assoc by lia. f_equal. etransitivity; [apply (upto_last ws (ocw i) o pkt bs L); nia|].
        apply firstn_all2. rewrite upto_length. lia.
      * apply map_ext. intros q. unfold upto. now apply recs_bs.
Qed.

Lemma encode_streams_spec b ps : length (b_wc b) = k -> (forall i, i < k -> length (nth i (b_wc b) []) = pkt * ws) ->
  length (b_out b) = outlen -> length old = nout -> length ps = nout ->
  pencode_streams e b data old ps = Some (souts bs, map (fun q => upto q bs) (seq 0 nout)).
Proof.
  intros Lw Hw Lo Lold Lps. unfold pencode_streams. rewrite (eo_ws _ EO), (eo_k _ EO), (eo_nout _ EO), Ldata, Lold, Lps, !Nat.eqb_refl. cbn [andb].
  replace (map (fun b => mkIs b false) data) with (map (fun b => mkIs (skipn (0 * ws) b) false) data) by reflexivity.
  apply encode_sloop_spec; auto.
  - unfold get. destruct (HdataS 0 (co_k CO)) as [-> _]. lia.
  - lia.
  - unfold souts. rewrite <- (map_nth_seq _ [] old nout Lold) at 1. apply map_ext. intros i. unfold word_bytes_upto. cbn [seq flat_map]. now rewrite app_nil_r.
  - rewrite <- Lps. clear. apply (list_ext _ []); [rewrite !map_length, seq_length; auto|].
    rewrite map_length. intros i Hi. rewrite nth_map_seq by auto.
    assert (X : forall (l : list props) i, nth i (map (fun _ => @nil (N * N)) l) [] = []) by (clear; induction l; intros [|i]; cbn; auto).
    now rewrite X.
Qed.
End EncS.
End Enc.

(** ** Decoding *)
Section Dec.
Variables (d : pdec) (ready : list nat -> (nat -> nat) -> pd_state d -> Prop).
Hypothesis DO : dec_ok d ready.
Notation pkt := (pd_pkt d).
Variable missing : list bool.
Definition vids : list nat := firstn k (filter (fun i => negb (get true missing i)) (seq 0 nout)).
Hypothesis Hen : k <= length (filter (fun i => negb (get true missing i)) (seq 0 nout)).

Lemma vids_length : length vids = k.
Proof. unfold vids. rewrite firstn_length. lia. Qed.
Lemma vids_in i : In i vids -> i < nout /\ get true missing i = false.
Proof.
  intros H. assert (X : In i (filter (fun i => negb (get true missing i)) (seq 0 nout))).
  { rewrite <- (firstn_skipn k _). apply in_or_app. now left. }
  apply filter_In in X. destruct X as [X Y]. apply in_seq in X. split; [lia|]. now apply negb_true_iff.
Qed.
Lemma vids_frags : vfrags k nout vids.
Proof.
  split; [apply vids_length|]. split; [apply NoDup_firstn, NoDup_filter, seq_NoDup|]. intros i Hi. now apply vids_in.
Qed.
Lemma vids_sorted : nat_sort vids = vids.
Proof.
  unfold vids. apply sort_firstn; [apply sort_sublist|]. intros n.
  destruct (skipn_filter_seq (fun i => negb (get true missing i)) nout n 0) as (a' & n' & ->). apply sort_sublist.
Qed.

Variables (ps : list props).
Hypothesis Lps : length ps = nout.
Hypothesis Hps : forall q, q < nout -> get true missing q = false -> Permutation (nth q ps []) (upto q bs).
Notation ps' := (map props_sort ps).

Lemma ps_sorted_upto q : In q vids -> nth q ps' [] = upto q bs.
Proof.
  intros Hq. destruct (vids_in q Hq) as [Hn Hm]. change (@nil (N * N)) with (props_sort []). rewrite map_nth.
  rewrite (sort_perm _ _ (Hps q Hn Hm)). apply sort_vrecs.
Qed.

(** The packets of the fragments from place [o] on. *)
Lemma decode_pkt_spec o wc q x : map (pack_buf ws pkt) wc = pkts k pkt (fun i t => ocw (nth i vids 0) (o + t)) ->
  ready vids (fun q => length (upto q o)) x ->
  exists x' q', pdecode_pkt d x o wc q ps' = Some (x', q') /\ q_wc q' = wc /\ ready vids (fun q => length (upto q (o + pkt))) x' /\
    forall j, j < k -> nth j (q_oc q') [] = unpack_buf ws (map (fun t => sym j (o + t)) (seq 0 pkt)).
Proof.
  intros Hw Hr. unfold pdecode_pkt. rewrite (do_ws _ _ DO). destruct (Nat.ltb_spec (pd_bytes d) ws); [pose proof (do_bytes _ _ DO); lia|].
  unfold pack_words. rewrite (co_ws CO), Hw.
  destruct (do_dec _ _ DO x vids ps' (fun q => length (upto q o)) o (fun j t => sym j (o + t)) Hr vids_frags) as (x' & words' & E & Hr' & Eo).
  { now rewrite map_length. }
  { intros; now apply sym_lt. }
  { intros r Hr2. exists (upto r o), (vrecs (omk r) (seq (o + pkt) (bs - (o + pkt)))). rewrite ps_sorted_upto, shift_recs by auto. split; [|split; [auto|]].
    - rewrite app_assoc. unfold upto. rewrite recs_upto, recs_upto. symmetry. rewrite recs_min. f_equal. f_equal. lia.
    - intros p Hp. now apply vrecs_ge in Hp. }
  unfold ocw. rewrite E. eexists _, _. split; [reflexivity|]. cbn [q_wc q_oc]. split; [reflexivity|]. split.
  - assert (Ee : forall r, length (upto r o) + length (vrecs (fun t => mk (fun j => sym j (o + (t - o))) r) (seq o pkt)) = length (upto r (o + pkt))).
    { intros r. rewrite shift_recs, <- app_length. f_equal. unfold upto. apply recs_upto. }
    exact (do_ext _ _ DO _ _ _ _ Ee Hr').
  - intros j Hj. unfold unpack_words. rewrite (co_ws CO), Eo. change (@nil N) with (unpack_buf ws []). rewrite map_nth. f_equal. unfold pkts. now rewrite nth_map_seq.
Qed.

Section DecB.
Variables (wanted : list bool) (par buf : list (list N)).
Hypothesis Hpar : forall q, q < nout -> get true missing q = false ->
  bs * ws <= length (nth q par []) /\ forall t, t < bs -> word_at ws (nth q par []) t = ocw q t.
Hypothesis Hbuf : forall j, j < k -> get false wanted j = true -> bs * ws <= length (nth j buf []).

Definition vnew (o : nat) : list (list N) :=
  map (fun j => if get false wanted j then words_then ws (sym j) o (nth j buf []) else nth j buf []) (seq 0 k).

Lemma vids_nth i : i < k -> In (nth i vids 0) vids.
Proof. intros Hi. apply nth_In. now rewrite vids_length. Qed.

Lemma decode_load_words o wc : (forall i, i < k -> length (nth i wc []) = pkt * ws) -> o < bs ->
  map (pack_buf ws pkt) (map (fun i => load_pkt ws pkt o (Nat.min pkt (bs - o)) (get [] par (get 0 vids i)) (get [] wc i)) (seq 0 k)) =
  pkts k pkt (fun i t => ocw (nth i vids 0) (o + t)).
Proof.
  intros Lw Ho. unfold pkts. rewrite map_map. apply map_ext_in. intros j Hj. apply in_seq in Hj. assert (Hjk : j < k) by lia.
  destruct (vids_in _ (vids_nth j Hjk)) as [X1 X2]. unfold get at 1 2 3.
  etransitivity; [apply load_pkt_words; [now apply Lw|lia|now apply Hpar]|].
  apply map_ext. intros t. destruct (Nat.ltb_spec (o + t) bs); [now apply Hpar|]. symmetry. now apply ocw_out.
Qed.

Lemma decode_loop_spec fuel : forall o x q p, bs - o <= fuel -> (forall i, i < k -> length (nth i (q_wc q) []) = pkt * ws) ->
  ready vids (fun q => length (upto q o)) x -> p = vnew (Nat.min o bs) ->
  pdecode_loop fuel d x vids par ps' wanted bs o q p = Some (vnew bs).
Proof.
  pose proof (do_pkt _ _ DO) as Hp. induction fuel; intros o x q p Hf Lw Hr Ep; cbn [pdecode_loop].
  - rewrite Ep. do 2 f_equal. lia.
  - destruct (Nat.ltb_spec o bs) as [Ho|Ho]; [|rewrite Ep; do 2 f_equal; lia].
    rewrite (do_ws _ _ DO), (do_k _ _ DO). set (wc := map _ (seq 0 k)).
    destruct (decode_pkt_spec o wc q x) as (x' & q' & E & B1 & B2 & B3); auto; [now apply decode_load_words|]. rewrite E.
    apply IHfuel; auto; [lia| |].
    + intros i Hi. rewrite B1. unfold wc. rewrite nth_map_seq by auto. destruct (vids_in _ (vids_nth i Hi)) as [X1 X2].
      unfold get. apply vload_length; [now apply Lw|lia|now apply Hpar].
    + unfold vnew. apply map_ext_in. intros i Hi. apply in_seq in Hi. rewrite Ep. unfold vnew. rewrite get_map_seq by lia.
      destruct (get false wanted i) eqn:Ei; [|auto]. unfold get. rewrite B3 by lia. unfold store_pkt.
      replace (Nat.min o bs) with o by lia. replace (Nat.min (o + pkt) bs) with (o + Nat.min pkt (bs - o)) by lia.
      apply (store_step ws pkt bs o (sym i)); [lia|]. apply Hbuf; auto. lia.
Qed.

Lemma decode_blocks_spec q bytes : bs = bytes / ws -> (forall i, i < k -> length (nth i (q_wc q) []) = pkt * ws) ->
  length par = nout -> length buf = k ->
  pdecode_blocks d q buf par ps missing wanted bytes = Some (true, vnew bs, ps').
Proof.
  intros Eb Lw Lp Lb. unfold pdecode_blocks. rewrite (do_ws _ _ DO), (do_nout _ _ DO), Lp, Lps, !Nat.eqb_refl. cbn [andb].
  unfold pd_avail. rewrite (do_k _ _ DO), (do_nout _ _ DO). fold vids. rewrite vids_length, Nat.ltb_irrefl, vids_sorted.
  destruct (do_begin _ _ DO vids ps vids_frags Lps) as (x & -> & Hr). rewrite <- Eb.
  rewrite (decode_loop_spec bs 0 x q buf); auto; [lia|].
  unfold vnew. rewrite <- (map_nth_seq _ [] buf k Lb) at 1. apply map_ext. intros i. cbn [Nat.min]. now destruct (get false wanted i).
Qed.
End DecB.

Section DecS.
Variables (wanted : list bool) (par old : list (list N)).
Notation L := (bs * ws).
Hypothesis HparS : forall q, q < nout -> get true missing q = false ->
  length (nth q par []) = L /\ forall t, t < bs -> word_at ws (nth q par []) t = ocw q t.

Definition vsouts (o : nat) : list (list N) :=
  map (fun j => if get false wanted j then nth j old [] ++ word_bytes_upto ws (sym j) o else nth j old []) (seq 0 k).
Definition vsrc (i : nat) : list N := nth (nth i vids 0) par [].

Lemma vsrc_ok i : i < k -> length (vsrc i) = L /\ forall t, word_at ws (vsrc i) t = ocw (nth i vids 0) t.
Proof.
  intros Hi. assert (X : In (nth i vids 0) vids) by (apply nth_In; now rewrite vids_length).
  destruct (vids_in _ X) as [X1 X2]. destruct (HparS _ X1 X2) as [Lj Wj]. split; [exact Lj|]. intros t.
  destruct (Nat.lt_ge_cases t bs) as [H|H]; [now apply Wj|].
  replace (ocw (nth i vids 0) t) with 0%N by (symmetry; now apply ocw_out).
  unfold word_at, slice. rewrite skipn_all2 by (unfold vsrc; rewrite Lj; nia). rewrite firstn_nil. reflexivity.
Qed.

Lemma decode_sloop_spec fuel : forall o wc x q outs0, L - o * ws < fuel -> o <= bs ->
  length wc = k -> (forall i, i < k -> length (nth i wc []) = pkt * ws) -> ready vids (fun q => length (upto q o)) x ->
  outs0 = vsouts o ->
  pdecode_sloop fuel d x ps' wanted o (mkRs (map (fun i => mkIs (skipn (o * ws) (vsrc i)) false) (seq 0 k)) wc (pkt * ws) true) q outs0 =
    Some (vsouts bs).
Proof.
  pose proof ws_pos as Hws. pose proof (do_pkt _ _ DO) as Hp.
  induction fuel; intros o wc x q outs0 Hf Ho Lw Hw Hr E1; [lia|]. cbn [pdecode_sloop].
  set (ins := map (fun i => mkIs (skipn (o * ws) (vsrc i)) false) (seq 0 k)).
  assert (Li : length ins = k) by (unfold ins; rewrite map_length; apply seq_length).
  rewrite (do_ws _ _ DO), (do_k _ _ DO).
  rewrite (read_turn_spec k (pkt * ws) (L - o * ws)); auto; [|apply (co_k CO)|].
  2: { intros i Hi. unfold ins. rewrite nth_map_seq by auto. cbn [is_fail is_rest]. split; [reflexivity|].
       rewrite skipn_length. destruct (vsrc_ok i Hi) as [-> _]. reflexivity. }
  cbn [rs_bytes rs_cont rs_wc].
  assert (Hps0 : 0 < pkt * ws) by (apply Nat.mul_pos_pos; auto).
  assert (Ew : map (fun s => pkt_of (pkt * ws) (is_rest s)) ins = map (fun i => pkt_of (pkt * ws) (skipn (o * ws) (vsrc i))) (seq 0 k))
    by (unfold ins; now rewrite map_map).
  destruct (decode_pkt_spec o (map (fun s => pkt_of (pkt * ws) (is_rest s)) ins) q x) as (x' & q' & E & B1 & B2 & B3); auto.
  { rewrite Ew, map_map. unfold pkts. apply map_ext_in. intros j Hj. apply in_seq in Hj. rewrite pack_pkt_of. apply map_ext.
    intros t. apply vsrc_ok. lia. }
  destruct (Nat.leb_spec (pkt * ws) (L - o * ws)) as [Hfull|Hlast].
  - destruct (Nat.eqb_spec (pkt * ws) 0); [lia|]. rewrite E.
    assert (Hpb : o + pkt <= bs) by (apply Nat.mul_le_mono_pos_r with ws; [auto|nia]).
    destruct (Nat.ltb_spec (L - o * ws) (pkt * ws)); [lia|].
    replace (map (fun s => mkIs (skipn (pkt * ws) (is_rest s)) false) ins) with
      (map (fun i => mkIs (skipn ((o + pkt) * ws) (vsrc i)) false) (seq 0 k)).
    2: { unfold ins. rewrite map_map. apply map_ext. intros i. cbn [is_rest]. rewrite skipn_skipn. do 2 f_equal. lia. }
    apply IHfuel; auto; try nia.
    + rewrite map_length. auto.
    + intros i Hi. rewrite Ew, nth_map_seq by auto. apply pkt_of_length.
    + rewrite E1. apply map_ext_in. intros j Hj. apply in_seq in Hj. unfold vsouts. rewrite get_map_seq by lia.
      destruct (get false wanted j); [|auto]. unfold get. rewrite B3 by lia. rewrite <- app_assoc, upto_full. reflexivity.
  - destruct (Nat.eqb_spec (L - o * ws) 0) as [H0|H0].
    + assert (o = bs) by nia. subst o. now rewrite E1.
    + rewrite E. destruct (Nat.ltb_spec (L - o * ws) (pkt * ws)); [|lia].
      assert (Hpb : bs <= o + pkt) by nia. f_equal. rewrite E1. apply map_ext_in. intros j Hj. apply in_seq in Hj.
      unfold vsouts. rewrite get_map_seq by lia. destruct (get false wanted j); [|auto].
      unfold get. rewrite B3 by lia. rewrite <- app_assoc. f_equal. etransitivity; [apply (upto_last ws (sym j) o pkt bs L); nia|].
      apply firstn_all2. rewrite upto_length. lia.
Qed.

Lemma decode_streams_spec q : length (q_wc q) = k -> (forall i, i < k -> length (nth i (q_wc q) []) = pkt * ws) ->
  length par = nout -> length old = k ->
  pdecode_streams d q par ps missing wanted old = Some (true, vsouts bs, ps').
Proof.
  intros Lq Lw Lp Lo. unfold pdecode_streams. rewrite (do_ws _ _ DO), (do_nout _ _ DO), (do_k _ _ DO), Lp, Lps, Lo, !Nat.eqb_refl. cbn [andb].
  unfold pd_avail. rewrite (do_k _ _ DO), (do_nout _ _ DO). fold vids. rewrite vids_length, Nat.ltb_irrefl, vids_sorted.
  destruct (do_begin _ _ DO vids ps vids_frags Lps) as (x & -> & Hr).
  replace (map (fun i => mkIs (get [] par i) false) vids) with (map (fun i => mkIs (skipn (0 * ws) (vsrc i)) false) (seq 0 k)).
  2: { etransitivity; [|apply (f_equal (map (fun i => mkIs (get [] par i) false)) (map_nth_seq _ 0 vids k vids_length))].
       rewrite map_map. reflexivity. }
  rewrite decode_sloop_spec; auto.
  - unfold get. rewrite nth_map_seq by apply (co_k CO). cbn [is_rest]. rewrite skipn_length. destruct (vsrc_ok 0 (co_k CO)) as [-> _]. lia.
  - lia.
  - unfold vsouts. rewrite <- (map_nth_seq _ [] old k Lo) at 1. apply map_ext. intros i. unfold word_bytes_upto. cbn [seq flat_map].
    rewrite app_nil_r. now destruct (get false wanted i).
Qed.
End DecS.
End Dec.
End Data.

(** ** Both *)
Section Back.
Variables (m : nat).
Hypothesis Hnout : nout = k + m.
Variables (D : pdec -> Prop).
Hypothesis HD : forall d, D d -> exists ready, dec_ok d ready.

Definition vsym (data : list (list N)) (bs j t : nat) : N := if t <? bs then word_at ws (nth j data []) t else 0%N.
Lemma vsym_lt data bs j t : (forall i, i < k -> all_bytes (nth i data [])) -> j < k -> (vsym data bs j t < h)%N.
Proof.
  intros H Hj. unfold vsym. destruct (t <? bs); [apply word_at_lt; auto|]. apply N.neq_0_lt_0, N.pow_nonzero. lia.
Qed.
Lemma vsym_0 data bs j t : bs <= t -> vsym data bs j t = 0%N.
Proof. intros H. unfold vsym. destruct (Nat.ltb_spec t bs); [lia|auto]. Qed.
Lemma vsym_in data bs j t : t < bs -> vsym data bs j t = word_at ws (nth j data []) t.
Proof. intros H. unfold vsym. destruct (Nat.ltb_spec t bs); [auto|lia]. Qed.

Lemma words_bytes f n : all_bytes (word_bytes_upto ws f n).
Proof.
  unfold word_bytes_upto, all_bytes. apply Forall_forall. intros x Hx. apply in_flat_map in Hx. destruct Hx as (t & _ & Hx).
  pose proof (bytes_of_word_bytes ws (f t)) as H. unfold all_bytes in H. rewrite Forall_forall in H. auto.
Qed.
Lemma words_self data bs j L : L = bs * ws -> length (nth j data []) = L -> all_bytes (nth j data []) ->
  word_bytes_upto ws (vsym data bs j) bs = nth j data [].
Proof.
  intros -> Lj Hb. pose proof (words_then_self ws (nth j data []) bs (nth j data []) Hb ltac:(lia)) as E. rewrite firstn_skipn in E.
  etransitivity; [|exact E]. unfold words_then. rewrite skipn_all2, app_nil_r by lia. unfold word_bytes_upto.
  rewrite !flat_map_concat_map. f_equal. apply map_ext_in. intros t Ht. apply in_seq in Ht. rewrite vsym_in by lia. reflexivity.
Qed.

Theorem vblocks_ok e : enc_ok e -> vblocks_back ws k m outlen e D.
Proof.
  intros EO b data par ps wanted bytes (Lb & Hwc & Lo) Hmod [Ld Hd] [Lp Hp] Lps.
  pose proof ws_pos as Hws. set (bs := bytes / ws). assert (Hby : bytes = bs * ws) by (unfold bs; pose proof (Nat.div_mod bytes ws); lia).
  assert (S1 : forall j t, j < k -> (vsym data bs j t < h)%N) by (intros; apply vsym_lt; auto; intros; now apply Hd).
  assert (S2 : forall j t, bs <= t -> vsym data bs j t = 0%N) by (intros; now apply vsym_0).
  rewrite <- Hnout in *.
  exists (parts (vsym data bs) wanted par bs), (map (fun q => upto (vsym data bs) q bs) (seq 0 nout)).
  split; [|split; [|split]].
  - apply (encode_blocks_spec (vsym data bs) bs S1 S2 e EO); auto.
    + intros j Hj. destruct (Hd j Hj) as [-> _]. split; [lia|]. intros t Ht. symmetry. now apply vsym_in.
    + intros i Hi _. destruct (Hp i Hi) as [-> _]. lia.
  - split; [unfold parts; now rewrite map_length, seq_length|]. intros i Hi. unfold parts. rewrite nth_map_seq by auto.
    destruct (Hp i Hi) as [Li Bi]. destruct (get false wanted i); [|auto]. rewrite upto_words_then by lia.
    split; [now rewrite upto_length|apply words_bytes].
  - now rewrite map_length, seq_length.
  - intros d q missing wanted' buf rpar rps Hdd [Lq Hq] [Lbuf Hbuf] (_ & Lrp & Lrs & R) Hwant Hen.
    destruct (HD d Hdd) as [ready DO]. unfold n_outs, position, present in *. rewrite <- Hnout in *.
    eexists. rewrite (decode_blocks_spec (vsym data bs) bs S1 S2 d ready DO missing Hen rps Lrs) with (bytes := bytes); auto.
    + apply f_equal. apply f_equal2; [|reflexivity]. apply f_equal2; [reflexivity|]. unfold vnew. apply map_ext_in. intros j Hj. apply in_seq in Hj.
      destruct (Hbuf j ltac:(lia)) as [Lj _]. destruct (Hd j ltac:(lia)) as [Lj' Bj]. unfold get.
      destruct (nth j wanted' false); [|auto]. rewrite upto_words_then by lia. apply words_self with bytes; auto.
    + intros r Hr Hm. destruct (R r Hr Hm) as [_ P]. rewrite nth_map_seq in P by auto. exact P.
    + intros r Hr Hm. destruct (R r Hr Hm) as [-> _]. unfold parts. rewrite nth_map_seq by auto. unfold get in *. rewrite (Hwant r Hr Hm).
      destruct (Hp r Hr) as [Lr _]. rewrite words_then_length by lia. split; [lia|]. intros t Ht.
      rewrite words_then_word_at by lia. apply N.mod_small, (co_lt CO).
    + intros j Hj _. destruct (Hbuf j Hj) as [-> _]. lia.
Qed.

Theorem vstreams_ok e : enc_ok e -> vstreams_back ws k m outlen e D.
Proof.
  intros EO b data old ps L (Lb & Hwc & Lo) Hmod [Ld Hd] Lold Lps.
  pose proof ws_pos as Hws. set (bs := L / ws). assert (Hby : L = bs * ws) by (unfold bs; pose proof (Nat.div_mod L ws); lia).
  assert (S1 : forall j t, j < k -> (vsym data bs j t < h)%N) by (intros; apply vsym_lt; auto; intros; now apply Hd).
  assert (S2 : forall j t, bs <= t -> vsym data bs j t = 0%N) by (intros; now apply vsym_0).
  rewrite <- Hnout in *.
  exists (map (fun q => word_bytes_upto ws (ocw (vsym data bs) q) bs) (seq 0 nout)), (map (fun q => upto (vsym data bs) q bs) (seq 0 nout)).
  split; [|split; [|split]].
  - rewrite (encode_streams_spec (vsym data bs) bs S1 S2 e EO); auto.
    + apply f_equal. apply f_equal2; [|reflexivity]. unfold souts. apply map_ext_in. intros q Hq. apply in_seq in Hq. now rewrite nth_map_seq by lia.
    + intros j Hj. destruct (Hd j Hj) as [-> _]. split; [lia|]. intros t Ht. symmetry. now apply vsym_in.
  - split; [now rewrite map_length, seq_length|]. intros i Hi. rewrite nth_map_seq by auto. split; [now rewrite upto_length|apply words_bytes].
  - now rewrite map_length, seq_length.
  - intros d q missing wanted rpar rps old' rdata Hdd [Lq Hq] Lold' (_ & Lrp & Lrs & R) Hen.
    destruct (HD d Hdd) as [ready DO]. unfold n_outs, position, present in *. rewrite <- Hnout in *.
    eexists. rewrite (decode_streams_spec (vsym data bs) bs S1 S2 d ready DO missing Hen rps Lrs); auto.
    + apply f_equal. apply f_equal2; [|reflexivity]. apply f_equal2; [reflexivity|]. unfold vsouts. apply map_ext_in. intros j Hj. apply in_seq in Hj.
      destruct (Hd j ltac:(lia)) as [Lj' Bj]. unfold get.
      destruct (nth j wanted false); [|now rewrite app_nil_r]. f_equal. apply words_self with L; auto.
    + intros r Hr Hm. destruct (R r Hr Hm) as [_ P]. rewrite nth_map_seq in P by auto. exact P.
    + intros r Hr Hm. destruct (R r Hr Hm) as [-> _]. rewrite nth_map_seq by auto. split; [apply upto_length|]. intros t Ht.
      rewrite <- (upto_words_then ws (ocw (vsym data bs) r) bs (repeat 0%N (bs * ws))) by apply repeat_length.
      rewrite words_then_word_at by (rewrite ?repeat_length; lia). apply N.mod_small, (co_lt CO).
Qed.
End Back.
End Loops.

Lemma vtoo_few_ok k m d : 0 < k -> pd_k d = k -> pd_nout d = k + m -> vtoo_few k m d.
Proof.
  intros Hk Ek En q missing wanted bufs par ps bytes Hen Lb Lp Lps. unfold pdecode_blocks, pdecode_streams.
  rewrite En, Ek, Lp, Lps, Lb, !Nat.eqb_refl. cbn [andb]. unfold pd_avail. rewrite En, Ek, firstn_length. unfold present, get in *.
  destruct (Nat.ltb_spec (Nat.min k (length (filter (fun i => negb (nth i missing true)) (seq 0 (k + m))))) k); [auto|lia].
Qed.
