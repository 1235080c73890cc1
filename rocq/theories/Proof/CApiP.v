(** The block functions with pointers do the same as the ones with separate buffers, when the pointers either point to
    different buffers or are the same. *)
From Coq Require Import List NArith ZArith Arith Bool Lia.
From Verif.Model Require Import Common Arith Ring Fft2n Radix2 Poly Props Bytes Fnt Blocks Header CApi.
From Verif.Proof Require Import ListP BytesP.
Import ListNotations.
Open Scope nat_scope.

Lemma firstn_blit A (l : list A) a x s : a <= length l -> firstn a (blit l (a + x) s) = firstn a l.
Proof.
  intros H. unfold blit. rewrite firstn_app, firstn_firstn, firstn_length. replace (Nat.min a (a + x)) with a by lia.
  replace (a - Nat.min (a + x) (length l)) with 0 by lia. cbn [firstn]. apply app_nil_r.
Qed.

Lemma skipn_blit_view A (l : list A) a x s : a <= length l -> skipn a (blit l (a + x) s) = blit (skipn a l) x s.
Proof.
  intros H. unfold blit. rewrite skipn_app, firstn_length, skipn_skipn, firstn_skipn_comm.
  replace (a - Nat.min (a + x) (length l)) with 0 by lia. cbn [skipn]. rewrite Nat.add_assoc. reflexivity.
Qed.

Lemma skipn_blit_after A (l : list A) x s n : x <= length l -> x + length s <= n -> skipn n (blit l x s) = skipn n l.
Proof.
  intros H Hn. unfold blit. rewrite !skipn_app, firstn_length. rewrite (skipn_all2 (firstn x l)) by (rewrite firstn_length; lia).
  rewrite (skipn_all2 s) by lia. cbn [app]. rewrite skipn_skipn. f_equal. lia.
Qed.

Lemma mapM_ok A B (f : A -> outcome B) (g : A -> B) l : (forall a, In a l -> f a = Ret (g a)) -> mapM f l = Ret (map g l).
Proof.
  induction l as [|a l IH]; intros H; [reflexivity|]. cbn [mapM map]. rewrite H by (left; auto). cbn [bind].
  rewrite IH by (intros; apply H; right; auto). reflexivity.
Qed.

Lemma foldM_app A S (f : S -> A -> outcome S) l1 l2 s : foldM f (l1 ++ l2) s = bind (foldM f l1 s) (foldM f l2).
Proof. revert s. induction l1 as [|a l IH]; intros s; cbn [foldM app bind]; [reflexivity|]. destruct (f s a); cbn [bind]; auto. Qed.

Definition view (m : cmem) (p : ptr) : list N := match p with None => [] | Some (b, a) => skipn a (nth b m []) end.

Lemma mem_read_view m b a off len : a + off + len <= length (nth b m []) ->
  mem_read m (Some (b, a)) off len = Ret (slice (view m (Some (b, a))) off len).
Proof.
  intros H. unfold mem_read, get. apply Nat.leb_le in H. rewrite H. unfold view, slice. rewrite skipn_skipn. reflexivity.
Qed.

(** ** Stores *)
Section Store.
Variables (wanted : list bool) (pp : list ptr) (ws offset copy : nat) (oc : list (list N)) (pb pa : nat -> nat).

Lemma store_all_ok n m : n <= length wanted ->
  (forall q, q < n -> nth q wanted false = true -> nth q pp null = Some (pb q, pa q) /\
     pb q < length m /\ pa q + (offset + copy) * ws <= length (nth (pb q) m [])) ->
  (forall q q', q < n -> q' < n -> nth q wanted false = true -> nth q' wanted false = true -> pb q = pb q' -> q = q') ->
  exists m', store_all wanted pp ws offset copy oc n m = Ret m' /\ length m' = length m /\
    (forall q, q < n -> nth q wanted false = true ->
       nth (pb q) m' [] = blit (nth (pb q) m []) (pa q + offset * ws) (firstn (copy * ws) (nth q oc []))) /\
    (forall b, (forall q, q < n -> nth q wanted false = true -> pb q <> b) -> nth b m' [] = nth b m []).
Proof.
  induction n; intros Hn Hp Hi.
  - exists m. split; [reflexivity|]. split; [auto|]. split; [lia|auto].
  - destruct IHn as (m' & E & L & A & B); [lia|intros; apply Hp; auto|intros; apply Hi; auto|].
    unfold store_all in *. rewrite seq_S, foldM_app, E. cbn [bind foldM Nat.add].
    destruct (Nat.leb_spec (length wanted) n); [lia|]. unfold get. destruct (nth n wanted false) eqn:W.
    + destruct (Hp n ltac:(lia) W) as (E1 & E2 & E3). rewrite E1. cbn [mem_write]. unfold get.
      assert (En : nth (pb n) m' [] = nth (pb n) m []).
      { apply B. intros q Hq Wq Eq. assert (q = n) by (apply Hi; auto; lia). lia. }
      rewrite En. destruct (Nat.leb_spec (pa n + offset * ws + length (firstn (copy * ws) (nth n oc []))) (length (nth (pb n) m []))) as [_|X].
      2:{ rewrite firstn_length in X. rewrite Nat.mul_add_distr_r in E3. lia. }
      cbn [bind]. eexists. split; [reflexivity|]. split; [now rewrite set_length|]. split.
      * intros q Hq Wq. destruct (Nat.eq_dec q n) as [->|Hne].
        -- rewrite nth_set_eq by lia. reflexivity.
        -- rewrite nth_set_neq by (intros X; apply Hne, Hi; auto; lia). apply A; [lia|auto].
      * intros b Hb. rewrite nth_set_neq by (intros X; apply (Hb n ltac:(lia) W); congruence). apply B. intros q Hq Wq. apply Hb; [lia|auto].
    + cbn [bind]. exists m'. split; [reflexivity|]. split; [auto|]. split.
      * intros q Hq Wq. destruct (Nat.eq_dec q n) as [->|Hne]; [congruence|]. apply A; [lia|auto].
      * intros b Hb. apply B. intros q Hq. apply Hb. lia.
Qed.
End Store.

(** ** Encoding *)
Section Enc.
Variables (c : fnt) (xe : ctx) (wanted : list bool) (bs : nat) (dp pp : list ptr) (db da pb pa : nat -> nat) (m0 : cmem).
Let ws := c_ws c.
Let k := c_k c.
Let n := c_nout c.
Hypothesis Lw : n <= length wanted.
Hypothesis Hd : forall i, i < k -> nth i dp null = Some (db i, da i) /\ db i < length m0 /\ da i + bs * ws <= length (nth (db i) m0 []).
Hypothesis Hp : forall q, q < n -> nth q wanted false = true -> nth q pp null = Some (pb q, pa q) /\
  pb q < length m0 /\ pa q + bs * ws <= length (nth (pb q) m0 []).
Hypothesis Hpi : forall q q', q < n -> q' < n -> nth q wanted false = true -> nth q' wanted false = true -> pb q = pb q' -> q = q'.
Hypothesis Hal : forall i q, i < k -> q < n -> nth q wanted false = true -> db i = pb q -> da i = pa q.
Let data := map (fun i => view m0 (nth i dp null)) (seq 0 k).

Record esim (o : nat) (sm : emstate) (sb : ebstate) : Prop := {
  si_wc : em_wc sm = eb_wc sb;
  si_es : em_es sm = eb_es sb;
  si_out : em_out sm = eb_out sb;
  si_ps : em_ps sm = eb_ps sb;
  si_len : length (em_mem sm) = length m0;
  si_lens : forall b, length (nth b (em_mem sm) []) = length (nth b m0 []);
  si_par : forall q, q < n -> nth q wanted false = true ->
    firstn (pa q) (nth (pb q) (em_mem sm) []) = firstn (pa q) (nth (pb q) m0 []) /\
    skipn (pa q) (nth (pb q) (em_mem sm) []) = nth q (eb_par sb) [];
  si_other : forall b, (forall q, q < n -> nth q wanted false = true -> pb q <> b) -> nth b (em_mem sm) [] = nth b m0 [];
  si_data : forall i, i < k -> skipn (o * ws) (view (em_mem sm) (nth i dp null)) = skipn (o * ws) (nth i data [])
}.

Lemma encode_turn_sim o sm sb : 0 < c_pkt c -> esim o sm sb -> o < bs -> exists sm', encode_turn_mem c xe dp pp wanted bs o sm = Ret sm' /\
  esim (o + c_pkt c) sm' (encode_turn c xe data wanted bs o sb).
Proof.
  intros Hpkt I Ho. destruct I as [I1 I2 I3 I4 I5 I6 I7 I8 I9]. unfold encode_turn_mem, encode_turn. fold ws k n.
  set (copy := Nat.min (c_pkt c) (bs - o)). cbv zeta.
  assert (Hcp : o + copy <= bs /\ copy <= c_pkt c) by (unfold copy; lia).
  assert (Hcw : (o + copy) * ws <= bs * ws) by (apply Nat.mul_le_mono_r; lia). rewrite Nat.mul_add_distr_r in Hcw.
  rewrite (mapM_ok _ _ _ (fun i => slice (nth i data []) (o * ws) (copy * ws))).
  2:{ intros i Hi. apply in_seq in Hi. unfold get. destruct (Hd i ltac:(lia)) as (E1 & E2 & E3). rewrite E1.
      rewrite mem_read_view by (rewrite I6; lia). unfold slice. specialize (I9 i ltac:(lia)). rewrite E1 in I9. now rewrite I9. }
  cbn [bind].
  set (wc := map (fun i => load_bytes ws (c_pkt c) copy _ (get [] (em_wc sm) i)) (seq 0 k)).
  assert (Ewc : wc = map (fun i => load_pkt ws (c_pkt c) o copy (get [] data i) (get [] (eb_wc sb) i)) (seq 0 k)).
  { unfold wc. apply map_ext_in. intros i Hi. apply in_seq in Hi. unfold get at 1. rewrite nth_map_seq by lia. rewrite I1. reflexivity. }
  rewrite Ewc, I2, I3, I4. clear wc Ewc.
  destruct (encode_pkt c xe (eb_es sb) (eb_out sb) _ (eb_ps sb) (N.of_nat o)) as [[[es out] fl] ps].
  destruct (store_all_ok wanted pp ws o copy (map (unpack_buf ws) out) pb pa n (em_mem sm)) as (m' & E & L & A & B); [exact Lw| |exact Hpi|].
  { intros q Hq Wq. destruct (Hp q Hq Wq) as (E1 & E2 & E3). rewrite I5, I6, Nat.mul_add_distr_r. repeat split; auto; lia. }
  rewrite E. cbn [bind]. eexists. split; [reflexivity|].
  assert (Hlen : forall b, length (nth b m' []) = length (nth b m0 [])).
  { intros b. destruct (existsb (fun q => nth q wanted false && (pb q =? b)) (seq 0 n)) eqn:X.
    - apply existsb_exists in X. destruct X as (q & Hq & X). apply in_seq in Hq. apply andb_prop in X. destruct X as [Wq X].
      apply Nat.eqb_eq in X. subst b. rewrite A by (auto; lia). destruct (Hp q ltac:(lia) Wq) as (E1 & E2 & E3).
      rewrite blit_length; [apply I6|]. rewrite firstn_length, I6. lia.
    - rewrite B; [apply I6|]. intros q Hq Wq Eb. assert (Y : existsb (fun q => nth q wanted false && (pb q =? b)) (seq 0 n) = true).
      { apply existsb_exists. exists q. split; [apply in_seq; lia|]. rewrite Wq, Eb, Nat.eqb_refl. reflexivity. }
      congruence. }
  constructor; cbn [em_wc em_es em_out em_ps em_mem eb_wc eb_es eb_out eb_ps eb_par]; try reflexivity.
  - congruence.
  - exact Hlen.
  - intros q Hq Wq. rewrite A by auto. destruct (Hp q Hq Wq) as (E1 & E2 & E3). destruct (I7 q Hq Wq) as [J1 J2].
    rewrite firstn_blit, skipn_blit_view by (rewrite I6; lia). split; [exact J1|]. rewrite nth_map_seq by auto. unfold get. rewrite Wq, J2. reflexivity.
  - intros b Hb. rewrite B by auto. now apply I8.
  - intros i Hi. destruct (Hd i Hi) as (E1 & E2 & E3). specialize (I9 i Hi). rewrite E1 in *. cbn [view] in *.
    assert (Hnext : forall (l l' : list N), skipn (o * ws) l = skipn (o * ws) l' -> skipn ((o + c_pkt c) * ws) l = skipn ((o + c_pkt c) * ws) l').
    { intros l l' X. rewrite Nat.mul_add_distr_r, <- !skipn_skipn, X. reflexivity. }
    rewrite <- (Hnext _ _ I9).
    destruct (existsb (fun q => nth q wanted false && (pb q =? db i)) (seq 0 n)) eqn:X.
    + apply existsb_exists in X. destruct X as (q & Hq & X). apply in_seq in Hq. apply andb_prop in X. destruct X as [Wq X].
      apply Nat.eqb_eq in X. rewrite <- X, A by (auto; lia). rewrite (Hal i q Hi ltac:(lia) Wq (eq_sym X)).
      destruct (Hp q ltac:(lia) Wq) as (F1 & F2 & F3). rewrite skipn_blit_view by (rewrite I6; lia).
      apply skipn_blit_after; [rewrite skipn_length, I6; lia|]. rewrite firstn_length.
      assert (copy * ws <= c_pkt c * ws) by (apply Nat.mul_le_mono_r; lia). lia.
    + rewrite B; [reflexivity|]. intros q Hq Wq Eb. assert (Y : existsb (fun q => nth q wanted false && (pb q =? db i)) (seq 0 n) = true).
      { apply existsb_exists. exists q. split; [apply in_seq; lia|]. rewrite Wq, Eb, Nat.eqb_refl. reflexivity. }
      congruence.
Qed.

Lemma encode_loop_sim fuel : 0 < c_pkt c -> forall o sm sb, esim o sm sb -> exists o' sm', encode_loop_mem fuel c xe dp pp wanted bs o sm = Ret sm' /\
  esim o' sm' (encode_loop fuel c xe data wanted bs o sb).
Proof.
  intros Hpkt. induction fuel as [|f IH]; intros o sm sb I; cbn [encode_loop_mem encode_loop]; [exists o, sm; auto|].
  destruct (Nat.ltb_spec o bs); [|exists o, sm; auto].
  destruct (encode_turn_sim o sm sb Hpkt I H) as (sm' & E & I'). rewrite E. cbn [bind]. now apply IH.
Qed.
End Enc.

Theorem encode_mem_sim c xe es wc out dp pp db da pb pa m (ps : list props) wanted bytes : 0 < c_pkt c ->
  length dp = c_k c -> length pp = c_nout c -> length ps = c_nout c -> c_nout c <= length wanted ->
  (forall i, i < c_k c -> nth i dp null = Some (db i, da i) /\ db i < length m /\ da i + bytes / c_ws c * c_ws c <= length (nth (db i) m [])) ->
  (forall q, q < c_nout c -> nth q wanted false = true -> nth q pp null = Some (pb q, pa q) /\
    pb q < length m /\ pa q + bytes / c_ws c * c_ws c <= length (nth (pb q) m [])) ->
  (forall q q', q < c_nout c -> q' < c_nout c -> nth q wanted false = true -> nth q' wanted false = true -> pb q = pb q' -> q = q') ->
  (forall i q, i < c_k c -> q < c_nout c -> nth q wanted false = true -> db i = pb q -> da i = pa q) ->
  exists es' m' par' ps',
    encode_blocks c xe es wc out (map (fun i => view m (nth i dp null)) (seq 0 (c_k c)))
      (map (fun q => view m (nth q pp null)) (seq 0 (c_nout c))) ps wanted bytes = Some (es', par', ps') /\
    encode_blocks_mem c xe es wc out dp pp m ps wanted bytes = Some (Ret (es', m', ps')) /\
    length m' = length m /\
    (forall q, q < c_nout c -> nth q wanted false = true -> nth (pb q) m' [] = firstn (pa q) (nth (pb q) m []) ++ nth q par' []) /\
    (forall b, (forall q, q < c_nout c -> nth q wanted false = true -> pb q <> b) -> nth b m' [] = nth b m []).
Proof.
  intros Hpkt Ld Lp Lps Lw Hd Hp Hpi Hal. unfold encode_blocks, encode_blocks_mem. rewrite !map_length, !seq_length, Ld, Lp, Lps, !Nat.eqb_refl. cbn [andb].
  set (bs := bytes / c_ws c) in *. set (data := map (fun i => view m (nth i dp null)) (seq 0 (c_k c))).
  set (par := map (fun q => view m (nth q pp null)) (seq 0 (c_nout c))).
  destruct (encode_loop_sim c xe wanted bs dp pp db da pb pa m Lw Hd Hp Hpi Hal bs Hpkt 0
     (mkEm wc es out m (map (fun _ => []) ps)) (mkEb wc es out par (map (fun _ => []) ps))) as (o' & sm & E & I).
  { constructor; cbn; auto.
    - intros q Hq Wq. split; [reflexivity|]. unfold par. rewrite nth_map_seq by auto. destruct (Hp q Hq Wq) as (-> & _ & _). reflexivity.
    - intros i Hi. unfold data. rewrite nth_map_seq by auto. reflexivity. }
  fold data in E, I. rewrite E. cbn [bind]. destruct I as [I1 I2 I3 I4 I5 I6 I7 I8 I9].
  eexists _, _, _, _. split; [reflexivity|]. split; [rewrite I2, I4; reflexivity|]. split; [exact I5|]. split; [|exact I8].
  intros q Hq Wq. destruct (I7 q Hq Wq) as [<- <-]. symmetry. apply firstn_skipn.
Qed.

(** ** Decoding *)
Section Dec.
Variables (c : fnt) (x : ctx) (ad ap : list nat) (ps : list props) (wanted : list bool) (bs : nat).
Variables (dp pp : list ptr) (db da pb pa : nat -> nat) (m0 : cmem).
Let ws := c_ws c.
Let k := c_k c.
Hypothesis Lw : k <= length wanted.
Hypothesis Had : forall i, i < length ad -> nth i (x_ids x) 0 < k.
Hypothesis Hap : forall i, i < k - length ad -> In (nth i ap 0) ap.
Hypothesis Hd : forall i, i < k -> nth i dp null = Some (db i, da i) /\ db i < length m0 /\ da i + bs * ws <= length (nth (db i) m0 []).
Hypothesis Hp : forall q, In q ap -> nth q pp null = Some (pb q, pa q) /\ pa q + bs * ws <= length (nth (pb q) m0 []).
Hypothesis Hdi : forall i j, i < k -> j < k -> db i = db j -> i = j.
Hypothesis Hal : forall i q, i < k -> nth i wanted false = true -> In q ap -> db i = pb q -> da i = pa q.
Variable par : list (list N).

Record dsim (o : nat) (sm : dmstate) (sb : dbstate) : Prop := {
  sd_wc : dm_wc sm = db_wc sb;
  sd_ds : dm_ds sm = db_ds sb;
  sd_cur : dm_cur sm = db_cur sb;
  sd_len : length (dm_mem sm) = length m0;
  sd_lens : forall b, length (nth b (dm_mem sm) []) = length (nth b m0 []);
  sd_data : forall j, j < k ->
    firstn (da j) (nth (db j) (dm_mem sm) []) = firstn (da j) (nth (db j) m0 []) /\
    skipn (da j) (nth (db j) (dm_mem sm) []) = nth j (db_data sb) [];
  sd_other : forall b, (forall j, j < k -> nth j wanted false = true -> db j <> b) -> nth b (dm_mem sm) [] = nth b m0 [];
  sd_par : forall q, In q ap -> skipn (o * ws) (view (dm_mem sm) (nth q pp null)) = skipn (o * ws) (nth q par [])
}.

Lemma decode_turn_sim o sm sb : 0 < c_pkt c -> dsim o sm sb -> o < bs ->
  exists sm', decode_turn_mem c x ad ap dp pp ps wanted bs o sm = Ret sm' /\
  dsim (o + c_pkt c) sm' (decode_turn c x ad ap par ps wanted bs o sb).
Proof.
  intros Hpkt I Ho. destruct I as [I1 I2 I3 I5 I6 I7 I8 I9]. unfold decode_turn_mem, decode_turn. fold ws k.
  set (copy := Nat.min (c_pkt c) (bs - o)). cbv zeta.
  assert (Hcp : o + copy <= bs /\ copy <= c_pkt c) by (unfold copy; lia).
  assert (Hcw : (o + copy) * ws <= bs * ws) by (apply Nat.mul_le_mono_r; lia). rewrite Nat.mul_add_distr_r in Hcw.
  rewrite (mapM_ok _ _ _ (fun i => slice (if i <? length ad then get [] (db_data sb) (get 0 (x_ids x) i)
                      else get [] par (get 0 ap (i - length ad))) (o * ws) (copy * ws))).
  2:{ intros i Hi. apply in_seq in Hi. unfold get. destruct (Nat.ltb_spec i (length ad)) as [Hia|Hia].
      - specialize (Had i Hia). set (j := nth i (x_ids x) 0) in *. destruct (Hd j Had) as (E1 & E2 & E3). rewrite E1.
        rewrite mem_read_view by (rewrite I6; lia). destruct (I7 j Had) as [_ <-]. reflexivity.
      - specialize (Hap (i - length ad) ltac:(lia)). set (q := nth (i - length ad) ap 0) in *. destruct (Hp q Hap) as (E1 & E3). rewrite E1.
        rewrite mem_read_view by (rewrite I6; lia). unfold slice. specialize (I9 q Hap). rewrite E1 in I9. now rewrite I9. }
  cbn [bind].
  set (wc := map (fun i => load_bytes ws (c_pkt c) copy _ (get [] (dm_wc sm) i)) (seq 0 k)).
  assert (Ewc : wc = map (fun i => load_pkt ws (c_pkt c) o copy (if i <? length ad then get [] (db_data sb) (get 0 (x_ids x) i)
                      else get [] par (get 0 ap (i - length ad))) (get [] (db_wc sb) i)) (seq 0 k)).
  { unfold wc. apply map_ext_in. intros i Hi. apply in_seq in Hi. unfold get at 1. rewrite nth_map_seq by lia. rewrite I1. reflexivity. }
  rewrite Ewc, I2, I3. clear wc Ewc.
  destruct (decode_pkt c x (db_ds sb) ps (N.of_nat o) (db_cur sb) _) as [cur ds].
  destruct (store_all_ok wanted dp ws o copy (map (unpack_buf ws) (firstn k (d_mx ds))) db da k (dm_mem sm)) as (m' & E & L & A & B); [exact Lw| | |].
  { intros q Hq Wq. destruct (Hd q Hq) as (E1 & E2 & E3). rewrite I5, I6, Nat.mul_add_distr_r. repeat split; auto; lia. }
  { intros; apply Hdi; auto. }
  rewrite E. cbn [bind]. eexists. split; [reflexivity|].
  assert (Cases : forall b, (forall j, j < k -> nth j wanted false = true -> db j <> b) \/ (exists j, j < k /\ nth j wanted false = true /\ db j = b)).
  { intros b. destruct (existsb (fun q => nth q wanted false && (db q =? b)) (seq 0 k)) eqn:X.
    - right. apply existsb_exists in X. destruct X as (q & Hq & X). apply in_seq in Hq. apply andb_prop in X. destruct X as [Wq X].
      apply Nat.eqb_eq in X. exists q. repeat split; auto; lia.
    - left. intros q Hq Wq Eb. assert (Y : existsb (fun q => nth q wanted false && (db q =? b)) (seq 0 k) = true).
      { apply existsb_exists. exists q. split; [apply in_seq; lia|]. rewrite Wq, Eb, Nat.eqb_refl. reflexivity. }
      congruence. }
  constructor; cbn [dm_wc dm_ds dm_cur dm_mem db_wc db_ds db_cur db_data]; try reflexivity.
  - congruence.
  - intros b. destruct (Cases b) as [X|(j & Hj & Wj & <-)]; [rewrite B by auto; apply I6|].
    rewrite A by auto. destruct (Hd j Hj) as (E1 & E2 & E3). rewrite blit_length; [apply I6|]. rewrite firstn_length, I6. lia.
  - intros j Hj. destruct (Hd j Hj) as (E1 & E2 & E3). destruct (I7 j Hj) as [J1 J2]. rewrite nth_map_seq by auto. unfold get.
    destruct (nth j wanted false) eqn:Wj.
    + rewrite A by auto. rewrite firstn_blit, skipn_blit_view by (rewrite I6; lia). split; [exact J1|]. rewrite J2. reflexivity.
    + rewrite B; [split; auto|]. intros j' Hj' Wj' Ej. apply Hdi in Ej; auto. congruence.
  - intros b Hb. rewrite B by auto. now apply I8.
  - intros q Hq. destruct (Hp q Hq) as (E1 & E3). specialize (I9 q Hq). rewrite E1 in *. cbn [view] in *.
    assert (Hnext : forall (l l' : list N), skipn (o * ws) l = skipn (o * ws) l' -> skipn ((o + c_pkt c) * ws) l = skipn ((o + c_pkt c) * ws) l').
    { intros l l' X. rewrite Nat.mul_add_distr_r, <- !skipn_skipn, X. reflexivity. }
    rewrite <- (Hnext _ _ I9). destruct (Cases (pb q)) as [X|(j & Hj & Wj & X)]; [rewrite B by auto; reflexivity|].
    rewrite <- X, A by auto. rewrite <- (Hal j q Hj Wj Hq X).
    destruct (Hd j Hj) as (F1 & F2 & F3). rewrite skipn_blit_view by (rewrite I6; lia).
    apply skipn_blit_after; [rewrite skipn_length, I6; lia|]. rewrite firstn_length.
    assert (copy * ws <= c_pkt c * ws) by (apply Nat.mul_le_mono_r; lia). lia.
Qed.

Lemma decode_loop_sim fuel : 0 < c_pkt c -> forall o sm sb, dsim o sm sb ->
  exists o' sm', decode_loop_mem fuel c x ad ap dp pp ps wanted bs o sm = Ret sm' /\
  dsim o' sm' (decode_loop fuel c x ad ap par ps wanted bs o sb).
Proof.
  intros Hpkt. induction fuel as [|f IH]; intros o sm sb I; cbn [decode_loop_mem decode_loop]; [exists o, sm; auto|].
  destruct (Nat.ltb_spec o bs); [|exists o, sm; auto].
  destruct (decode_turn_sim o sm sb Hpkt I H) as (sm' & E & I'). rewrite E. cbn [bind]. now apply IH.
Qed.
End Dec.

Theorem decode_mem_sim c junk1 junk2 wc ds dp pp db da pb pa m (ps : list props) missing wanted bytes ok data' ps' : 0 < c_pkt c ->
  length dp = c_k c -> length pp = c_nout c -> c_k c <= length wanted ->
  (forall x, ctx_new c (nat_sort (avail_data c missing ++ (if c_sys c then map (fun i => c_k c + i) (avail_par c missing) else avail_par c missing))) junk1 junk2 = Some x ->
     forall i, i < length (avail_data c missing) -> nth i (x_ids x) 0 < c_k c) ->
  (forall i, i < c_k c -> nth i dp null = Some (db i, da i) /\ db i < length m /\ da i + bytes / c_ws c * c_ws c <= length (nth (db i) m [])) ->
  (forall q, In q (avail_par c missing) -> nth q pp null = Some (pb q, pa q) /\ pa q + bytes / c_ws c * c_ws c <= length (nth (pb q) m [])) ->
  (forall i j, i < c_k c -> j < c_k c -> db i = db j -> i = j) ->
  (forall i q, i < c_k c -> nth i wanted false = true -> In q (avail_par c missing) -> db i = pb q -> da i = pa q) ->
  decode_blocks c junk1 junk2 wc ds (map (fun i => view m (nth i dp null)) (seq 0 (c_k c)))
    (map (fun q => view m (nth q pp null)) (seq 0 (c_nout c))) ps missing wanted bytes = Some (ok, data', ps') ->
  exists m', decode_blocks_mem c junk1 junk2 wc ds dp pp m ps missing wanted bytes = Some (Ret (ok, m', ps')) /\
    length m' = length m /\
    (forall j, j < c_k c -> nth (db j) m' [] = firstn (da j) (nth (db j) m []) ++ nth j data' []) /\
    (forall b, (forall j, j < c_k c -> nth j wanted false = true -> db j <> b) -> nth b m' [] = nth b m []).
Proof.
  intros Hpkt Ld Lp Lw Hx Hd Hp Hdi Hal. unfold decode_blocks, decode_blocks_mem. rewrite !map_length, !seq_length, Ld, Lp.
  set (bs := bytes / c_ws c) in *. set (data := map (fun i => view m (nth i dp null)) (seq 0 (c_k c))).
  set (par := map (fun q => view m (nth q pp null)) (seq 0 (c_nout c))).
  assert (Same : forall j, j < c_k c -> nth (db j) m [] = firstn (da j) (nth (db j) m []) ++ nth j data []).
  { intros j Hj. unfold data. rewrite nth_map_seq by auto. destruct (Hd j Hj) as (-> & _ & _). cbn [view]. symmetry. apply firstn_skipn. }
  destruct (_ && _ && _); [|discriminate].
  destruct (_ && _).
  { intros E. injection E as <- <- <-. exists m. repeat split; auto. }
  destruct (Nat.ltb_spec (length (avail_data c missing) + length (avail_par c missing)) (c_k c)) as [H|H].
  { intros E. injection E as <- <- <-. exists m. repeat split; auto. }
  destruct (ctx_new c _ junk1 junk2) as [x|] eqn:Ex; [|discriminate]. intros E. injection E as <- <- <-.
  destruct (decode_loop_sim c x (avail_data c missing) (avail_par c missing) (map props_sort ps) wanted bs dp pp db da pb pa m Lw (Hx x eq_refl)) with
    (par := par) (fuel := bs) (o := 0) (sm := mkDm wc ds (repeat 0 (length ps)) m) (sb := mkDb wc ds (repeat 0 (length ps)) data)
    as (o' & sm & E & I); auto.
  - intros i Hi. apply nth_In. lia.
  - constructor; cbn; auto.
    + intros j Hj. split; [reflexivity|]. unfold data. rewrite nth_map_seq by auto. destruct (Hd j Hj) as (-> & _ & _). reflexivity.
    + intros q Hq. unfold par. rewrite nth_map_seq; [reflexivity|]. unfold avail_par in Hq.
      assert (X : forall n (l : list nat) a, In a (firstn n l) -> In a l).
      { intros n l a Ha. rewrite <- (firstn_skipn n l). apply in_or_app. now left. }
      apply X, filter_In in Hq. destruct Hq as [Hq _]. apply in_seq in Hq. lia.
  - rewrite E. cbn [bind]. destruct I as [I1 I2 I3 I5 I6 I7 I8 I9]. eexists. split; [reflexivity|]. split; [exact I5|]. split; [|exact I8].
    intros j Hj. destruct (I7 j Hj) as [<- <-]. symmetry. apply firstn_skipn.
Qed.
