(** The C interface on code objects. *)
From Coq Require Import List NArith ZArith Arith Bool Lia Permutation.
From Verif.Model Require Import Common Arith Ring Fft2n Radix2 Poly Props Bytes Fnt Blocks Header CApi.
From Verif.Spec Require Import Modular Code Blocks Widths Header Session CApi.
From Verif.Proof Require Import ListP BytesP PropsP BlocksP FntInst BlocksF StreamsF HeaderP CApiP CApiH.
Import ListNotations.
Open Scope nat_scope.

Lemma nth_repeat_same {A} (a : A) n i : nth i (repeat a n) a = a.
Proof. revert i. induction n; intros [|i]; cbn; auto. Qed.

Lemma in_firstn {A} n (l : list A) a : In a (firstn n l) -> In a l.
Proof. intros H. rewrite <- (firstn_skipn n l). apply in_or_app. now left. Qed.

Lemma all_bytes_app a b : all_bytes (a ++ b) <-> all_bytes a /\ all_bytes b.
Proof. apply Forall_app. Qed.

Lemma decode_ps_length c junk1 junk2 wc ds data par (ps : list props) missing wanted bytes ok data' ps' :
  decode_blocks c junk1 junk2 wc ds data par ps missing wanted bytes = Some (ok, data', ps') -> length ps' = length ps.
Proof.
  unfold decode_blocks. destruct (_ && _ && _); [|discriminate]. destruct (_ && _); [intros E; injection E as _ _ <-; auto|].
  destruct (_ <? _); [intros E; injection E as _ _ <-; auto|]. destruct (ctx_new c _ junk1 junk2); [|discriminate].
  intros E. injection E as _ _ <-. apply map_length.
Qed.

Lemma k_le_no (sys : bool) k m : (sys = true -> k <= m) -> k <= n_outs sys k m.
Proof. unfold n_outs. destruct sys; intros H; [now apply H|lia]. Qed.

Lemma nth_one n d j : d < n -> nth j (set (repeat false n) d true) false = (j =? d).
Proof.
  intros Hd. destruct (Nat.eqb_spec j d) as [->|Hn].
  - apply nth_set_eq. now rewrite repeat_length.
  - rewrite nth_set_neq by auto. apply nth_repeat_same.
Qed.

Lemma filter_full {A} (f : A -> bool) l : length (filter f l) = length l -> forall i, In i l -> f i = true.
Proof.
  assert (Z : forall l, length (filter f l) <= length l) by (clear; induction l as [|a l IH]; cbn [filter length]; [lia|]; destruct (f a); cbn [length]; lia).
  induction l as [|a l IH]; intros X i Hi; [destruct Hi|]. cbn [filter length] in X. specialize (Z l).
  destruct (f a) eqn:Na; cbn [length] in X; [|lia]. destruct Hi as [<-|Hi]; [auto|]. apply IH; [lia|auto].
Qed.

Section C.
Variables (sys : bool) (ws k m pkt n : nat) (cw : (nat -> N) -> nat -> N) (c : fnt).
Hypothesis Hw : fnt_width 32 ws.
Hypothesis Hpkt : 0 < pkt.
Hypothesis M : fnt_made 32 sys ws k m pkt n cw c.
Variable block : nat.
Hypothesis Hb : block mod ws = 0.
Let md := header_size block.
Let no := n_outs sys k m.
Let pos := position sys k.

Lemma block_words : block / ws * ws = block.
Proof. apply (nwords_exact ws block (ws_pos _ _ Hw) Hb). Qed.

Lemma block_nwords : nwords ws block = block / ws.
Proof. apply (nwords_exact ws block (ws_pos _ _ Hw) Hb). Qed.

Lemma frag_buf_pos q : frag_buf c q = pos q.
Proof.
  destruct (made_parts _ _ _ _ _ _ _ _ _ M) as (CS & En & Esys & E1 & E2 & E3 & E4 & E5 & E6 & E7).
  unfold frag_buf, pos, position. now rewrite Esys, E2.
Qed.

Lemma pos_lt q : q < no -> pos q < k + m.
Proof. unfold no, pos, n_outs, position. destruct sys; lia. Qed.

Lemma pos_inj q q' : pos q = pos q' -> q = q'.
Proof. unfold pos, position. destruct sys; lia. Qed.

Definition frag_of (data : list (list N)) (q : nat) : list N := stream_of ws (coded ws cw data (pos q)) block.
Definition rec_of (data : list (list N)) (q : nat) : props := record (256 ^ N.of_nat ws) (coded ws cw data (pos q)) (block / ws).

Definition ptr_ok (mem : cmem) (dp : list ptr) (db da : nat -> nat) : Prop :=
  length dp = k /\ forall i, i < k -> nth i dp null = Some (db i, da i) /\ db i < length mem /\
    da i + block = length (nth (db i) mem []) /\ all_bytes (nth (db i) mem []).

Lemma ptr_blocks mem dp db da : ptr_ok mem dp db da -> blocks k block (map (fun i => view mem (nth i dp null)) (seq 0 k)).
Proof.
  intros [L H]. split; [now rewrite map_length, seq_length|]. intros i Hi. rewrite nth_map_seq by auto.
  destruct (H i Hi) as (E & _ & E1 & E2). rewrite E. cbn [view]. rewrite skipn_length. split; [lia|].
  rewrite <- (firstn_skipn (da i)) in E2. apply all_bytes_app in E2. apply E2.
Qed.

Lemma out_ptrs_length : length (out_ptrs c md) = no.
Proof.
  destruct (made_parts _ _ _ _ _ _ _ _ _ M) as (CS & En & Esys & E1 & E2 & E3 & E4 & E5 & E6 & E7).
  unfold out_ptrs. rewrite map_length, seq_length. exact E6.
Qed.

Lemma out_ptrs_nth q : q < no -> nth q (out_ptrs c md) null = Some (pos q, md).
Proof.
  destruct (made_parts _ _ _ _ _ _ _ _ _ M) as (CS & En & Esys & E1 & E2 & E3 & E4 & E5 & E6 & E7).
  intros Hq. unfold out_ptrs. etransitivity; [apply (nth_map_seq ptr); rewrite E6; exact Hq|].
  now rewrite frag_buf_pos.
Qed.

(** Encoding with any data pointers. *)
Lemma encode_gen xe es wc out dp db da mem (ps0 : list props) wanted : encoder_buffers c xe es wc out ->
  ptr_ok mem dp db da -> length ps0 = no -> no <= length wanted ->
  (forall q, q < no -> pos q < length mem /\ length (nth (pos q) mem []) = md + block) ->
  (forall i q, i < k -> q < no -> nth q wanted false = true -> db i = pos q -> da i = md) ->
  let data := map (fun i => view mem (nth i dp null)) (seq 0 k) in
  exists es' mem', encode_blocks_mem c xe es wc out dp (out_ptrs c md) mem ps0 wanted block = Some (Ret (es', mem', map (rec_of data) (seq 0 no))) /\
    encoder_buffers c xe es' wc out /\ length mem' = length mem /\
    (forall q, q < no -> nth q wanted false = true -> nth (pos q) mem' [] = firstn md (nth (pos q) mem []) ++ frag_of data q) /\
    (forall b, (forall q, q < no -> nth q wanted false = true -> pos q <> b) -> nth b mem' [] = nth b mem []).
Proof.
  destruct (made_parts _ _ _ _ _ _ _ _ _ M) as (CS & En & Esys & E1 & E2 & E3 & E4 & E5 & E6 & E7).
  intros He Hdp Lps Lw Ho Hal data. pose proof (ptr_blocks _ _ _ _ Hdp) as Hd. fold data in Hd. destruct Hdp as [Ldp Hdp].
  set (par := map (fun q => view mem (nth q (out_ptrs c md) null)) (seq 0 no)).
  assert (Lpar : length par = n_outs sys k m) by (unfold par; now rewrite map_length, seq_length).
  assert (Npar : forall q, q < no -> nth q par [] = skipn md (nth (pos q) mem [])).
  { intros q Hq. unfold par. rewrite nth_map_seq by auto. rewrite out_ptrs_nth by auto. reflexivity. }
  destruct (encode_made 32 sys ws k m Hw pkt n cw c Hpkt M data block Hd xe es wc out par ps0 wanted He Lpar Lps) as (es' & He' & E).
  { intros q Hq _. rewrite block_words, Npar by auto. rewrite skipn_length. destruct (Ho q Hq). lia. }
  destruct (encode_mem_sim c xe es wc out dp (out_ptrs c md) db da pos (fun _ => md) mem ps0 wanted block) as (es2 & mem' & par' & ps' & F & G & L & A & B).
  - lia.
  - lia.
  - rewrite E6. apply out_ptrs_length.
  - rewrite E6. exact Lps.
  - rewrite E6. exact Lw.
  - rewrite E1, E2, block_words. intros i Hi. destruct (Hdp i Hi) as (D1 & D2 & D3 & _). repeat split; auto; lia.
  - rewrite E1, E6, block_words. fold no. intros q Hq _. destruct (Ho q Hq) as [O1 O2]. rewrite out_ptrs_nth by auto. repeat split; auto; lia.
  - intros q q' _ _ _ _ X. now apply pos_inj.
  - rewrite E2, E6. fold no. intros i q Hi Hq. apply Hal; auto.
  - rewrite E2, E6 in F. fold no in F. fold data par in F. unfold par in E. fold no in E, par. change (map (fun q => view mem (nth q (out_ptrs c md) null)) (seq 0 no)) with par in E.
    rewrite F in E. injection E as -> -> ->. exists es', mem'. split; [exact G|]. split; [exact He'|]. split; [exact L|].
    rewrite E6 in A, B. fold no in A, B. split; [|exact B]. intros q Hq Wq. rewrite A by auto. f_equal. rewrite nth_map_seq by auto. rewrite Wq.
    unfold frag_of. apply stream_overwrite; [apply (ws_pos _ _ Hw)|exact Hb|]. rewrite Npar by auto. rewrite skipn_length. destruct (Ho q Hq). lia.
Qed.

(** Decoding with any data pointers. *)
Lemma decode_gen junk1 junk2 wc ds dp db da pp mem (ps : list props) missing wanted data : decoder_buffers c junk1 junk2 wc ds ->
  blocks k block data -> k <= length (present k m missing) -> k <= length wanted ->
  ptr_ok mem dp db da -> (forall i j, i < k -> j < k -> db i = db j -> i = j) ->
  length pp = no -> length ps = no ->
  (sys = true -> forall j, j < k -> nth j missing true = false -> view mem (nth j dp null) = nth j data []) ->
  (forall q, q < no -> nth (pos q) missing true = false -> nth q pp null = Some (pos q, md) /\
     skipn md (nth (pos q) mem []) = frag_of data q /\ length (nth (pos q) mem []) = md + block /\ nth q ps [] = rec_of data q) ->
  (forall i q, i < k -> nth i wanted false = true -> q < no -> nth (pos q) missing true = false -> db i = pos q -> da i = md) ->
  exists mem' ps', decode_blocks_mem c junk1 junk2 wc ds dp pp mem ps missing wanted block = Some (Ret (true, mem', ps')) /\
    length ps' = no /\ length mem' = length mem /\
    (forall j, j < k -> nth j wanted false = true -> nth (db j) mem' [] = firstn (da j) (nth (db j) mem []) ++ nth j data []) /\
    (forall b, (forall j, j < k -> nth j wanted false = true -> db j <> b) -> nth b mem' [] = nth b mem []).
Proof.
  destruct (made_parts _ _ _ _ _ _ _ _ _ M) as (CS & En & Esys & E1 & E2 & E3 & E4 & E5 & E6 & E7).
  intros Hdb Hd Hen Lw Hdp Hdi Lpp Lps Hsd Hpp Hal. pose proof (ptr_blocks _ _ _ _ Hdp) as Hbuf.
  set (buf := map (fun i => view mem (nth i dp null)) (seq 0 k)) in *. destruct Hdp as [Ldp Hdp]. pose proof (ws_pos _ _ Hw) as W0.
  set (par := map (fun q => view mem (nth q pp null)) (seq 0 no)).
  assert (Npar : forall q, q < no -> nth (pos q) missing true = false -> nth q par [] = frag_of data q).
  { intros q Hq Mi. unfold par. rewrite nth_map_seq by auto. destruct (Hpp q Hq Mi) as (-> & X & _). exact X. }
  destruct (decode_made 32 sys ws k m Hw pkt n cw c Hpkt M data block Hd missing wanted buf par ps wc ds junk1 junk2 Hdb Hen) as (ps' & R).
  { intros Hs j Hj Mi. rewrite block_words. rewrite (proj1 (proj2 Hbuf j Hj)). split; [lia|]. unfold buf. rewrite nth_map_seq by auto.
    rewrite (Hsd Hs j Hj Mi). auto. }
  { fold no pos. intros q Hq Mi. rewrite block_words, Npar by auto. unfold frag_of. rewrite stream_length. split; [lia|]. split.
    - intros t Ht. apply symbol_stream; [exact W0|]. rewrite <- block_words. nia.
    - destruct (Hpp q Hq Mi) as (_ & _ & _ & ->). apply Permutation_refl. }
  { intros j Hj _. rewrite block_words, (proj1 (proj2 Hbuf j Hj)). lia. }
  { apply Hbuf. } { unfold par. now rewrite map_length, seq_length. } { exact Lps. } { intros j Hj. apply (proj2 Hbuf j Hj). }
  rewrite block_words in R.
  assert (Hap : forall q, In q (avail_par c missing) -> q < no /\ nth (pos q) missing true = false).
  { intros q Hq. unfold avail_par in Hq. apply in_firstn, filter_In in Hq. destruct Hq as [Hq Mi]. apply in_seq in Hq. rewrite E6 in Hq. fold no in Hq.
    split; [lia|]. rewrite Esys, E2 in Mi. apply negb_true_iff in Mi. exact Mi. }
  match type of R with _ = Some (_, ?D, _) => set (D0 := D) in R end.
  destruct (decode_mem_sim c junk1 junk2 wc ds dp pp db da pos (fun _ => md) mem ps missing wanted block true D0 ps') as (mem' & G & L & A & B);
    [..|rewrite E2, E6; exact R|].
  - lia.
  - lia.
  - rewrite E6. exact Lpp.
  - lia.
  - intros x Hx i Hi. rewrite (ids_eq c ltac:(lia) ltac:(lia) E5), ids_sorted in Hx.
    assert (Hen' : c_k c <= length (filter (fun i => negb (get true missing i)) (seq 0 (c_k c + c_m c)))) by (rewrite E2, E3; exact Hen).
    destruct Hdb as (J1 & J2 & _).
    rewrite (x_idsE c cw CS ltac:(lia) ltac:(lia) E5 missing Hen' ps ltac:(rewrite E6; exact Lps) x junk1 junk2 Hx J1 J2).
    rewrite <- (ids_eq c ltac:(lia) ltac:(lia) E5), app_nth1 by exact Hi.
    assert (X := nth_In _ 0 Hi). unfold avail_data in *. destruct (c_sys c); [|cbn in Hi; lia].
    apply filter_In in X. destruct X as [X _]. apply in_seq in X. lia.
  - rewrite E1, E2, block_words. intros i Hi. destruct (Hdp i Hi) as (D1 & D2 & D3 & _). repeat split; auto; lia.
  - rewrite E1, block_words. intros q Hq. destruct (Hap q Hq) as [Hq1 Mi]. destruct (Hpp q Hq1 Mi) as (P1 & P2 & P3 & _). split; [exact P1|]. lia.
  - rewrite E2. exact Hdi.
  - rewrite E2. intros i q Hi Wi Hq. destruct (Hap q Hq). now apply Hal.
  - exists mem', ps'. split; [exact G|]. split; [rewrite (decode_ps_length _ _ _ _ _ _ _ _ _ _ _ _ _ _ R); exact Lps|]. split; [exact L|].
    rewrite E2 in A, B. split; [|exact B]. intros j Hj Wj. rewrite A by auto. f_equal. unfold D0. rewrite nth_map_seq by auto. rewrite Wj.
    rewrite (firstn_all2 (nth j data [])) by (rewrite (proj1 (proj2 Hd j Hj)); lia).
    rewrite skipn_all2 by (rewrite (proj1 (proj2 Hbuf j Hj)); lia). apply app_nil_r.
Qed.
(** ** Encoding *)
Definition data_of (mem : cmem) : list (list N) := map (payload block mem) (seq 0 k).
Definition headers (data : list (list N)) : list (nat * props) :=
  (if sys then map (fun i => (i, [])) (seq 0 k) else []) ++ map (fun q => (pos q, rec_of data q)) (seq 0 no).

Lemma capi_sized mem b : capi_memory (k + m) block mem -> b < k + m -> sized block mem b.
Proof. intros [L H] Hlt. destruct (H b Hlt) as [L1 B1]. split; [lia|]. split; [lia|exact B1]. Qed.

Lemma headers_cases data b p : In (b, p) (headers data) ->
  (sys = true /\ b < k /\ p = []) \/ (exists q, q < no /\ b = pos q /\ p = rec_of data q).
Proof.
  unfold headers. intros H. apply in_app_or in H. destruct H as [H|H].
  - left. destruct (bool_dec sys true) as [Hs|Hs]; [rewrite Hs in H|apply not_true_is_false in Hs; rewrite Hs in H; destruct H].
    apply in_map_iff in H. destruct H as (i & X & Hi). injection X as <- <-. apply in_seq in Hi. repeat split; auto; lia.
  - right. apply in_map_iff in H. destruct H as (q & X & Hq). injection X as <- <-. apply in_seq in Hq. exists q. repeat split; auto; lia.
Qed.

Lemma headers_in data b p : In (b, p) (headers data) -> b < k + m.
Proof. intros H. destruct (headers_cases _ _ _ H) as [(_ & X & _)|(q & Hq & -> & _)]; [lia|]. now apply pos_lt. Qed.

Lemma headers_nodup data : NoDup (map fst (headers data)).
Proof.
  assert (G : forall (b : bool) (f : nat -> props), NoDup (map fst ((if b then map (fun i => (i, [])) (seq 0 k) else []) ++
    map (fun q => (position b k q, f q)) (seq 0 (n_outs b k m))))).
  { intros b f. rewrite map_app. unfold position, n_outs. destruct b.
    - rewrite !map_map. cbn [fst]. rewrite map_id, map_add_seq, Nat.add_0_r. change (seq k m) with (seq (0 + k) m).
      rewrite <- seq_app. apply seq_NoDup.
    - rewrite !map_map. cbn [map fst app]. rewrite map_id. apply seq_NoDup. }
  apply (G sys).
Qed.

Lemma data_ptrs_ok mem : capi_memory (k + m) block mem -> ptr_ok mem (data_ptrs c md) (fun i => i) (fun _ => md).
Proof.
  destruct (made_parts _ _ _ _ _ _ _ _ _ M) as (CS & En & Esys & E1 & E2 & E3 & E4 & E5 & E6 & E7).
  intros [L H]. split; [unfold data_ptrs; rewrite map_length, seq_length; exact E2|]. intros i Hi.
  split; [unfold data_ptrs; etransitivity; [apply (nth_map_seq ptr); lia|reflexivity]|].
  destruct (H i ltac:(lia)) as [L1 B1]. split; [lia|]. split; [symmetry; exact L1|exact B1].
Qed.

Lemma data_views mem : map (fun i => view mem (nth i (data_ptrs c md) null)) (seq 0 k) = data_of mem.
Proof.
  destruct (made_parts _ _ _ _ _ _ _ _ _ M) as (CS & En & Esys & E1 & E2 & E3 & E4 & E5 & E6 & E7).
  apply map_ext_in. intros i Hi. apply in_seq in Hi. replace (nth i (data_ptrs c md) null) with (Some (i, md)); [reflexivity|].
  symmetry. unfold data_ptrs. etransitivity; [apply (nth_map_seq ptr); lia|reflexivity].
Qed.

Lemma capi_blocks mem : capi_memory (k + m) block mem -> blocks k block (data_of mem).
Proof. intros H. rewrite <- data_views. exact (ptr_blocks _ _ _ _ (data_ptrs_ok mem H)). Qed.

Lemma capi_write mem mem' : capi_memory (k + m) block mem -> length mem' = length mem ->
  (forall b, b < k + m -> exists h p, nth b mem' [] = h ++ p /\ length h = md /\ length p = block /\ all_bytes h /\ all_bytes p) ->
  capi_memory (k + m) block mem'.
Proof.
  intros [L H] L' H'. split; [lia|]. intros b Hlt. destruct (H' b Hlt) as (h & p & -> & L1 & L2 & B1 & B2). rewrite app_length.
  split; [fold md; lia|]. apply all_bytes_app. auto.
Qed.

Lemma capi_split mem b : capi_memory (k + m) block mem -> b < k + m ->
  nth b mem [] = head block mem b ++ payload block mem b /\ length (head block mem b) = md /\ length (payload block mem b) = block /\
  all_bytes (head block mem b) /\ all_bytes (payload block mem b).
Proof.
  intros [L H] Hlt. destruct (H b Hlt) as [L1 B1]. unfold head, payload. split; [symmetry; apply firstn_skipn|].
  rewrite firstn_length, skipn_length. split; [fold md; fold md in L1; lia|]. split; [lia|].
  rewrite <- (firstn_skipn (header_size block)) in B1. now apply all_bytes_app in B1.
Qed.

Lemma encode_capi xe es wc out mem wanted : capi_memory (k + m) block mem -> encoder_buffers c xe es wc out ->
  exists es' mem1, encoder_buffers c xe es' wc out /\ capi_memory (k + m) block mem1 /\
   (forall b, b < k + m -> head block mem1 b = head block mem b) /\
   (forall q, q < no -> payload block mem1 (pos q) = if nth q wanted false then frag_of (data_of mem) q else payload block mem (pos q)) /\
   (sys = true -> forall i, i < k -> payload block mem1 i = payload block mem i) /\
   fnt32_encode c xe es wc out mem wanted block =
     Some (bind (serialize_all md (headers (data_of mem)) mem1) (fun r => Ret (fst r, snd r, es'))).
Proof.
  destruct (made_parts _ _ _ _ _ _ _ _ _ M) as (CS & En & Esys & E1 & E2 & E3 & E4 & E5 & E6 & E7).
  intros Hmem He. unfold fnt32_encode. rewrite metadata_header. fold md.
  set (w := map (get false wanted) (seq 0 (c_nout c))).
  assert (Nw : forall q, q < no -> nth q w false = nth q wanted false).
  { intros q Hq. unfold w. rewrite nth_map_seq by (rewrite E6; exact Hq). reflexivity. }
  destruct (encode_gen xe es wc out (data_ptrs c md) (fun i => i) (fun _ => md) mem (repeat [] (c_nout c)) w He (data_ptrs_ok mem Hmem))
    as (es' & mem1 & E & He' & L & A & B).
  - rewrite repeat_length. exact E6.
  - unfold w. rewrite map_length, seq_length, E6. fold no. lia.
  - intros q Hq. pose proof (pos_lt q Hq). destruct Hmem as [Lm Hm]. split; [lia|]. apply Hm. auto.
  - auto.
  - rewrite data_views in *. exists es', mem1.
    assert (Cases : forall b, (exists q, q < no /\ nth q w false = true /\ pos q = b) \/ (forall q, q < no -> nth q w false = true -> pos q <> b)).
    { intros b. destruct (existsb (fun q => nth q w false && (pos q =? b)) (seq 0 no)) eqn:X.
      - left. apply existsb_exists in X. destruct X as (q & Hq & X). apply in_seq in Hq. apply andb_prop in X. destruct X as [Wq X].
        apply Nat.eqb_eq in X. exists q. repeat split; auto; lia.
      - right. intros q Hq Wq Eb. assert (Y : existsb (fun q => nth q w false && (pos q =? b)) (seq 0 no) = true).
        { apply existsb_exists. exists q. split; [apply in_seq; lia|]. rewrite Wq, Eb, Nat.eqb_refl. reflexivity. }
        congruence. }
    split; [exact He'|]. split.
    { apply (capi_write mem); auto. intros b Hlt. destruct (capi_split mem b Hmem Hlt) as (S1 & S2 & S3 & S4 & S5).
      destruct (Cases b) as [(q & Hq & Wq & <-)|X].
      - exists (head block mem (pos q)), (frag_of (data_of mem) q). rewrite A by auto. unfold frag_of. rewrite stream_length. repeat split; auto. apply stream_bytes.
      - exists (head block mem b), (payload block mem b). rewrite B by auto. auto. }
    split.
    { intros b Hlt. destruct (capi_split mem b Hmem Hlt) as (S1 & S2 & _). unfold head at 1. destruct (Cases b) as [(q & Hq & Wq & <-)|X].
      - rewrite A by auto. fold (head block mem (pos q)). fold md. change (firstn md (nth (pos q) mem [])) with (head block mem (pos q)).
        rewrite firstn_app, S2, Nat.sub_diag, firstn_O, app_nil_r. apply firstn_all2. lia.
      - rewrite B by auto. reflexivity. }
    split.
    { intros q Hq. pose proof (pos_lt q Hq) as Hlt. destruct (capi_split mem (pos q) Hmem Hlt) as (S1 & S2 & _). unfold payload at 1.
      rewrite <- Nw by auto. destruct (nth q w false) eqn:Wq.
      - rewrite A by auto. fold md. change (firstn md (nth (pos q) mem [])) with (head block mem (pos q)).
        rewrite skipn_app, S2, Nat.sub_diag, skipn_O, skipn_all2 by lia. reflexivity.
      - rewrite B; [reflexivity|]. intros q' Hq' Wq' X. apply pos_inj in X. congruence. }
    split.
    { intros Hs i Hi. unfold payload. rewrite B; [reflexivity|]. intros q Hq _. unfold pos, position. rewrite Hs. lia. }
    rewrite E. cbn [bind]. f_equal. f_equal. f_equal. unfold headers. rewrite Esys.
    assert (X : map (fun q => (frag_buf c q, get [] (map (rec_of (data_of mem)) (seq 0 no)) q)) (seq 0 (c_nout c)) =
                map (fun q => (pos q, rec_of (data_of mem) q)) (seq 0 no)).
    { rewrite E6. fold no. apply map_ext_in. intros q Hq. apply in_seq in Hq. rewrite frag_buf_pos. unfold get. rewrite nth_map_seq by lia. reflexivity. }
    rewrite X, E2. clear - c. case sys; reflexivity.
Qed.

(** What encoding leaves when it returns 0. *)
Definition encoded (mem : cmem) (wanted : list bool) (mem' : cmem) : Prop :=
  capi_memory (k + m) block mem' /\
  (forall q, q < no -> length (rec_of (data_of mem) q) <= room block /\
     good_head block (rec_of (data_of mem) q) (head block mem (pos q)) (head block mem' (pos q)) /\
     payload block mem' (pos q) = if nth q wanted false then frag_of (data_of mem) q else payload block mem (pos q)) /\
  (sys = true -> forall i, i < k -> good_head block [] (head block mem i) (head block mem' i) /\ payload block mem' i = payload block mem i).

Lemma encode_fits xe es wc out mem wanted : capi_memory (k + m) block mem -> encoder_buffers c xe es wc out ->
  (forall q, q < no -> length (rec_of (data_of mem) q) <= room block) ->
  exists es' mem', encoder_buffers c xe es' wc out /\ fnt32_encode c xe es wc out mem wanted block = Some (Ret (0%Z, mem', es')) /\
    encoded mem wanted mem'.
Proof.
  intros Hmem He Hr. destruct (encode_capi xe es wc out mem wanted Hmem He) as (es' & mem1 & He' & Hmem1 & H1 & H2 & H3 & E).
  destruct (serialize_all_fits block (headers (data_of mem)) mem1) as (mem' & F & L & A & B).
  { intros b p Hin. split; [apply capi_sized; [auto|exact (headers_in _ _ _ Hin)]|].
    destruct (headers_cases _ _ _ Hin) as [(_ & _ & ->)|(q & Hq & _ & ->)]; [cbn; lia|auto]. }
  { apply headers_nodup. }
  fold md in F. rewrite F in E. cbn [bind fst snd] in E. exists es', mem'. split; [exact He'|]. split; [exact E|].
  assert (P : forall b p, In (b, p) (headers (data_of mem)) -> good_head block p (head block mem b) (head block mem' b) /\ payload block mem' b = payload block mem1 b).
  { intros b p Hin. pose proof (headers_in _ _ _ Hin) as Hlt. destruct (A b p Hin) as (h & Hh & En). unfold payload, head at 2. rewrite En.
    assert (Lh : length h = header_size block) by apply Hh. rewrite firstn_app, skipn_app, Lh, Nat.sub_diag, firstn_O, skipn_O, app_nil_r, firstn_all2, skipn_all2 by lia.
    cbn [app]. split; [|reflexivity]. rewrite <- H1 by auto. exact Hh. }
  assert (Pq : forall q, q < no -> In (pos q, rec_of (data_of mem) q) (headers (data_of mem))).
  { intros q Hq. unfold headers. apply in_or_app. right. apply in_map_iff. exists q. split; [auto|apply in_seq; lia]. }
  assert (Pi : sys = true -> forall i, i < k -> In (i, []) (headers (data_of mem))).
  { intros Hs i Hi. unfold headers. apply in_or_app. left. rewrite Hs. apply in_map_iff. exists i. split; [auto|apply in_seq; lia]. }
  split; [|split].
  - apply (capi_write mem1); auto. intros b Hlt. destruct (capi_split mem1 b Hmem1 Hlt) as (S1 & S2 & S3 & S4 & S5).
    assert (X : exists p, In (b, p) (headers (data_of mem))).
    { destruct (bool_dec sys true) as [Hs|Hs].
      - destruct (Nat.lt_ge_cases b k); [exists []; auto|]. exists (rec_of (data_of mem) (b - k)). replace b with (pos (b - k)) at 1.
        + apply Pq. unfold no, n_outs. rewrite Hs. lia.
        + unfold pos, position. rewrite Hs. lia.
      - exists (rec_of (data_of mem) b). apply not_true_is_false in Hs. replace b with (pos b) at 1; [|unfold pos, position; now rewrite Hs].
        apply Pq. unfold no, n_outs. rewrite Hs. lia. }
    destruct X as [p X]. destruct (A b p X) as (h & Hh & ->). exists h, (payload block mem1 b). split; [reflexivity|].
    split; [apply Hh|]. split; [exact S3|]. split; [apply Hh|exact S5].
  - intros q Hq. destruct (P _ _ (Pq q Hq)) as [P1 P2]. split; [auto|]. split; [exact P1|]. rewrite P2. now apply H2.
  - intros Hs i Hi. destruct (P _ _ (Pi Hs i Hi)) as [P1 P2]. split; [exact P1|]. rewrite P2. now apply H3.
Qed.

Lemma encode_zero xe es wc out mem wanted mem' es' : capi_memory (k + m) block mem -> encoder_buffers c xe es wc out ->
  fnt32_encode c xe es wc out mem wanted block = Some (Ret (0%Z, mem', es')) -> encoder_buffers c xe es' wc out /\ encoded mem wanted mem'.
Proof.
  intros Hmem He E. assert (Hr : forall q, q < no -> length (rec_of (data_of mem) q) <= room block).
  { destruct (encode_capi xe es wc out mem wanted Hmem He) as (es2 & mem1 & _ & Hmem1 & _ & _ & _ & E2). rewrite E2 in E.
    destruct (serialize_all md (headers (data_of mem)) mem1) as [|[z m2]] eqn:F; [discriminate|]. cbn [bind fst snd] in E. injection E as -> _ _.
    intros q Hq. apply (serialize_all_zero block _ mem1 m2) with (b := pos q) (p := rec_of (data_of mem) q) in F; auto.
    - intros b p Hin. apply capi_sized; [auto|exact (headers_in _ _ _ Hin)].
    - unfold headers. apply in_or_app. right. apply in_map_iff. exists q. split; [auto|apply in_seq; lia]. }
  destruct (encode_fits xe es wc out mem wanted Hmem He Hr) as (es2 & mem2 & He2 & F & G). rewrite F in E. injection E as <- <-. auto.
Qed.

(** ** Decoding *)
Lemma serialize_first_bad data mem1 q : capi_memory (k + m) block mem1 -> q < no -> (forall q', q' < q -> length (rec_of data q') <= room block) ->
  (length (rec_of data q) = room block + 1 -> serialize_all md (headers data) mem1 = Ub) /\
  (room block + 1 < length (rec_of data q) -> exists m', serialize_all md (headers data) mem1 = Ret ((-1)%Z, m') /\ length m' = length mem1).
Proof.
  intros Hm Hq Hr. assert (E : headers data = ((if sys then map (fun i => (i, [])) (seq 0 k) else []) ++ map (fun q => (pos q, rec_of data q)) (seq 0 q)) ++
    (pos q, rec_of data q) :: map (fun q => (pos q, rec_of data q)) (seq (S q) (no - S q))).
  { unfold headers. rewrite <- app_assoc. f_equal. replace no with (q + S (no - S q)) at 1 by lia. rewrite seq_app, map_app. f_equal. }
  pose proof (headers_in data) as Hin. rewrite E in *. apply serialize_all_stop.
  - intros b' p' H'. split; [apply capi_sized; [auto|apply (Hin b' p'), in_or_app; auto]|].
    apply in_app_or in H'. destruct H' as [H'|H'].
    + assert (p' = []) as ->; [|cbn; lia]. revert H'. clear. case sys; [|intros []]. intros H'. apply in_map_iff in H'. destruct H' as (i & X & _). now injection X.
    + apply in_map_iff in H'. destruct H' as (q' & X & Hq'). injection X as _ <-. apply Hr. apply in_seq in Hq'. lia.
  - apply capi_sized; [auto|]. now apply pos_lt.
Qed.

Lemma encode_stop xe es wc out mem wanted q : capi_memory (k + m) block mem -> encoder_buffers c xe es wc out ->
  q < no -> (forall q', q' < q -> length (rec_of (data_of mem) q') <= room block) ->
  (length (rec_of (data_of mem) q) = room block + 1 -> fnt32_encode c xe es wc out mem wanted block = Some Ub) /\
  (room block + 1 < length (rec_of (data_of mem) q) ->
    exists mem' es', fnt32_encode c xe es wc out mem wanted block = Some (Ret ((-1)%Z, mem', es'))).
Proof.
  intros Hmem He Hq Hr. destruct (encode_capi xe es wc out mem wanted Hmem He) as (es' & mem1 & He' & Hmem1 & H1 & H2 & H3 & E).
  destruct (serialize_first_bad (data_of mem) mem1 q Hmem1 Hq Hr) as [A B]. rewrite E. split; intros X.
  - rewrite (A X). reflexivity.
  - destruct (B X) as (m' & -> & _). do 2 eexists. reflexivity.
Qed.

Hypothesis Hbig : (N.of_nat block <= N.of_nat ws * 2 ^ 32)%N.

Lemma words_fit : (N.of_nat (block / ws) <= 2 ^ 32)%N.
Proof.
  pose proof (ws_pos _ _ Hw). pose proof block_words as E. apply (f_equal N.of_nat) in E. rewrite Nat2N.inj_mul in E.
  set (a := N.of_nat (block / ws)) in *. set (b := N.of_nat ws) in *. assert (0 < b)%N by lia. clearbody a b. nia.
Qed.

Lemma header_fit : (N.of_nat (md / 4) < 2 ^ 32)%N.
Proof.
  destruct (header_words block) as [X _]. unfold md. rewrite X. rewrite Nat2N.inj_add, N2Nat.id.
  assert (Hw2 : ws <= 2) by (destruct Hw as [[-> _]|[-> _]]; lia).
  assert (N.of_nat block <= 2 * 2 ^ 32)%N by nia.
  assert (N.of_nat block / 65536 <= 2 ^ 17)%N. { transitivity (2 * 2 ^ 32 / 65536)%N; [apply N.div_le_mono; lia|]. vm_compute. discriminate. }
  change (N.of_nat 16) with 16%N. lia.
Qed.

Lemma rec_same data q : map (fun r => (fst r mod 2 ^ 32, OOR_MARK)%N) (rec_of data q) = rec_of data q.
Proof.
  transitivity (map (fun r => r) (rec_of data q)); [|apply map_id]. apply map_ext_in. intros [o mk] Hin. unfold rec_of in Hin.
  apply record_in in Hin. destruct Hin as (-> & t & Ht & -> & _). cbn [fst]. pose proof words_fit. f_equal. apply N.mod_small. lia.
Qed.

Lemma read_headers_ok mem wanted mem' mem2 missing : encoded mem wanted mem' -> capi_memory (k + m) block mem2 ->
  survive (k + m) missing mem' mem2 ->
  exists ps, read_headers c md missing mem2 = Ret (Some ps) /\ length ps = no /\
    forall q, q < no -> nth (pos q) missing true = false -> nth q ps [] = rec_of (data_of mem) q.
Proof.
  destruct (made_parts _ _ _ _ _ _ _ _ _ M) as (CS & En & Esys & E1 & E2 & E3 & E4 & E5 & E6 & E7).
  intros (Hm' & Hq' & _) Hm2 Hs. unfold read_headers. rewrite E6. fold no.
  destruct (deserialize_all_ok md missing mem2 (rec_of (data_of mem)) (map (fun q => (q, frag_buf c q)) (seq 0 no)) (repeat [] no)) as (ps & E & L & A).
  - intros q p Hin. apply in_map_iff in Hin. destruct Hin as (q' & X & Hq). injection X as <- <-. apply in_seq in Hq. rewrite repeat_length, frag_buf_pos.
    split; [lia|]. intros Mi. assert (Hlt : pos q' < k + m) by (apply pos_lt; lia). destruct (capi_sized mem2 _ Hm2 Hlt) as (_ & S2 & _).
    split; [exact S2|]. rewrite Hs by auto. destruct (Hq' q' ltac:(lia)) as (_ & (_ & _ & _ & D) & _). fold (head block mem' (pos q')).
    change (firstn md (nth (pos q') mem' [])) with (head block mem' (pos q')). fold md in D. rewrite D by apply header_fit. now rewrite rec_same.
  - rewrite map_map. cbn [fst]. rewrite map_id. apply seq_NoDup.
  - exists ps. split; [exact E|]. rewrite repeat_length in L. split; [exact L|]. intros q Hq Mi. apply (A q (pos q)); auto.
    apply in_map_iff. exists q. rewrite frag_buf_pos. split; [auto|apply in_seq; lia].
Qed.

(** What the decoder is given. *)
Definition usable_after (mem : cmem) (wanted missing : list bool) (mem' mem2 : cmem) : Prop :=
  encoded mem wanted mem' /\ capi_memory (k + m) block mem2 /\ survive (k + m) missing mem' mem2 /\
  (forall q, q < no -> nth (pos q) missing true = false -> nth q wanted false = true) /\ k <= length (present k m missing).

Lemma usable_par mem wanted missing mem' mem2 q : usable_after mem wanted missing mem' mem2 -> q < no -> nth (pos q) missing true = false ->
  skipn md (nth (pos q) mem2 []) = frag_of (data_of mem) q /\ length (nth (pos q) mem2 []) = md + block.
Proof.
  intros ((Hm' & Hq' & _) & Hm2 & Hs & Hwt & _) Hq Mi. pose proof (pos_lt q Hq) as Hlt. split; [|apply Hm2; auto].
  rewrite Hs by auto. change (skipn md (nth (pos q) mem' [])) with (payload block mem' (pos q)).
  destruct (Hq' q Hq) as (_ & _ & ->). now rewrite (Hwt q Hq Mi).
Qed.

Lemma usable_data mem wanted missing mem' mem2 j : usable_after mem wanted missing mem' mem2 -> sys = true -> j < k -> nth j missing true = false ->
  payload block mem2 j = nth j (data_of mem) [].
Proof.
  intros ((Hm' & _ & Hd) & Hm2 & Hs & _ & _) Hsys Hj Mi. unfold payload. rewrite Hs by (auto; lia).
  unfold data_of. rewrite nth_map_seq by auto. apply (Hd Hsys j Hj).
Qed.

Lemma data_ptr_nth j : j < k -> nth j (data_ptrs c md) null = Some (j, md).
Proof.
  destruct (made_parts _ _ _ _ _ _ _ _ _ M) as (CS & En & Esys & E1 & E2 & E3 & E4 & E5 & E6 & E7).
  intros Hj. unfold data_ptrs. etransitivity; [apply (nth_map_seq ptr); lia|reflexivity].
Qed.

Lemma decode_capi junk1 junk2 wc ds mem wanted missing mem' mem2 : capi_memory (k + m) block mem -> usable_after mem wanted missing mem' mem2 ->
  decoder_buffers c junk1 junk2 wc ds -> exists mem3, length mem3 = length mem2 /\
    (forall j, j < k -> nth j mem3 [] = head block mem2 j ++ payload block mem j) /\
    (forall b, k <= b -> nth b mem3 [] = nth b mem2 []) /\
    fnt32_decode c junk1 junk2 wc ds mem2 missing block = Some (reset_headers md no (seq 0 k) mem3).
Proof.
  destruct (made_parts _ _ _ _ _ _ _ _ _ M) as (CS & En & Esys & E1 & E2 & E3 & E4 & E5 & E6 & E7).
  intros Hmem U Hdb. pose proof U as (He & Hm2 & Hs & Hwt & Hen). unfold fnt32_decode. rewrite metadata_header. fold md.
  destruct (read_headers_ok mem wanted mem' mem2 missing He Hm2 Hs) as (ps & -> & Lps & Hps).
  set (pp := map _ (seq 0 (c_nout c))).
  destruct (decode_gen junk1 junk2 wc ds (data_ptrs c md) (fun i => i) (fun _ => md) pp mem2 ps missing (repeat true (c_k c)) (data_of mem) Hdb
    (capi_blocks mem Hmem) Hen) as (mem3 & ps' & E & L' & L & A & B).
  - rewrite repeat_length. lia.
  - apply data_ptrs_ok. exact Hm2.
  - auto.
  - unfold pp. rewrite map_length, seq_length. exact E6.
  - exact Lps.
  - intros Hsys j Hj Mi. rewrite data_ptr_nth by auto. apply (usable_data mem wanted missing mem' mem2 j); auto.
  - intros q Hq Mi. destruct (usable_par mem wanted missing mem' mem2 q U Hq Mi) as [P1 P2]. split; [|split; [exact P1|split; [exact P2|auto]]].
    unfold pp. etransitivity; [apply (nth_map_seq ptr); rewrite E6; exact Hq|]. cbn beta. rewrite frag_buf_pos. unfold get. now rewrite Mi.
  - auto.
  - assert (Wj : forall j, j < k -> nth j (repeat true (c_k c)) false = true).
    { intros j Hj. rewrite E2. clear - Hj. revert k Hj. induction j; intros [|k'] Hj; try lia; cbn; auto. apply IHj. lia. }
    exists mem3. split; [exact L|]. split; [|split].
    + intros j Hj. rewrite A by auto. unfold data_of. rewrite nth_map_seq by auto. reflexivity.
    + intros b Hkb. apply B. intros j Hj _ X. lia.
    + rewrite E. cbn [bind]. rewrite L', E2. reflexivity.
Qed.

(** Decoding gives the data back, with empty headers. *)
Lemma decode_ok junk1 junk2 wc ds mem wanted missing mem' mem2 : capi_memory (k + m) block mem -> usable_after mem wanted missing mem' mem2 ->
  decoder_buffers c junk1 junk2 wc ds -> (sys = true -> k <= m) ->
  exists mem3, fnt32_decode c junk1 junk2 wc ds mem2 missing block = Some (Ret (0%Z, mem3)) /\ length mem3 = length mem2 /\
    (forall j, j < k -> nth j mem3 [] = header_area block [] (head block mem2 j) ++ payload block mem j) /\
    (forall b, k <= b -> nth b mem3 [] = nth b mem2 []).
Proof.
  intros Hmem U Hdb Hkm. destruct (decode_capi junk1 junk2 wc ds mem wanted missing mem' mem2 Hmem U Hdb) as (mem3 & L & A & B & E).
  pose proof U as (_ & Hm2 & _). rewrite E. unfold md. rewrite reset_headers_ok.
  2:{ intros i Hi. apply in_seq in Hi. pose proof (k_le_no _ _ _ Hkm) as X. fold no in X. lia. }
  assert (Hm3 : capi_memory (k + m) block mem3).
  { apply (capi_write mem2); auto. intros b Hlt. destruct (capi_split mem2 b Hm2 Hlt) as (S1 & S2 & S3 & S4 & S5).
    destruct (Nat.lt_ge_cases b k).
    - destruct (capi_split mem b Hmem Hlt) as (T1 & T2 & T3 & T4 & T5). rewrite A by auto. eexists _, _. split; [reflexivity|]. auto.
    - rewrite B by auto. eexists _, _. split; [exact S1|]. auto. }
  destruct (serialize_all_fits block (map (fun i => (i, [])) (seq 0 k)) mem3) as (mem4 & F & L4 & A4 & B4).
  { intros b p Hin. apply in_map_iff in Hin. destruct Hin as (i & X & Hi). injection X as <- <-. apply in_seq in Hi. split; [apply capi_sized; [auto|lia]|cbn; lia]. }
  { rewrite map_map. cbn [fst]. rewrite map_id. apply seq_NoDup. }
  rewrite F. exists mem4. split; [reflexivity|]. split; [lia|]. split.
  - intros j Hj. destruct (A4 j []) as (h & Hh & ->). { apply in_map_iff. exists j. split; [auto|apply in_seq; lia]. }
    destruct (capi_split mem2 j Hm2 ltac:(lia)) as (S1 & S2 & S3 & S4 & S5).
    rewrite A by auto. rewrite skipn_app, S2. unfold md. rewrite Nat.sub_diag, skipn_O, skipn_all2 by (fold md; lia). cbn [app]. f_equal.
    destruct Hh as (-> & _). cbn [map]. f_equal. rewrite A by auto. rewrite firstn_app, S2. unfold md. rewrite Nat.sub_diag, firstn_O, app_nil_r.
    apply firstn_all2. fold md. lia.
  - intros b Hkb. rewrite B4, B; auto. intros Hin. rewrite map_map in Hin. cbn [fst] in Hin. rewrite map_id in Hin. apply in_seq in Hin. lia.
Qed.

(** With fewer parities than data, the records of a systematic code are indexed beyond their number. *)
Lemma decode_over junk1 junk2 wc ds mem wanted missing mem' mem2 : capi_memory (k + m) block mem -> usable_after mem wanted missing mem' mem2 ->
  decoder_buffers c junk1 junk2 wc ds -> sys = true -> m < k -> fnt32_decode c junk1 junk2 wc ds mem2 missing block = Some Ub.
Proof.
  intros Hmem U Hdb Hs Hkm. destruct (decode_capi junk1 junk2 wc ds mem wanted missing mem' mem2 Hmem U Hdb) as (mem3 & L & A & B & E).
  pose proof U as (_ & Hm2 & _). rewrite E. f_equal.
  assert (Hm3 : capi_memory (k + m) block mem3).
  { apply (capi_write mem2); auto. intros b Hlt. destruct (capi_split mem2 b Hm2 Hlt) as (S1 & S2 & S3 & S4 & S5).
    destruct (Nat.lt_ge_cases b k).
    - destruct (capi_split mem b Hmem Hlt) as (T1 & T2 & T3 & T4 & T5). rewrite A by auto. eexists _, _. split; [reflexivity|]. auto.
    - rewrite B by auto. eexists _, _. split; [exact S1|]. auto. }
  assert (En : no = m) by (unfold no, n_outs; now rewrite Hs). rewrite En.
  apply (reset_headers_over block m k mem3 Hkm). intros i Hi. apply capi_sized; [auto|lia].
Qed.

(** ** Reconstruction *)
Lemma serialize_dest mem2 memx p dest P : capi_memory (k + m) block mem2 -> dest < k + m -> length memx = k + m -> length p <= room block ->
  all_bytes P -> nth dest memx [] = head block mem2 dest ++ P ->
  exists mem3, serialize_at md p dest memx = Ret (0%Z, mem3) /\ length mem3 = k + m /\
    nth dest mem3 [] = header_area block (map (fun r => fst r mod 2 ^ 32)%N p) (head block mem2 dest) ++ P /\
    (forall b, b <> dest -> nth b mem3 [] = nth b memx []).
Proof.
  intros Hm2 Hd L Hp BP E. destruct (capi_split mem2 dest Hm2 Hd) as (S1 & S2 & S3 & S4 & S5).
  destruct (serialize_at_fits block p dest memx) as (h & F & -> & _); auto.
  - rewrite E, app_length. fold md. lia.
  - rewrite E. apply all_bytes_app. auto.
  - unfold md at 1. rewrite F. eexists. split; [reflexivity|]. split; [now rewrite set_length|]. split.
    + rewrite nth_set_eq by lia. rewrite E. fold md. rewrite firstn_app, skipn_app, S2, Nat.sub_diag, firstn_O, skipn_O, app_nil_r, firstn_all2, skipn_all2 by lia.
      reflexivity.
    + intros b Hb'. now apply nth_set_neq.
Qed.

Lemma reconstruct_data xe es junk1 junk2 wc ds wc2 out2 mem wanted missing mem' mem2 dest : capi_memory (k + m) block mem ->
  usable_after mem wanted missing mem' mem2 -> decoder_buffers c junk1 junk2 wc ds -> sys = true -> dest < k -> k <= m ->
  exists mem3, fnt32_reconstruct c xe es junk1 junk2 wc ds wc2 out2 mem2 missing dest block = Some (Ret (0%Z, mem3, es)) /\ length mem3 = k + m /\
    nth dest mem3 [] = header_area block [] (head block mem2 dest) ++ payload block mem dest /\
    (forall b, b <> dest -> nth b mem3 [] = nth b mem2 []).
Proof.
  destruct (made_parts _ _ _ _ _ _ _ _ _ M) as (CS & En & Esys & E1 & E2 & E3 & E4 & E5 & E6 & E7).
  intros Hmem U Hdb Hsys Hdk Hkm. pose proof U as (He & Hm2 & Hs & Hwt & Hen). unfold fnt32_reconstruct. rewrite metadata_header. fold md.
  destruct (read_headers_ok mem wanted mem' mem2 missing He Hm2 Hs) as (ps & -> & Lps & Hps).
  assert (Hno : no = m) by (unfold no, n_outs; now rewrite Hsys).
  rewrite Esys, Hsys, E2. destruct (Nat.ltb_spec dest k); [|lia]. cbn [andb]. rewrite E6. fold no. destruct (Nat.leb_spec no dest); [lia|].
  destruct (decode_gen junk1 junk2 wc ds (data_ptrs c md) (fun i => i) (fun _ => md) (out_ptrs c md) mem2 ps missing (set (repeat false no) dest true) (data_of mem) Hdb
    (capi_blocks mem Hmem) Hen) as (memx & ps' & E & L' & L & A & B).
  - rewrite set_length, repeat_length. lia.
  - apply data_ptrs_ok. exact Hm2.
  - auto.
  - apply out_ptrs_length.
  - exact Lps.
  - intros _ j Hj Mi. rewrite data_ptr_nth by auto. apply (usable_data mem wanted missing mem' mem2 j); auto.
  - intros q Hq Mi. destruct (usable_par mem wanted missing mem' mem2 q U Hq Mi) as [P1 P2]. split; [now apply out_ptrs_nth|split; [exact P1|split; [exact P2|auto]]].
  - auto.
  - rewrite E. cbn [bind]. destruct (capi_split mem dest Hmem ltac:(lia)) as (S1 & S2 & S3 & S4 & S5).
    destruct (serialize_dest mem2 memx [] dest (payload block mem dest)) as (mem3 & F & L3 & A3 & B3); auto; try lia.
    + destruct Hm2 as [Lm2 _]. lia.
    + cbn. lia.
    + rewrite A; [|auto|now rewrite nth_one, Nat.eqb_refl by lia]. unfold data_of. rewrite nth_map_seq by auto. reflexivity.
    + rewrite F. cbn [bind fst snd]. exists mem3. split; [reflexivity|]. split; [exact L3|]. split; [exact A3|].
      intros b Hb'. rewrite B3 by auto. apply B. intros j Hj. rewrite nth_one by lia. intros X. apply Nat.eqb_eq in X. congruence.
Qed.

Lemma reconstruct_frag xe es junk1 junk2 wc ds wc2 out2 mem wanted missing mem' mem2 q : capi_memory (k + m) block mem ->
  usable_after mem wanted missing mem' mem2 -> decoder_buffers c junk1 junk2 wc ds -> encoder_buffers c xe es wc2 out2 -> q < no ->
  exists mem3 es', fnt32_reconstruct c xe es junk1 junk2 wc ds wc2 out2 mem2 missing (pos q) block = Some (Ret (0%Z, mem3, es')) /\
    encoder_buffers c xe es' wc2 out2 /\ length mem3 = k + m /\
    nth (pos q) mem3 [] = header_area block (map (fun r => fst r mod 2 ^ 32)%N (rec_of (data_of mem) q)) (head block mem2 (pos q)) ++ frag_of (data_of mem) q /\
    (forall b, b < k + m -> b <> pos q -> nth b mem3 [] = nth b mem2 []).
Proof.
  destruct (made_parts _ _ _ _ _ _ _ _ _ M) as (CS & En & Esys & E1 & E2 & E3 & E4 & E5 & E6 & E7).
  intros Hmem U Hdb Heb Hq. pose proof U as (He & Hm2 & Hs & Hwt & Hen). unfold fnt32_reconstruct. rewrite metadata_header. fold md.
  destruct (read_headers_ok mem wanted mem' mem2 missing He Hm2 Hs) as (ps & -> & Lps & Hps).
  assert (Hdest : c_sys c && (pos q <? c_k c) = false).
  { rewrite Esys, E2. unfold pos, position. clear. case sys; [|reflexivity]. cbn [andb]. apply Nat.ltb_ge. lia. }
  rewrite Hdest. cbv zeta. rewrite E2, E3. rewrite E6. fold no.
  set (need := fun i => negb (c_sys c) || get true missing i).
  set (tmp := map (fun i => if need i then repeat 0%N block else []) (seq 0 k)).
  set (dp := map (fun i => if need i then Some (k + m + i, 0) else Some (i, md)) (seq 0 k) : list ptr).
  set (db := fun i => if need i then k + m + i else i). set (da := fun i => if need i then 0 else md).
  pose proof Hm2 as [Lm2 Hm2'].
  assert (Hdpn : forall i, i < k -> nth i dp null = Some (db i, da i)).
  { intros i Hi. unfold dp. etransitivity; [apply (nth_map_seq ptr); lia|]. cbn beta. unfold db, da. destruct (need i); reflexivity. }
  assert (Ldp : length dp = k) by (unfold dp; now rewrite map_length, seq_length).
  assert (Hdp : ptr_ok (mem2 ++ tmp) dp db da).
  { split; [exact Ldp|]. intros i Hi. split; [auto|]. unfold db, da. rewrite app_length. unfold tmp at 1. rewrite map_length, seq_length.
    destruct (need i) eqn:Ni.
    - split; [lia|]. rewrite app_nth2 by lia. replace (k + m + i - length mem2) with i by lia. unfold tmp. rewrite nth_map_seq by auto. rewrite Ni, repeat_length.
      split; [lia|]. apply Forall_forall. intros x Hx. apply repeat_spec in Hx. subst. reflexivity.
    - split; [lia|]. rewrite app_nth1 by lia. destruct (Hm2' i ltac:(lia)) as [X Y]. split; [symmetry; exact X|exact Y]. }
  assert (Hdi : forall i j, i < k -> j < k -> db i = db j -> i = j).
  { intros i j Hi Hj. unfold db. destruct (need i), (need j); lia. }
  assert (Hview : forall j, j < k -> need j = false -> payload block mem2 j = nth j (data_of mem) []).
  { intros j Hj Nj. unfold need, get in Nj. apply orb_false_iff in Nj. destruct Nj as [N1 N2]. apply negb_false_iff in N1. rewrite Esys in N1.
    apply (usable_data mem wanted missing mem' mem2 j); auto. }
  assert (Hold : forall b, b < k + m -> nth b (mem2 ++ tmp) [] = nth b mem2 []) by (intros b Hlt; apply app_nth1; lia).
  assert (Hdec : exists memx psx, (if existsb need (seq 0 k) then
      decode_blocks_mem c junk1 junk2 wc ds dp (out_ptrs c md) (mem2 ++ tmp) ps missing (map need (seq 0 k)) block
      else Some (Ret (true, mem2 ++ tmp, ps))) = Some (Ret (true, memx, psx)) /\ length psx = no /\ length memx = length (mem2 ++ tmp) /\
      (forall j, j < k -> need j = true -> nth (k + m + j) memx [] = nth j (data_of mem) []) /\ (forall b, b < k + m -> nth b memx [] = nth b mem2 [])).
  { destruct (existsb need (seq 0 k)) eqn:Ex.
    - assert (Nw : forall j, j < k -> nth j (map need (seq 0 k)) false = need j) by (intros j Hj; now rewrite nth_map_seq).
      destruct (decode_gen junk1 junk2 wc ds dp db da (out_ptrs c md) (mem2 ++ tmp) ps missing (map need (seq 0 k)) (data_of mem) Hdb
        (capi_blocks mem Hmem) Hen) as (memx & ps' & E & L' & L & A & B); auto.
      + rewrite map_length, seq_length. lia.
      + apply out_ptrs_length.
      + intros Hsys j Hj Mi. rewrite Hdpn by auto. assert (Nj : need j = false) by (unfold need, get; rewrite Esys, Hsys, Mi; reflexivity).
        unfold db, da. rewrite Nj. cbn [view]. rewrite Hold by lia. apply Hview; auto.
      + intros q' Hq' Mi. destruct (usable_par mem wanted missing mem' mem2 q' U Hq' Mi) as [P1 P2]. rewrite Hold by (now apply pos_lt).
        split; [now apply out_ptrs_nth|split; [exact P1|split; [exact P2|auto]]].
      + intros i q' Hi Wi Hq' Mi X. rewrite Nw in Wi by auto. unfold db in X. rewrite Wi in X. pose proof (pos_lt q' Hq'). lia.
      + exists memx, ps'. rewrite E. split; [reflexivity|]. split; [exact L'|]. split; [exact L|]. split.
        * intros j Hj Nj. specialize (A j Hj ltac:(rewrite Nw; auto)). unfold db, da in A. rewrite Nj in A. exact A.
        * intros b Hlt. rewrite B; [now apply Hold|]. intros j Hj Wj. rewrite Nw in Wj by auto. unfold db. rewrite Wj. lia.
    - exists (mem2 ++ tmp), ps. split; [reflexivity|]. split; [exact Lps|]. split; [reflexivity|]. split; [|exact Hold].
      intros j Hj Nj. exfalso. assert (Y : existsb need (seq 0 k) = true) by (apply existsb_exists; exists j; split; [apply in_seq; lia|auto]). congruence. }
  destruct Hdec as (memx & psx & Edec & Lpsx & Lx & Ax & Bx). 
  match type of Edec with ?L = _ => match goal with |- context [if existsb ?f ?l then ?a else ?b] => change (if existsb f l then a else b) with L end end.
  rewrite Edec. clear Edec.
  match goal with |- context [encode_blocks_mem _ _ _ _ _ ?a] => change a with dp end.
  assert (Eq : (if c_sys c then pos q - k else pos q) = q). { rewrite Esys. unfold pos, position. clear. case sys; lia. }
  rewrite Eq. destruct (Nat.leb_spec no q); [lia|]. rewrite app_length in Lx.
  assert (Hdpx : ptr_ok memx dp db da).
  { split; [exact Ldp|]. intros i Hi. split; [auto|]. rewrite Lx. unfold tmp at 1. rewrite map_length, seq_length. unfold db, da. destruct (need i) eqn:Ni.
    - split; [lia|]. rewrite Ax by auto. destruct (capi_blocks mem Hmem) as [_ X]. destruct (X i Hi) as [X1 X2]. split; [lia|exact X2].
    - split; [lia|]. rewrite Bx by lia. destruct (Hm2' i ltac:(lia)) as [X Y]. split; [symmetry; exact X|exact Y]. }
  destruct (encode_gen xe es wc2 out2 dp db da memx psx (set (repeat false no) q true) Heb Hdpx Lpsx) as (es' & memy & E & Heb' & L & A & B).
  - rewrite set_length, repeat_length. lia.
  - intros q' Hq'. pose proof (pos_lt q' Hq'). rewrite Bx by auto. split; [lia|]. apply Hm2'. auto.
  - intros i q' Hi Hq' Wq' X. unfold db, da in *. destruct (need i) eqn:Ni; [pose proof (pos_lt q' Hq'); lia|reflexivity].
  - assert (Edata : map (fun i => view memx (nth i dp null)) (seq 0 k) = data_of mem).
    { unfold data_of. apply map_ext_in. intros i Hi. apply in_seq in Hi. rewrite Hdpn by lia. unfold db, da.
      assert (Z : payload block mem i = nth i (data_of mem) []) by (unfold data_of; rewrite nth_map_seq by lia; reflexivity).
      destruct (need i) eqn:Ni; cbn [view].
      - rewrite skipn_O, Ax by (auto; lia). symmetry. exact Z.
      - rewrite Bx by lia. rewrite Z. apply Hview; [lia|auto]. }
    rewrite Edata in A. rewrite Edata in E. rewrite E. cbn [bind]. rewrite frag_buf_pos. unfold get. rewrite nth_map_seq by auto.
    pose proof (pos_lt q Hq) as Hlt. pose proof He as (_ & Hrec & _). destruct (Hrec q Hq) as (Hr & _).
    destruct (serialize_dest mem2 (firstn (k + m) memy) (rec_of (data_of mem) q) (pos q) (frag_of (data_of mem) q)) as (mem3 & F & L3 & A3 & B3); auto.
    + rewrite firstn_length. lia.
    + apply stream_bytes.
    + rewrite nth_firstn, (proj2 (Nat.ltb_lt (pos q) (k + m)) Hlt). rewrite A by (auto; now rewrite nth_one, Nat.eqb_refl by lia). rewrite Bx by auto. reflexivity.
    + rewrite F. cbn [bind fst snd]. exists mem3, es'. split; [reflexivity|]. split; [exact Heb'|]. split; [exact L3|]. split; [exact A3|].
      intros b Hlb Hne. rewrite B3, nth_firstn, (proj2 (Nat.ltb_lt b (k + m)) Hlb) by auto. rewrite B; [now apply Bx|]. intros q' Hq'. rewrite nth_one by lia. intros X. apply Nat.eqb_eq in X. congruence.
Qed.

(** Fewer parities than data: reconstruction of a data fragment of a systematic code. *)
Lemma reconstruct_over xe es junk1 junk2 wc ds wc2 out2 mem wanted missing mem' mem2 dest : capi_memory (k + m) block mem ->
  usable_after mem wanted missing mem' mem2 -> decoder_buffers c junk1 junk2 wc ds -> sys = true -> dest < k -> m < k ->
  nth dest missing true = true -> 0 < block ->
  fnt32_reconstruct c xe es junk1 junk2 wc ds wc2 out2 mem2 missing dest block = Some Ub.
Proof.
  destruct (made_parts _ _ _ _ _ _ _ _ _ M) as (CS & En & Esys & E1 & E2 & E3 & E4 & E5 & E6 & E7).
  intros Hmem U Hdb Hsys Hdk Hkm Hmi Hb0. pose proof U as (He & Hm2 & Hs & Hwt & Hen). unfold fnt32_reconstruct. rewrite metadata_header. fold md.
  destruct (read_headers_ok mem wanted mem' mem2 missing He Hm2 Hs) as (ps & -> & Lps & Hps).
  assert (Hno : no = m) by (unfold no, n_outs; now rewrite Hsys).
  rewrite Esys, Hsys, E2. destruct (Nat.ltb_spec dest k); [|lia]. cbn [andb]. rewrite E6. fold no. destruct (Nat.leb_spec no dest); [reflexivity|].
  pose proof (ws_pos _ _ Hw) as W0.
  assert (Hbs : 0 < block / ws). { pose proof block_words. destruct (block / ws); lia. }
  unfold decode_blocks_mem. rewrite Esys, Hsys, E2, E6. fold no. cbn [negb orb].
  assert (Ld : length (data_ptrs c md) = k) by (unfold data_ptrs; rewrite map_length, seq_length; exact E2).
  rewrite Ld, out_ptrs_length, Lps, !Nat.eqb_refl. cbn [andb].
  assert (La : (length (avail_data c missing) =? k) = false).
  { apply Nat.eqb_neq. unfold avail_data. rewrite Esys, Hsys, E2. intros X.
    pose proof (filter_full (fun i => negb (get true missing i))) as Y.
    specialize (Y (seq 0 k) ltac:(rewrite seq_length; exact X) dest ltac:(apply in_seq; lia)). unfold get in Y. rewrite Hmi in Y. discriminate. }
  rewrite La. assert (Hen' : c_k c <= length (filter (fun i => negb (get true missing i)) (seq 0 (c_k c + c_m c)))) by (rewrite E2, E3; exact Hen).
  pose proof (par_length c ltac:(lia) ltac:(lia) E5 missing Hen') as Lap. rewrite E2 in Lap.
  destruct (Nat.ltb_spec (length (avail_data c missing) + length (avail_par c missing)) k) as [X|_]; [lia|].
  assert (Eids : avail_data c missing ++ map (fun i => k + i) (avail_par c missing) = ids c missing).
  { pose proof (ids_eq c ltac:(lia) ltac:(lia) E5 missing) as X. rewrite Esys, Hsys, E2 in X. exact X. }
  rewrite Eids, ids_sorted. destruct Hdb as (J1 & J2 & _).
  destruct (cs_ctx _ _ CS _ junk1 junk2 (ids_frags c cw CS ltac:(lia) ltac:(lia) E5 missing Hen') J1 J2) as [x ->].
  rewrite E1. destruct (block / ws) as [|bs] eqn:Ebs; [lia|]. cbn [decode_loop_mem]. rewrite (proj2 (Nat.ltb_lt 0 (S bs))) by lia.
  unfold decode_turn_mem. destruct (mapM _ _) as [|chunks]; [reflexivity|]. cbn [bind]. destruct (decode_pkt _ _ _ _ _ _ _) as [cur ds'].
  rewrite store_all_over by (rewrite set_length, repeat_length, E2; lia). reflexivity.
Qed.

(** Too few fragments. *)
Lemma decode_few junk1 junk2 wc ds mem wanted missing mem' mem2 : encoded mem wanted mem' -> capi_memory (k + m) block mem2 ->
  survive (k + m) missing mem' mem2 -> length (present k m missing) < k ->
  fnt32_decode c junk1 junk2 wc ds mem2 missing block = Some (Ret ((-1)%Z, mem2)).
Proof.
  destruct (made_parts _ _ _ _ _ _ _ _ _ M) as (CS & En & Esys & E1 & E2 & E3 & E4 & E5 & E6 & E7).
  intros He Hm2 Hs Hen. unfold fnt32_decode. rewrite metadata_header. fold md.
  destruct (read_headers_ok mem wanted mem' mem2 missing He Hm2 Hs) as (ps & -> & Lps & Hps).
  cbv zeta. unfold decode_blocks_mem.
  assert (Ld : length (data_ptrs c md) = k) by (unfold data_ptrs; rewrite map_length, seq_length; exact E2).
  rewrite Ld, map_length, seq_length, Lps, E2, E6. fold no. rewrite !Nat.eqb_refl, orb_true_r. cbn [andb].
  assert (Hen' : length (filter (fun i => negb (get true missing i)) (seq 0 (c_k c + c_m c))) < c_k c) by (rewrite E2, E3; exact Hen).
  rewrite present_split, app_length, E2 in Hen'.
  assert (Ha : (length (avail_data c missing) =? k) = false) by (apply Nat.eqb_neq; lia).
  rewrite Ha, andb_false_r.
  assert (Hap : length (avail_data c missing) + length (avail_par c missing) < k).
  { unfold avail_par. rewrite firstn_length, E2. destruct (c_sys c); rewrite ?map_length in Hen'; lia. }
  apply Nat.ltb_lt in Hap. rewrite Hap. reflexivity.
Qed.

End C.
