(** decode_streams_horizontal of systematic codes: which records are used, and what becomes of the call. *)
From Coq Require Import List NArith ZArith Arith Bool Lia.
From Verif.Model Require Import Common Arith Ring Fft2n Radix2 Poly Props Bytes Fnt Blocks Header Streams Horizontal.
From Verif.Spec Require Import Modular Code Blocks.
From Verif.Proof Require Import ListP BytesP PropsP StreamsL BlocksP HorizontalP.
Import ListNotations.
Open Scope nat_scope.

Lemma flen {A} (f : A -> bool) l : length (filter f l) <= length l.
Proof. induction l as [|a l IH]; cbn [filter length]; [lia|]. destruct (f a); cbn [length]; lia. Qed.

Lemma fold_ub {A B} (step : A -> B -> outcome A) l : fold_left (fun o i => bind o (fun a => step a i)) l Ub = Ub.
Proof. induction l; auto. Qed.
Lemma fold_hits {A B} (step : A -> B -> outcome A) i l : In i l -> (forall a, step a i = Ub) ->
  forall o, fold_left (fun o i => bind o (fun a => step a i)) l o = Ub.
Proof.
  intros Hi Hs. induction l as [|b l IH]; intros o; [destruct Hi|]. destruct Hi as [->|Hi]; cbn [fold_left]; [|now apply IH].
  assert (E : bind o (fun a => step a i) = Ub) by (destruct o; cbn [bind]; auto). rewrite E. apply fold_ub.
Qed.
Lemma fold_rets {A B} (step : A -> B -> outcome A) l : (forall a i, In i l -> exists a', step a i = Ret a') ->
  forall a, exists a', fold_left (fun o i => bind o (fun a => step a i)) l (Ret a) = Ret a'.
Proof.
  intros H. induction l as [|b l IH]; intros a; [now exists a|]. cbn [fold_left bind].
  destruct (H a b (or_introl eq_refl)) as (a' & ->). apply IH. intros; apply H; now right.
Qed.

Lemma prepare_ub c ids (ps : list props) o cur words i : i < c_k c -> length ps <= nth i ids 0 ->
  decode_prepare_vec c ids ps o cur words = Ub.
Proof.
  intros Hi Hl. unfold decode_prepare_vec.
  apply (fold_hits (fun (st : list nat * list N) i => let '(cur, words) := st in
      let j := get 0 ids i in
      if length ps <=? j then Ub
      else
        let pj := get [] ps j in
        if props_is_marked pj (get 0 cur j) o then
          Ret (set cur j (get 0 cur j + 1), if N.eqb (props_marker pj (get 0 cur j)) OOR_MARK then set words i (c_h c) else words)
        else Ret (cur, words)) i).
  - apply in_seq. lia.
  - intros (cur' & w'). unfold get. apply Nat.leb_le in Hl. rewrite Hl. reflexivity.
Qed.

Lemma prepare_ret c ids (ps : list props) o cur words : (forall i, i < c_k c -> nth i ids 0 < length ps) ->
  exists cw, decode_prepare_vec c ids ps o cur words = Ret cw.
Proof.
  intros H. unfold decode_prepare_vec.
  apply (fold_rets (fun (st : list nat * list N) i => let '(cur, words) := st in
      let j := get 0 ids i in
      if length ps <=? j then Ub
      else
        let pj := get [] ps j in
        if props_is_marked pj (get 0 cur j) o then
          Ret (set cur j (get 0 cur j + 1), if N.eqb (props_marker pj (get 0 cur j)) OOR_MARK then set words i (c_h c) else words)
        else Ret (cur, words))).
  intros (cur' & w') i Hi. apply in_seq in Hi. unfold get. destruct (Nat.leb_spec (length ps) (nth i ids 0)) as [A|A].
  - specialize (H i ltac:(lia)). lia.
  - destruct (props_is_marked _ _ _); eexists; reflexivity.
Qed.

(** The loop always ends when the streams have the same length. *)
Lemma loop_ret c x (ps : list props) wanted bl L : 0 < c_ws c -> bl <> [] -> (forall b, In b bl -> length b = L) ->
  (forall i, i < c_k c -> nth i (x_ids x) 0 < length ps) ->
  forall fuel o vs cur outs, L / c_ws c - o < fuel -> o * c_ws c <= L -> exists outs',
  hdecode_loop fuel c x ps wanted o (map (at_word (c_ws c) o) bl) vs cur outs = Some (Ret outs').
Proof.
  intros Hw Hb HL Hids. induction fuel as [|f IH]; intros o vs cur outs Hf Ho; [lia|]. cbn [hdecode_loop].
  destruct (Nat.le_gt_cases ((o + 1) * c_ws c) L) as [A|A].
  - rewrite readw_all_some by (intros b Hi; rewrite (HL b Hi); exact A).
    destruct (prepare_ret c (x_ids x) ps (N.of_nat o) cur (map (fun b => word_at (c_ws c) b o) bl) Hids) as ((cur' & w') & ->).
    destruct (decode_apply_vec c x vs w') as [vs' out']. apply IH; [|exact A].
    assert (o + 1 <= L / c_ws c) by (apply Nat.div_le_lower_bound; lia). lia.
  - pose proof (readw_all_none (c_ws c) o bl Hb ltac:(intros b Hi; rewrite (HL b Hi); lia)) as E.
    destruct (readw_all _ _) as [ins r]. cbn [snd] in E. subst r. now exists outs.
Qed.

Section Sys.
Variables (c : fnt) (cw : (nat -> N) -> nat -> N).
Hypothesis CS : code_spec c cw.
Hypothesis Hws : 0 < c_ws c.
Hypothesis Hpkt : 0 < c_pkt c.
Hypothesis Hcard : g_card (c_G c) = (256 ^ N.of_nat (c_ws c) + 1)%N.
Hypothesis Hsys : c_sys c = true.

Theorem hdecode_systematic L missing wanted data par (ps : list props) vs old junk1 junk2 :
  c_k c <= length (filter (fun i => negb (get true missing i)) (seq 0 (c_k c + c_m c))) ->
  (exists j, j < c_k c /\ nth j missing true = true) -> c_ws c <= L ->
  (forall j, j < c_k c -> nth j missing true = false -> length (nth j data []) = L) ->
  (forall q, q < c_m c -> nth (c_k c + q) missing true = false -> length (nth q par []) = L) ->
  length data = c_k c -> length par = c_m c -> length ps = c_m c -> length old = c_k c ->
  length junk1 = c_n c -> length junk2 = c_l2 c ->
  ((exists q, In q (ids c missing) /\ c_m c <= q) -> decode_hstreams c junk1 junk2 vs data par ps missing wanted old = Some Ub) /\
  ((forall q, In q (ids c missing) -> q < c_m c) ->
    exists outs, decode_hstreams c junk1 junk2 vs data par ps missing wanted old = Some (Ret (true, outs, map props_sort ps))).
Proof.
  intros Hen (jm & Hjm & Hjm') HL Hd Hpar Ld Lp Lps Lo Hj1 Hj2.
  pose proof (cs_k _ _ CS) as K0.
  assert (Enout : c_nout c = c_m c) by (unfold c_nout; now rewrite Hsys).
  pose proof (ids_eq c Hws Hpkt Hcard missing) as Eids. rewrite Hsys in Eids.
  pose proof (par_length c Hws Hpkt Hcard missing Hen) as Lap.
  assert (Lid : length (ids c missing) = c_k c) by (apply (ids_frags c cw CS Hws Hpkt Hcard missing Hen)).
  assert (Lad : length (avail_data c missing) < c_k c).
  { unfold avail_data. rewrite Hsys. pose proof (flen (fun i => negb (get true missing i)) (seq 0 (c_k c))) as X.
    rewrite seq_length in X. destruct (Nat.eq_dec (length (filter (fun i => negb (get true missing i)) (seq 0 (c_k c)))) (c_k c)) as [E|E]; [|lia].
    exfalso. assert (forall (l : list nat), length (filter (fun i => negb (get true missing i)) l) = length l -> forall i, In i l -> negb (get true missing i) = true) as G.
    { induction l as [|a l IH]; intros Hl i []; cbn [filter length] in Hl.
      - subst. destruct (negb (get true missing i)); auto. pose proof (flen (fun i => negb (get true missing i)) l). lia.
      - destruct (negb (get true missing a)); cbn [length] in Hl; [apply IH; auto|].
        pose proof (flen (fun i => negb (get true missing i)) l). lia. }
    specialize (G (seq 0 (c_k c))). rewrite seq_length in G. specialize (G E jm ltac:(apply in_seq; lia)). unfold get in G. rewrite Hjm' in G. discriminate. }
  unfold decode_hstreams. rewrite Hsys, Enout, Ld, Lp, Lps, Lo, !Nat.eqb_refl. cbn [negb orb andb].
  destruct (Nat.eqb_spec (length (avail_data c missing)) (c_k c)) as [X|_]; [lia|].
  destruct (Nat.ltb_spec (length (avail_data c missing) + length (avail_par c missing)) (c_k c)) as [X|_]; [lia|].
  rewrite Eids. destruct (cs_ctx _ _ CS _ junk1 junk2 (ids_frags c cw CS Hws Hpkt Hcard missing Hen) Hj1 Hj2) as [x Hx]. rewrite Hx.
  assert (Exi : x_ids x = ids c missing).
  { revert Hx. unfold ctx_new. destruct (ctx_A _ _ _); [|discriminate]. destruct (poly_derivative _ _ _); [|discriminate].
    intros H. injection H as <-. reflexivity. }
  set (bl := map (fun i => if i <? length (avail_data c missing) then nth (nth i (x_ids x) 0) data []
                           else nth (nth (i - length (avail_data c missing)) (avail_par c missing) 0) par []) (seq 0 (c_k c))).
  assert (Lb : length bl = c_k c) by (unfold bl; now rewrite map_length, seq_length).
  match goal with |- context [hdecode_loop _ c x _ _ _ ?i _ _ _] => set (ins := i) end.
  assert (Ein : ins = map (at_word (c_ws c) 0) bl).
  { unfold ins, bl. rewrite map_map. apply map_ext. intros i. unfold at_word, get. cbn [Nat.mul skipn].
    destruct (i <? length (avail_data c missing)); reflexivity. }
  assert (Hin : forall i, In i (ids c missing) -> i < c_k c + c_m c /\ nth i missing true = false).
  { intros i Hi. destruct (in_ids c Hws Hpkt Hcard missing Hen i Hi) as (A & B). split; [exact A|]. unfold get in B. now apply negb_true_iff in B. }
  assert (HB : forall b, In b bl -> length b = L).
  { intros b Hb. unfold bl in Hb. apply in_map_iff in Hb. destruct Hb as (i & <- & Hi). apply in_seq in Hi.
    assert (Hn : In (nth i (ids c missing) 0) (ids c missing)) by (apply nth_In; lia).
    destruct (Hin _ Hn) as (N1 & N2). rewrite Exi. destruct (Nat.ltb_spec i (length (avail_data c missing))) as [A|A].
    - apply Hd; [|exact N2].
      rewrite <- Eids, app_nth1 by exact A. assert (In (nth i (avail_data c missing) 0) (avail_data c missing)) as Y by (apply nth_In; exact A).
      unfold avail_data in Y at 2. rewrite Hsys in Y. apply filter_In in Y. destruct Y as (Y & _). apply in_seq in Y. lia.
    - rewrite <- Eids in N1, N2. rewrite app_nth2 in N1, N2 by exact A. set (q := i - length (avail_data c missing)) in *.
      assert (Q : q < length (avail_par c missing)) by (unfold q; lia).
      rewrite (nth_indep _ 0 (c_k c + 0)) in N1, N2 by (rewrite map_length; exact Q).
      rewrite (map_nth (fun i => c_k c + i)) in N1, N2. apply Hpar; [lia|exact N2]. }
  assert (E0 : is_rest (get (mkIs [] true) ins 0) = nth 0 bl []).
  { rewrite Ein. unfold get. rewrite (nth_indep _ (mkIs [] true) (at_word (c_ws c) 0 [])) by (rewrite map_length; lia).
    rewrite map_nth. reflexivity. }
  assert (N0 : bl <> []) by (intros E; rewrite E in Lb; cbn in Lb; lia).
  assert (L0 : length (nth 0 bl []) = L) by (apply HB, nth_In; lia).
  rewrite E0, L0, Ein. split.
  - intros (q & Hq & Hm). cbn [hdecode_loop]. rewrite readw_all_some by (intros b Hb; rewrite (HB b Hb); lia).
    destruct (In_nth _ _ 0 Hq) as (i & Hi & Ei). rewrite Lid in Hi.
    rewrite (prepare_ub c (x_ids x) (map props_sort ps) _ _ _ i Hi); [reflexivity|]. rewrite map_length, Exi, Ei. lia.
  - intros Hall. destruct (loop_ret c x (map props_sort ps) wanted bl L Hws N0 HB) with
      (fuel := S L) (o := 0) (vs := vs) (cur := repeat 0 (c_m c)) (outs := old) as (outs' & R).
    + intros i Hi. rewrite map_length, Lps, Exi. apply Hall, nth_In. lia.
    + assert (L / c_ws c <= L) by (apply Nat.div_le_upper_bound; nia). lia.
    + lia.
    + rewrite R. now exists outs'.
Qed.
End Sys.
