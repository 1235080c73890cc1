(** Property C41: the Reed-Solomon code over NF4. *)
From Coq Require Import List NArith ZArith Arith Bool Lia Sorted.
From Verif.Model Require Import Common Arith Ring Fft2n Radix2 Poly Props Fnt Nf4.
From Verif.Spec Require Import Primes Blocks Nf4 Code Widths.
From Verif.Proof Require Import ListP Tac ArithP PrimeP CodeLenP Smooth Nf4L Param Nf4Sim Nf4Code Nf4New.
Import ListNotations.
Open Scope nat_scope.

(** ** Sessions *)

(** A word to encode: its offset, its symbols and what the output holds before. *)
Record eword := EWord { e_off : N; e_words : list N; e_out : list N }.
(** Encoding words one after the other, with the records of the values out of range. *)
Fixpoint enc_session (c : nf4code) (l : list eword) (ps : list props) : list (list N) * list props :=
  match l with
  | [] => ([], ps)
  | e :: t =>
      let '(cw, ps) := nf4_encode c (e_out e) ps (e_off e) (e_words e) in
      let '(cws, ps) := enc_session c t ps in (cw :: cws, ps)
  end.
(** Decoding words (offsets and symbols received) one after the other, from the cursors [cur] in the records. *)
Fixpoint dec_session (c : nf4code) (x : ctx) (ps : list props) (l : list (N * list N)) (cur : list nat) (vs : vscratch) : list (list N) :=
  match l with
  | [] => []
  | (off, words) :: t =>
      let '(cur, vs, o) := nf4_decode c x vs ps off cur words in o :: dec_session c x ps t cur vs
  end.

(** A vector of [n] symbols of [b] bits. *)
Definition symbols (b n : nat) (l : list N) : Prop := length l = n /\ Forall (fun x => (x < 2 ^ N.of_nat b)%N) l.
(** The symbols of the fragments [ids]. *)
Definition pick (ids : list nat) (cw : list N) : list N := map (fun i => nth i cw 0%N) ids.
Definition nvs_len (c : nf4code) (vs : vscratch) : Prop :=
  length (v_n2 vs) = nf_n c /\ length (v_2k1 vs) = nf_l2 c /\ length (v_2k2 vs) = nf_l2 c.

(** ** Symbols as lists of numbers *)
Lemma word16_of e : forall a, (a < 2 ^ N.of_nat (16 * e))%N -> exists h, numbers e h /\ a = word16 h.
Proof.
  induction e as [|e IH]; intros a Ha.
  - exists []. split; [split; [reflexivity|constructor]|]. change (2 ^ N.of_nat (16 * 0))%N with 1%N in Ha. unfold word16. cbn. lia.
  - destruct (IH (a / 65536)%N) as (h & [Lh Hh] & E).
    { apply N.div_lt_upper_bound; [discriminate|]. replace (N.of_nat (16 * S e)) with (16 + N.of_nat (16 * e))%N in Ha by lia.
      rewrite N.pow_add_r in Ha. exact Ha. }
    exists ((a mod 65536)%N :: h). split; [split; [cbn [length]; congruence|constructor; auto; apply N.mod_lt; discriminate]|].
    unfold word16 in *. rewrite digits_cons, <- E. rewrite (N.div_mod a 65536) at 1 by discriminate. change (2 ^ 16)%N with 65536%N. lia.
Qed.
Lemma words16_of e l : Forall (fun x => (x < 2 ^ N.of_nat (16 * e))%N) l -> exists S, Forall (numbers e) S /\ l = map word16 S.
Proof.
  induction 1 as [|a l Ha _ (S & HS & ->)]; [exists []; auto|]. destruct (word16_of e a Ha) as (h & Hh & ->).
  exists (h :: S). split; [constructor; auto|reflexivity].
Qed.
Lemma numbers_el e h : numbers e h -> elements e h.
Proof. intros [L H]. split; auto. eapply Forall_impl; [|exact H]. cbv beta. intros; lia. Qed.
Lemma numbers_low e h : numbers e h -> map low h = h.
Proof.
  intros [_ H]. induction H as [|x h Hx _ IH]; [reflexivity|]. cbn [map]. rewrite IH. f_equal. unfold low. destruct (N.eqb_spec x 65536); auto. lia.
Qed.
Lemma marks_0 s : marks s = 0%N -> map low s = s.
Proof.
  induction s as [|x s IH]; [reflexivity|]. rewrite marks_cons. intros E. cbn [map]. rewrite IH by lia. f_equal. unfold low.
  destruct (x =? 65536)%N; auto; lia.
Qed.
Lemma low_word e s : elements e s -> (word16 (map low s) < 2 ^ N.of_nat (16 * e))%N.
Proof.
  intros [Ls Hs]. apply lows in Hs. pose proof (digits_lt (2 ^ 16) (map low s) eq_refl Hs) as H. rewrite map_length, Ls in H.
  unfold word16. rewrite <- N.pow_mul_r in H. replace (N.of_nat (16 * e)) with (16 * N.of_nat e)%N by lia. exact H.
Qed.
Lemma forall2_inv (A C : Type) (R : A -> C -> Prop) a b l l' : Forall2 R (a :: l) (b :: l') -> R a b /\ Forall2 R l l'.
Proof. inversion 1; auto. Qed.

(** ** One word *)
Section Post.
Variables (c : nf4code) (off : N).
Notation B := (nf_B c).
Notation w := (nf_w c).
Notation e := (nf_e c).
Hypothesis HT : nf4_type B w e.

(** The record of a word whose elements are [s]. *)
Definition mark (s : list N) : props := if (0 <? marks s)%N then [(off, marks s)] else [].

Lemma post_spec (v : nat -> list N) o ps : nf_len c <= length o -> length ps = nf_len c ->
  (forall j, j < nf_len c -> elements e (v j) /\ nth j o 0%N = word32 (v j)) ->
  exists o' ps', nf4_post c off o ps = (o', ps') /\ length o' = length o /\ length ps' = nf_len c /\
    forall j, j < nf_len c -> nth j o' 0%N = word16 (map low (v j)) /\ nth j ps' [] = nth j ps [] ++ mark (v j).
Proof.
  intros Lo Lp Hv. unfold nf4_post.
  assert (X : forall t, t <= nf_len c -> exists o' ps',
    fold_left (fun st i => let '(o, ps) := st in let '(v, flag) := unpack B w e (get 0%N o i) in
      (set o i v, if (0 <? flag)%N then set ps i (props_add (get [] ps i) off flag) else ps)) (seq 0 t) (o, ps) = (o', ps') /\
    length o' = length o /\ length ps' = nf_len c /\
    forall j, j < nf_len c -> if j <? t then nth j o' 0%N = word16 (map low (v j)) /\ nth j ps' [] = nth j ps [] ++ mark (v j)
      else nth j o' 0%N = nth j o 0%N /\ nth j ps' [] = nth j ps []).
  { induction t as [|t IH]; intros Ht.
    - exists o, ps. split; [reflexivity|]. split; auto. split; auto. intros j _. split; reflexivity.
    - destruct (IH ltac:(lia)) as (o1 & ps1 & E & L1 & L2 & H). rewrite seq_S, fold_left_app, E. cbn [fold_left Nat.add].
      pose proof (H t ltac:(lia)) as H'. rewrite Nat.ltb_irrefl in H'. destruct H' as [E1 E2]. destruct (Hv t ltac:(lia)) as [He Ev].
      unfold get. rewrite E1, Ev, unpack_word by auto. eexists. eexists. split; [reflexivity|]. rewrite set_length. split; auto.
      split; [destruct (0 <? marks (v t))%N; auto; now rewrite set_length|]. intros j Hj. specialize (H j Hj). destruct (Nat.eq_dec j t) as [->|ne].
      + assert (X : (t <? S t) = true) by (apply Nat.ltb_lt; lia). rewrite X. rewrite nth_set_eq by lia. split; auto. unfold mark.
        destruct (0 <? marks (v t))%N; [rewrite nth_set_eq by lia; unfold props_add; now rewrite E2|now rewrite E2, app_nil_r].
      + replace (j <? S t) with (j <? t) by (destruct (Nat.ltb_spec j t), (Nat.ltb_spec j (S t)); auto; lia).
        rewrite nth_set_neq by auto. destruct (0 <? marks (v t))%N; [rewrite nth_set_neq by auto|]; exact H. }
  destruct (X (nf_len c) (le_n _)) as (o' & ps' & E & L1 & L2 & H). exists o', ps'. split; [exact E|]. split; auto. split; auto.
  intros j Hj. specialize (H j Hj). apply Nat.ltb_lt in Hj. rewrite Hj in H. exact H.
Qed.

Lemma prepare_spec (v : nat -> list N) ids ps cur words : length ids = nf_k c -> NoDup ids -> (forall i, In i ids -> i < length cur) ->
  length words = nf_k c -> (forall i, i < nf_k c -> nth i words 0%N = word16 (map low (v (nth i ids 0)))) ->
  (forall q, In q ids -> elements e (v q) /\ props_is_marked (nth q ps []) (nth q cur 0) off = (0 <? marks (v q))%N /\
     ((0 < marks (v q))%N -> props_marker (nth q ps []) (nth q cur 0) = marks (v q))) ->
  exists cur', nf4_prepare c ids ps off cur words = (cur', map (fun q => word32 (v q)) ids) /\ length cur' = length cur /\
    forall q, In q ids -> nth q cur' 0 = nth q cur 0 + length (mark (v q)).
Proof.
  intros Li ND Hi Lw Hw Hq. unfold nf4_prepare.
  assert (X : forall t, t <= nf_k c -> exists cur' words',
    fold_left (fun st i => let '(cur, words) := st in let j := get 0 ids i in
      if props_is_marked (get [] ps j) (get 0 cur j) off then
        (set cur j (get 0 cur j + 1), set words i (pack_flag B w e (get 0%N words i) (props_marker (get [] ps j) (get 0 cur j))))
      else (cur, set words i (pack B w e (get 0%N words i)))) (seq 0 t) (cur, words) = (cur', words') /\
    length cur' = length cur /\ length words' = nf_k c /\
    forall i, i < nf_k c -> let q := nth i ids 0 in
      if i <? t then nth i words' 0%N = word32 (v q) /\ nth q cur' 0 = nth q cur 0 + length (mark (v q))
      else nth i words' 0%N = nth i words 0%N /\ nth q cur' 0 = nth q cur 0).
  { induction t as [|t IH]; intros Ht.
    - exists cur, words. split; [reflexivity|]. split; auto. split; auto. intros i _. split; reflexivity.
    - destruct (IH ltac:(lia)) as (c1 & w1 & E & L1 & L2 & H). rewrite seq_S, fold_left_app, E. cbn [fold_left Nat.add].
      pose proof (H t ltac:(lia)) as H'. rewrite Nat.ltb_irrefl in H'. destruct H' as [E1 E2]. unfold get. set (qt := nth t ids 0) in *.
      assert (It : In qt ids) by (apply nth_In; lia). destruct (Hq qt It) as (He & Hm & Hk). rewrite E2, Hm, E1, (Hw t) by lia. fold qt.
      assert (ne_q : forall i, i < nf_k c -> i <> t -> nth i ids 0 <> qt).
      { intros i Hik ne E0. apply ne. apply (proj1 (NoDup_nth ids 0) ND); auto; lia. }
      specialize (Hi qt It).
      assert (Step : forall cur' x, (cur' = c1 \/ cur' = set c1 qt (nth qt cur 0 + 1)) -> nth qt cur' 0 = nth qt cur 0 + length (mark (v qt)) -> x = word32 (v qt) ->
        exists cur2 words2, (cur', set w1 t x) = (cur2, words2) /\ length cur2 = length cur /\ length words2 = nf_k c /\
         forall i, i < nf_k c -> let q := nth i ids 0 in
         if i <? S t then nth i words2 0%N = word32 (v q) /\ nth q cur2 0 = nth q cur 0 + length (mark (v q))
         else nth i words2 0%N = nth i words 0%N /\ nth q cur2 0 = nth q cur 0).
      { intros cur' x Hc Hn ->. exists cur', (set w1 t (word32 (v qt))). split; [reflexivity|].
        split; [destruct Hc as [->| ->]; rewrite ?set_length; auto|]. split; [now rewrite set_length|].
        intros i Hik. cbv zeta. specialize (H i Hik). cbv zeta in H. destruct (Nat.eq_dec i t) as [->|ne].
        - assert (X : (t <? S t) = true) by (apply Nat.ltb_lt; lia). rewrite X. rewrite nth_set_eq by lia. fold qt. auto.
        - replace (i <? S t) with (i <? t) by (destruct (Nat.ltb_spec i t), (Nat.ltb_spec i (S t)); auto; lia).
          rewrite nth_set_neq by auto. destruct Hc as [->| ->]; [exact H|]. rewrite nth_set_neq by (apply ne_q; auto). exact H. }
      destruct (N.ltb_spec 0 (marks (v qt))) as [Hp|Hp].
      + apply Step; auto.
        * rewrite nth_set_eq by lia. unfold mark. destruct (N.ltb_spec 0 (marks (v qt))); [reflexivity|lia].
        * rewrite Hk by auto. now apply pack_flag_word.
      + assert (M0 : marks (v qt) = 0%N) by lia. apply Step; auto.
        * rewrite E2. unfold mark. rewrite M0. cbn. lia.
        * rewrite (marks_0 _ M0). apply pack_word; auto. destruct He as [Le He]. split; auto. apply lows in He. now rewrite (marks_0 _ M0) in He. }
  destruct (X (nf_k c) (le_n _)) as (cur' & words' & E & L1 & L2 & H). exists cur'.
  assert (Ew : words' = map (fun q => word32 (v q)) ids).
  { apply (nth_ext _ _ 0%N (word32 (v 0))); [rewrite map_length; congruence|]. intros i Hik. rewrite L2 in Hik.
    rewrite (map_nth (fun q => word32 (v q))). pose proof (H i Hik) as H'. cbv zeta in H'. apply Nat.ltb_lt in Hik. rewrite Hik in H'. apply H'. }
  split; [etransitivity; [exact E|f_equal; exact Ew]|]. split; auto. intros q Iq. destruct (In_nth ids q 0 Iq) as (i & Hik & Ei). rewrite Li in Hik.
  pose proof (H i Hik) as H'. cbv zeta in H'. apply Nat.ltb_lt in Hik. rewrite Hik, Ei in H'. apply H'.
Qed.
End Post.

Section Session.
Variables (c : nf4code) (c' : fnt) (cw : (nat -> N) -> nat -> N) (L L2 d : nat).
Hypothesis HS : nf4_sim c c' cw L L2 d.
Notation B := (nf_B c).
Notation w := (nf_w c).
Notation e := (nf_e c).
Notation k := (nf_k c).
Hypothesis len_n : nf_len c <= nf_n c.
Let HT := ns_T _ _ _ _ _ _ HS.
Let CS := ns_code _ _ _ _ _ _ HS.

(** Lane [i] of the data; the elements of the word of fragment [j]. *)
Definition col (S : list (list N)) (i t : nat) : N := nth i (nth t S []) 0%N.
Definition frag (S : list (list N)) (j : nat) : list N := map (fun i => cw (col S i) j) (seq 0 e).

Lemma card : g_card (c_G c') = 65537%N.
Proof. now rewrite (ns_G _ _ _ _ _ _ HS). Qed.
Lemma frag_el S j : elements e (frag S j).
Proof.
  split; [unfold frag; now rewrite map_length, seq_length|]. unfold frag. apply Forall_forall. intros x Hx. apply in_map_iff in Hx.
  destruct Hx as (i & <- & _). rewrite <- card. apply (cs_lt _ _ CS).
Qed.
Lemma col_lt S i t : Forall (elements e) S -> (col S i t < 65537)%N.
Proof.
  intros H. unfold col. destruct (nth_in_or_default t S []) as [Hin|E]; [|rewrite E; destruct i; reflexivity].
  rewrite Forall_forall in H. destruct (H _ Hin) as [Ll Hl].
  destruct (nth_in_or_default i (nth t S []) 0%N) as [Hin2|E2]; [|rewrite E2; reflexivity]. rewrite Forall_forall in Hl. auto.
Qed.
Lemma col_rel S i : i < e -> length S = k -> Forall (elements e) S -> Forall2 (RT e i) (map word32 S) (map (col S i) (seq 0 (c_k c'))).
Proof.
  intros Hi Ls He. rewrite <- (ns_k _ _ _ _ _ _ HS), <- Ls.
  assert (E : map (col S i) (seq 0 (length S)) = map (fun s => nth i s 0%N) S).
  { apply (nth_ext _ _ 0%N (nth i [] 0%N)); [now rewrite !map_length, seq_length|]. intros t Ht. rewrite map_length, seq_length in Ht.
    rewrite (nth_indep _ 0%N (col S i 0)) by (now rewrite map_length, seq_length). rewrite (map_nth (col S i)), seq_nth by auto.
    now rewrite (map_nth (fun s => nth i s 0%N)). }
  rewrite E. clear Ls E. induction He; cbn [map]; constructor; auto. exists x. auto.
Qed.

(** Encoding. *)
Lemma transform_eq S out : length S = k -> Forall (elements e) S -> length out = nf_n c ->
  r2_fft_vec (sym_vec (nf_G c)) (nf_fft c) out (map word32 S) = map (fun j => word32 (frag S j)) (seq 0 (nf_n c)).
Proof.
  intros Ls He Lo. rewrite (ns_n _ _ _ _ _ _ HS) in *. apply (lanes_list B w e HT _ (fun i j => cw (col S i) j)). intros i Hi.
  rewrite <- (cs_venc _ _ CS (ns_sys _ _ _ _ _ _ HS) (repeat 0%N (c_n c')));
    [|apply repeat_length|intros j _; rewrite card; now apply col_lt].
  rewrite (ns_G _ _ _ _ _ _ HS). eapply rel_fft1; eauto.
  - now apply sym_RT.
  - left. rewrite map_length, Ls, (ns_k _ _ _ _ _ _ HS). apply (ns_d _ _ _ _ _ _ HS).
  - now apply col_rel.
Qed.

(** Decoding. *)
Lemma apply_eq S ids junk1 junk2 vs : length S = k -> Forall (elements e) S -> frags c' ids -> length junk1 = nf_n c -> length junk2 = nf_l2 c ->
  nvs_len c vs -> exists x, nf4_ctx c ids junk1 junk2 = Some x /\ x_ids x = ids /\
  exists vs', nf4_apply c x vs (map (fun q => word32 (frag S q)) ids) = (vs', map word32 S) /\ nvs_len c vs'.
Proof.
  intros Ls He Hf J1 J2 (V1 & V2 & V3). rewrite (l2_eq _ _ _ _ _ _ HS), (ns_n _ _ _ _ _ _ HS) in *.
  destruct (ctx_sim c c' cw L L2 d HS ids junk1 junk2 Hf J1 J2) as (x & x' & Ex & Ex' & Rx). exists x. split; [exact Ex|].
  set (vs0 := mkVscratch (repeat 0%N (c_n c')) (repeat 0%N (c_l2 c')) (repeat 0%N (c_l2 c'))).
  assert (Hvs0 : vs_ok c' vs0) by (repeat split; apply repeat_length).
  assert (Hdec : forall i, let r' := decode_apply_vec c' x' vs0 (map (fun t => cw (col S i) (nth t ids 0)) (seq 0 (c_k c'))) in
      x_ids x' = ids /\ vs_ok c' (fst r') /\ snd r' = map (col S i) (seq 0 (c_k c'))).
  { intros i. split.
    - revert Ex'. unfold ctx_new. cbv zeta. destruct (ctx_A _ _ _); [|discriminate]. destruct (poly_derivative _ _ _); [|discriminate].
      intros E. injection E as <-. reflexivity.
    - apply (cs_vdec _ _ CS (ns_sys _ _ _ _ _ _ HS) x' ids _ _ vs0 (col S i) Ex' Hf); auto using repeat_length.
      intros j _. rewrite card. now apply col_lt. }
  split; [destruct Rx as [-> _]; apply (Hdec 0)|].
  assert (Hap : forall i, i < e -> let r := nf4_apply c x vs (map (fun q => word32 (frag S q)) ids) in
      Forall2 (RT e i) (snd r) (map (col S i) (seq 0 (c_k c'))) /\ vs_ok c' (fst r)).
  { intros i Hi. destruct (Hdec i) as (_ & D2 & D3). cbv zeta. rewrite <- D3.
    apply (apply_sim c c' cw L L2 d HS i x x' vs vs0); auto.
    - rewrite (A2k_len c' _ _ _ _ Ex'). apply repeat_length.
    - cbn [v_n2 vs0]. now rewrite repeat_length.
    - cbn [v_2k2 vs0]. now rewrite repeat_length.
    - destruct Hf as [Lf _]. assert (E : map (fun t => cw (col S i) (nth t ids 0)) (seq 0 (c_k c')) = map (cw (col S i)) ids).
      { rewrite <- Lf. rewrite <- (map_map (fun t => nth t ids 0) (cw (col S i))). f_equal.
        apply (nth_ext _ _ 0 0); [now rewrite map_length, seq_length|]. intros t Ht. rewrite map_length, seq_length in Ht.
        rewrite (nth_indep _ 0 (nth 0 ids 0)) by (now rewrite map_length, seq_length). rewrite (map_nth (fun t => nth t ids 0)), seq_nth by auto. reflexivity. }
      rewrite E. apply rel_map. intros q _. exists (frag S q). split; [apply frag_el|]. split; [reflexivity|].
      unfold frag. rewrite (nth_indep _ 0%N (cw (col S 0) q)) by (now rewrite map_length, seq_length).
      rewrite (map_nth (fun i => cw (col S i) q)), seq_nth by auto. reflexivity. }
  destruct (nf4_apply c x vs (map (fun q => word32 (frag S q)) ids)) as [vs' o]. exists vs'. cbn [fst snd] in Hap.
  destruct (Hap 0 (e_pos B w e HT)) as [_ Hv]. split.
  - f_equal. rewrite (lanes_list B w e HT o (fun i j => col S i j) (c_k c')) by (intros i Hi; now apply Hap).
    rewrite <- (ns_k _ _ _ _ _ _ HS), <- Ls. apply (nth_ext _ _ (word32 (map (fun i => col S i 0) (seq 0 e))) (word32 [])); [now rewrite !map_length, seq_length|].
    intros t Ht. rewrite map_length, seq_length in Ht. rewrite (map_nth (fun j => word32 (map (fun i => col S i j) (seq 0 e)))), seq_nth by auto.
    rewrite (map_nth word32). f_equal. cbn [Nat.add]. unfold col. rewrite Forall_forall in He. destruct (He _ (nth_In S [] Ht)) as [Le _].
    apply (nth_ext _ _ 0%N 0%N); [now rewrite map_length, seq_length|]. intros i Hi. rewrite map_length, seq_length in Hi.
    rewrite (nth_indep _ 0%N (nth 0 (nth t S []) 0%N)) by (now rewrite map_length, seq_length).
    rewrite (map_nth (fun i => nth i (nth t S []) 0%N)), seq_nth by auto. reflexivity.
  - unfold nvs_len. rewrite (l2_eq _ _ _ _ _ _ HS), (ns_n _ _ _ _ _ _ HS). exact Hv.
Qed.

(** ** Sessions *)
Variable ids : list nat.
Hypothesis Li : length ids = k.
Hypothesis ND : NoDup ids.
Hypothesis Hb : forall i, In i ids -> i < nf_len c.

(** The offset, the data and the fragments of a word. *)
Record trace := Trace { t_off : N; t_S : list (list N); t_cw : list N }.
Definition word_ok (x : eword) : Prop := symbols (16 * e) k (e_words x) /\ length (e_out x) = nf_n c.
Definition traced (x : eword) (t : trace) : Prop :=
  t_off t = e_off x /\ length (t_S t) = k /\ Forall (numbers e) (t_S t) /\ e_words x = map word16 (t_S t) /\ length (t_cw t) = nf_n c /\
  forall j, j < nf_len c -> nth j (t_cw t) 0%N = word16 (map low (frag (t_S t) j)).
Definition tmarks (q : nat) (l : list trace) : props := flat_map (fun t => mark (t_off t) (frag (t_S t) q)) l.

Lemma enc_ok l : forall ps, Forall word_ok l -> length ps = nf_len c -> exists h ps',
  enc_session c l ps = (map t_cw h, ps') /\ Forall2 traced l h /\ length ps' = nf_len c /\
  forall q, q < nf_len c -> nth q ps' [] = nth q ps [] ++ tmarks q h.
Proof.
  induction l as [|x l IH]; intros ps W Lp.
  - exists [], ps. split; [reflexivity|]. split; [constructor|]. split; auto. intros q _. cbn. now rewrite app_nil_r.
  - inversion W as [|? ? Wx Wl]; subst. destruct Wx as [[S1 S2] So]. destruct (words16_of e _ S2) as (S & HSn & Ew).
    assert (Ls : length S = k) by (rewrite <- S1, Ew; now rewrite map_length).
    assert (HSe : Forall (elements e) S) by (eapply Forall_impl; [|exact HSn]; apply numbers_el).
    assert (Ep : map (pack B w e) (e_words x) = map word32 S).
    { rewrite Ew, map_map. apply map_ext_in. intros h Hh. rewrite Forall_forall in HSn. apply pack_word; auto. }
    destruct (post_spec c (e_off x) HT (frag S) (map (fun j => word32 (frag S j)) (seq 0 (nf_n c))) ps) as (o' & ps1 & E1 & L1 & L2' & H1); auto.
    { now rewrite map_length, seq_length. }
    { intros j Hj. split; [apply frag_el|]. rewrite (nth_indep _ 0%N (word32 (frag S 0))) by (rewrite map_length, seq_length; lia).
      rewrite (map_nth (fun j => word32 (frag S j))), seq_nth by lia. reflexivity. }
    destruct (IH ps1 Wl L2') as (h & ps' & E2 & F2 & L3 & H2).
    exists (Trace (e_off x) S o' :: h), ps'. cbn [enc_session]. unfold nf4_encode. rewrite Ep, transform_eq, E1, E2 by auto. cbn [map t_cw].
    split; [reflexivity|]. split; [|split; auto].
    + constructor; auto. split; [reflexivity|]. cbn [t_S t_cw]. rewrite map_length, seq_length in L1. do 4 (split; [auto|]).
      intros j Hj. now apply H1.
    + intros q Hq. rewrite H2 by auto. destruct (H1 q Hq) as [_ ->]. unfold tmarks. cbn [flat_map t_off t_S]. now rewrite app_assoc.
Qed.

(** The next record is that of this word, if there is one. *)
Lemma marks_head q t h dn : Forall (fun u => (t_off t < t_off u)%N) h ->
  props_is_marked (dn ++ tmarks q (t :: h)) (length dn) (t_off t) = (0 <? marks (frag (t_S t) q))%N /\
  ((0 < marks (frag (t_S t) q))%N -> props_marker (dn ++ tmarks q (t :: h)) (length dn) = marks (frag (t_S t) q)).
Proof.
  intros H. unfold props_is_marked, props_marker. rewrite nth_error_app2, Nat.sub_diag by auto. unfold tmarks. cbn [flat_map]. unfold mark at 1 3.
  destruct (N.ltb_spec 0 (marks (frag (t_S t) q))) as [Hp|Hp]; cbn [app nth_error fst snd].
  - split; [apply N.eqb_refl|reflexivity].
  - split; [|lia]. induction H as [|u h Hu _ IH]; [reflexivity|]. cbn [flat_map]. unfold mark at 1.
    destruct (0 <? marks (frag (t_S u) q))%N; cbn [app nth_error fst]; [|exact IH]. apply N.eqb_neq. lia.
Qed.

Lemma ids_frags : frags c' ids.
Proof.
  split; [rewrite <- (ns_k _ _ _ _ _ _ HS); exact Li|]. split; [exact ND|]. intros i Hi. specialize (Hb i Hi). rewrite <- (ns_n _ _ _ _ _ _ HS). lia.
Qed.

Variables (junk1 junk2 : list N) (x : ctx).
Hypothesis J1 : length junk1 = nf_n c.
Hypothesis J2 : length junk2 = nf_l2 c.
Hypothesis Ex : nf4_ctx c ids junk1 junk2 = Some x.

Lemma dec_ok l : forall h ds ps (dn : nat -> props) cur vs, Forall2 traced l h ->
  Forall2 (fun t dw => fst dw = t_off t /\ snd dw = pick ids (t_cw t)) h ds ->
  StronglySorted (fun a b => (t_off a < t_off b)%N) h -> nvs_len c vs -> length cur = nf_len c ->
  (forall q, In q ids -> nth q ps [] = dn q ++ tmarks q h /\ nth q cur 0 = length (dn q)) ->
  dec_session c x ps ds cur vs = map e_words l.
Proof.
  induction l as [|xw l IH]; intros h ds ps dn cur vs T D So Hv Lc Hq.
  - inversion T; subst. inversion D; subst. reflexivity.
  - destruct h as [|t h]; [inversion T|]. destruct ds as [|dw ds]; [inversion D|]. destruct dw as [off words].
    apply forall2_inv in T, D. destruct T as [Te Tl], D as [[Do Dw] Dl]. cbn [fst snd] in *. subst off words.
    apply StronglySorted_inv in So. destruct So as [So Sh]. destruct Te as (T1 & T2 & T3 & T4 & T5 & T6).
    assert (HSe : Forall (elements e) (t_S t)) by (eapply Forall_impl; [|exact T3]; apply numbers_el).
    assert (Hm : forall q, In q ids -> props_is_marked (nth q ps []) (nth q cur 0) (t_off t) = (0 <? marks (frag (t_S t) q))%N /\
       ((0 < marks (frag (t_S t) q))%N -> props_marker (nth q ps []) (nth q cur 0) = marks (frag (t_S t) q))).
    { intros q Iq. destruct (Hq q Iq) as [-> ->]. now apply marks_head. }
    destruct (prepare_spec c (t_off t) HT (frag (t_S t)) ids ps cur (pick ids (t_cw t))) as (cur' & Ep & Lc' & Hc'); auto.
    { intros i Hi. rewrite Lc. auto. }
    { unfold pick. now rewrite map_length. }
    { intros i Hi. unfold pick. rewrite (nth_indep _ 0%N (nth 0 (t_cw t) 0%N)) by (rewrite map_length; lia).
      rewrite (map_nth (fun i => nth i (t_cw t) 0%N)). apply T6, Hb, nth_In. lia. }
    { intros q Iq. split; [apply frag_el|]. now apply Hm. }
    destruct (apply_eq (t_S t) ids junk1 junk2 vs T2 HSe ids_frags J1 J2 Hv) as (x2 & Ex2 & Xi & vs' & Ea & Hv').
    assert (x2 = x) by congruence. subst x2.
    cbn [dec_session map]. unfold nf4_decode. rewrite Xi, Ep, Ea. f_equal.
    + rewrite T4, map_map. apply map_ext_in. intros s Hs. rewrite Forall_forall in T3. specialize (T3 s Hs).
      rewrite unpack_word by (auto; now apply numbers_el). cbn [fst]. f_equal. now apply (numbers_low e).
    + apply (IH h ds ps (fun q => dn q ++ mark (t_off t) (frag (t_S t) q)) cur' vs'); auto; [congruence|].
      intros q Iq. destruct (Hq q Iq) as [Q1 Q2]. split.
      * rewrite Q1. unfold tmarks. cbn [flat_map]. now rewrite app_assoc.
      * rewrite Hc', Q2, app_length by auto. reflexivity.
Qed.

Lemma session l : Forall word_ok l -> StronglySorted N.lt (map e_off l) ->
  exists cws ps, enc_session c l (repeat [] (nf_len c)) = (cws, ps) /\
    Forall (fun cwd => length cwd = nf_n c /\ forall i, i < nf_len c -> (nth i cwd 0 < 2 ^ N.of_nat (16 * e))%N) cws /\
  forall ds vs, map fst ds = map e_off l -> map snd ds = map (pick ids) cws -> nvs_len c vs ->
    dec_session c x ps ds (repeat 0 (nf_len c)) vs = map e_words l.
Proof.
  intros W So. destruct (enc_ok l (repeat [] (nf_len c)) W (repeat_length _ _)) as (h & ps & E & T & Lp & Hp).
  exists (map t_cw h), ps. split; [exact E|]. split.
  - clear -T HS CS. induction T as [|a t l h (_ & _ & _ & _ & T5 & T6) _ IH]; cbn [map]; constructor; auto. split; auto.
    intros i Hi. rewrite T6 by auto. apply low_word, frag_el.
  - intros ds vs Eo Ew Hv.
    assert (Eh : map t_off h = map e_off l) by (clear -T; induction T as [|a t l h (T1 & _) _ IH]; cbn [map]; congruence).
    rewrite <- Eh in Eo, So. apply (dec_ok l h ds ps (fun _ => [])); auto.
    + clear -Eo Ew. revert ds Eo Ew. induction h as [|t h IH]; intros [|dw ds] Eo Ew; try discriminate; [constructor|].
      cbn [map] in *. injection Eo as E1 E2. injection Ew as E3 E4. constructor; auto.
    + clear -So. induction h as [|t h IH]; [constructor|]. cbn [map] in So. apply StronglySorted_inv in So. destruct So as [S1 S2].
      constructor; auto. rewrite Forall_map in S2. exact S2.
    + apply repeat_length.
    + intros q Hq. specialize (Hb q Hq). rewrite Hp by auto. rewrite !nth_repeat. cbn. auto.
Qed.
End Session.

(** ** C41 *)

(** Types: words of the field fit in [w] bits.  Sizes: what the transforms allow. *)
Definition nf4_sizes (k m : nat) : Prop :=
  0 < k /\ 0 < m /\ (N.of_nat (k + m) <= 65536)%N /\ (2 * N.of_nat k <= 65536)%N.

(** Any words of [ws / 2] numbers of 16 bits, encoded at increasing offsets, are decoded from any [k] of the [k + m]
    fragments and their records; every symbol of the fragments fits in the same number of bits.  Missing: the last byte of
    words of an odd number of bytes, see [C41_odd_refuted], and more than 32768 data fragments, see [C41_long_data_refuted]. *)
Theorem C41_rs_nf4_partial B w ws k m : 2 <= ws <= 8 -> nf4_type B w (ws / 2) -> In w [32; 64; 128]%N -> nf4_sizes k m ->
  exists c, nf4_new B w ws k m = Some c /\ nf_k c = k /\ k + m <= nf_n c /\
  forall ids junk1 junk2, length ids = k -> NoDup ids -> (forall i, In i ids -> i < k + m) ->
    length junk1 = nf_n c -> length junk2 = nf_l2 c ->
  exists x, nf4_ctx c ids junk1 junk2 = Some x /\
  forall l, Forall (fun e => symbols (16 * (ws / 2)) k (e_words e) /\ length (e_out e) = nf_n c) l ->
    StronglySorted N.lt (map e_off l) ->
  exists cws ps, enc_session c l (repeat [] (k + m)) = (cws, ps) /\
    Forall (fun cw => length cw = nf_n c /\ forall i, i < k + m -> (nth i cw 0 < 2 ^ N.of_nat (16 * (ws / 2)))%N) cws /\
  forall ds vs, map fst ds = map e_off l -> map snd ds = map (pick ids) cws -> nvs_len c vs ->
    dec_session c x ps ds (repeat 0 (k + m)) vs = map e_words l.
Proof.
  intros Hws HT Hw Hs. destruct (nf4_new_sim B w ws k m Hws HT Hw Hs) as (c & c' & cw & L & L2 & d & Ec & HS & <- & <- & Ee & Ek & El & Hn).
  rewrite <- Ee, <- El, <- Ek. clear Hws HT Hw Ee.
  rewrite <- El in Hn.
  exists c. rewrite Ek, El. split; [exact Ec|]. split; [reflexivity|]. rewrite <- El, <- Ek. split; [exact Hn|].
  intros ids junk1 junk2 Li ND Hb J1 J2.
  assert (Hf := ids_frags c c' cw L L2 d HS Hn ids Li ND Hb).
  rewrite (ns_n _ _ _ _ _ _ HS) in J1. rewrite (l2_eq _ _ _ _ _ _ HS) in J2.
  destruct (ctx_sim c c' cw L L2 d HS ids junk1 junk2 Hf J1 J2) as (x & _ & Ex & _).
  rewrite <- (ns_n _ _ _ _ _ _ HS) in J1. rewrite <- (l2_eq _ _ _ _ _ _ HS) in J2.
  exists x. split; [exact Ex|]. intros l W So. apply (session c c' cw L L2 d HS Hn ids Li ND Hb junk1 junk2 x J1 J2 Ex l W So).
Qed.

(** Words of 3, 5 and 7 bytes are accepted, but the last byte of a word is dropped (gf_nf4.h:355-366 packs [ws / 2] numbers
    of two bytes): different data have the same fragments and the same records. *)
Lemma split16_zero e : split16 e 0 = split16 e (2 ^ N.of_nat (16 * e)).
Proof.
  induction e as [|e IH]; [reflexivity|]. cbn [split16]. rewrite N.shiftr_0_l.
  assert (E1 : (2 ^ N.of_nat (16 * S e) = 2 ^ N.of_nat (16 * e) * 2 ^ 16)%N).
  { rewrite <- N.pow_add_r. f_equal. lia. }
  rewrite IH. f_equal.
  - change 65535%N with (N.ones 16). rewrite !N.land_ones, E1, N.mod_mul by discriminate. reflexivity.
  - f_equal. now rewrite N.shiftr_div_pow2, E1, N.div_mul by discriminate.
Qed.
Theorem C41_odd_refuted w e k m : 1 <= e <= 3 -> nf4_type Plain w e -> In w [32; 64; 128]%N -> nf4_sizes k m ->
  exists c, nf4_new Plain w (2 * e + 1) k m = Some c /\
  exists l l', symbols (8 * (2 * e + 1)) k l /\ symbols (8 * (2 * e + 1)) k l' /\ l <> l' /\
    forall out ps off, nf4_encode c out ps off l = nf4_encode c out ps off l'.
Proof.
  intros He HT Hw Hs. assert (Ee : (2 * e + 1) / 2 = e) by (rewrite Nat.mul_comm, Nat.div_add_l by discriminate; cbn; lia).
  destruct (nf4_new_sim Plain w (2 * e + 1) k m) as (c & _ & _ & _ & _ & _ & Ec & _ & E1 & E2 & E3 & _); auto; [lia|now rewrite Ee|].
  rewrite Ee in E3. exists c. split; [exact Ec|]. exists (repeat 0%N k), (repeat (2 ^ N.of_nat (16 * e))%N k).
  assert (S : forall a, (a < 2 ^ N.of_nat (8 * (2 * e + 1)))%N -> symbols (8 * (2 * e + 1)) k (repeat a k)).
  { intros a Ha. split; [apply repeat_length|]. apply Forall_forall. intros x Hx. apply repeat_spec in Hx. now subst. }
  split; [apply S, N.neq_0_lt_0, N.pow_nonzero; discriminate|]. split; [apply S, N.pow_lt_mono_r; [reflexivity|lia]|]. split.
  - destruct Hs as [Hk _]. destruct k; [lia|]. cbn [repeat]. intros E. injection E as E _. symmetry in E. revert E. apply N.pow_nonzero. discriminate.
  - intros out ps off. unfold nf4_encode. do 2 f_equal. rewrite E1, E2, E3. assert (Ep : pack Plain w e 0 = pack Plain w e (2 ^ N.of_nat (16 * e))).
    { unfold pack. cbn [n16]. now rewrite split16_zero. }
    clear -Ep. induction k as [|k' IH]; [reflexivity|]. cbn [repeat map]. now rewrite Ep, IH.
Qed.

(** With more than 32768 data fragments there is no transform for the decoder: the constructor throws, although the field has
    enough positions for [k + m = 65536] fragments.  With several numbers per word the length is looked for in the wrong
    group, that of [65536] in all the lanes, and found, but is no divisor of 65536. *)
Lemma no_factor q c : (2 <= q)%N -> forallb (fun i => negb (c mod N.of_nat i =? 0)%N) (seq 2 (N.to_nat q - 1)) = true ->
  forall f, primeN f -> N.divide f c -> (q < f)%N.
Proof.
  intros Hq H f Pf D. destruct (N.le_gt_cases f q) as [L|]; [|auto]. exfalso. rewrite forallb_forall in H. destruct Pf as [Pf _].
  specialize (H (N.to_nat f) ltac:(apply in_seq; lia)). rewrite N2Nat.id in H. apply N.mod_divide in D; [|lia].
  rewrite D in H. discriminate.
Qed.
Lemma small_factor q : (2 <= q)%N -> forall f, primeN f -> N.divide f (65536 * q) -> (f <= q)%N.
Proof.
  intros Hq f Pf D. apply (prime_divides_mul _ _ _ Pf) in D. destruct D as [D|D].
  - change 65536%N with (2 ^ 16)%N in D. apply (prime_divides_pow _ _ _ Pf) in D. apply N.divide_pos_le in D; lia.
  - apply N.divide_pos_le in D; lia.
Qed.
Lemma long_len hw order q c n : (0 < hw)%N -> (order < 2 ^ (2 * hw))%N -> (order = 65536 * q * c)%N -> (0 < c)%N -> (2 <= q < 65536)%N ->
  forallb (fun i => negb (c mod N.of_nat i =? 0)%N) (seq 2 (N.to_nat q - 1)) = true -> (65536 < n <= 131072)%N ->
  exists r, ring_code_len_high_compo (2 * hw) (order + 1) n = Some r /\ (65536 mod wrap 32 r <> 0)%N.
Proof.
  intros h0 ow oE c0 Hq Hc Hn. destruct (code_len_smooth hw order q (65536 * q) c h0 ow) with (n := n) as (r & Er & R1 & _ & R2 & _); try nia; auto.
  - apply small_factor. lia.
  - apply no_factor; auto. lia.
  - exists r. split; [exact Er|]. assert (Hd : (r <= 65536 * q)%N) by (apply N.divide_pos_le; [lia|apply R2; lia]). unfold wrap.
    rewrite (N.mod_small r) by lia. rewrite N.mod_small by lia. discriminate.
Qed.
Theorem C41_long_data_refuted B w ws k m : In w [32; 64; 128]%N -> (65536 < 2 * N.of_nat k)%N -> nf4_new B w ws k m = None.
Proof.
  intros Hw Hk. unfold nf4_new. destruct (Nat.ltb_spec ws 2); [reflexivity|]. destruct (Nat.ltb_spec 8 ws); [reflexivity|]. cbn [orb]. cbv zeta.
  destruct (find_primitive_root 32 F4) as [root|]; [|reflexivity]. destruct (nf4_field B w (ws / 2)) eqn:Hf; [|reflexivity].
  unfold nf4_field in Hf. apply andb_true_iff in Hf. destruct Hf as [Hf _]. apply N.leb_le in Hf.
  assert (He : 1 <= ws / 2 <= 4).
  { split; [apply (Nat.div_le_lower_bound ws 2 1); lia|]. transitivity (8 / 2); [apply Nat.div_le_mono; lia|reflexivity]. }
  set (e := ws / 2) in *. clearbody e.
  assert (HT : nf4_type Plain w e).
  { split; [lia|]. etransitivity; [|apply (N.mul_div_le w 32); discriminate]. lia. }
  destruct (ring_code_len_high_compo 32 65537 (N.of_nat (k + m))) as [n|] eqn:En; [|reflexivity].
  assert (Hkm : (N.of_nat (k + m) <= 65536)%N).
  { unfold ring_code_len_high_compo in En. change (65537 - 1)%N with 65536%N in En. destruct (N.ltb_spec 65536 (N.of_nat (k + m))); [discriminate|auto]. }
  destruct (ceil2 (N.of_nat k)) as [dl|]; [|reflexivity].
  assert (D : ring_code_len_high_compo w (nf4_h w e + 1) (N.of_nat (2 * k)) = None \/
              exists r, ring_code_len_high_compo w (nf4_h w e + 1) (N.of_nat (2 * k)) = Some r /\ (65536 mod wrap 32 r <> 0)%N).
  { destruct (half Plain w e HT Hw) as (hw & hw0 & Ew). pose proof (h_lt Plain w e HT) as Hl. rewrite (h_word Plain w e HT) in Hl |- *.
    assert (Hn : (65536 < N.of_nat (2 * k) <= 131072)%N) by lia. rewrite Ew in *. clear - hw0 Hl Hn He.
    destruct e as [|[|[|[|[|e]]]]]; try lia.
    - left. unfold ring_code_len_high_compo. rewrite N.add_sub. change (65536 * word32 (repeat 1 1))%N with 65536%N.
      destruct (N.ltb_spec 65536 (N.of_nat (2 * k))); [reflexivity|lia].
    - right. apply (long_len hw _ 641 6700417); auto; try reflexivity; try lia.
    - right. apply (long_len hw _ 3 6148914692668172971); auto; try reflexivity; try lia.
    - right. apply (long_len hw _ 641 (6700417 * 18446744073709551617)); auto; try reflexivity; try lia. }
  destruct D as [->|(r & -> & Hr)]; [reflexivity|]. unfold nf4_radix2 at 2. rewrite Nat.ltb_irrefl, N2Nat.id.
  destruct (N.eqb_spec (65536 mod wrap 32 r) 0); [contradiction|]. cbn [negb]. destruct (nf4_radix2 _ _ _ _ _ _); reflexivity.
Qed.
(** Example: 40000 data fragments and 20000 more, words of two numbers; the first length looked for exists. *)
Example C41_long_data_case : In 64%N [32; 64; 128]%N /\ (65536 < 2 * N.of_nat (N.to_nat 40000))%N /\ nf4_type Plain 64 (4 / 2) /\
  ring_code_len_high_compo 32 65537 60000 = Some 65536%N.
Proof. split; [cbn; auto|]. split; [lia|]. split; [split; cbn; lia|]. vm_compute. reflexivity. Qed.

(** Example: two numbers per word, two data fragments, four in all. *)
Example C41_case : 2 <= 4 <= 8 /\ nf4_type Plain 64 (4 / 2) /\ In 64%N [32; 64; 128]%N /\ nf4_sizes 2 2.
Proof. unfold nf4_type, nf4_sizes. cbn. intuition lia. Qed.

Print Assumptions C41_rs_nf4_partial.
Print Assumptions C41_odd_refuted.
Print Assumptions C41_long_data_refuted.
