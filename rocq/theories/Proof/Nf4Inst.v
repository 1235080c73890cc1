(** The code over NF4 as a code on packets of words of 2, 4 or 8 bytes. *)
From Coq Require Import List NArith ZArith Arith Bool Lia.
From Verif.Model Require Import Common Arith Ring Fft2n Radix2 Poly Props Bytes Blocks Fnt Nf4 VCodes.
From Verif.Spec Require Import Blocks Nf4 Code.
From Verif.Proof Require Import ListP Tac Nf4L Param Nf4Sim Nf4Code Nf4New Nf4Buf Nf4Vert VLoops.
Import ListNotations.
Open Scope nat_scope.

(** The numbers of 16 bits of a word. *)
Fixpoint nums (e : nat) (a : N) : list N := match e with O => [] | S e => (a mod 65536)%N :: nums e (a / 65536)%N end.
Lemma nums_ok e : forall a, (a < 2 ^ N.of_nat (16 * e))%N -> numbers e (nums e a) /\ word16 (nums e a) = a.
Proof.
  induction e as [|e IH]; intros a Ha.
  - split; [split; [reflexivity|constructor]|]. change (2 ^ N.of_nat (16 * 0))%N with 1%N in Ha. unfold word16. cbn. lia.
  - destruct (IH (a / 65536)%N) as [[L F] E].
    { apply N.div_lt_upper_bound; [discriminate|]. replace (N.of_nat (16 * S e)) with (16 + N.of_nat (16 * e))%N in Ha by lia.
      rewrite N.pow_add_r in Ha. exact Ha. }
    cbn [nums]. split; [split; [cbn [length]; congruence|constructor; auto; apply N.mod_lt; discriminate]|].
    unfold word16 in *. rewrite digits_cons, E. rewrite (N.div_mod a 65536) at 3 by discriminate. change (2 ^ 16)%N with 65536%N. lia.
Qed.
Lemma nums_0 e : nums e 0 = repeat 0%N e.
Proof. induction e as [|e IH]; [reflexivity|]. cbn [nums repeat]. now rewrite <- IH. Qed.
Lemma numbers_el e h : numbers e h -> elements e h.
Proof. intros [L H]. split; auto. eapply Forall_impl; [|exact H]. cbv beta. intros; lia. Qed.
Lemma numbers_low e h : numbers e h -> map low h = h.
Proof.
  intros [_ H]. induction H as [|x h Hx _ IH]; [reflexivity|]. cbn [map]. rewrite IH. f_equal. unfold low. destruct (N.eqb_spec x 65536); auto. lia.
Qed.
Lemma marks_0 s : marks s = 0%N -> map low s = s.
Proof.
  induction s as [|x s IH]; [reflexivity|]. rewrite marks_cons. intros E. cbn [map]. rewrite IH by lia. f_equal. unfold low.
  destruct (x =? 65536)%N; auto; lia.
Qed.
Lemma low_word e s : elements e s -> (word16 (map low s) < 2 ^ N.of_nat (16 * e))%N.
Proof.
  intros [Ls Hs]. apply lows in Hs. pose proof (digits_lt (2 ^ 16) (map low s) eq_refl Hs) as H. rewrite map_length, Ls in H.
  unfold word16. rewrite <- N.pow_mul_r in H. replace (N.of_nat (16 * e)) with (16 * N.of_nat e)%N by lia. exact H.
Qed.

Lemma nth_error_rec (dn rest : props) g o n :
  (forall p, In p rest -> (N.of_nat (o + S n) <= fst p)%N) ->
  props_is_marked (dn ++ vrecs g (seq o (S n)) ++ rest) (length dn) (N.of_nat o) = (0 <? g o)%N /\
  ((0 < g o)%N -> props_marker (dn ++ vrecs g (seq o (S n)) ++ rest) (length dn) = g o).
Proof.
  intros Hr. unfold props_is_marked, props_marker. rewrite nth_error_app2, Nat.sub_diag by auto.
  cbn [seq]. change (o :: seq (S o) n) with ([o] ++ seq (S o) n). rewrite vrecs_app. unfold vrecs at 1 3. cbn [flat_map].
  destruct (N.ltb_spec 0 (g o)) as [H|H]; cbn [app nth_error fst snd]; [split; [apply N.eqb_refl|reflexivity]|]. split; [|lia].
  pose proof (vrecs_ge g (S o) n) as Hg. destruct (vrecs g (seq (S o) n)) as [|p l]; cbn [app nth_error].
  - destruct rest as [|p l]; [reflexivity|]. cbn [nth_error]. apply N.eqb_neq. specialize (Hr p (or_introl eq_refl)). lia.
  - apply N.eqb_neq. specialize (Hg p (or_introl eq_refl)). lia.
Qed.

Section Chunk.
Variables (c : nf4code) (pkt : nat).
Notation B := (nf_B c).
Notation w := (nf_w c).
Notation e := (nf_e c).
Hypothesis HT : nf4_type B w e.

Lemma vrecs_S g o t : vrecs g (seq o (S t)) = vrecs g (seq o t) ++ (if (0 <? g (o + t)%nat)%N then [(N.of_nat (o + t), g (o + t)%nat)] else []).
Proof. rewrite seq_S, vrecs_app. f_equal. unfold vrecs. cbn [flat_map]. apply app_nil_r. Qed.

Lemma post_chunk (v : nat -> list N) o p : (forall t, t < pkt -> elements e (v t)) ->
  nf4_post_chunk c pkt (N.of_nat o) (map (fun t => word32 (v t)) (seq 0 pkt)) p =
    (map (fun t => word16 (map low (v t))) (seq 0 pkt), p ++ vrecs (fun t => marks (v (t - o))) (seq o pkt)).
Proof.
  intros Hv. unfold nf4_post_chunk.
  assert (X : forall t, t <= pkt -> fold_left (fun st j => let '(chunk, p) := st in let '(v, flag) := unpack B w e (get 0%N chunk j) in
      (set chunk j v, if (0 <? flag)%N then props_add p (N.of_nat o + N.of_nat j)%N flag else p)) (seq 0 t) (map (fun t => word32 (v t)) (seq 0 pkt), p) =
    (map (fun j => if j <? t then word16 (map low (v j)) else word32 (v j)) (seq 0 pkt), p ++ vrecs (fun t => marks (v (t - o))) (seq o t))).
  { induction t as [|t IH]; intros Ht; [cbn; now rewrite app_nil_r|]. rewrite seq_S, fold_left_app, IH by lia. cbn [fold_left Nat.add].
    unfold get. rewrite nth_map_seq by lia. rewrite Nat.ltb_irrefl, unpack_word by auto. f_equal.
    - apply (list_ext _ 0%N); [now rewrite set_length, !map_length|]. intros j Hj. rewrite set_length, map_length, seq_length in Hj.
      rewrite nth_map_seq by lia. destruct (Nat.eq_dec j t) as [->|ne].
      + rewrite nth_set_eq by (now rewrite map_length, seq_length). destruct (Nat.ltb_spec t (S t)); [reflexivity|lia].
      + rewrite nth_set_neq, nth_map_seq by auto. destruct (Nat.ltb_spec j t), (Nat.ltb_spec j (S t)); auto; lia.
    - rewrite vrecs_S. replace (o + t - o) with t by lia. unfold props_add. rewrite <- Nat2N.inj_add.
      destruct (0 <? marks (v t))%N; rewrite app_assoc; [reflexivity|now rewrite app_nil_r]. }
  rewrite X by auto. f_equal. apply map_ext_in. intros t Ht. apply in_seq in Ht. destruct (Nat.ltb_spec t pkt); [reflexivity|lia].
Qed.

Lemma prepare_chunk (v : nat -> list N) o dn rest : (forall t, t < pkt -> elements e (v t)) ->
  (forall p, In p rest -> (N.of_nat (o + pkt) <= fst p)%N) ->
  nf4_prepare_chunk c pkt (dn ++ vrecs (fun t => marks (v (t - o))) (seq o pkt) ++ rest) (N.of_nat o) (length dn) (map (fun t => word16 (map low (v t))) (seq 0 pkt)) =
    (length dn + length (vrecs (fun t => marks (v (t - o))) (seq o pkt)), map (fun t => word32 (v t)) (seq 0 pkt)).
Proof.
  intros Hv Hr. unfold nf4_prepare_chunk. set (g := fun t => marks (v (t - o))). set (p := dn ++ vrecs g (seq o pkt) ++ rest).
  assert (X : forall t, t <= pkt -> fold_left (fun st j => let '(cur, chunk) := st in
      if props_is_marked p cur (N.of_nat o + N.of_nat j)%N then (cur + 1, set chunk j (pack_flag B w e (get 0%N chunk j) (props_marker p cur)))
      else (cur, set chunk j (pack B w e (get 0%N chunk j)))) (seq 0 t) (length dn, map (fun t => word16 (map low (v t))) (seq 0 pkt)) =
    (length dn + length (vrecs g (seq o t)), map (fun j => if j <? t then word32 (v j) else word16 (map low (v j))) (seq 0 pkt))).
  { induction t as [|t IH]; intros Ht; [cbn; now rewrite Nat.add_0_r|]. rewrite seq_S, fold_left_app, IH by lia. cbn [fold_left Nat.add].
    assert (Ep : p = (dn ++ vrecs g (seq o t)) ++ vrecs g (seq (o + t) (S (pkt - t - 1))) ++ rest).
    { unfold p. replace pkt with (t + S (pkt - t - 1)) at 1 by lia. rewrite seq_app, vrecs_app, <- !app_assoc. reflexivity. }
    destruct (nth_error_rec (dn ++ vrecs g (seq o t)) rest g (o + t) (pkt - t - 1)) as [M1 M2].
    { intros q Hq. specialize (Hr q Hq). lia. }
    rewrite <- Ep in M1, M2. rewrite app_length in M1, M2. rewrite <- Nat2N.inj_add, M1.
    assert (Eg : g (o + t) = marks (v t)) by (unfold g; f_equal; f_equal; lia). rewrite Eg in M2 |- *.
    unfold get. rewrite nth_map_seq by lia. rewrite Nat.ltb_irrefl. rewrite vrecs_S, app_length, Eg.
    assert (Sx : forall x, x = word32 (v t) ->
      set (map (fun j => if j <? t then word32 (v j) else word16 (map low (v j))) (seq 0 pkt)) t x =
      map (fun j => if j <? S t then word32 (v j) else word16 (map low (v j))) (seq 0 pkt)).
    { intros x ->. apply (list_ext _ 0%N); [now rewrite set_length, !map_length|]. intros j Hj. rewrite set_length, map_length, seq_length in Hj.
      rewrite nth_map_seq by lia. destruct (Nat.eq_dec j t) as [->|ne].
      - rewrite nth_set_eq by (now rewrite map_length, seq_length). destruct (Nat.ltb_spec t (S t)); [reflexivity|lia].
      - rewrite nth_set_neq, nth_map_seq by auto. destruct (Nat.ltb_spec j t), (Nat.ltb_spec j (S t)); auto; lia. }
    pose proof (Hv t ltac:(lia)) as He.
    destruct (N.ltb_spec 0 (marks (v t))) as [Hp|Hp]; f_equal.
    - cbn [length]. lia.
    - apply Sx. rewrite M2 by auto. now apply pack_flag_word.
    - cbn [length]. lia.
    - apply Sx. assert (M0 : marks (v t) = 0%N) by lia. rewrite (marks_0 _ M0). apply pack_word; auto.
      destruct He as [Le He]. split; auto. apply lows in He. now rewrite (marks_0 _ M0) in He. }
  rewrite X by auto. f_equal. apply map_ext_in. intros t Ht. apply in_seq in Ht. destruct (Nat.ltb_spec t pkt); [reflexivity|lia].
Qed.

Lemma post_buf (v : nat -> nat -> list N) n o ps : nf_len c <= n -> length ps = nf_len c ->
  (forall q t, q < nf_len c -> t < pkt -> elements e (v q t)) ->
  exists out', nf4_post_buf c pkt (N.of_nat o) (pkts n pkt (fun q t => word32 (v q t))) ps =
    (out', map (fun q => nth q ps [] ++ vrecs (fun t => marks (v q (t - o))) (seq o pkt)) (seq 0 (nf_len c))) /\ length out' = n /\
    forall q, q < nf_len c -> nth q out' [] = map (fun t => word16 (map low (v q t))) (seq 0 pkt).
Proof.
  intros Ln Lp Hv. unfold nf4_post_buf.
  assert (X : forall s, s <= nf_len c -> fold_left (fun st i => let '(o0, ps0) := st in
      let '(chunk, p) := nf4_post_chunk c pkt (N.of_nat o) (get [] o0 i) (get [] ps0 i) in (set o0 i chunk, set ps0 i p))
      (seq 0 s) (pkts n pkt (fun q t => word32 (v q t)), ps) =
    (pkts n pkt (fun q t => if q <? s then word16 (map low (v q t)) else word32 (v q t)),
     map (fun q => nth q ps [] ++ (if q <? s then vrecs (fun t => marks (v q (t - o))) (seq o pkt) else [])) (seq 0 (nf_len c)))).
  { induction s as [|s IH]; intros Hs.
    - cbn [seq fold_left]. f_equal. apply (list_ext _ []); [now rewrite map_length, seq_length|]. intros q Hq.
      assert (Hq' : q < nf_len c) by (rewrite <- Lp; first [exact Hq|rewrite map_length, seq_length in Hq; congruence]). rewrite nth_map_seq by auto. symmetry. apply app_nil_r.
    - rewrite seq_S, fold_left_app, IH by lia. cbn [fold_left Nat.add]. unfold get, pkts. rewrite !nth_map_seq by lia. rewrite !Nat.ltb_irrefl, app_nil_r.
      assert (Hvs : forall t, t < pkt -> elements e (v s t)) by (intros t Ht; apply Hv; auto; lia).
      rewrite (post_chunk (v s) o _ Hvs). f_equal.
      + apply (list_ext _ []); [now rewrite set_length, !map_length|]. intros q Hq. rewrite set_length, map_length, seq_length in Hq.
        rewrite nth_map_seq by lia. destruct (Nat.eq_dec q s) as [->|ne].
        * rewrite nth_set_eq by (now rewrite map_length, seq_length). destruct (Nat.ltb_spec s (S s)); [reflexivity|lia].
        * rewrite nth_set_neq, nth_map_seq by auto. destruct (Nat.ltb_spec q s), (Nat.ltb_spec q (S s)); auto; lia.
      + apply (list_ext _ []); [now rewrite set_length, !map_length|]. intros q Hq. rewrite set_length, map_length, seq_length in Hq.
        rewrite nth_map_seq by lia. destruct (Nat.eq_dec q s) as [->|ne].
        * rewrite nth_set_eq by (now rewrite map_length, seq_length). destruct (Nat.ltb_spec s (S s)); [reflexivity|lia].
        * rewrite nth_set_neq, nth_map_seq by auto. destruct (Nat.ltb_spec q s), (Nat.ltb_spec q (S s)); auto; lia. }
  eexists. split; [etransitivity; [apply (X (nf_len c)); auto|]|].
  - f_equal. apply map_ext_in. intros q Hq. apply in_seq in Hq. destruct (Nat.ltb_spec q (nf_len c)); [reflexivity|lia].
  - split; [unfold pkts; now rewrite map_length, seq_length|]. intros q Hq. unfold pkts. rewrite nth_map_seq by lia. apply map_ext. intros t.
    destruct (Nat.ltb_spec q (nf_len c)); [reflexivity|lia].
Qed.

Lemma prepare_buf (v : nat -> nat -> list N) ids ps cur o : length ids = nf_k c -> NoDup ids -> (forall i, In i ids -> i < length cur) ->
  (forall q t, t < pkt -> elements e (v q t)) ->
  (forall q, In q ids -> exists dn rest, nth q ps [] = dn ++ vrecs (fun t => marks (v q (t - o))) (seq o pkt) ++ rest /\
       length dn = nth q cur 0 /\ forall p, In p rest -> (N.of_nat (o + pkt) <= fst p)%N) ->
  exists cur', nf4_prepare_buf c pkt ids ps (N.of_nat o) cur (pkts (nf_k c) pkt (fun i t => word16 (map low (v (nth i ids 0) t)))) =
    (cur', pkts (nf_k c) pkt (fun i t => word32 (v (nth i ids 0) t))) /\ length cur' = length cur /\
    forall q, In q ids -> nth q cur' 0 = nth q cur 0 + length (vrecs (fun t => marks (v q (t - o))) (seq o pkt)).
Proof.
  intros Li ND Hi Hv Hq. unfold nf4_prepare_buf.
  assert (X : forall s, s <= nf_k c -> exists cur', fold_left (fun st i => let '(cur, words) := st in let j := get 0 ids i in
      let '(cj, chunk) := nf4_prepare_chunk c pkt (get [] ps j) (N.of_nat o) (get 0 cur j) (get [] words i) in (set cur j cj, set words i chunk))
      (seq 0 s) (cur, pkts (nf_k c) pkt (fun i t => word16 (map low (v (nth i ids 0) t)))) =
    (cur', pkts (nf_k c) pkt (fun i t => if i <? s then word32 (v (nth i ids 0) t) else word16 (map low (v (nth i ids 0) t)))) /\ length cur' = length cur /\
    forall i, i < nf_k c -> let q := nth i ids 0 in nth q cur' 0 = nth q cur 0 + (if i <? s then length (vrecs (fun t => marks (v q (t - o))) (seq o pkt)) else 0)).
  { induction s as [|s IH]; intros Hs.
    - exists cur. split; [reflexivity|]. split; auto. intros i _. cbv zeta. cbn. lia.
    - destruct (IH ltac:(lia)) as (c1 & E & Lc & H). rewrite seq_S, fold_left_app, E. cbn [fold_left Nat.add]. unfold get, pkts.
      rewrite nth_map_seq by lia. rewrite Nat.ltb_irrefl. set (q := nth s ids 0).
      assert (Iq : In q ids) by (apply nth_In; lia). destruct (Hq q Iq) as (dn & rest & Ep & Ld & Hr).
      assert (Ec : nth q c1 0 = length dn).
      { pose proof (H s ltac:(lia)) as H'. cbv zeta in H'. fold q in H'. rewrite Nat.ltb_irrefl, Nat.add_0_r in H'. congruence. }
      rewrite Ep, Ec, (prepare_chunk (v q) o dn rest) by auto. eexists. split; [f_equal|].
      + apply (list_ext _ []); [now rewrite set_length, !map_length|]. intros i Hii. rewrite set_length, map_length, seq_length in Hii.
        rewrite nth_map_seq by lia. destruct (Nat.eq_dec i s) as [->|ne].
        * rewrite nth_set_eq by (now rewrite map_length, seq_length). destruct (Nat.ltb_spec s (S s)); [reflexivity|lia].
        * rewrite nth_set_neq, nth_map_seq by auto. destruct (Nat.ltb_spec i s), (Nat.ltb_spec i (S s)); auto; lia.
      + rewrite set_length. split; auto. intros i Hik. cbv zeta. destruct (Nat.eq_dec i s) as [->|ne].
        * fold q. specialize (Hi q Iq). rewrite nth_set_eq by lia. destruct (Nat.ltb_spec s (S s)); [congruence|lia].
        * rewrite nth_set_neq; [|intros E0; apply ne; apply (proj1 (NoDup_nth ids 0) ND); auto; lia].
          rewrite H by auto. destruct (Nat.ltb_spec i s), (Nat.ltb_spec i (S s)); auto; lia. }
  destruct (X (nf_k c) (le_n _)) as (cur' & E & L & H). exists cur'. split; [etransitivity; [exact E|]|].
  - f_equal. unfold pkts. apply map_ext_in. intros i Hii. apply in_seq in Hii. apply map_ext. intros t. destruct (Nat.ltb_spec i (nf_k c)); [reflexivity|lia].
  - split; auto. intros q Iq. destruct (In_nth ids q 0 Iq) as (i & Hii & <-). rewrite Li in Hii. rewrite H by auto.
    destruct (Nat.ltb_spec i (nf_k c)); [reflexivity|lia].
Qed.
End Chunk.

(** ** The code *)
Section Inst.
Variables (c : nf4code) (c' : fnt) (cw : (nat -> N) -> nat -> N) (L L2 d : nat).
Hypothesis HS : nf4_sim c c' cw L L2 d.
Notation B := (nf_B c).
Notation w := (nf_w c).
Notation e := (nf_e c).
Notation k := (nf_k c).
Let HT := ns_T _ _ _ _ _ _ HS.
Let CS := ns_code _ _ _ _ _ _ HS.
Hypothesis len_n : nf_len c <= nf_n c.
Variable ws : nat.
Hypothesis Hws : ws = 2 \/ ws = 4 \/ ws = 8.
Hypothesis He : e = ws / 2.

(** The elements of a word of fragment [q], from the column of data words. *)
Definition wfrag (col : nat -> N) (q : nat) : list N := map (fun i => cw (fun j => nth i (nums e (col j)) 0%N) q) (seq 0 e).
Definition wcw (col : nat -> N) (q : nat) : N := word16 (map low (wfrag col q)).
Definition wmk (col : nat -> N) (q : nat) : N := marks (wfrag col q).

Lemma h_eq : (256 ^ N.of_nat ws = 2 ^ N.of_nat (16 * e))%N.
Proof. rewrite He. destruct Hws as [->|[->| ->]]; reflexivity. Qed.
Lemma wfrag_el col q : elements e (wfrag col q).
Proof.
  split; [unfold wfrag; now rewrite map_length, seq_length|]. unfold wfrag. apply Forall_forall. intros x Hx. apply in_map_iff in Hx.
  destruct Hx as (i & <- & _). change 65537%N with (g_card F4). rewrite <- (ns_G _ _ _ _ _ _ HS). apply (cs_lt _ _ CS).
Qed.
Lemma low_zeros n : map low (repeat 0%N n) = repeat 0%N n.
Proof. induction n; cbn [repeat map]; [reflexivity|]. now rewrite IHn. Qed.
Lemma marks_zeros n : marks (repeat 0%N n) = 0%N.
Proof. induction n; [reflexivity|]. cbn [repeat]. rewrite marks_cons, IHn. reflexivity. Qed.

Lemma nf4_cols : cols_ok ws k wcw wmk.
Proof.
  split.
  - destruct Hws as [->|[->| ->]]; reflexivity.
  - rewrite (ns_k _ _ _ _ _ _ HS). apply (cs_k _ _ CS).
  - intros col col' q H. assert (E : wfrag col q = wfrag col' q).
    { unfold wfrag. apply map_ext. intros i. apply (cs_ext _ _ CS). intros j Hj. rewrite H; [reflexivity|]. now rewrite (ns_k _ _ _ _ _ _ HS). }
    unfold wcw, wmk. now rewrite E.
  - intros col q. rewrite h_eq. apply low_word, wfrag_el.
  - intros q. assert (E : wfrag (fun _ => 0%N) q = repeat 0%N e).
    { unfold wfrag. apply (list_ext _ 0%N); [now rewrite map_length, seq_length, repeat_length|]. intros i Hi. rewrite map_length, seq_length in Hi.
      rewrite nth_map_seq, nth_repeat by auto. rewrite nums_0. etransitivity; [|apply (cs_zero _ _ CS q)]. apply (cs_ext _ _ CS).
      intros j _. apply nth_repeat. }
    unfold wcw, wmk. rewrite E, low_zeros, marks_zeros. split; [|reflexivity]. apply digits_zeros.
Qed.

Lemma nums_in a : (a < 256 ^ N.of_nat ws)%N -> numbers e (nums e a) /\ word16 (nums e a) = a.
Proof. rewrite h_eq. apply nums_ok. Qed.
Lemma bytes_ok : ws <= N.to_nat (w / 8).
Proof.
  pose proof HT as [_ H]. assert (H' : (32 * N.of_nat e <= w)%N).
  { clear -H. destruct (nf_B c); [exact H|]. destruct H as (-> & H & _). lia. }
  assert (X : (N.of_nat ws <= w / 8)%N); [|lia]. apply N.div_le_lower_bound; [discriminate|]. rewrite He in H'.
  destruct Hws as [->|[->| ->]]; cbn in H'; cbn; lia.
Qed.

Lemma nf4_enc nh pkt : nh <= 2 -> 0 < pkt -> enc_ok ws k (nf_len c) (nf_n c) wcw wmk (nf4_penc nh c pkt ws).
Proof.
  intros Hnh Hpkt. split; cbn [pe_bytes pe_ws pe_k pe_nout pe_pkt pe_encode nf4_penc]; auto; [apply bytes_ok|].
  intros out ps o f Lo Lp Hf. unfold nf4_encode_buf.
  assert (E1 : map (map (pack B w e)) (pkts k pkt f) = pkts k pkt (fun j t => word32 (nums e (f j t)))).
  { unfold pkts. rewrite map_map. apply map_ext_in. intros j Hj. apply in_seq in Hj. rewrite map_map. apply map_ext_in. intros t Ht. apply in_seq in Ht.
    destruct (nums_in (f j t)) as [N1 N2]; [apply Hf; lia|]. rewrite <- N2 at 1. now apply pack_word. }
  rewrite E1. cbv zeta. rewrite (pencode_eq c c' cw L L2 d HS nh pkt Hnh Hpkt (fun j t => nums e (f j t))); auto.
  2:{ intros j t Hj Ht. apply numbers_el, nums_in. auto. }
  change (pfrag c cw (fun j t => nums e (f j t))) with (fun t q => wfrag (fun j => f j t) q). cbv beta.
  destruct (post_buf c pkt HT (fun q t => wfrag (fun j => f j t) q) (nf_n c) o ps len_n Lp (fun q t _ _ => wfrag_el _ q)) as (out' & E & Lo' & Ho).
  rewrite E. exists out'. eexists. split; [reflexivity|]. split; [exact Lo'|exact Ho].
Qed.

Lemma nf4_dec nh pkt junk1 junk2 b1 mx : nh <= 2 -> 0 < pkt -> length junk1 = nf_n c -> length junk2 = nf_l2 c ->
  length b1 = nf_l2 c -> length mx = Nat.max (nf_n c) (nf_l2 c) ->
  exists ready, dec_ok ws k (nf_len c) wcw wmk (nf4_pdec nh c pkt ws junk1 junk2 b1 mx) ready.
Proof.
  intros Hnh Hpkt J1 J2 Lb Lm.
  assert (Hfr : forall ids, vfrags k (nf_len c) ids -> frags c' ids).
  { intros ids (F1 & F2 & F3). split; [rewrite <- (ns_k _ _ _ _ _ _ HS); exact F1|]. split; [exact F2|]. intros i Hi. specialize (F3 i Hi).
    rewrite <- (ns_n _ _ _ _ _ _ HS). lia. }
  exists (fun ids cur (st : ctx * list (list N) * list (list N) * list nat) => let '(x, b, m, cl) := st in
     nf4_ctx c ids junk1 junk2 = Some x /\ x_ids x = ids /\ length b = nf_l2 c /\ length m = Nat.max (nf_n c) (nf_l2 c) /\ length cl = nf_len c /\
     forall q, In q ids -> nth q cl 0 = cur q).
  split; cbn [pd_bytes pd_ws pd_k pd_nout pd_pkt pd_state pd_begin pd_out pd_decode nf4_pdec]; auto.
  - apply bytes_ok.
  - intros ids cur cur' [[[x b] m] cl] Hc (H1 & H2 & H3 & H4 & H5 & H6). repeat (split; [assumption|]). intros q Hq. rewrite <- Hc. auto.
  - intros ids ps Hv Lp.
    destruct (ctx_sim c c' cw L L2 d HS ids junk1 junk2 (Hfr ids Hv)) as (x & x' & Ex & Ex' & X1 & _).
    { now rewrite <- (ns_n _ _ _ _ _ _ HS). } { now rewrite <- (l2_eq _ _ _ _ _ _ HS). }
    rewrite Ex. eexists. split; [reflexivity|]. cbv beta iota. split; [reflexivity|]. split.
    { rewrite X1. revert Ex'. unfold ctx_new. cbv zeta. destruct (ctx_A _ _ _); [|discriminate]. destruct (poly_derivative _ _ _); [|discriminate].
      intros E. injection E as <-. reflexivity. }
    split; [exact Lb|]. split; [exact Lm|]. split; [now rewrite repeat_length|]. intros q _. apply nth_repeat.
  - intros [[[x b] m] cl] ids ps cur o f (H1 & H2 & H3 & H4 & H5 & H6) Hv Lp Hf Hq. pose proof Hv as (F1 & F2 & F3).
    destruct (prepare_buf c pkt HT (fun q t => wfrag (fun j => f j t) q) ids ps cl o) as (cl' & E & Lc & Hc); auto.
    { intros i Hi. rewrite H5. auto. }
    { intros q t _. apply wfrag_el. }
    { intros q Hq'. destruct (Hq q Hq') as (dn & rest & Q1 & Q2 & Q3). exists dn, rest. split; [exact Q1|]. split; [rewrite H6 by auto; exact Q2|exact Q3]. }
    rewrite H2. change (fun i t => wcw (fun j => f j t) (nth i ids 0)) with (fun i t => word16 (map low (wfrag (fun j => f j t) (nth i ids 0)))).
    rewrite E. unfold nf4_apply_unpack.
    destruct (pdecode_eq c c' cw L L2 d HS nh pkt Hnh Hpkt (fun j t => nums e (f j t))) with (ids := ids) (junk1 := junk1) (junk2 := junk2) (x := x) (b1 := b) (mx := m)
      as (b' & m' & D1 & D2 & D3 & D4); auto.
    { intros j t Hj Ht. apply numbers_el, nums_in. auto. }
    change (pfrag c cw (fun j t => nums e (f j t))) with (fun t q => wfrag (fun j => f j t) q) in D1. cbv beta in D1. rewrite D1, D4.
    assert (E2 : map (map (fun a => fst (unpack B w e a))) (pkts k pkt (fun j t => word32 (nums e (f j t)))) = pkts k pkt f).
    { unfold pkts. rewrite map_map. apply map_ext_in. intros j Hj. apply in_seq in Hj. rewrite map_map. apply map_ext_in. intros t Ht. apply in_seq in Ht.
      destruct (nums_in (f j t)) as [N1 N2]; [apply Hf; lia|]. rewrite unpack_word by (auto; now apply numbers_el). cbn [fst]. now rewrite (numbers_low e). }
    rewrite E2. eexists. eexists. split; [reflexivity|]. pose proof (cs_n _ _ CS) as Hkn. pose proof (ns_k _ _ _ _ _ _ HS) as Ek. pose proof (ns_n _ _ _ _ _ _ HS) as En.
    assert (Lk : length (pkts k pkt f) = k) by (unfold pkts; now rewrite map_length, seq_length).
    split; [|rewrite firstn_app_le by lia; apply firstn_all2; lia].
    split; [exact H1|]. split; [exact H2|]. split; [exact D2|]. split; [rewrite app_length, skipn_length; lia|]. split; [congruence|].
    intros q Hq'. rewrite Hc by auto. rewrite H6 by auto. reflexivity.
Qed.
End Inst.
