(** Property C56: the allocator of aligned memory. *)
From Coq Require Import List NArith Arith Bool Lia Permutation.
From Verif.Model Require Import Common Alloc.
From Verif.Spec Require Import Alloc.
Import ListNotations.
Open Scope N_scope.

Section Allocator.
Variable I : iset.
Notation A := (alignment I).

(** Programs give back the arrays they got (or the null pointer) and write in them only; the system gives new blocks. *)
Inductive legal (blocks : list (N * N)) (l : arrays) : action -> Prop :=
| LegalAllocate sz count new : 0 < sz -> (forall n a, new n = Some a -> fresh blocks a n) -> legal blocks l (Allocate sz count new)
| LegalDeallocate x : In x l -> legal blocks l (Deallocate (fst x))
| LegalNull : legal blocks l (Deallocate 0)
| LegalWrite x a v : In x l -> within a x -> legal blocks l (Write a v).

(** The arrays after an action that returned [r]; a new array holds what the memory holds. *)
Definition seen (byte : N -> N) (l : arrays) (x : action) (r : option N) : arrays :=
  match x, r with
  | Allocate sz count _, Some p => (p, map (fun i => byte (p + N.of_nat i)) (seq 0 (N.to_nat (count * sz)))) :: l
  | Allocate _ _ _, None => l
  | Deallocate p, _ => filter (fun x => negb (fst x =? p)) l
  | Write a v, _ => map (put a v) l
  end.

(** The memories of legal programs, and the arrays that they use. *)
Inductive reachable : memory -> arrays -> Prop :=
| Start byte : reachable (mkMemory byte []) []
| Step m l x m' r : reachable m l -> legal (m_blocks m) l x -> act I m x = Done (m', r) -> reachable m' (seen (m_byte m') l x r).

(** ** Proof: every array is in a block, after its offset. *)
Definition link (byte : N -> N) (e : (N * list N) * (N * N)) : Prop :=
  let '((p, l), (a, s)) := e in
  0 < a /\ a + N.max s 1 <= 2 ^ 64 /\ (forall i, (i < length l)%nat -> byte (p + N.of_nat i) = nth i l 0) /\
  exists off, p = a + off /\ off + N.of_nat (length l) <= s /\
    match I with NoSimd => off = 0 | _ => 1 <= off <= A /\ p mod A = 0 /\ byte (p - 1) = off end.
Definition sep (x y : (N * list N) * (N * N)) : Prop :=
  fst (snd x) + N.max (snd (snd x)) 1 <= fst (snd y) \/ fst (snd y) + N.max (snd (snd y)) 1 <= fst (snd x).
Definition inv (m : memory) (l : arrays) : Prop :=
  exists q, l = map fst q /\ m_blocks m = map snd q /\ Forall (link (m_byte m)) q /\ ForallOrdPairs sep q.

Lemma sep_in q x y : ForallOrdPairs sep q -> In x q -> In y q -> x = y \/ sep x y.
Proof.
  intros H Hx Hy. destruct (ForallOrdPairs_In H x y Hx Hy) as [E|[E|E]]; [now left|now right|right].
  unfold sep in *. tauto.
Qed.
Lemma align_facts : I <> NoSimd -> 1 <= A <= 32.
Proof. destruct I; cbn; intros; try congruence; lia. Qed.
Lemma mapped_in m b s a : In (b, s) (m_blocks m) -> b <= a < b + s -> mapped m a = true.
Proof. intros Hi H. unfold mapped. apply existsb_exists. exists (b, s). split; [exact Hi|]. cbn. apply andb_true_iff. split; [apply N.leb_le|apply N.ltb_lt]; lia. Qed.

Lemma simd_case (P : iset -> Prop) : (I = NoSimd -> P NoSimd) -> (I <> NoSimd -> P I) -> P I.
Proof. destruct I; intros H1 H2; [now apply H1|apply H2; discriminate|apply H2; discriminate]. Qed.

(** The pointer of an entry tells its block. *)
Lemma link_range byte e : link byte e -> I <> NoSimd -> fst (snd e) <= fst (fst e) - 1 < fst (snd e) + snd (snd e) /\ 0 < fst (fst e) <= 2 ^ 64 /\
  fst (fst e) - byte (fst (fst e) - 1) = fst (snd e) /\ byte (fst (fst e) - 1) <= fst (fst e) /\ fst (fst e) mod A = 0.
Proof.
  destruct e as [[p l] [a s]]. intros (Ha & Hs & _ & off & Ep & Ho & Hi) HI. cbn [fst snd].
  destruct I; [congruence| |]; destruct Hi as (Hi & Hm & Hb); rewrite Hb; repeat split; auto; lia.
Qed.
Lemma link_ptr byte e : link byte e -> fst (snd e) <= fst (fst e) /\ fst (fst e) + N.of_nat (length (snd (fst e))) <= fst (snd e) + snd (snd e) /\
  0 < fst (snd e) /\ fst (snd e) + N.max (snd (snd e)) 1 <= 2 ^ 64.
Proof. destruct e as [[p l] [a s]]. intros (Ha & Hs & _ & off & Ep & Ho & Hi). cbn [fst snd]. repeat split; lia. Qed.
Lemma ptr_block byte q e f : Forall (link byte) q -> ForallOrdPairs sep q -> In e q -> In f q ->
  (fst (fst e) =? fst (fst f)) = (fst (snd e) =? fst (snd f)).
Proof.
  intros Hl Hs He Hf. destruct (sep_in q e f Hs He Hf) as [->|S]; [now rewrite !N.eqb_refl|].
  rewrite Forall_forall in Hl. pose proof (Hl e He) as Le. pose proof (Hl f Hf) as Lf.
  assert (D : fst (fst e) <> fst (fst f)).
  { unfold sep in S. destruct (simd_case (fun J => J = NoSimd \/ J <> NoSimd)) as [E|E]; [now left|now right| |].
    - destruct e as [[p l] [a s]], f as [[p' l'] [a' s']]. cbn [link fst snd] in *. rewrite E in *.
      destruct Le as (_ & _ & _ & o & -> & _ & ->), Lf as (_ & _ & _ & o' & -> & _ & ->). lia.
    - destruct (link_range byte e Le E) as (R1 & _), (link_range byte f Lf E) as (R2 & _). lia. }
  transitivity false; [now apply N.eqb_neq|symmetry; apply N.eqb_neq]. unfold sep in S. lia.
Qed.

Lemma filter_map_q (q : list ((N * list N) * (N * N))) p a :
  (forall e, In e q -> (fst (fst e) =? p) = (fst (snd e) =? a)) ->
  filter (fun x => negb (fst x =? p)) (map fst q) = map fst (filter (fun e => negb (fst (snd e) =? a)) q) /\
  filter (fun b => negb (fst b =? a)) (map snd q) = map snd (filter (fun e => negb (fst (snd e) =? a)) q).
Proof.
  induction q as [|e q IH]; intros H; [split; reflexivity|]. cbn [map filter].
  destruct IH as [I1 I2]; [intros f Hf; apply H; now right|]. rewrite (H e (or_introl eq_refl)).
  destruct (fst (snd e) =? a); cbn [negb map]; rewrite I1, I2; split; reflexivity.
Qed.
Lemma FOP_filter {B} (R : B -> B -> Prop) f q : ForallOrdPairs R q -> ForallOrdPairs R (filter f q).
Proof.
  induction 1 as [|x q Hx Hq IH]; cbn [filter]; [constructor|]. destruct (f x); [|exact IH]. constructor; [|exact IH].
  apply Forall_forall. intros y Hy. apply filter_In in Hy. rewrite Forall_forall in Hx. now apply Hx.
Qed.
Lemma Forall_filter {B} (P : B -> Prop) f q : Forall P q -> Forall P (filter f q).
Proof. rewrite !Forall_forall. intros H x Hx. apply filter_In in Hx. now apply H. Qed.

(** *** Deallocation *)
Lemma inv_deallocate m l x : inv m l -> In x l -> exists m', deallocate I m (fst x) = Done m' /\
  inv m' (filter (fun y => negb (fst y =? fst x)) l).
Proof.
  intros (q & -> & Eb & Hl & Hs) Hx. apply in_map_iff in Hx. destruct Hx as (e & <- & He).
  pose proof (proj1 (Forall_forall _ _) Hl e He) as Le. destruct (link_ptr _ _ Le) as (P1 & P2 & P3 & P4).
  assert (D : exists m', op_delete m (fst (snd e)) = Done m' /\ inv m' (filter (fun y => negb (fst y =? fst (fst e))) (map fst q))).
  { unfold op_delete. destruct (N.eqb_spec (fst (snd e)) 0); [lia|].
    assert (E : existsb (fun b => fst b =? fst (snd e)) (m_blocks m) = true).
    { apply existsb_exists. exists (snd e). split; [rewrite Eb; now apply in_map|apply N.eqb_refl]. }
    rewrite E. eexists. split; [reflexivity|]. destruct (filter_map_q q (fst (fst e)) (fst (snd e))) as [F1 F2].
    { intros f Hf. eapply ptr_block; eauto. }
    rewrite F1, Eb, F2. eexists. cbn [m_blocks m_byte]. split; [reflexivity|]. split; [reflexivity|].
    split; [now apply Forall_filter|now apply FOP_filter]. }
  unfold deallocate. destruct (simd_case (fun J => J = NoSimd \/ J <> NoSimd)) as [E|E]; [now left|now right| |].
  - destruct e as [[p b] [a s]]. cbn [fst snd link] in *. destruct Le as (_ & _ & _ & off & -> & _ & Hi). rewrite E in Hi |- *. subst off.
    rewrite N.add_0_r in *. exact D.
  - destruct (link_range _ e Le E) as (R1 & R2 & R3 & R4 & _).
    assert (X : (if fst (fst e) =? 0 then Done m else match load m (wrap 64 (fst (fst e) + 2 ^ 64 - 1)) with
      | Done offset => op_delete m (wrap 64 (fst (fst e) + 2 ^ 64 - offset)) | _ => Undefined end) = op_delete m (fst (snd e))).
    { destruct (N.eqb_spec (fst (fst e)) 0); [lia|].
      assert (W : forall o, o <= fst (fst e) -> fst (fst e) - o < 2 ^ 64 -> wrap 64 (fst (fst e) + 2 ^ 64 - o) = fst (fst e) - o).
      { intros o Ho Ht. unfold wrap. replace (fst (fst e) + 2 ^ 64 - o) with (fst (fst e) - o + 1 * 2 ^ 64) by lia.
        rewrite N.mod_add by discriminate. now apply N.mod_small. }
      rewrite W by lia. unfold load. rewrite (mapped_in m (fst (snd e)) (snd (snd e))) by (rewrite ?Eb, <- ?surjective_pairing; auto using in_map).
      rewrite W by lia. now rewrite R3. }
    destruct I; [congruence| |]; rewrite X; exact D.
Qed.

(** *** Writes *)
Lemma nth_put (l : list N) k v i d : (k < length l)%nat ->
  nth i (firstn k l ++ v :: skipn (S k) l) d = if Nat.eqb i k then v else nth i l d.
Proof.
  revert k i. induction l as [|x l IH]; intros k i Hk; [cbn in Hk; lia|]. destruct k as [|k].
  - destruct i; reflexivity.
  - cbn [firstn app]. destruct i as [|i]; [reflexivity|]. cbn [nth]. change (skipn (S (S k)) (x :: l)) with (skipn (S k) l).
    rewrite IH by (cbn in Hk; lia). reflexivity.
Qed.
Lemma put_length a v x : length (snd (put a v x)) = length (snd x).
Proof.
  unfold put. destruct (N.leb_spec (fst x) a), (N.ltb_spec a (fst x + N.of_nat (length (snd x)))); cbn [andb]; auto. cbn [snd].
  rewrite app_length, firstn_length. cbn [length]. rewrite skipn_length. lia.
Qed.
Lemma put_fst a v x : fst (put a v x) = fst x.
Proof. unfold put. now destruct (_ && _). Qed.

Lemma inv_store m l x a v : inv m l -> In x l -> within a x -> exists m', store m a v = Done m' /\ inv m' (map (put a v) l).
Proof.
  intros (q & -> & Eb & Hl & Hs) Hx Ha. apply in_map_iff in Hx. destruct Hx as (e & <- & He).
  pose proof (proj1 (Forall_forall _ _) Hl e He) as Le. destruct (link_ptr _ _ Le) as (P1 & P2 & P3 & P4).
  assert (B : fst (snd e) <= a < fst (snd e) + snd (snd e)) by (unfold within in Ha; lia).
  unfold store. rewrite (mapped_in m (fst (snd e)) (snd (snd e))) by (rewrite ?Eb, <- ?surjective_pairing; auto using in_map).
  eexists. split; [reflexivity|]. exists (map (fun f => (put a v (fst f), snd f)) q). cbn [m_blocks m_byte].
  split; [now rewrite !map_map|]. split; [now rewrite Eb, map_map|]. split.
  - apply Forall_forall. intros f' Hf. apply in_map_iff in Hf. destruct Hf as (f & <- & Hf).
    pose proof (proj1 (Forall_forall _ _) Hl f Hf) as Lf. destruct (link_ptr _ _ Lf) as (Q1 & Q2 & Q3 & Q4).
    assert (Hp : I <> NoSimd -> fst (fst f) - 1 <> a).
    { intros HI. destruct (link_range _ f Lf HI) as (R1 & _). destruct (sep_in q e f Hs He Hf) as [->|S].
      - unfold within in Ha. lia.
      - unfold sep in S. lia. }
    pose proof (put_length a v (fst f)) as Lp. pose proof (put_fst a v (fst f)) as Fp.
    destruct f as [[p b] [c s]]. cbn [fst snd] in *. remember (put a v (p, b)) as pb eqn:Epb. destruct pb as [p' b']. cbn [fst snd] in Fp, Lp. subst p'.
    destruct Lf as (L1 & L2 & L3 & off & L4 & L5 & L6). cbn [link]. split; [exact L1|]. split; [exact L2|]. split.
    + intros i Hi. rewrite Lp in Hi. unfold put in Epb. cbn [fst snd] in Epb.
      destruct (N.leb_spec p a), (N.ltb_spec a (p + N.of_nat (length b))); cbn [andb] in Epb; injection Epb as ->.
      * rewrite nth_put by lia. destruct (Nat.eqb_spec i (N.to_nat (a - p))) as [->|N1].
        -- destruct (N.eqb_spec (p + N.of_nat (N.to_nat (a - p))) a); [reflexivity|lia].
        -- destruct (N.eqb_spec (p + N.of_nat i) a); [lia|]. now apply L3.
      * destruct (N.eqb_spec (p + N.of_nat i) a); [lia|]. now apply L3.
      * destruct (N.eqb_spec (p + N.of_nat i) a); [lia|]. now apply L3.
      * destruct (N.eqb_spec (p + N.of_nat i) a); [lia|]. now apply L3.
    + exists off. rewrite Lp. split; [exact L4|]. split; [exact L5|].
      destruct I; [exact L6| |]; destruct L6 as (M1 & M2 & M3); (split; [exact M1|]; split; [exact M2|]);
      (destruct (N.eqb_spec (p - 1) a); [exfalso; apply Hp; congruence|exact M3]).
  - clear - Hs. induction Hs as [|f q Hf Hq IH]; cbn [map]; constructor; auto. rewrite Forall_forall in Hf |- *.
    intros g' Hg. apply in_map_iff in Hg. destruct Hg as (g & <- & Hg). apply (Hf g Hg).
Qed.

(** *** Allocation *)
Lemma block_sizeE sz count : 0 < sz -> count <= max_size I sz ->
  block_size I sz count = count * sz + match I with NoSimd => 0 | _ => A end /\ count * sz + A < 2 ^ 64.
Proof.
  intros Hz Hc. unfold max_size in Hc.
  assert (B : count * sz + A < 2 ^ 64).
  { pose proof (N.mul_div_le (2 ^ 64 - 1 - A) sz ltac:(lia)). assert (A <= 32) by (destruct I; cbn; lia).
    assert (count * sz <= sz * ((2 ^ 64 - 1 - A) / sz)) by nia. lia. }
  split; [|exact B]. unfold block_size, wrap. destruct I; cbn [alignment] in B |- *; rewrite ?(N.mod_small (count * sz)) by lia; rewrite ?N.mod_small by lia; lia.
Qed.

(** The memory with one more block, in which [off] bytes come before the array and the last of these may have changed. *)
Lemma inv_block m l a s off byte' len : inv m l -> fresh (m_blocks m) a s -> off + len <= s ->
  (forall x, byte' x = m_byte m x \/ I <> NoSimd /\ x = a + off - 1) ->
  match I with NoSimd => off = 0 | _ => 1 <= off <= A /\ (a + off) mod A = 0 /\ byte' (a + off - 1) = off end ->
  inv (mkMemory byte' ((a, s) :: m_blocks m)) ((a + off, map (fun i => byte' (a + off + N.of_nat i)) (seq 0 (N.to_nat len))) :: l).
Proof.
  intros (q & -> & Eb & Hl & Hs) (F1 & F2 & F3) Ho Hb Hi.
  exists (((a + off, map (fun i => byte' (a + off + N.of_nat i)) (seq 0 (N.to_nat len))), (a, s)) :: q). cbn [map fst snd m_blocks m_byte].
  split; [reflexivity|]. split; [now rewrite Eb|]. split.
  - constructor.
    + cbn [link]. split; [exact F1|]. split; [lia|]. rewrite map_length, seq_length. split.
      * intros i Hl'. rewrite (nth_indep _ 0 (byte' (a + off + N.of_nat 0))) by now rewrite map_length, seq_length.
        rewrite (map_nth (fun i => byte' (a + off + N.of_nat i))). now rewrite seq_nth.
      * exists off. split; [reflexivity|]. split; [lia|]. exact Hi.
    + apply Forall_forall. intros f Hf. pose proof (proj1 (Forall_forall _ _) Hl f Hf) as Lf. destruct (link_ptr _ _ Lf) as (Q1 & Q2 & Q3 & Q4).
      assert (S : a + N.max s 1 <= fst (snd f) \/ fst (snd f) + N.max (snd (snd f)) 1 <= a).
      { apply F3. rewrite <- surjective_pairing, Eb. now apply in_map. }
      assert (K : forall x, fst (snd f) <= x < fst (snd f) + snd (snd f) -> byte' x = m_byte m x).
      { intros x Hx. destruct (Hb x) as [E|[HI E]]; [exact E|]. exfalso. destruct I; [congruence| |]; cbv iota in Hi; lia. }
      destruct (simd_case (fun J => J = NoSimd \/ J <> NoSimd)) as [E|E]; [now left|now right| |].
      * destruct f as [[p b] [c t]]. cbn [fst snd] in *. destruct Lf as (L1 & L2 & L3 & o & L4 & L5 & L6). cbn [link].
        split; [exact L1|]. split; [exact L2|]. split; [intros i Hi'; rewrite K by lia; now apply L3|].
        exists o. split; [exact L4|]. split; [exact L5|]. rewrite E in L6 |- *. exact L6.
      * destruct (link_range _ f Lf E) as (R1 & _).
        destruct f as [[p b] [c t]]. cbn [fst snd] in *. destruct Lf as (L1 & L2 & L3 & o & L4 & L5 & L6). cbn [link].
        split; [exact L1|]. split; [exact L2|]. split; [intros i Hi'; rewrite K by lia; now apply L3|].
        exists o. split; [exact L4|]. split; [exact L5|].
        destruct I; [congruence| |]; rewrite K by lia; exact L6.
  - constructor; [|exact Hs]. apply Forall_forall. intros f Hf. unfold sep. cbn [fst snd].
    apply F3. rewrite <- surjective_pairing, Eb. now apply in_map.
Qed.

Lemma align_up a : let off := A - a mod A in 1 <= off <= A /\ (a + off) mod A = 0.
Proof.
  assert (HA : A <> 0) by (destruct I; discriminate). cbv zeta. generalize A HA. clear HA. intros n Hn.
  pose proof (N.mod_lt a n Hn) as Hm. pose proof (N.div_mod a n Hn) as E. generalize dependent (a mod n). intros r Hr E. split; [lia|].
  assert (E2 : a + (n - r) = (a / n + 1) * n) by (rewrite N.mul_add_distr_r, (N.mul_comm (a / n)); lia).
  rewrite E2. now apply N.mod_mul.
Qed.

Lemma inv_allocate m l sz count new : inv m l -> 0 < sz -> (forall n a, new n = Some a -> fresh (m_blocks m) a n) ->
  allocate I sz m count new = BadAlloc \/
  exists m' p, allocate I sz m count new = Done (m', p) /\
    inv m' ((p, map (fun i => m_byte m' (p + N.of_nat i)) (seq 0 (N.to_nat (count * sz)))) :: l).
Proof.
  intros Hi Hz Hn. unfold allocate. destruct (N.ltb_spec (max_size I sz) count) as [|Hc]; [now left|].
  destruct (block_sizeE sz count Hz Hc) as [Es Hs]. unfold op_new. destruct (new (block_size I sz count)) as [a|] eqn:En; [|now left].
  right. pose proof (Hn _ _ En) as Hf. destruct (simd_case (fun J => J = NoSimd \/ J <> NoSimd)) as [E|E]; [now left|now right| |].
  - rewrite Es in *. rewrite E in *. exists (mkMemory (m_byte m) ((a, count * sz + 0) :: m_blocks m)), a. split; [reflexivity|].
    cbn [m_byte]. pose proof (inv_block m l a (count * sz + 0) 0 (m_byte m) (count * sz) Hi Hf) as K. rewrite N.add_0_r in K.
    rewrite E in K. rewrite N.add_0_r in *. apply K; auto. lia.
  - destruct (align_up a) as [O1 O2]. set (off := A - a mod A) in *.
    assert (A32 : A <= 32) by (destruct I; cbn; lia).
    assert (EB : block_size I sz count = count * sz + A) by (destruct I; [congruence| |]; exact Es). rewrite EB in *. clear Es.
    destruct Hf as (F1 & F2 & F3).
    assert (Wo : wrap 32 off = off) by (unfold wrap; apply N.mod_small; lia).
    assert (W8 : wrap 8 off = off) by (unfold wrap; apply N.mod_small; lia).
    set (m1 := mkMemory (m_byte m) ((a, count * sz + A) :: m_blocks m)).
    set (byte' := fun x => if x =? a + off - 1 then off else m_byte m x).
    assert (X : a + off < 2 ^ 64 ->
      (if wrap 32 off <? 1 then Asserted else if 255 <? wrap 32 off then Asserted else
       match store m1 (wrap 64 (wrap 64 (a + wrap 32 off) + 2 ^ 64 - 1)) (wrap 8 (wrap 32 off)) with Done m => Done (m, wrap 64 (a + wrap 32 off)) | _ => Undefined end)
      = Done (mkMemory byte' ((a, count * sz + A) :: m_blocks m), a + off)).
    { intros Ht. rewrite !Wo, W8. destruct (N.ltb_spec off 1); [lia|]. destruct (N.ltb_spec 255 off); [lia|].
      assert (W1 : wrap 64 (a + off) = a + off) by (unfold wrap; apply N.mod_small; lia). rewrite W1.
      assert (W2 : wrap 64 (a + off + 2 ^ 64 - 1) = a + off - 1).
      { unfold wrap. replace (a + off + 2 ^ 64 - 1) with (a + off - 1 + 1 * 2 ^ 64) by lia. rewrite N.mod_add by discriminate. apply N.mod_small. lia. }
      rewrite W2. unfold store. rewrite (mapped_in m1 a (count * sz + A)); [|left; reflexivity|lia]. reflexivity. }
    specialize (X ltac:(lia)).
    exists (mkMemory byte' ((a, count * sz + A) :: m_blocks m)), (a + off). split.
    { destruct I; [congruence| |]; exact X. }
    assert (Eo : byte' (a + off - 1) = off) by (unfold byte'; now rewrite N.eqb_refl).
    cbn [m_byte]. apply inv_block.
    + exact Hi.
    + split; [exact F1|]. split; [exact F2|exact F3].
    + lia.
    + intros x. unfold byte'. destruct (N.eqb_spec x (a + off - 1)); auto.
    + destruct I; [congruence| |]; auto.
Qed.

Lemma inv_good m l : inv m l -> good (m_byte m) l /\ length (m_blocks m) = length l /\
  (I <> NoSimd -> Forall (fun x => fst x mod A = 0) l).
Proof.
  intros (q & -> & Eb & Hl & Hs). rewrite Eb, !map_length. split; [|split; [reflexivity|]].
  - split.
    + intros x Hx. apply in_map_iff in Hx. destruct Hx as (e & <- & He). rewrite Forall_forall in Hl. pose proof (link_ptr _ _ (Hl e He)). lia.
    + clear Eb. induction Hs as [|e q He Hq IH]; cbn [map]; constructor; [|apply IH; now inversion Hl].
      apply Forall_forall. intros y Hy. apply in_map_iff in Hy. destruct Hy as (f & <- & Hf).
      rewrite Forall_forall in He. pose proof (He f Hf) as S.
      assert (FO : ForallOrdPairs sep (e :: q)) by (constructor; [now apply Forall_forall|exact Hq]).
      pose proof (ptr_block _ _ e f Hl FO (or_introl eq_refl) (or_intror Hf)) as P.
      rewrite Forall_forall in Hl. pose proof (link_ptr _ _ (Hl e (or_introl eq_refl))). pose proof (link_ptr _ _ (Hl f (or_intror Hf))).
      unfold sep in S. split.
      * intros E. rewrite E, N.eqb_refl in P. symmetry in P. apply N.eqb_eq in P. lia.
      * intros b B1 B2. unfold within in *. lia.
    + intros x i Hx Hi. apply in_map_iff in Hx. destruct Hx as (e & <- & He). rewrite Forall_forall in Hl. specialize (Hl e He).
      destruct e as [[p b] [a s]]. destruct Hl as (_ & _ & H & _). now apply H.
  - intros HI. apply Forall_forall. intros x Hx. apply in_map_iff in Hx. destruct Hx as (e & <- & He).
    rewrite Forall_forall in Hl. now apply (link_range _ e (Hl e He) HI).
Qed.

Lemma inv_act m l x : inv m l -> legal (m_blocks m) l x -> exists m' r, act I m x = Done (m', r) /\ inv m' (seen (m_byte m') l x r).
Proof.
  intros Hi HL. destruct HL as [sz count new Hz Hn|x Hx| |x a v Hx Ha]; cbn [act seen].
  - destruct (inv_allocate m l sz count new Hi Hz Hn) as [->|(m' & p & -> & K)]; [exists m, None; auto|exists m', (Some p); auto].
  - destruct (inv_deallocate m l x Hi Hx) as (m' & -> & K). exists m', None. auto.
  - assert (E : deallocate I m 0 = Done m) by (destruct I; reflexivity). rewrite E. exists m, None. split; [reflexivity|].
    assert (F : filter (fun x => negb (fst x =? 0)) l = l); [|now rewrite F].
    destruct (inv_good m l Hi) as (G & _). assert (K : forall x, In x l -> 0 < fst x) by (intros x Hx; now apply (good_range _ _ G)).
    clear -K. induction l as [|x l IH]; [reflexivity|]. cbn [filter]. pose proof (K x (or_introl eq_refl)).
    destruct (N.eqb_spec (fst x) 0); [lia|]. cbn [negb]. f_equal. apply IH. intros y Hy. apply K. now right.
  - destruct (inv_store m l x a v Hi Hx Ha) as (m' & -> & K). exists m', None. auto.
Qed.
Lemma reachable_inv m l : reachable m l -> inv m l.
Proof.
  induction 1 as [byte|m l x m' r _ IH HL E].
  - exists []. repeat constructor.
  - destruct (inv_act m l x IH HL) as (m2 & r2 & E2 & K). rewrite E in E2. injection E2 as <- <-. exact K.
Qed.

(** ** C56 *)

(** Whatever a legal program has done: its arrays are in memory, apart, and hold what it last wrote in them; there is one
    block for each array, so all the memory is free when all the arrays are given back; and no legal action is undefined. *)
Theorem C56_allocator m l : reachable m l ->
  good (m_byte m) l /\ length (m_blocks m) = length l /\ forall x, legal (m_blocks m) l x -> exists m' r, act I m x = Done (m', r).
Proof.
  intros H. apply reachable_inv in H. destruct (inv_good m l H) as (G & L & _). split; [exact G|]. split; [exact L|].
  intros x Hx. destruct (inv_act m l x H Hx) as (m' & r & E & _). eauto.
Qed.

(** Every array is aligned. *)
Theorem C56_aligned m l : reachable m l -> Forall (fun x => I = NoSimd \/ fst x mod A = 0) l /\ forall x, In x l -> addr_is_aligned I (fst x) = true.
Proof.
  intros H. apply reachable_inv in H. destruct (inv_good m l H) as (_ & _ & G).
  assert (K : Forall (fun x => I = NoSimd \/ fst x mod A = 0) l).
  { destruct (simd_case (fun J => J = NoSimd \/ J <> NoSimd)) as [E|E]; [now left|now right| |].
    - apply Forall_forall. now left.
    - eapply Forall_impl; [|exact (G E)]. now right. }
  split; [exact K|]. intros x Hx. rewrite Forall_forall in K. specialize (K x Hx). unfold addr_is_aligned.
  destruct I; [reflexivity| |]; cbn [alignment] in *; (destruct K as [K|K]; [discriminate|]); apply N.eqb_eq.
  - change (16 - 1) with (N.ones 4). rewrite N.land_ones. exact K.
  - change (32 - 1) with (N.ones 5). rewrite N.land_ones. exact K.
Qed.

(** An allocation is refused when its size with the alignment does not fit in a [size_t] or the system refuses it, and only then;
    the size asked from the system is enough for the elements and the alignment. *)
Theorem C56_refused m l sz count new : reachable m l -> 0 < sz -> (forall n a, new n = Some a -> fresh (m_blocks m) a n) ->
  (allocate I sz m count new = BadAlloc <-> 2 ^ 64 <= count * sz + A \/ new (block_size I sz count) = None).
Proof.
  intros H Hz Hn. apply reachable_inv in H. pose proof (inv_allocate m l sz count new H Hz Hn) as K. revert K. unfold allocate.
  destruct (N.ltb_spec (max_size I sz) count) as [Hc|Hc].
  - intros _. split; [|reflexivity]. intros _. left. unfold max_size in Hc.
    assert (A32 : A <= 32) by (destruct I; cbn; lia).
    destruct (N.le_gt_cases (2 ^ 64) (count * sz + A)) as [L|L]; [exact L|]. exfalso.
    assert (count <= (2 ^ 64 - 1 - A) / sz) by (apply N.div_le_lower_bound; lia). lia.
  - destruct (block_sizeE sz count Hz Hc) as [_ Hs]. unfold op_new. destruct (new (block_size I sz count)) as [a|] eqn:En.
    + intros [K|(m' & p & K & _)]; [|rewrite K; split; [discriminate|intros [?|?]; [lia|discriminate]]].
      exfalso. revert K. destruct I; [discriminate| |]; cbv zeta; repeat (destruct (_ <? _); [discriminate|]); destruct (store _ _ _); discriminate.
    + intros _. split; auto.
Qed.
End Allocator.

(** Example: an AVX program; the blocks of the system touch each other.  Writing in the second array and giving the first one
    back changes nothing else; the offsets of the second and third arrays are the bytes before them. *)
Definition demo_memory : memory := mkMemory (fun _ => 7) [].
Definition demo_actions : list action :=
  [Allocate 4 8 (fun _ => Some 1000); Allocate 2 3 (fun _ => Some 1064); Allocate 4 1 (fun _ => Some 1102);
   Write 1093 42; Deallocate 1024; Allocate 4 8 (fun _ => Some 1000)].
Fixpoint acts (I : iset) (m : memory) (l : list action) : list (option (option N)) * memory :=
  match l with
  | [] => ([], m)
  | x :: t => match act I m x with Done (m', r) => let '(rs, m'') := acts I m' t in (Some r :: rs, m'') | _ => ([None], m) end
  end.
Example C56_case : let '(rs, m) := acts Avx demo_memory demo_actions in
  rs = [Some (Some 1024); Some (Some 1088); Some (Some 1120); Some None; Some None; Some (Some 1024)] /\
  m_blocks m = [(1000, 64); (1102, 36); (1064, 38)] /\ m_byte m 1093 = 42 /\ m_byte m 1087 = 24 /\ m_byte m 1119 = 18.
Proof. vm_compute. repeat split; reflexivity. Qed.
Example C56_reachable_case : exists m l, reachable Avx m l /\ length l = 1%nat /\ Forall (fun x => fst x = 1024 /\ length (snd x) = 32%nat) l.
Proof.
  eexists. eexists. split; [|split].
  - eapply (Step Avx demo_memory [] (Allocate 4 8 (fun n => if n <? 2 ^ 40 then Some 1000 else None))); [apply Start|constructor; [lia|]|vm_compute; reflexivity].
    intros n a. destruct (N.ltb_spec n (2 ^ 40)); [|discriminate]. intros E. injection E as <-. repeat split; [lia|]. intros b s [].
  - reflexivity.
  - repeat constructor.
Qed.

Print Assumptions C56_allocator.
Print Assumptions C56_aligned.
Print Assumptions C56_refused.
