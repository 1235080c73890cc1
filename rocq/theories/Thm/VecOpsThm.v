(** Property C70: arithmetic on whole vectors, through slices and views. *)
From Coq Require Import List NArith Arith Bool Lia.
From Verif.Model Require Import Common Arith Ring Views VecOps.
From Verif.Spec Require Import VecOps.
From Verif.Proof Require Import ListP ViewsP VecOpsP.
From Verif.Thm Require Import ViewsThm.
Import ListNotations.
Open Scope nat_scope.

(** The elements of the vector are in the memory. *)
Definition within (m : memory) (v : vect) : Prop := flat v /\ get_mem v + get_n v <= length m.

Lemma zip_combined w f m v u offset len : within m v -> within m u -> offset + len <= get_n v -> len <= get_n u ->
  get_mem v + offset <= get_mem u \/ get_mem u + len <= get_mem v + offset ->
  exists m', zip_cells f m (get_mem v + offset) (get_mem u) len = Some m' /\ combined w f m m' v u offset len.
Proof.
  intros [Fv Mv] [Fu Mu] Hv Hu Hx. destruct (zip_spec f len m (get_mem v + offset) (get_mem u)) as (m' & E & L & A & B); try lia.
  exists m'. split; [exact E|]. split; [exact L|]. split; [|split; [|exact B]].
  - intros i Hi. destruct (A i Hi) as (x & y & P & Q & R). exists x, y. rewrite !flat_get by assumption.
    destruct (Nat.ltb_spec (offset + i) (get_n v)); [|lia]. destruct (Nat.ltb_spec i (get_n u)); [|lia].
    rewrite !Nat.add_assoc. auto.
  - intros i Hi. rewrite !flat_get by assumption. destruct (i <? get_n v); [|reflexivity]. apply B. lia.
Qed.

(** Additions: each of the five forms adds the elements of [u] to those of [v], and changes nothing else, when the two parts of
    the memory do not overlap or when the destination is the first. *)
Theorem C70_add w G m v u : within m v -> within m u ->
  (get_n v = get_n u -> get_mem v <= get_mem u \/ get_mem u + get_n u <= get_mem v ->
     exists m', vadd G m v u = Some m' /\ combined w (g_add G) m m' v u 0 (get_n u)) /\
  (get_n u <= get_n v -> get_mem v <= get_mem u \/ get_mem u + get_n u <= get_mem v ->
     exists m', vadd_mutual G m v u = Some m' /\ combined w (g_add G) m m' v u 0 (get_n u)) /\
  forall offset, offset + get_n u <= get_n v ->
     get_mem v + offset <= get_mem u \/ get_mem u + get_n u <= get_mem v + offset ->
     exists m', vadd_at G m v u offset = Some m' /\ vadd_mutual_at G m v u offset = Some m' /\
       combined w (g_add G) m m' v u offset (get_n u).
Proof.
  intros Hv Hu. split; [|split].
  - intros E Hx. destruct (zip_combined w (g_add G) m v u 0 (get_n u)) as (m' & Z & C); try assumption; try lia.
    exists m'. split; [|exact C]. unfold vadd. rewrite E, Nat.eqb_refl. now rewrite Nat.add_0_r in Z.
  - intros E Hx. destruct (zip_combined w (g_add G) m v u 0 (get_n u)) as (m' & Z & C); try assumption; try lia.
    exists m'. split; [|exact C]. unfold vadd_mutual. destruct (Nat.leb_spec (get_n u) (get_n v)); [|lia]. now rewrite Nat.add_0_r in Z.
  - intros o E Hx. destruct (zip_combined w (g_add G) m v u o (get_n u)) as (m' & Z & C); try assumption; try lia.
    exists m'. unfold vadd_at, vadd_mutual_at. destruct (Nat.leb_spec (get_n u + o) (get_n v)); [|lia]. rewrite orb_true_r. auto.
Qed.
Theorem C70_add_part w G m v u offset len : within m v -> within m u -> offset + len <= get_n v -> len <= get_n u ->
  get_mem v + offset <= get_mem u \/ get_mem u + len <= get_mem v + offset ->
  exists m', vadd_mutual_len G m v u offset len = Some m' /\ combined w (g_add G) m m' v u offset len.
Proof.
  intros Hv Hu H1 H2 Hx. destruct (zip_combined w (g_add G) m v u offset len) as (m' & Z & C); try assumption.
  exists m'. split; [|exact C]. unfold vadd_mutual_len. destruct (Nat.leb_spec (len + offset) (get_n v)); [|lia].
  destruct (Nat.leb_spec len (get_n u)); [|lia]. now rewrite orb_true_r.
Qed.
(** The other overlaps, in full: when the source begins before the destination, what is added is the source as it is at the end. *)
Theorem C70_overlap w G m v u offset len : within m v -> within m u -> offset + len <= get_n v -> len <= get_n u ->
  get_mem u < get_mem v + offset ->
  exists m', vadd_mutual_len G m v u offset len = Some m' /\ length m' = length m /\
    (len = get_n u -> vadd_at G m v u offset = Some m' /\ vadd_mutual_at G m v u offset = Some m') /\
    (forall i, i < len -> exists x y, vget w m v (offset + i) = Some x /\ vget w m' u i = Some y /\
       vget w m' v (offset + i) = Some (g_add G x y)) /\
    forall a, a < get_mem v + offset \/ get_mem v + offset + len <= a -> peek m' a = peek m a.
Proof.
  intros [Fv Mv] [Fu Mu] H1 H2 Hx. destruct (zip_after (g_add G) len m (get_mem v + offset) (get_mem u)) as (m' & E & L & A & B); try lia.
  exists m'. split; [|split; [exact L|split; [|split; [|exact B]]]].
  - unfold vadd_mutual_len. destruct (Nat.leb_spec (len + offset) (get_n v)); [|lia]. destruct (Nat.leb_spec len (get_n u)); [|lia].
    now rewrite orb_true_r.
  - intros ->. unfold vadd_at, vadd_mutual_at. destruct (Nat.leb_spec (get_n u + offset) (get_n v)); [|lia]. rewrite orb_true_r. auto.
  - intros i Hi. destruct (A i Hi) as (x & y & P & Q & R). exists x, y. rewrite !flat_get by assumption.
    destruct (Nat.ltb_spec (offset + i) (get_n v)); [|lia]. destruct (Nat.ltb_spec i (get_n u)); [|lia]. rewrite !Nat.add_assoc. auto.
Qed.
(** Sizes that do not match stop the program, and only those; an addition of nothing is accepted at any place. *)
Theorem C70_add_sizes G m v u offset len : within m v -> within m u ->
  (vadd G m v u = None <-> get_n v <> get_n u) /\
  (vadd_mutual G m v u = None <-> get_n v < get_n u) /\
  (vhadamard G m v u = None <-> get_n v <> get_n u) /\
  (vadd_at G m v u offset = None <-> get_n v < offset + get_n u) /\
  (vadd_mutual_at G m v u offset = None <-> 0 < get_n u /\ get_n v < offset + get_n u) /\
  (vadd_mutual_len G m v u offset len = None <-> get_n u < len \/ 0 < len /\ get_n v < offset + len).
Proof.
  intros [Fv Mv] [Fu Mu].
  assert (Z : forall f k d s m0, length m0 = length m -> d + k <= length m -> s + k <= length m -> zip_cells f m0 d s k <> None).
  { clear. intros f. induction k as [|k IH]; intros d s m0 L Hd Hs; cbn [zip_cells]; [discriminate|].
    destruct (peek_in m0 d ltac:(lia)) as [x ->]. destruct (peek_in m0 s ltac:(lia)) as [y ->]. rewrite poke_in by lia.
    apply IH; rewrite ?set_length; lia. }
  unfold vadd, vadd_mutual, vhadamard, vadd_at, vadd_mutual_at, vadd_mutual_len.
  repeat match goal with |- _ /\ _ => split | |- _ <-> _ => split end; intros H.
  - intros E. rewrite E, Nat.eqb_refl in H. revert H. apply Z; lia.
  - destruct (Nat.eqb_spec (get_n v) (get_n u)); [contradiction|reflexivity].
  - destruct (Nat.leb_spec (get_n u) (get_n v)); [|lia]. exfalso. revert H. apply Z; lia.
  - destruct (Nat.leb_spec (get_n u) (get_n v)); [lia|reflexivity].
  - intros E. rewrite E, Nat.eqb_refl in H. revert H. apply Z; lia.
  - destruct (Nat.eqb_spec (get_n v) (get_n u)); [contradiction|reflexivity].
  - destruct (Nat.leb_spec (get_n u + offset) (get_n v)); [|lia]. exfalso. revert H. apply Z; lia.
  - destruct (Nat.leb_spec (get_n u + offset) (get_n v)); [lia|reflexivity].
  - destruct (Nat.eqb_spec (get_n u) 0) as [E|]; [rewrite E in H; cbn in H; discriminate|].
    destruct (Nat.leb_spec (get_n u + offset) (get_n v)); [|lia]. exfalso. rewrite orb_true_r in H. revert H. apply Z; lia.
  - destruct (Nat.eqb_spec (get_n u) 0); [lia|]. destruct (Nat.leb_spec (get_n u + offset) (get_n v)); [lia|reflexivity].
  - destruct (Nat.eqb_spec len 0) as [->|]; [cbn in H; discriminate|].
    destruct (Nat.leb_spec len (get_n u)); [|lia]. destruct (Nat.leb_spec (len + offset) (get_n v)); [|lia].
    exfalso. cbn [orb andb] in H. revert H. apply Z; lia.
  - destruct (Nat.leb_spec len (get_n u)); [|now rewrite andb_false_r].
    destruct (Nat.eqb_spec len 0), (Nat.leb_spec (len + offset) (get_n v)); try lia; reflexivity.
Qed.
(** Products of the elements. *)
Theorem C70_hadamard w G m v u : within m v -> within m u -> get_n v = get_n u ->
  get_mem v <= get_mem u \/ get_mem u + get_n u <= get_mem v ->
  exists m', vhadamard G m v u = Some m' /\ combined w (g_mul G) m m' v u 0 (get_n u).
Proof.
  intros Hv Hu E Hx. destruct (zip_combined w (g_mul G) m v u 0 (get_n u)) as (m' & Z & C); try assumption; try lia.
  exists m'. split; [|exact C]. unfold vhadamard. rewrite E, Nat.eqb_refl. now rewrite Nat.add_0_r in Z.
Qed.

Lemma flat_cell v i : flat v -> cell v i = if i <? get_n v then Some (get_mem v + i) else None.
Proof. destruct v; cbn [flat]; intros H; try contradiction; reflexivity. Qed.
Lemma flat_outside v a : flat v -> (forall i, i < get_n v -> cell v i <> Some a) -> a < get_mem v \/ get_mem v + get_n v <= a.
Proof.
  intros F H. destruct (Nat.lt_ge_cases a (get_mem v)); [now left|]. destruct (Nat.lt_ge_cases a (get_mem v + get_n v)); [|now right].
  exfalso. apply (H (a - get_mem v)); [lia|]. rewrite flat_cell by exact F. destruct (Nat.ltb_spec (a - get_mem v) (get_n v)); [|lia].
  f_equal. lia.
Qed.
(** Opposites. *)
Theorem C70_neg w G m v : within m v -> exists m', vneg G m v = Some m' /\ mapped w (fun _ => g_neg G) m m' v.
Proof.
  intros [F M]. destruct (map_spec (g_neg G) (get_n v) m (get_mem v) M) as (m' & E & L & A & B). exists m'. split; [exact E|].
  split; [exact L|]. split.
  - intros i Hi. destruct (A i Hi) as (x & P & Q). exists x. rewrite !flat_get by exact F. destruct (Nat.ltb_spec i (get_n v)); [auto|lia].
  - intros a Ha. apply B. now apply flat_outside.
Qed.
(** Products by the powers of [beta]: the element [i] by the product of [i] times [beta], the element 0 is kept. *)
Fixpoint power_of (G : gfops) (beta : N) (i : nat) : N :=
  match i with O => 1%N | S O => beta | S i' => g_mul G (power_of G beta i') beta end.
Theorem C70_beta w G m v beta : within m v -> exists m', vmul_beta G m v beta = Some m' /\
  mapped w (fun i x => if i =? 0 then x else g_mul G x (power_of G beta i)) m m' v.
Proof.
  intros [F M]. unfold vmul_beta. destruct (get_n v) as [|n] eqn:En.
  - exists m. split; [reflexivity|]. repeat split. rewrite En. intros i Hi. lia.
  - cbn [Nat.sub]. rewrite Nat.sub_0_r. destruct (beta_spec G beta n beta m (S (get_mem v)) ltac:(lia)) as (m' & E & L & A & B).
    exists m'. split; [exact E|]. split; [exact L|]. split.
    + rewrite En. intros [|i] Hi.
      * destruct (peek_in m (get_mem v + 0) ltac:(lia)) as [x Ex]. exists x. rewrite !flat_get by exact F. rewrite En. cbn [Nat.ltb Nat.leb].
        split; [exact Ex|]. rewrite B by lia. exact Ex.
      * destruct (A i ltac:(lia)) as (x & P & Q). exists x. rewrite !flat_get by exact F. rewrite En.
        destruct (Nat.ltb_spec (S i) (S n)); [|lia]. replace (get_mem v + S i) with (S (get_mem v) + i) by lia.
        split; [exact P|]. rewrite Q. cbn [Nat.eqb]. do 2 f_equal. clear. induction i as [|i IH]; [reflexivity|].
        change (g_mul G (Nat.iter i (fun c => g_mul G c beta) beta) beta = g_mul G (power_of G beta (S i)) beta). now rewrite IH.
    + intros a Ha. apply B. pose proof (flat_outside v a F Ha). lia.
Qed.
(** In a ring of integers modulo [p] this is the product by [beta ^ i]. *)
Theorem C70_beta_mod w G p m v beta : within m v -> (forall a b, g_mul G a b = (a * b) mod p)%N -> (p <> 0)%N ->
  exists m', vmul_beta G m v beta = Some m' /\
  mapped w (fun i x => if i =? 0 then x else ((x * beta ^ N.of_nat i) mod p)%N) m m' v.
Proof.
  intros H Hm Hp. destruct (C70_beta w G m v beta H) as (m' & E & L & A & B). exists m'. split; [exact E|]. split; [exact L|].
  split; [|exact B]. intros i Hi. destruct (A i Hi) as (x & P & Q). exists x. split; [exact P|]. rewrite Q. f_equal.
  destruct (Nat.eqb_spec i 0) as [|Hi0]; [reflexivity|]. rewrite Hm.
  assert (R : (power_of G beta i mod p = beta ^ N.of_nat i mod p)%N).
  { clear -Hm Hp Hi0. destruct i as [|i]; [lia|]. clear Hi0. induction i as [|i IH].
    - now rewrite N.pow_1_r.
    - change (power_of G beta (S (S i))) with (g_mul G (power_of G beta (S i)) beta). rewrite Hm, N.mod_mod by exact Hp.
      rewrite <- N.mul_mod_idemp_l, IH, N.mul_mod_idemp_l by exact Hp. f_equal.
      rewrite (Nat2N.inj_succ (S i)), N.pow_succ_r'. apply N.mul_comm. }
  rewrite <- N.mul_mod_idemp_r, R, N.mul_mod_idemp_r by exact Hp. reflexivity.
Qed.

(** ** Through views *)
(** Products by a scalar: on any vector, slice or view (also of a view) whose elements are different cells. *)
Theorem C70_scalar w G m v c : fits w v -> distinct m v ->
  exists m', vmul_scalar G w m v c = Some m' /\ mapped w (fun _ x => g_mul G x c) m m' v.
Proof.
  intros Hf Hd. destruct (scalar_spec G w v c Hf (get_n v) m 0 Hd ltac:(lia)) as (m' & E & L & A & B). exists m'.
  split; [exact E|]. split; [exact L|]. split; [intros i Hi; apply A; lia|]. intros a Ha. apply B. intros j Hj. apply Ha. lia.
Qed.
(** In full, for views that come back to a place: every cell is multiplied once for each element that is in it. *)
Theorem C70_scalar_exact w G m v c : fits w v -> (forall i, i < get_n v -> exists a, cell v i = Some a /\ a < length m) ->
  exists m', vmul_scalar G w m v c = Some m' /\ length m' = length m /\
    forall a, peek m' a = option_map (Nat.iter (times v 0 (get_n v) a) (fun x => g_mul G x c)) (peek m a).
Proof. intros Hf Hc. apply (scalar_count G w v c Hf (get_n v) m 0 Hc). lia. Qed.
(** Zeros: even when cells are repeated. *)
Theorem C70_zero w m v : fits w v -> (forall i, i < get_n v -> exists a, cell v i = Some a /\ a < length m) ->
  exists m', vzero_fill w m v = Some m' /\ mapped w (fun _ _ => 0%N) m m' v.
Proof.
  intros Hf Hc. destruct (zero_loop_spec w v Hf (get_n v) m 0 Hc ltac:(lia)) as (m' & E & L & A & B). exists m'.
  split; [exact E|]. split; [exact L|]. split.
  - intros i Hi. destruct (Hc i Hi) as (a & Ea & La). destruct (peek_in m a La) as [x Ex]. exists x.
    rewrite !(cell_get w _ v Hf i a Ea). split; [exact Ex|]. apply A. exists i. split; [lia|exact Ea].
  - intros a Ha. apply B. intros j Hj. apply Ha. lia.
Qed.
(** Which vectors have different cells: plain ones and slices, and the views that do not come back to a place, because they end
    before or because the step is prime to the length. *)
Theorem C70_distinct m v : within m v -> distinct m v /\
  forall n offset step u, new_view v n offset step = Some u ->
    0 < step /\ step * n <= get_n v \/ Nat.gcd step (get_n v) = 1 -> distinct m u.
Proof.
  intros [F M].
  assert (C : forall i, i < get_n v -> cell v i = Some (get_mem v + i)).
  { intros i Hi. rewrite flat_cell by exact F. destruct (Nat.ltb_spec i (get_n v)); [reflexivity|lia]. }
  split.
  - split; [intros i Hi; exists (get_mem v + i); split; [now apply C|lia]|]. intros i j Hi Hj. rewrite !C by assumption.
    intros E. injection E. lia.
  - intros n o s u Hu Hs. unfold new_view in Hu. destruct (Nat.leb_spec n (get_n v)) as [Hn|]; [|discriminate].
    injection Hu. clear Hu. intros <-.
    assert (D : forall i, i < n -> cell (View (mkHdr (get_mem v) (get_mem_len v) n) v o s (get_n v)) i
                                   = Some (get_mem v + (o + s * i) mod get_n v)).
    { intros i Hi. cbn [cell h_n]. destruct (Nat.ltb_spec i n); [|lia]. destruct (Nat.ltb_spec 0 (get_n v)); [|lia]. cbn [andb].
      apply C. apply Nat.mod_upper_bound. lia. }
    set (u0 := View (mkHdr (get_mem v) (get_mem_len v) n) v o s (get_n v)) in *.
    assert (Eu : get_n u0 = n) by reflexivity. unfold distinct. rewrite Eu. clearbody u0. split.
    + intros i Hi. rewrite D by exact Hi. eexists. split; [reflexivity|]. pose proof (Nat.mod_upper_bound (o + s * i) (get_n v)). lia.
    + assert (K : forall i j, i < j < n -> (o + s * i) mod get_n v <> (o + s * j) mod get_n v).
      { intros i j Hij E. apply mod_step in E; [|lia|lia]. destruct Hs as [[Hs1 Hs2]|Hs].
        - apply Nat.divide_pos_le in E; nia.
        - rewrite Nat.gcd_comm in Hs. apply Nat.gauss in E; [|exact Hs]. apply Nat.divide_pos_le in E; lia. }
      intros i j Hi Hj. rewrite !D by assumption. intros E. injection E. intros E'.
      assert (E2 : (o + s * i) mod get_n v = (o + s * j) mod get_n v) by lia.
      destruct (Nat.lt_trichotomy i j) as [H|[H|H]]; [exfalso; apply (K i j); [lia|exact E2]|exact H|].
      exfalso. apply (K j i); [lia|now symmetry].
Qed.
(** Equality compares the elements, on vectors of all classes. *)
Theorem C70_equal w m v u : ~ In None (elements w m v) -> ~ In None (elements w m u) ->
  exists b, veq w m v u = Some b /\ (b = true <-> elements w m v = elements w m u).
Proof.
  intros Hv Hu. unfold veq. destruct (Nat.eqb_spec (get_n v) (get_n u)) as [E|E].
  - destruct (eq_spec w m v u (get_n v) 0) as (b & P & Q).
    + intros j Hj. split; intros Z; [apply Hv|apply Hu]; unfold elements; apply in_map_iff; exists j; (split; [exact Z|]); apply in_seq; lia.
    + exists b. split; [exact P|]. rewrite Q. unfold elements. rewrite <- E. split.
      * intros H. apply map_ext_in. intros j Hj. apply in_seq in Hj. apply H. lia.
      * intros H j Hj. assert (Hs : In j (seq 0 (get_n v))) by (apply in_seq; lia). revert Hs. revert H. clear.
        generalize (seq 0 (get_n v)). induction l as [|a l IH]; [intros _ []|]. cbn [map]. intros H. injection H. intros H1 H2 [->|Hs]; [exact H2|].
        now apply IH.
  - exists false. split; [reflexivity|]. split; [discriminate|]. intros H. apply (f_equal (@length _)) in H. unfold elements in H.
    rewrite !map_length, !seq_length in H. contradiction.
Qed.

(** ** What does not hold *)
Definition Z97 : gfops := Gfops 97 (fun a b => (a + b) mod 97)%N (fun a b => (a + 97 - b) mod 97)%N (fun a b => (a * b) mod 97)%N
  (fun a => (97 - a) mod 97)%N (fun a => a) (fun a b => (a ^ b) mod 97)%N.
(** A vector added to a place after its beginning in the same memory: what was added is added again. *)
Theorem C70_overlap_refuted : exists m v u offset m', within m v /\ within m u /\ offset + get_n u <= get_n v /\
  vadd_at Z97 m v u offset = Some m' /\ ~ combined 32 (g_add Z97) m m' v u offset (get_n u).
Proof.
  exists demo, six, (new_slice six 4 0), 1. eexists. split; [split; cbn; [exact I|lia]|]. split; [split; cbn; [exact I|lia]|].
  split; [cbn; lia|]. split; [vm_compute; reflexivity|]. intros (_ & A & _). destruct (A 1 ltac:(cbn; lia)) as (x & y & P & Q & R).
  vm_compute in P, Q, R. injection P. injection Q. intros <- <-. vm_compute in R. discriminate.
Qed.
(** The operations on the memory change elements of a view that are not those asked for. *)
Theorem C70_view_refuted : exists m u, new_view six 3 1 2 = Some u /\ fits 32 u /\ distinct m u /\
  (exists m', vneg Z97 m u = Some m' /\ vget 32 m' u 2 = vget 32 m u 2 /\ vget 32 m u 2 = Some 15%N /\ peek m' 0 <> peek m 0) /\
  (exists m', vmul_beta Z97 m u 2 = Some m' /\ ~ mapped 32 (fun i x => if i =? 0 then x else g_mul Z97 x (power_of Z97 2 i)) m m' u) /\
  (exists m', vadd Z97 m u (new_slice four 3 0) = Some m' /\ vget 32 m' u 2 = vget 32 m u 2) /\
  (exists m', vhadamard Z97 m u (new_slice four 3 0) = Some m' /\ vget 32 m' u 2 = vget 32 m u 2) /\
  (exists m', vadd Z97 m (new_slice four 3 0) u = Some m' /\ vget 32 m' four 0 <> Some (g_add Z97 20 11)%N).
Proof.
  exists demo. eexists. split; [reflexivity|]. split; [split; [vm_compute; discriminate|exact I]|].
  split; [apply (proj2 (C70_distinct demo six ltac:(split; [exact I|cbn; lia])) 3 1 2); [reflexivity|left; cbn; lia]|].
  split; [eexists; split; [vm_compute; reflexivity|]; repeat split; vm_compute; discriminate|].
  split.
  { eexists. split; [vm_compute; reflexivity|]. intros (_ & A & _). destruct (A 2 ltac:(cbn; lia)) as (x & P & Q).
    vm_compute in P, Q. injection P. intros <-. vm_compute in Q. discriminate. }
  split; [eexists; split; vm_compute; reflexivity|].
  split; [eexists; split; vm_compute; reflexivity|].
  eexists. split; [vm_compute; reflexivity|]. vm_compute. discriminate.
Qed.
(** A view that comes back to a place multiplies it several times. *)
Theorem C70_repeat_refuted : exists m u m', new_view six 6 1 2 = Some u /\ fits 32 u /\
  vmul_scalar Z97 32 m u 2 = Some m' /\ vget 32 m u 0 = Some 11%N /\ vget 32 m' u 0 = Some 44%N.
Proof.
  exists demo. eexists. eexists. split; [reflexivity|]. split; [split; [vm_compute; discriminate|exact I]|].
  split; [vm_compute; reflexivity|]. split; reflexivity.
Qed.
(** Zeros written in, or a scalar multiplied to, a zero-extended vector clear the vector that follows in the memory. *)
Theorem C70_zero_extended_refuted : exists m v other n m' m'', get_mem v + get_n v <= get_mem other /\
  vzero_fill 32 m (new_zero_ext v n) = Some m' /\ vmul_scalar Z97 32 m (new_zero_ext v n) 1 = Some m'' /\
  vget 32 m other 0 = Some 20%N /\ vget 32 m' other 0 = Some 0%N /\ vget 32 m'' other 0 = Some 0%N.
Proof. exists demo, six, four, 8. do 2 eexists. split; [cbn; lia|]. split; [vm_compute; reflexivity|]. split; [vm_compute; reflexivity|]. repeat split. Qed.

(** Concrete cases. *)
Example C70_case_add : within demo six /\ within demo four /\
  vadd_at Z97 demo six four 1 = Some [10; 31; 33; 35; 37; 15; 20; 21; 22; 23]%N /\ vadd Z97 demo six six = Some [20; 22; 24; 26; 28; 30; 20; 21; 22; 23]%N /\
  vadd_mutual_len Z97 demo (new_slice six 3 2) four 1 2 = Some [10; 11; 12; 33; 35; 15; 20; 21; 22; 23]%N.
Proof. repeat split; cbn; lia. Qed.
(** A vector added to itself one place further: the sums of its beginnings. *)
Example C70_case_overlap : vadd_at Z97 demo six (new_slice six 5 0) 1 = Some [10; 21; 33; 46; 60; 75; 20; 21; 22; 23]%N /\
  within demo (new_slice six 5 0) /\ get_mem (new_slice six 5 0) < get_mem six + 1.
Proof. repeat split; cbn; lia. Qed.
Example C70_case_times : exists u, new_view six 6 1 2 = Some u /\ map (times u 0 6) [0; 1; 2; 3; 9] = [0; 2; 0; 2; 0] /\
  vmul_scalar Z97 32 demo u 2 = Some [10; 44; 12; 52; 14; 60; 20; 21; 22; 23]%N.
Proof. eexists. split; [reflexivity|]. split; vm_compute; reflexivity. Qed.
Example C70_case_maps : vneg Z97 demo four = Some [10; 11; 12; 13; 14; 15; 77; 76; 75; 74]%N /\
  vmul_beta Z97 demo four 2 = Some [10; 11; 12; 13; 14; 15; 20; 42; 88; 87]%N /\
  vhadamard Z97 demo four (new_slice six 4 0) = Some [10; 11; 12; 13; 14; 15; 6; 37; 70; 8]%N.
Proof. repeat split. Qed.
Example C70_case_view : exists u, new_view six 3 4 2 = Some u /\ distinct demo u /\ fits 32 u /\
  vmul_scalar Z97 32 demo u 2 = Some [20; 11; 24; 13; 28; 15; 20; 21; 22; 23]%N /\
  vzero_fill 32 demo u = Some [0; 11; 0; 13; 0; 15; 20; 21; 22; 23]%N /\
  veq 32 demo u (new_slice six 3 0) = Some false /\ veq 32 demo (new_zero_ext u 3) u = Some true.
Proof.
  eexists. split; [reflexivity|]. split.
  - apply (proj2 (C70_distinct demo six ltac:(split; [exact I|cbn; lia])) 3 4 2); [reflexivity|left; cbn; lia].
  - split; [split; [vm_compute; discriminate|exact I]|]. repeat split.
Qed.

Print Assumptions C70_add.
Print Assumptions C70_add_part.
Print Assumptions C70_overlap.
Print Assumptions C70_add_sizes.
Print Assumptions C70_hadamard.
Print Assumptions C70_neg.
Print Assumptions C70_beta.
Print Assumptions C70_beta_mod.
Print Assumptions C70_scalar.
Print Assumptions C70_scalar_exact.
Print Assumptions C70_zero.
Print Assumptions C70_distinct.
Print Assumptions C70_equal.
Print Assumptions C70_overlap_refuted.
Print Assumptions C70_view_refuted.
Print Assumptions C70_repeat_refuted.
Print Assumptions C70_zero_extended_refuted.
