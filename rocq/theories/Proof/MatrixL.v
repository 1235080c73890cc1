(** The loops of vec_matrix.h cell by cell. *)
From Coq Require Import List NArith Arith Bool Lia.
From Coq Require FinFun.
From Verif.Model Require Import Common Arith Ring Matrix.
From Verif.Proof Require Import ListP.
Import ListNotations.
Open Scope nat_scope.

Definition mwf (R C : nat) (M : matrix) : Prop := m_rows M = R /\ m_cols M = C /\ length (m_mem M) = R * C.

Lemma mwf_new junk R C : mwf R C (new_matrix junk R C).
Proof. unfold mwf, new_matrix; cbn [m_rows m_cols m_mem]. rewrite repeat_length. auto. Qed.
Lemma mwf_set R C M i j x : mwf R C M -> mwf R C (mset M i j x).
Proof. unfold mwf, mset; cbn [m_rows m_cols m_mem]. rewrite set_length. auto. Qed.
Lemma cell_lt R C i j : i < R -> j < C -> i * C + j < R * C.
Proof. intros. nia. Qed.
Lemma cell_inj C i j i' j' : j < C -> j' < C -> i * C + j = i' * C + j' -> i = i' /\ j = j'.
Proof. intros. assert (i = i') by nia. subst. lia. Qed.
Lemma mget_mset R C M i j x i' j' : mwf R C M -> i < R -> j < C -> i' < R -> j' < C ->
  mget (mset M i j x) i' j' = if (i' =? i) && (j' =? j) then x else mget M i' j'.
Proof.
  intros (H1 & H2 & H3) Hi Hj Hi' Hj'. unfold mget, mset, get. cbn [m_mem m_cols]. rewrite H2.
  destruct ((i' =? i) && (j' =? j)) eqn:E.
  - apply andb_prop in E as [E1 E2]. apply Nat.eqb_eq in E1, E2. subst. apply nth_set_eq. rewrite H3. now apply cell_lt.
  - apply nth_set_neq. intros E'. apply cell_inj in E' as [-> ->]; try assumption.
    rewrite !Nat.eqb_refl in E. discriminate.
Qed.

(** A loop whose turns [c] rewrite the cells of class [c] from the cells of class [c]. *)
Section Local.
Variables (R C : nat) (cl : nat -> nat -> nat) (f : matrix -> nat -> matrix) (val : nat -> nat -> (nat -> nat -> N) -> N).
Hypothesis f_wf : forall M c, mwf R C M -> mwf R C (f M c).
Variable Q : nat -> Prop.
Hypothesis f_get : forall M c i j, mwf R C M -> Q c -> i < R -> j < C ->
  mget (f M c) i j = if cl i j =? c then val i j (mget M) else mget M i j.
Hypothesis val_ext : forall i j m m', i < R -> j < C ->
  (forall i' j', i' < R -> j' < C -> cl i' j' = cl i j -> m i' j' = m' i' j') -> val i j m = val i j m'.

Lemma fold_local cs : forall M, mwf R C M -> NoDup cs -> (forall c, In c cs -> Q c) ->
  mwf R C (fold_left f cs M) /\
  forall i j, i < R -> j < C ->
    mget (fold_left f cs M) i j = if in_dec Nat.eq_dec (cl i j) cs then val i j (mget M) else mget M i j.
Proof.
  induction cs as [|c cs IH]; intros M HM ND HQ; cbn [fold_left].
  - split; [exact HM|]. intros. reflexivity.
  - inversion ND as [|? ? Hc ND']. subst.
    assert (Qc : Q c) by (apply HQ; now left).
    destruct (IH (f M c) (f_wf _ _ HM) ND') as [W E]; [intros; apply HQ; now right|].
    split; [exact W|]. intros i j Hi Hj. rewrite E by assumption.
    destruct (in_dec Nat.eq_dec (cl i j) cs) as [i1|n1].
    + destruct (in_dec Nat.eq_dec (cl i j) (c :: cs)) as [i2|n2]; [|exfalso; apply n2; now right].
      apply val_ext; try assumption. intros i' j' Hi' Hj' Ec. rewrite f_get by assumption.
      destruct (Nat.eqb_spec (cl i' j') c) as [e|]; [|reflexivity]. exfalso. apply Hc. now rewrite <- e, Ec.
    + rewrite f_get by assumption.
      destruct (Nat.eqb_spec (cl i j) c) as [e|ne]; destruct (in_dec Nat.eq_dec (cl i j) (c :: cs)) as [i2|n2]; auto.
      * exfalso. apply n2. now left.
      * exfalso. destruct i2; [now apply ne|]. now apply n1.
Qed.
End Local.

Lemma in_seq0 n x : x < n -> In x (seq 0 n). Proof. intros. apply in_seq. lia. Qed.

(** Rewriting cells of one column per turn. *)
Lemma fold_cols R C (f : matrix -> nat -> matrix) (val : nat -> nat -> (nat -> nat -> N) -> N) M :
  mwf R C M -> (forall M c, mwf R C M -> mwf R C (f M c)) ->
  (forall M c i j, mwf R C M -> c < C -> i < R -> j < C -> mget (f M c) i j = if j =? c then val i j (mget M) else mget M i j) ->
  (forall i j m m', i < R -> j < C -> (forall i', i' < R -> m i' j = m' i' j) -> val i j m = val i j m') ->
  mwf R C (fold_left f (seq 0 C) M) /\ forall i j, i < R -> j < C -> mget (fold_left f (seq 0 C) M) i j = val i j (mget M).
Proof.
  intros HM Hw Hg Hv.
  destruct (fold_local R C (fun _ j => j) f val Hw (fun c => c < C) Hg) with (cs := seq 0 C) (M := M) as [W E]; auto.
  - apply seq_NoDup.
  - intros c Hc. apply in_seq in Hc. lia.
  - split; [exact W|]. intros i j Hi Hj. rewrite E by assumption.
    destruct (in_dec Nat.eq_dec j (seq 0 C)) as [|n]; [reflexivity|]. exfalso. apply n. now apply in_seq0.
Qed.
Lemma fold_rows R C (f : matrix -> nat -> matrix) (val : nat -> nat -> (nat -> nat -> N) -> N) rs M :
  mwf R C M -> (forall M c, mwf R C M -> mwf R C (f M c)) -> NoDup rs -> (forall r, In r rs -> r < R) ->
  (forall M r i j, mwf R C M -> r < R -> i < R -> j < C -> mget (f M r) i j = if i =? r then val i j (mget M) else mget M i j) ->
  (forall i j m m', i < R -> j < C -> (forall j', j' < C -> m i j' = m' i j') -> val i j m = val i j m') ->
  mwf R C (fold_left f rs M) /\ forall i j, i < R -> j < C ->
    mget (fold_left f rs M) i j = if in_dec Nat.eq_dec i rs then val i j (mget M) else mget M i j.
Proof.
  intros HM Hw ND Hr Hg Hv.
  destruct (fold_local R C (fun i _ => i) f val Hw (fun c => c < R) Hg) with (cs := rs) (M := M) as [W E]; auto.
Qed.

Ltac two_sets := repeat match goal with |- context[?a =? ?b] => destruct (Nat.eqb_spec a b); subst; cbn [andb]; try lia; try congruence end.

Lemma fill_spec R C M f : mwf R C M -> mwf R C (fill M f) /\ forall i j, i < R -> j < C -> mget (fill M f) i j = f i j.
Proof.
  intros HM. assert (HM' := HM). destruct HM' as (E1 & E2 & E3). unfold fill. rewrite E1.
  assert (Row : forall M i, mwf R C M -> mwf R C (fold_left (fun M j => mset M i j (f i j)) (seq 0 (m_cols M)) M)).
  { intros M0 i H0. destruct H0 as (A1 & A2 & A3). rewrite A2.
    assert (G : forall js M, mwf R C M -> mwf R C (fold_left (fun M j => mset M i j (f i j)) js M)).
    { induction js; intros M1 H1; cbn; [exact H1|]. apply IHjs. now apply mwf_set. }
    apply G. now split. }
  destruct (fold_rows R C (fun M i => fold_left (fun M j => mset M i j (f i j)) (seq 0 (m_cols M)) M) (fun i j _ => f i j) (seq 0 R) M) as [W E]; auto.
  - apply seq_NoDup.
  - intros r Hr. apply in_seq in Hr. lia.
  - intros M0 r i j H0 Hr Hi Hj. assert (A2 := H0). destruct A2 as (_ & A2 & _). rewrite A2.
    destruct (fold_cols R C (fun M j => mset M r j (f r j)) (fun i j m => if i =? r then f r j else m i j) M0) as [_ E0]; auto.
    + intros; now apply mwf_set.
    + intros. rewrite (mget_mset R C) by assumption. now two_sets.
    + intros. destruct (i0 =? r); auto.
    + rewrite E0 by assumption. now two_sets.
  - split; [exact W|]. intros i j Hi Hj. rewrite E by assumption.
    destruct (in_dec Nat.eq_dec i (seq 0 R)) as [|n]; [reflexivity|]. exfalso. apply n. now apply in_seq0.
Qed.

Section Ops.
Variables (R C : nat) (G : gfops) (gdiv : N -> N -> N).

Lemma swap_rows_spec M a b : mwf R C M -> a < R -> b < R -> mwf R C (swap_rows M a b) /\
  forall i j, i < R -> j < C -> mget (swap_rows M a b) i j = if i =? a then mget M b j else if i =? b then mget M a j else mget M i j.
Proof.
  intros HM Ha Hb. unfold swap_rows. assert (A2 := HM). destruct A2 as (_ & A2 & _). rewrite A2.
  destruct (fold_cols R C (fun M j => let tmp := mget M a j in mset (mset M a j (mget M b j)) b j tmp)
     (fun i j m => if i =? a then m b j else if i =? b then m a j else m i j) M) as [W E]; auto.
  - intros; cbn zeta; now repeat apply mwf_set.
  - intros M0 c i j H0 Hc Hi Hj. cbn zeta. rewrite !(mget_mset R C) by (auto using mwf_set). now two_sets.
  - intros i j m m' Hi Hj H. two_sets; auto.
Qed.
Lemma mul_row_spec M r x : mwf R C M -> r < R -> mwf R C (mul_row G M r x) /\
  forall i j, i < R -> j < C -> mget (mul_row G M r x) i j = if i =? r then g_mul G (mget M r j) x else mget M i j.
Proof.
  intros HM Ha. unfold mul_row. assert (A2 := HM). destruct A2 as (_ & A2 & _). rewrite A2.
  destruct (fold_cols R C (fun M j => mset M r j (g_mul G (mget M r j) x))
     (fun i j m => if i =? r then g_mul G (m r j) x else m i j) M) as [W E]; auto.
  - intros; now apply mwf_set.
  - intros M0 c i j H0 Hc Hi Hj. rewrite !(mget_mset R C) by (auto using mwf_set). now two_sets.
  - intros i j m m' Hi Hj H. two_sets; auto. now rewrite H.
Qed.
Lemma add_rows_spec M s d x : mwf R C M -> s < R -> d < R -> mwf R C (add_rows G M s d x) /\
  forall i j, i < R -> j < C -> mget (add_rows G M s d x) i j =
    if i =? d then g_add G (mget M d j) (g_mul G (mget M s j) x) else mget M i j.
Proof.
  intros HM Hs Hd. unfold add_rows. assert (A2 := HM). destruct A2 as (_ & A2 & _). rewrite A2.
  destruct (fold_cols R C (fun M j => mset M d j (g_add G (mget M d j) (g_mul G (mget M s j) x)))
     (fun i j m => if i =? d then g_add G (m d j) (g_mul G (m s j) x) else m i j) M) as [W E]; auto.
  - intros; now apply mwf_set.
  - intros M0 c i j H0 Hc Hi Hj. rewrite !(mget_mset R C) by (auto using mwf_set). now two_sets.
  - intros i j m m' Hi Hj H. two_sets; auto. now rewrite !H.
Qed.
Lemma ec1_spec M c : mwf R C M -> c < C -> mwf R C (ec_transform1 G M c) /\
  forall i j, i < R -> j < C -> mget (ec_transform1 G M c) i j = if j =? c then g_mul G (g_inv G (mget M c c)) (mget M i c) else mget M i j.
Proof.
  intros HM Ha. unfold ec_transform1. assert (A2 := HM). destruct A2 as (A1 & A2 & _). rewrite A1. set (x := g_inv G _).
  destruct (fold_rows R C (fun M k => mset M k c (g_mul G x (mget M k c)))
     (fun i j m => if j =? c then g_mul G x (m i c) else m i j) (seq 0 R) M) as [W E]; auto.
  - intros; now apply mwf_set.
  - apply seq_NoDup.
  - intros r Hr. apply in_seq in Hr. lia.
  - intros M0 r i j H0 Hc Hi Hj. rewrite !(mget_mset R C) by (auto using mwf_set). now two_sets.
  - intros i j m m' Hi Hj H. two_sets; auto. now rewrite H.
  - split; [exact W|]. intros i j Hi Hj. rewrite E by assumption.
    destruct (in_dec Nat.eq_dec i (seq 0 R)) as [|n]; [reflexivity|]. exfalso. apply n. now apply in_seq0.
Qed.
Lemma ec2_spec M s d : mwf R C M -> s < C -> d < C -> mwf R C (ec_transform2 G M s d) /\
  forall i j, i < R -> j < C -> mget (ec_transform2 G M s d) i j =
    if j =? d then g_sub G (mget M i d) (g_mul G (mget M s d) (mget M i s)) else mget M i j.
Proof.
  intros HM Hs Hd. unfold ec_transform2. assert (A2 := HM). destruct A2 as (A1 & A2 & _). rewrite A1. set (x := mget M s d).
  destruct (fold_rows R C (fun M k => mset M k d (g_sub G (mget M k d) (g_mul G x (mget M k s))))
     (fun i j m => if j =? d then g_sub G (m i d) (g_mul G x (m i s)) else m i j) (seq 0 R) M) as [W E]; auto.
  - intros; now apply mwf_set.
  - apply seq_NoDup.
  - intros r Hr. apply in_seq in Hr. lia.
  - intros M0 r i j H0 Hc Hi Hj. rewrite !(mget_mset R C) by (auto using mwf_set). now two_sets.
  - intros i j m m' Hi Hj H. two_sets; auto. now rewrite !H.
  - split; [exact W|]. intros i j Hi Hj. rewrite E by assumption.
    destruct (in_dec Nat.eq_dec i (seq 0 R)) as [|n]; [reflexivity|]. exfalso. apply n. now apply in_seq0.
Qed.

(** ** Pivots *)
Lemma find_pivot_spec M j : forall fuel row, let p := find_pivot M j row fuel in
  row <= p <= row + fuel /\ (forall i, row <= i < p -> mget M i j = 0%N) /\ (p < row + fuel -> mget M p j <> 0%N).
Proof.
  induction fuel as [|f IH]; intros row; cbn [find_pivot]; cbn zeta.
  - repeat split; lia.
  - destruct (N.eqb_spec (mget M row j) 0) as [e|ne].
    + destruct (IH (S row)) as (H1 & H2 & H3). cbn zeta in *. split; [lia|]. split.
      * intros i Hi. destruct (Nat.eq_dec i row) as [->|]; [exact e|]. apply H2. lia.
      * intros. apply H3. lia.
    + split; [lia|]. split; [intros; lia|auto].
Qed.
Lemma find_pivot_col_spec M i : forall fuel col, let p := find_pivot_col M i col fuel in
  col <= p <= col + fuel /\ (forall j, col <= j < p -> mget M i j = 0%N) /\ (p < col + fuel -> mget M i p <> 0%N).
Proof.
  induction fuel as [|f IH]; intros col; cbn [find_pivot_col]; cbn zeta.
  - repeat split; lia.
  - destruct (N.eqb_spec (mget M i col) 0) as [e|ne].
    + destruct (IH (S col)) as (H1 & H2 & H3). cbn zeta in *. split; [lia|]. split.
      * intros j Hj. destruct (Nat.eq_dec j col) as [->|]; [exact e|]. apply H2. lia.
      * intros. apply H3. lia.
    + split; [lia|]. split; [intros; lia|auto].
Qed.
End Ops.

(** The augmented matrix of vec_matrix.h:238-244. *)
Lemma augment_spec n junk M : mwf n n M ->
  let t := fold_left (fun t i => fold_left (fun t j =>
                    mset (mset t i j (mget M i j)) i (j + n) (delta i j)) (seq 0 n) t) (seq 0 n) (new_matrix junk n (n * 2)) in
  mwf n (n * 2) t /\ forall i j, i < n -> j < n -> mget t i j = mget M i j /\ mget t i (j + n) = delta i j.
Proof.
  intros HM. cbn zeta.
  set (g := fun i t j => mset (mset t i j (mget M i j)) i (j + n) (delta i j)).
  assert (Hin : forall i js t, mwf n (n * 2) t -> i < n -> (forall j, In j js -> j < n) -> NoDup js ->
     mwf n (n * 2) (fold_left (g i) js t) /\
     forall i' j', i' < n -> j' < n ->
       mget (fold_left (g i) js t) i' j' = (if (i' =? i) && (if in_dec Nat.eq_dec j' js then true else false) then mget M i' j' else mget t i' j') /\
       mget (fold_left (g i) js t) i' (j' + n) = (if (i' =? i) && (if in_dec Nat.eq_dec j' js then true else false) then delta i' j' else mget t i' (j' + n))).
  { intros i js. induction js as [|j js IH]; intros t Ht Hi Hjs ND; cbn [fold_left].
    - split; [exact Ht|]. intros i' j' Hi' Hj'. rewrite !andb_false_r. auto.
    - inversion ND as [|? ? Hj ND']. subst. assert (jn : j < n) by (apply Hjs; now left).
      destruct (IH (g i t j)) as [W E]; auto; [unfold g; now repeat apply mwf_set|intros; apply Hjs; now right|].
      split; [exact W|]. intros i' j' Hi' Hj'. destruct (E i' j' Hi' Hj') as [-> ->]. unfold g.
      rewrite !(mget_mset n (n * 2)) by (auto using mwf_set; lia).
      assert (D : forall (A : Type) (a b : A), (if in_dec Nat.eq_dec j' (j :: js) then a else b) =
                  if j' =? j then a else if in_dec Nat.eq_dec j' js then a else b).
      { intros A a b. destruct (in_dec Nat.eq_dec j' (j :: js)) as [i1|n1]; destruct (Nat.eqb_spec j' j); subst; auto.
        - destruct i1; [congruence|]. destruct (in_dec Nat.eq_dec j' js); [reflexivity|contradiction].
        - exfalso. apply n1. now left.
        - destruct (in_dec Nat.eq_dec j' js); [|reflexivity]. exfalso. apply n1. now right. }
      rewrite !D. destruct (in_dec Nat.eq_dec j' js) as [i1|n1]; two_sets; auto. }
  assert (Hout : forall is t, mwf n (n * 2) t -> (forall i, In i is -> i < n) -> NoDup is ->
     mwf n (n * 2) (fold_left (fun t i => fold_left (g i) (seq 0 n) t) is t) /\
     forall i' j', i' < n -> j' < n -> In i' is ->
       mget (fold_left (fun t i => fold_left (g i) (seq 0 n) t) is t) i' j' = mget M i' j' /\
       mget (fold_left (fun t i => fold_left (g i) (seq 0 n) t) is t) i' (j' + n) = delta i' j').
  { assert (Keep : forall is t i' j', mwf n (n * 2) t -> (forall i, In i is -> i < n) -> ~ In i' is -> i' < n -> j' < n ->
       mwf n (n * 2) (fold_left (fun t i => fold_left (g i) (seq 0 n) t) is t) /\
       mget (fold_left (fun t i => fold_left (g i) (seq 0 n) t) is t) i' j' = mget t i' j' /\
       mget (fold_left (fun t i => fold_left (g i) (seq 0 n) t) is t) i' (j' + n) = mget t i' (j' + n)).
    { induction is as [|i is IH]; intros t i' j' Ht His Hn Hi' Hj'; cbn [fold_left]; [auto|].
      destruct (Hin i (seq 0 n) t Ht) as [W E]; [apply His; now left|intros j H; apply in_seq in H; lia|apply seq_NoDup|].
      destruct (IH (fold_left (g i) (seq 0 n) t) i' j' W) as (W' & E1 & E2); auto; [intros; apply His; now right|intros H; apply Hn; now right|].
      split; [exact W'|]. rewrite E1, E2. destruct (E i' j' Hi' Hj') as [-> ->].
      destruct (Nat.eqb_spec i' i) as [->|]; [exfalso; apply Hn; now left|]. auto. }
    induction is as [|i is IH]; intros t Ht His ND; cbn [fold_left]; [split; [exact Ht|intros ? ? ? ? []]|].
    inversion ND as [|? ? Hi ND']. subst.
    destruct (Hin i (seq 0 n) t Ht) as [W E]; [apply His; now left|intros j H; apply in_seq in H; lia|apply seq_NoDup|].
    destruct (IH (fold_left (g i) (seq 0 n) t) W) as [W' E']; auto; [intros; apply His; now right|].
    split; [exact W'|]. intros i' j' Hi' Hj' [->|Hin'].
    - destruct (Keep is (fold_left (g i') (seq 0 n) t) i' j' W) as (_ & E1 & E2); auto; [intros; apply His; now right|].
      rewrite E1, E2. destruct (E i' j' Hi' Hj') as [-> ->]. rewrite Nat.eqb_refl.
      destruct (in_dec Nat.eq_dec j' (seq 0 n)) as [|n1]; [auto|]. exfalso. apply n1. now apply in_seq0.
    - now apply E'. }
  destruct (Hout (seq 0 n) (new_matrix junk n (n * 2))) as [W E].
  - apply mwf_new.
  - intros i Hi. apply in_seq in Hi. lia.
  - apply seq_NoDup.
  - split; [exact W|]. intros i j Hi Hj. apply E; auto. now apply in_seq0.
Qed.

(** ** Products, vec_matrix.h:387-404 *)
Section Mul.
Variables (G : gfops) (R C : nat).
Definition row_val (M : matrix) (v : list N) (i : nat) : N :=
  fold_left (fun acc j => let x := g_mul G (mget M i j) (get 0%N v j) in if 0 =? j then x else g_add G acc x) (seq 0 C) 0%N.
Lemma mmul_spec M out v : mwf R C M -> 0 < C -> length v = C -> length out = R ->
  mmul G M out v = Some (map (row_val M v) (seq 0 R)).
Proof.
  intros (E1 & E2 & E3) HC Lv Lo. unfold mmul. rewrite E1, E2, Lv, Lo, !Nat.eqb_refl. cbn [andb]. f_equal.
  set (X := fun i j => g_mul G (mget M i j) (get 0%N v j)).
  set (st := fun i out j => let x := X i j in if 0 =? j then set out i x else set out i (g_add G (get 0%N out i) x)).
  assert (In1 : forall i js out, i < length out -> fold_left (st i) js out =
     set out i (fold_left (fun acc j => let x := X i j in if 0 =? j then x else g_add G acc x) js (get 0%N out i))).
  { intros i js. induction js as [|j js IH]; intros o Ho; cbn [fold_left].
    - unfold get. now rewrite set_nth.
    - unfold st at 2. cbn zeta.
      assert (Ho2 : forall y, i < length (set o i y)) by (intros; now rewrite set_length).
      assert (S2 : forall a b, set (set o i a) i b = set o i b).
      { intros a b. apply (list_ext _ 0%N); [now rewrite !set_length|]. intros k Hk. rewrite !set_length in Hk.
        destruct (Nat.eq_dec k i) as [->|]; [now rewrite !nth_set_eq|now rewrite !nth_set_neq]. }
      destruct (0 =? j); rewrite IH by auto; rewrite S2; unfold get at 1; rewrite nth_set_eq by auto; reflexivity. }
  assert (In2 : forall i out, i < length out -> fold_left (st i) (seq 0 C) out = set out i (row_val M v i)).
  { intros i o Ho. rewrite In1 by auto. f_equal. unfold row_val. destruct C; [lia|]. reflexivity. }
  transitivity (fold_left (fun out i => set out i (row_val M v i)) (seq 0 R) out).
  - assert (K : forall is o, (forall i, In i is -> i < length o) ->
       fold_left (fun out i => fold_left (st i) (seq 0 C) out) is o = fold_left (fun out i => set out i (row_val M v i)) is o).
    { induction is as [|i is IH]; intros o Ho; [reflexivity|]. cbn [fold_left]. rewrite In2 by (apply Ho; now left).
      apply IH. intros k Hk. rewrite set_length. apply Ho. now right. }
    apply K. intros i Hi. apply in_seq in Hi. lia.
  - destruct (fold_set_fill _ 0%N (row_val M v) (seq 0 R) out) as [L H].
    apply (list_ext _ 0%N); [rewrite L, map_length, seq_length; auto|]. intros i Hi. rewrite L, Lo in Hi.
    rewrite nth_map_seq by auto. apply H; [now apply in_seq0|lia].
Qed.
End Mul.

(** ** The decoding matrix *)
Section Dec.
Variables (k m : nat).
Lemma set_row_spec (f : nat -> N) D idx : mwf k k D -> idx < k ->
  mwf k k (fold_left (fun D j => mset D idx j (f j)) (seq 0 k) D) /\
  forall i j, i < k -> j < k -> mget (fold_left (fun D j => mset D idx j (f j)) (seq 0 k) D) i j = if i =? idx then f j else mget D i j.
Proof.
  intros HD Hi.
  apply (fold_cols k k (fun D j => mset D idx j (f j)) (fun i j mm => if i =? idx then f j else mm i j) D); auto.
  - intros; now apply mwf_set.
  - intros. rewrite (mget_mset k k) by assumption. now two_sets.
  - intros. destruct (i =? idx); auto.
Qed.

Lemma data_fold data l : forall D idx, mwf k k D -> idx + length (filter data l) <= k ->
  exists D', fold_left (fun s i => let '(D, idx) := s in if data i then (decode_add_data k D idx i, S idx) else s) l (D, idx) =
     (D', idx + length (filter data l)) /\ mwf k k D' /\
  (forall i j, i < idx -> j < k -> mget D' i j = mget D i j) /\
  (forall t j, t < length (filter data l) -> j < k -> mget D' (idx + t) j = delta (nth t (filter data l) 0) j).
Proof.
  induction l as [|a l IH]; intros D idx HD Hl; cbn [fold_left filter] in *.
  - exists D. cbn [length]. rewrite Nat.add_0_r. split; [reflexivity|]. split; [exact HD|]. split; intros; [reflexivity|lia].
  - destruct (data a).
    + cbn [length] in *. destruct (set_row_spec (fun j => delta a j) D idx HD ltac:(lia)) as [W E].
      destruct (IH (decode_add_data k D idx a) (S idx) W ltac:(lia)) as (D' & E' & W' & K' & N').
      exists D'. rewrite E'. split; [f_equal; lia|]. split; [auto|]. split.
      * intros i j Hi Hj. rewrite K' by lia. unfold decode_add_data. rewrite E by lia. now two_sets.
      * intros [|t] j Ht Hj; cbn [nth].
        -- rewrite Nat.add_0_r, K' by lia. unfold decode_add_data. rewrite E by lia. now two_sets.
        -- replace (idx + S t) with (S idx + t) by lia. apply N'; lia.
    + destruct (IH D idx HD Hl) as (D' & E' & W' & K' & N'). exists D'. auto.
Qed.
Lemma data_spec data D : mwf k k D -> exists D', add_all_data k data D = (D', length (filter data (seq 0 k))) /\ mwf k k D' /\
  forall t j, t < length (filter data (seq 0 k)) -> j < k -> mget D' t j = delta (nth t (filter data (seq 0 k)) 0) j.
Proof.
  intros HD. assert (L : length (filter data (seq 0 k)) <= k).
  { assert (G : forall l, length (filter data l) <= length l) by (induction l as [|a l IH]; cbn; [lia|destruct (data a); cbn; lia]).
    specialize (G (seq 0 k)). now rewrite seq_length in G. }
  destruct (data_fold data (seq 0 k) D 0 HD) as (D' & E & W & _ & N); [lia|]. exists D'. auto.
Qed.

Variable mat : matrix.
Hypothesis Hmat : mwf m k mat.
Lemma par_fold par l : forall D idx, mwf k k D -> idx <= k ->
  let u := firstn (k - idx) (filter par l) in
  exists D', fold_left (fun s i => let '(D, idx) := s in
      if idx <? k then (if par i : bool then (decode_add_parities mat D idx i, S idx) else s) else s) l (D, idx) =
     (D', idx + length u) /\ mwf k k D' /\
  (forall i j, i < idx -> j < k -> mget D' i j = mget D i j) /\
  (forall t j, t < length u -> j < k -> mget D' (idx + t) j = mget mat (nth t u 0) j).
Proof.
  induction l as [|a l IH]; intros D idx HD Hl; cbn [fold_left filter].
  - exists D. cbn zeta. rewrite firstn_nil. cbn [length]. rewrite Nat.add_0_r. split; [reflexivity|]. split; [exact HD|]. split; intros; [reflexivity|lia].
  - cbn zeta. destruct (Nat.ltb_spec idx k) as [Hlt|Hge].
    + destruct (par a).
      * destruct (set_row_spec (fun j => mget mat a j) D idx HD Hlt) as [W E].
        assert (EQ : decode_add_parities mat D idx a = fold_left (fun D j => mset D idx j (mget mat a j)) (seq 0 k) D).
        { unfold decode_add_parities. destruct Hmat as (_ & -> & _). reflexivity. }
        rewrite <- EQ in W, E.
        destruct (IH (decode_add_parities mat D idx a) (S idx) W Hlt) as (D' & E' & W' & K' & N'). cbn zeta in *.
        replace (k - idx) with (S (k - S idx)) by lia. cbn [firstn length].
        exists D'. rewrite E'. split; [f_equal; lia|]. split; [auto|]. split.
        -- intros i j Hi Hj. rewrite K' by lia. rewrite E by lia. now two_sets.
        -- intros [|t] j Ht Hj; cbn [nth].
           ++ rewrite Nat.add_0_r, K' by lia. rewrite E by lia. now two_sets.
           ++ replace (idx + S t) with (S idx + t) by lia. apply N'; lia.
      * destruct (IH D idx HD Hl) as (D' & E' & W' & K' & N'). exists D'. auto.
    + destruct (IH D idx HD Hl) as (D' & E' & W' & K' & N'). cbn zeta in *. replace (k - idx) with 0 in * by lia. cbn [firstn] in *.
      exists D'. auto.
Qed.

Lemma filter_len (A : Type) (f : A -> bool) l : length (filter f l) <= length l.
Proof. induction l as [|a l IH]; cbn; [lia|destruct (f a); cbn; lia]. Qed.
Lemma used_len data par : length (used_ids k m data par) <= k.
Proof.
  unfold used_ids. cbn zeta. rewrite app_length, map_length, firstn_length.
  pose proof (filter_len _ data (seq 0 k)) as H. rewrite seq_length in H. lia.
Qed.
Lemma build_spec G gdiv junk D0 data par : mwf k k D0 ->
  let d := filter data (seq 0 k) in let ids := used_ids k m data par in
  (length d = k -> decode_build G gdiv junk mat D0 k m data par = Some Clear) /\
  (length d <> k -> length ids < k -> decode_build G gdiv junk mat D0 k m data par = Some TooFew) /\
  (length d <> k -> length ids = k -> exists D, mwf k k D /\
     decode_build G gdiv junk mat D0 k m data par =
       match minv G gdiv junk D with None => None | Some None => Some Thrown | Some (Some B) => Some (Decode B) end /\
     forall t j, t < k -> j < k -> mget D t j = if nth t ids 0 <? k then delta (nth t ids 0) j else mget mat (nth t ids 0 - k) j).
Proof.
  intros HD. cbn zeta. unfold decode_build. destruct (data_spec data D0 HD) as (D1 & -> & W1 & N1).
  unfold used_ids. cbn zeta. set (d := filter data (seq 0 k)) in *.
  pose proof (filter_len _ data (seq 0 k)) as Hd. rewrite seq_length in Hd. fold d in Hd.
  destruct (Nat.eqb_spec (length d) k) as [e|ne]; [split; [auto|]; split; intros; congruence|].
  split; [congruence|].
  destruct (par_fold par (seq 0 m) D1 (length d) W1 Hd) as (D2 & E2 & W2 & K2 & N2). cbn zeta in *.
  unfold add_all_parities. rewrite E2. set (u := firstn (k - length d) (filter par (seq 0 m))) in *.
  rewrite app_length, map_length. split.
  - intros _ H. now destruct (Nat.ltb_spec (length d + length u) k); [|lia].
  - intros _ H. destruct (Nat.ltb_spec (length d + length u) k); [lia|]. exists D2. split; [auto|]. split; [reflexivity|].
    intros t j Ht Hj. destruct (Nat.ltb_spec t (length d)) as [Hlt|Hge].
    + rewrite app_nth1 by auto. rewrite K2, N1 by auto.
      assert (X : In (nth t d 0) d) by (apply nth_In; auto). apply filter_In in X as [X _]. apply in_seq in X.
      destruct (Nat.ltb_spec (nth t d 0) k); [reflexivity|lia].
    + rewrite app_nth2 by auto. rewrite (nth_indep _ 0 (k + 0)) by (rewrite map_length; lia).
      rewrite map_nth. destruct (Nat.ltb_spec (k + nth (t - length d) u 0) k); [lia|].
      replace (k + nth (t - length d) u 0 - k) with (nth (t - length d) u 0) by lia.
      rewrite <- N2 by lia. f_equal. lia.
Qed.

(** The fragments in use. *)
Lemma used_valid data par x : In x (used_ids k m data par) ->
  (x < k /\ data x = true) \/ (k <= x < k + m /\ par (x - k) = true).
Proof.
  unfold used_ids. cbn zeta. rewrite in_app_iff. intros [H|H].
  - apply filter_In in H as [H1 H2]. apply in_seq in H1. left. split; [lia|auto].
  - apply in_map_iff in H as (y & <- & H). assert (Hy : In y (filter par (seq 0 m))).
    { revert H. generalize (k - length (filter data (seq 0 k))). generalize (filter par (seq 0 m)).
      induction l as [|a l IH]; intros [|n]; cbn; auto; [tauto|]. intros [->|H]; [auto|]. right. eapply IH; eauto. }
    apply filter_In in Hy as [H1 H2]. apply in_seq in H1. right. replace (k + y - k) with y by lia. split; [lia|auto].
Qed.
Lemma used_NoDup data par : NoDup (used_ids k m data par).
Proof.
  assert (App : forall l1 l2 : list nat, NoDup l1 -> NoDup l2 -> (forall x, In x l1 -> ~ In x l2) -> NoDup (l1 ++ l2)).
  { induction l1 as [|a l1 IH]; intros l2 H1 H2 H; cbn; [auto|]. inversion H1; subst. constructor.
    - rewrite in_app_iff. intros [X|X]; [contradiction|]. apply (H a); [now left|auto].
    - apply IH; auto. intros x Hx. apply H. now right. }
  unfold used_ids. cbn zeta. apply App.
  - apply NoDup_filter, seq_NoDup.
  - apply FinFun.Injective_map_NoDup; [intros x y Hxy; lia|].
    assert (NoDup (filter par (seq 0 m))) as Hn by apply NoDup_filter, seq_NoDup. revert Hn.
    generalize (k - length (filter data (seq 0 k))). generalize (filter par (seq 0 m)).
    induction l as [|a l IH]; intros [|n] Hn; cbn; try constructor.
    + inversion Hn; subst. intros X. apply H1. clear - X. revert n X. induction l as [|b l IH]; intros [|n]; cbn; auto; [tauto|].
      intros [->|X]; [auto|]. right. eauto.
    + inversion Hn; subst. now apply IH.
  - intros x Hx Hx'. apply filter_In in Hx as [Hx _]. apply in_seq in Hx. apply in_map_iff in Hx' as (y & <- & _). lia.
Qed.
End Dec.

(** ** vec_matrix.h:406-430 *)
Section Cauchy.
Variables (G : gfops) (gdiv : N -> N -> N) (R C : nat).
Definition cau_a (i j : nat) : N := g_inv G (g_add G (N.of_nat i) (N.of_nat (j + R))).
Definition cau_b (i j : nat) : N :=
  let d := gdiv (cau_a 0 j) (cau_a 0 j) in if i =? 0 then d else gdiv (cau_a i j) d.
Definition cau_c (i j : nat) : N :=
  let d := gdiv (cau_b i 0) (cau_b i 0) in if i =? 0 then cau_b i j else if j =? 0 then d else gdiv (cau_b i j) d.

Lemma col_div rs c : forall M, mwf R C M -> 0 < R -> c < C -> (forall r, In r rs -> 0 < r < R) -> NoDup rs ->
  let M' := fold_left (fun M i => mset M i c (gdiv (mget M i c) (mget M 0 c))) rs M in
  mwf R C M' /\ forall i j, i < R -> j < C ->
    mget M' i j = if (j =? c) && (if in_dec Nat.eq_dec i rs then true else false) then gdiv (mget M i c) (mget M 0 c) else mget M i j.
Proof.
  induction rs as [|r rs IH]; intros M HM HR Hc Hr ND; cbn [fold_left]; cbn zeta.
  - split; [auto|]. intros. now rewrite andb_false_r.
  - inversion ND as [|? ? Hn ND']; subst. assert (Hr0 := Hr r (or_introl eq_refl)).
    destruct (IH (mset M r c (gdiv (mget M r c) (mget M 0 c)))) as [W E]; auto; [now apply mwf_set|intros; apply Hr; now right|].
    split; [exact W|]. intros i j Hi Hj. cbn zeta in E. rewrite E by auto. rewrite !(mget_mset R C) by (auto; lia).
    destruct (in_dec Nat.eq_dec i (r :: rs)) as [i1|n1]; destruct (in_dec Nat.eq_dec i rs) as [i2|n2]; two_sets; auto.
    + destruct i1; [congruence|contradiction].
    + exfalso. apply n1. now right.
    + exfalso. apply n1. now left.
Qed.
Lemma row_div cs r : forall M, mwf R C M -> r < R -> 0 < C -> (forall c, In c cs -> 0 < c < C) -> NoDup cs ->
  let M' := fold_left (fun M j => mset M r j (gdiv (mget M r j) (mget M r 0))) cs M in
  mwf R C M' /\ forall i j, i < R -> j < C ->
    mget M' i j = if (i =? r) && (if in_dec Nat.eq_dec j cs then true else false) then gdiv (mget M r j) (mget M r 0) else mget M i j.
Proof.
  induction cs as [|c cs IH]; intros M HM Hr HC Hc ND; cbn [fold_left]; cbn zeta.
  - split; [auto|]. intros. now rewrite andb_false_r.
  - inversion ND as [|? ? Hn ND']; subst. assert (Hc0 := Hc c (or_introl eq_refl)).
    destruct (IH (mset M r c (gdiv (mget M r c) (mget M r 0)))) as [W E]; auto; [now apply mwf_set|intros; apply Hc; now right|].
    split; [exact W|]. intros i j Hi Hj. cbn zeta in E. rewrite E by auto. rewrite !(mget_mset R C) by (auto; lia).
    destruct (in_dec Nat.eq_dec j (c :: cs)) as [i1|n1]; destruct (in_dec Nat.eq_dec j cs) as [i2|n2]; two_sets; auto.
    + destruct i1; [congruence|contradiction].
    + exfalso. apply n1. now right.
    + exfalso. apply n1. now left.
Qed.

Lemma cauchy_spec M : mwf R C M -> 0 < R -> 0 < C -> mwf R C (cauchy G gdiv M) /\
  forall i j, i < R -> j < C -> mget (cauchy G gdiv M) i j = cau_c i j.
Proof.
  intros HM HR HC. assert (HM' := HM). destruct HM' as (E1 & E2 & _). unfold cauchy.
  destruct (fill_spec R C M (fun i j => g_inv G (g_add G (N.of_nat i) (N.of_nat (j + m_rows M)))) HM) as [W1 F1].
  set (M1 := fill M _) in *. rewrite E1 in F1.
  assert (A2 : m_cols M1 = C) by apply W1. rewrite A2.
  set (f2 := fun M j => fold_left (fun M i => mset M i j (gdiv (mget M i j) (mget M 0 j))) (seq 0 (m_rows M)) M).
  assert (S2 : forall M c, mwf R C M -> c < C -> mwf R C (f2 M c) /\ forall i j, i < R -> j < C ->
     mget (f2 M c) i j = if j =? c then (let d := gdiv (mget M 0 j) (mget M 0 j) in if i =? 0 then d else gdiv (mget M i j) d) else mget M i j).
  { intros M0 c H0 Hc. unfold f2. assert (A0 : m_rows M0 = R) by apply H0. rewrite A0.
    replace (seq 0 R) with (0 :: seq 1 (R - 1)) by (destruct R; [lia|]; cbn [seq]; repeat f_equal; lia). cbn [fold_left].
    destruct (col_div (seq 1 (R - 1)) c (mset M0 0 c (gdiv (mget M0 0 c) (mget M0 0 c)))) as [W E]; auto using mwf_set, seq_NoDup.
    { intros r Hr. apply in_seq in Hr. lia. }
    split; [exact W|]. intros i j Hi Hj. cbn zeta in E. rewrite E by auto. rewrite !(mget_mset R C) by (auto; lia).
    destruct (in_dec Nat.eq_dec i (seq 1 (R - 1))) as [i1|n1].
    - apply in_seq in i1. two_sets; auto.
    - assert (i = 0) by (destruct i; [auto|]; exfalso; apply n1; apply in_seq; lia). subst. two_sets; auto. }
  assert (W2' : forall M c, mwf R C M -> mwf R C (f2 M c)).
  { intros M0 c H0. unfold f2. assert (A0 : m_rows M0 = R) by apply H0. rewrite A0. generalize (seq 0 R).
    intros l. revert M0 H0 A0. induction l as [|a l IH]; intros M0 H0 A0; cbn [fold_left]; [auto|]. apply IH; [now apply mwf_set|]. reflexivity || exact A0. }
  destruct (fold_cols R C f2 (fun i j mm => let d := gdiv (mm 0 j) (mm 0 j) in if i =? 0 then d else gdiv (mm i j) d) M1 W1 W2') as [W2 F2].
  { intros M0 c i j H0 Hc Hi Hj. apply S2; auto. }
  { intros i j mm mm' Hi Hj H. cbn zeta. rewrite !(H 0), (H i) by auto. reflexivity. }
  fold f2. set (M2 := fold_left f2 (seq 0 C) M1) in *.
  assert (F2' : forall i j, i < R -> j < C -> mget M2 i j = cau_b i j).
  { intros i j Hi Hj. rewrite F2 by auto. unfold cau_b. cbn zeta. rewrite !F1 by auto. reflexivity. }
  assert (A3 : m_rows M2 = R) by apply W2. rewrite A3.
  set (f3 := fun M i => fold_left (fun M j => mset M i j (gdiv (mget M i j) (mget M i 0))) (seq 0 (m_cols M)) M).
  assert (W3' : forall M c, mwf R C M -> mwf R C (f3 M c)).
  { intros M0 c H0. unfold f3. assert (A0 : m_cols M0 = C) by apply H0. rewrite A0. generalize (seq 0 C).
    intros l. revert M0 H0 A0. induction l as [|a l IH]; intros M0 H0 A0; cbn [fold_left]; [auto|]. apply IH; [now apply mwf_set|]. reflexivity || exact A0. }
  destruct (fold_rows R C f3 (fun i j mm => let d := gdiv (mm i 0) (mm i 0) in if j =? 0 then d else gdiv (mm i j) d) (seq 1 (R - 1)) M2 W2 W3') as [W3 F3].
  { apply seq_NoDup. }
  { intros r Hr. apply in_seq in Hr. lia. }
  { intros M0 r i j H0 Hr Hi Hj. unfold f3. assert (A0 : m_cols M0 = C) by apply H0. rewrite A0.
    replace (seq 0 C) with (0 :: seq 1 (C - 1)) by (clear - HC; destruct C; [lia|]; cbn [seq]; repeat f_equal; lia). cbn [fold_left].
    destruct (row_div (seq 1 (C - 1)) r (mset M0 r 0 (gdiv (mget M0 r 0) (mget M0 r 0)))) as [W E]; auto using mwf_set, seq_NoDup.
    { intros c Hc. apply in_seq in Hc. lia. }
    cbn zeta in E. rewrite E by auto. rewrite !(mget_mset R C) by (auto; lia).
    destruct (in_dec Nat.eq_dec j (seq 1 (C - 1))) as [i1|n1].
    - apply in_seq in i1. two_sets; auto.
    - assert (j = 0) by (destruct j; [auto|]; exfalso; apply n1; apply in_seq; lia). subst. two_sets; auto. }
  { intros i j mm mm' Hi Hj H. cbn zeta. rewrite !(H 0), (H j) by auto. reflexivity. }
  split; [exact W3|]. intros i j Hi Hj. fold f3. rewrite F3 by auto. unfold cau_c. cbn zeta.
  destruct (in_dec Nat.eq_dec i (seq 1 (R - 1))) as [i1|n1].
  - apply in_seq in i1. rewrite !F2' by auto. destruct (Nat.eqb_spec i 0); [lia|reflexivity].
  - assert (i = 0) by (destruct i; [auto|]; exfalso; apply n1; apply in_seq; lia). subst. rewrite F2' by auto. reflexivity.
Qed.
End Cauchy.
