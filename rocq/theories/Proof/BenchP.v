(** The benchmark with a code that gives the data back. *)
From Coq Require Import List NArith Arith Bool Lia Permutation.
From Verif.Model Require Import Common Props Header Prng Bench.
From Verif.Spec Require Import Modular Code Blocks Session Bench.
From Verif.Proof Require Import ListP.
From Verif.Thm Require Import PrngThm.
Import ListNotations.
Open Scope nat_scope.

(** The code gives the data back. *)
Definition coder_back (c : coder) (L : nat) (pat : list bool -> Prop) : Prop :=
  forall t data, blocks (cd_k c) L data ->
  exists frags recs, cd_enc c t data (repeat [] (cd_nc c)) (repeat [] (cd_nc c)) = Some (frags, recs) /\ sized (cd_nc c) L frags /\
  forall t' missing rdata rpar rps, received (cd_sys c) (cd_k c) (cd_m c) missing data frags recs rdata rpar rps ->
    length rdata = cd_k c -> cd_k c <= length (present (cd_k c) (cd_m c) missing) ->
    (cd_sys c = true -> exists j, j < cd_k c /\ nth j missing true = true) -> pat missing ->
    cd_dec c t' rdata rpar rps missing (repeat true (cd_k c)) (repeat [] (cd_k c)) = Some (true, data).

Lemma buf_write_exact old b : length b = length old -> buf_write old b = b.
Proof. intros E. unfold buf_write. rewrite <- E, firstn_app, Nat.sub_diag, firstn_all. cbn. apply app_nil_r. Qed.

Lemma map_get n L (b : list (list N)) : sized n L b -> map (fun i => get [] b i) (seq 0 n) = b.
Proof.
  intros (Lb & _). apply nth_ext with (d := []) (d' := []); [now rewrite map_length, seq_length|].
  intros i Hi. rewrite map_length, seq_length in Hi. now rewrite nth_map_seq.
Qed.
Lemma write_all n L (old b : list (list N)) : sized n L old -> sized n L b ->
  map (fun i => buf_write (get [] old i) (get [] b i)) (seq 0 n) = b.
Proof.
  intros (L1 & H1) (L2 & H2). transitivity (map (fun i => get [] b i) (seq 0 n)); [|now apply map_get with L]. apply map_ext_in. intros i Hi. apply in_seq in Hi.
  apply buf_write_exact. unfold get. rewrite H1, H2; lia.
Qed.

(** ** The chunks *)
Lemma gen_ok n p L : 0 < L -> exists d p', gen_chunks n p L = Ret (d, p') /\ blocks n L d /\ check d = Ret true.
Proof.
  intros HL. revert p. induction n as [|n IH]; intros p.
  - exists [], p. repeat split; try lia.
  - destruct (C64_chunk p L HL) as (b & p1 & E & Lb & Hb & Ck & _). destruct (IH p1) as (d & p2 & E2 & (Ld & Hd) & Ck2).
    exists (b :: d), p2. cbn [gen_chunks check]. rewrite E, E2, Ck, Ck2. split; [reflexivity|]. split; [|reflexivity].
    split; [cbn; lia|]. intros [|i] Hi; cbn [nth]; [split; [exact Lb|exact Hb]|apply Hd; lia].
Qed.
Lemma compare_same d : check d = Ret true -> compare d d = Ret true.
Proof.
  intros H. unfold compare. rewrite Nat.eqb_refl. cbn [negb]. replace (forallb _ _) with true; [cbn [negb]; now rewrite H|].
  symmetry. apply forallb_forall. intros i _. apply N.eqb_refl.
Qed.

(** ** The orders *)
Lemma all_count {A} (f : A -> bool) l : (length (filter f l) =? length l) = forallb f l.
Proof.
  assert (Le : forall l, length (filter f l) <= length l) by (induction l0 as [|a t IH]; cbn; [lia|destruct (f a); cbn; lia]).
  induction l as [|a l IH]; [reflexivity|]. cbn [filter forallb]. destruct (f a); cbn [length andb]; [exact IH|].
  apply Nat.eqb_neq. specialize (Le l). lia.
Qed.

Section Orders.
Variables (sys : bool) (k n : nat).
Hypothesis Hkn : k <= n.

Lemma avail_step shuf : forall ids, shuffles shuf -> Permutation (seq 0 n) ids ->
  match get_avail sys k shuf ids with
  | None => length (filter (good sys k) (orders shuf ids)) = 0
  | Some (ids', shuf') => length (filter (good sys k) (orders shuf ids)) = S (length (filter (good sys k) (orders shuf' ids'))) /\
      shuffles shuf' /\ Permutation (seq 0 n) ids' /\ good sys k ids' = true /\ In ids' (orders shuf ids) /\
      incl (orders shuf' ids') (orders shuf ids)
  end.
Proof.
  induction shuf as [|f shuf IH]; intros ids Hs Hp; [reflexivity|]. cbn [get_avail orders filter]. inversion Hs as [|? ? Hf Hs']; subst.
  assert (Hp' : Permutation (seq 0 n) (f ids)) by (transitivity ids; auto).
  assert (E : (length (filter (fun j => j <? k) (firstn k (f ids))) =? k) = forallb (fun j => j <? k) (firstn k (f ids))).
  { rewrite <- all_count. f_equal. symmetry. rewrite firstn_length. apply Permutation_length in Hp'. rewrite seq_length in Hp'. lia. }
  rewrite E. assert (Eg : good sys k (f ids) = negb (sys && forallb (fun j => j <? k) (firstn k (f ids)))) by reflexivity. rewrite Eg.
  destruct (sys && forallb (fun j => j <? k) (firstn k (f ids))) eqn:G; cbn [negb].
  - specialize (IH (f ids) Hs' Hp'). destruct (get_avail sys k shuf (f ids)) as [[ids' shuf']|]; [|exact IH].
    destruct IH as (A & B & C & D & I & J). split; [exact A|]. repeat (split; [assumption|]). split; [now right|]. intros x Hx. right. now apply J.
  - cbn [length]. split; [reflexivity|]. split; [exact Hs'|]. split; [exact Hp'|]. split; [exact Eg|]. split; [now left|].
    intros x Hx. now right.
Qed.
End Orders.

Section Lost.
Variables (sys : bool) (k m : nat) (ids : list nat).
Hypothesis Hp : Permutation (seq 0 (k + m)) ids.
Hypothesis Hg : good sys k ids = true.
Notation there j := (existsb (Nat.eqb j) (firstn k ids)).

Lemma there_in j : there j = true <-> In j (firstn k ids).
Proof.
  rewrite existsb_exists. split; [intros (x & Hx & E); apply Nat.eqb_eq in E; now subst|intros H; exists j; split; [exact H|apply Nat.eqb_refl]].
Qed.
Lemma first_facts : length (firstn k ids) = k /\ NoDup (firstn k ids) /\ forall i, In i (firstn k ids) -> i < k + m.
Proof.
  assert (Ll : length ids = k + m) by (apply Permutation_length in Hp; rewrite seq_length in Hp; lia).
  split; [rewrite firstn_length; lia|]. split.
  - assert (N : NoDup ids) by (eapply Permutation_NoDup; [exact Hp|apply seq_NoDup]). rewrite <- (firstn_skipn k ids) in N.
    clear -N. induction (firstn k ids) as [|a l IH]; [constructor|]. inversion N; subst. constructor; [|auto].
    intros X. apply H1. apply in_or_app. now left.
  - intros i Hi. assert (X : In i ids) by (rewrite <- (firstn_skipn k ids); apply in_or_app; now left).
    apply (Permutation_in _ (Permutation_sym Hp)) in X. apply in_seq in X. lia.
Qed.
Lemma lost_nth i : i < k + m -> nth i (lost_in k (k + m) ids) true = negb (there i).
Proof. intros Hi. unfold lost_in. now rewrite nth_map_seq. Qed.
Lemma enough_there : k <= length (present k m (lost_in k (k + m) ids)).
Proof.
  destruct first_facts as (F1 & F2 & F3). rewrite <- F1 at 1. apply NoDup_incl_length; [exact F2|]. intros i Hi.
  unfold present. apply filter_In. specialize (F3 i Hi). split; [apply in_seq; lia|]. rewrite lost_nth by exact F3.
  apply there_in in Hi. now rewrite Hi.
Qed.
Lemma one_lost : sys = true -> exists j, j < k /\ nth j (lost_in k (k + m) ids) true = true.
Proof.
  intros E. destruct first_facts as (F1 & F2 & F3).
  destruct (existsb (fun j => negb (there j)) (seq 0 k)) eqn:X.
  - apply existsb_exists in X. destruct X as (j & Hj & N). apply in_seq in Hj. exists j. split; [lia|]. rewrite lost_nth by lia. exact N.
  - exfalso. assert (I : incl (seq 0 k) (firstn k ids)).
    { intros j Hj. apply there_in. destruct (there j) eqn:T; [reflexivity|]. assert (Y : existsb (fun j => negb (there j)) (seq 0 k) = true).
      { apply existsb_exists. exists j. split; [exact Hj|]. now rewrite T. } congruence. }
    assert (J : incl (firstn k ids) (seq 0 k)) by (apply NoDup_length_incl; [apply seq_NoDup|rewrite seq_length; lia|exact I]).
    unfold good in Hg. rewrite E in Hg. cbn [andb] in Hg. apply negb_true_iff in Hg.
    assert (Y : forallb (fun j => j <? k) (firstn k ids) = true).
    { apply forallb_forall. intros j Hj. apply J in Hj. apply in_seq in Hj. apply Nat.ltb_lt. lia. }
    congruence.
Qed.
End Lost.

Section Run.
Variables (c : coder) (L : nat) (pat : list bool -> Prop).
Hypothesis HB : coder_back c L pat.
Hypothesis HL : 0 < L.
Notation k := (cd_k c). Notation m := (cd_m c). Notation no := (cd_nc c). Notation sys := (cd_sys c).

(** Everything that holds of the state once the data are there. *)
Definition inv (data : list (list N)) (s : bench) : Prop :=
  be_d s = data /\ sized no L (be_c s) /\ sized k L (be_r s) /\ shuffles (be_shuf s) /\ Permutation (seq 0 (k + m)) (be_ids s) /\
  forall ids, In ids (orders (be_shuf s) (be_ids s)) -> pat (lost_in k (k + m) ids).
Definition left (s : bench) : nat := length (filter (good sys k) (orders (be_shuf s) (be_ids s))).
(** The fragments are there, with their records. *)
Definition coded (data : list (list N)) (s : bench) : Prop :=
  forall t' missing rdata rpar rps, received sys k m missing data (be_c s) (be_ps s) rdata rpar rps ->
    length rdata = k -> k <= length (present k m missing) ->
    (sys = true -> exists j, j < k /\ nth j missing true = true) -> pat missing ->
    cd_dec c t' rdata rpar rps missing (repeat true k) (repeat [] k) = Some (true, data).

Lemma nc_outs : no = n_outs sys k m.
Proof. reflexivity. Qed.

Lemma encode_step data s : blocks k L data -> inv data s -> exists s', bench_encode c s = BTrue s' /\ inv data s' /\ coded data s' /\
  left s' = left s /\ be_enc s' = S (be_enc s) /\ be_dec s' = be_dec s /\ be_r s' = be_r s.
Proof.
  intros Hd (I1 & I2 & I3 & I4 & I5 & I6). destruct (HB (be_enc s) data Hd) as (frags & recs & E & Sf & D).
  unfold bench_encode. rewrite I1, E. rewrite (write_all no L (be_c s) frags I2 Sf). eexists. split; [reflexivity|].
  unfold inv, coded, left. cbn. repeat (split; auto); apply I2 || apply Sf || apply I3.
Qed.

Lemma decode_step data s : blocks k L data -> check data = Ret true -> inv data s -> coded data s ->
  match left s with
  | O => bench_decode c s = BMore
  | S n => exists s', bench_decode c s = BTrue s' /\ inv data s' /\ coded data s' /\ left s' = n /\
      be_enc s' = be_enc s /\ be_dec s' = S (be_dec s) /\ be_r s' = data
  end.
Proof.
  intros Hd Hck (I1 & I2 & I3 & I4 & I5 & I6) HC. unfold bench_decode, left.
  pose proof (avail_step sys k (k + m) ltac:(lia) (be_shuf s) (be_ids s) I4 I5) as A.
  destruct (get_avail sys k (be_shuf s) (be_ids s)) as [[ids shuf]|]; [|now rewrite A].
  destruct A as (A1 & A2 & A3 & A4 & A5 & A6). rewrite A1.
  assert (Sd : sized k L data) by (split; [apply Hd|intros i Hi; apply (proj2 Hd i Hi)]).
  match goal with |- context [cd_dec c ?t ?a ?b ?p ?ms _ _] => rewrite (HC t ms a b p) end.
  - rewrite I1, (write_all k L (be_r s) data I3 Sd). cbn [negb]. rewrite (compare_same data Hck), Hck.
    eexists. split; [reflexivity|]. unfold inv, coded, left. cbn. repeat (split; auto); try apply I2; try apply Sd.
  - split; [|split; [|split]].
    + intros Es j Hj Hm. rewrite I1, nth_map_seq by exact Hj. fold (lost_in k (k + m) ids) in Hm. rewrite lost_nth in Hm by lia.
      apply negb_false_iff in Hm. rewrite Hm, Es. reflexivity.
    + now rewrite map_length, seq_length.
    + now rewrite map_length, seq_length.
    + intros q Hq Hm. fold (lost_in k (k + m) ids) in Hm. rewrite !nth_map_seq by exact Hq.
      rewrite lost_nth in Hm by (revert Hq; unfold n_outs, position; destruct sys; lia).
      apply negb_false_iff in Hm. unfold position in Hm. rewrite Hm. split; [reflexivity|apply Permutation_refl].
  - now rewrite map_length, seq_length.
  - apply (enough_there k m ids A3).
  - apply (one_lost sys k m ids A3 A4).
  - apply I6, A5.
Qed.

Lemma runs : runs_well c L pat.
Proof.
  intros p samples d0 c0 r0 shuf S1 S2 S3 Hs Hpat s0 n.
  destruct (gen_ok k p L HL) as (data & p' & E & Hd & Hck).
  set (s1 := mkBench data c0 r0 (repeat [] no) (seq 0 (k + m)) shuf 0 0).
  assert (G : gen_data k L p s0 = BTrue s1) by (unfold gen_data; rewrite E, Hck; reflexivity).
  assert (I1 : inv data s1) by (unfold inv; cbn; auto 10).
  assert (Dec : forall j s, inv data s -> coded data s ->
    (j <= left s -> exists s', repeat_res (bench_decode c) j s = BTrue s' /\ inv data s' /\ be_enc s' = be_enc s /\ be_dec s' = j + be_dec s /\
       be_r s' = if j =? 0 then be_r s else data) /\ (left s < j -> repeat_res (bench_decode c) j s = BMore)).
  { induction j as [|j IH]; intros s Is Cs; [split; [|lia]; intros _; exists s; cbn; repeat (split; auto); try apply Is; lia|].
    cbn [repeat_res]. pose proof (decode_step data s Hd Hck Is Cs) as X. destruct (left s) as [|l]; [rewrite X; split; [lia|reflexivity]|].
    destruct X as (s' & -> & I' & C' & <- & X1 & X2 & X3). destruct (IH s' I' C') as (Y & Z). split; [|intros H; apply Z; lia].
    intros H. destruct (Y ltac:(lia)) as (s2 & -> & J1 & J2 & J3 & J4). exists s2. split; [reflexivity|]. split; [exact J1|].
    split; [congruence|]. split; [lia|]. rewrite J4. destruct (j =? 0); auto. }
  assert (Both : forall j s, inv data s ->
    (j <= left s -> exists s', repeat_res (then_res (bench_encode c) (bench_decode c)) j s = BTrue s' /\ inv data s' /\ be_enc s' = j + be_enc s /\
       be_dec s' = j + be_dec s /\ be_r s' = if j =? 0 then be_r s else data) /\
    (left s < j -> repeat_res (then_res (bench_encode c) (bench_decode c)) j s = BMore)).
  { induction j as [|j IH]; intros s Is; [split; [|lia]; intros _; exists s; cbn; repeat (split; auto); try apply Is; lia|].
    cbn [repeat_res]. unfold then_res at 1 3. destruct (encode_step data s Hd Is) as (s1' & -> & Is1 & Cs1 & Ls1 & N1 & N2 & N3). rewrite <- Ls1.
    pose proof (decode_step data s1' Hd Hck Is1 Cs1) as X. destruct (left s1') as [|l]; [rewrite X; split; [lia|reflexivity]|].
    destruct X as (s' & -> & I' & C' & <- & X1 & X2 & X3). destruct (IH s' I') as (Y & Z). split; [|intros H; apply Z; lia].
    intros H. destruct (Y ltac:(lia)) as (s2 & -> & J1 & J2 & J3 & J4). exists s2. split; [reflexivity|]. split; [exact J1|].
    split; [lia|]. split; [lia|]. rewrite J4. destruct (j =? 0); auto. }
  assert (Enc : forall j s, inv data s -> exists s', repeat_res (bench_encode c) j s = BTrue s' /\ inv data s' /\ be_enc s' = j + be_enc s /\
      be_dec s' = be_dec s).
  { induction j as [|j IH]; intros s Is; [exists s; cbn; auto|]. cbn [repeat_res].
    destruct (encode_step data s Hd Is) as (s1' & -> & Is1 & _ & _ & N1 & N2 & _). destruct (IH s1' Is1) as (s2 & -> & J1 & J2 & J3).
    exists s2. repeat (split; auto); try apply J1; lia. }
  destruct (encode_step data s1 Hd I1) as (s2 & R2 & I2 & C2 & L2 & N1 & N2 & N3).
  assert (En : left s1 = n) by reflexivity.
  split; [|split; [|split]].
  - destruct (Enc samples s1 I1) as (s & R & (J1 & _) & J2 & J3). exists s. unfold enc_only, then_res. rewrite G, R.
    split; [reflexivity|]. rewrite J1. split; [cbn in J2; lia|]. split; [exact J3|exact Hd].
  - intros H. destruct (proj1 (Dec samples s2 I2 C2) ltac:(lia)) as (s & R & (J1 & _) & J2 & J3 & J4). exists s. unfold dec_only, then_res.
    rewrite G, R2, R. split; [reflexivity|]. rewrite J1, J4. split; [cbn in N1; lia|]. split; [cbn in N2; lia|]. split; [exact Hd|].
    intros H0. destruct samples; [lia|reflexivity].
  - intros H. destruct (proj1 (Both samples s1 I1) ltac:(lia)) as (s & R & (J1 & _) & J2 & J3 & J4). exists s. unfold enc_dec, then_res at 1.
    rewrite G, R. split; [reflexivity|]. rewrite J1, J4. split; [cbn in J2; lia|]. split; [cbn in J3; lia|]. split; [exact Hd|].
    intros H0. destruct samples; [lia|reflexivity].
  - intros H. split.
    + unfold dec_only, then_res. rewrite G, R2. apply (proj2 (Dec samples s2 I2 C2)). lia.
    + unfold enc_dec, then_res at 1. rewrite G. apply (proj2 (Both samples s1 I1)). lia.
Qed.
End Run.
