(** Lemmas for C73. *)
From Coq Require Import List NArith ZArith Arith Bool Lia.
From Verif.Model Require Import Common Misc Views Poly Matrix Buffers Dump.
From Verif.Spec Require Import Dump.
Import ListNotations.
Open Scope nat_scope.

Lemma cat_loop_spec f g : forall k i, (forall j, i <= j < i + k -> f j = Some (g j)) -> cat_loop f i k = Some (flat_map g (seq i k)).
Proof.
  induction k as [|k IH]; intros i H; cbn [cat_loop seq flat_map]; [reflexivity|]. rewrite H by lia. rewrite IH; [reflexivity|].
  intros j Hj. apply H. lia.
Qed.
Lemma cat_loop_none f : forall k i, 0 < k -> f i = None -> cat_loop f i k = None.
Proof. intros [|k] i Hk H; [lia|]. cbn [cat_loop]. now rewrite H. Qed.

Definition dig (c : N) : Prop := is_digit c = true.
(** [t] does not go on with a digit. *)
Definition stops (t : list N) : Prop := match t with [] => True | c :: _ => is_digit c = false end.
Definition one_line (a : list N) : Prop := Forall (fun c => c <> 10%N) a.

Lemma digits_ok f : forall v, (v < 10 ^ N.of_nat f)%N -> 0 < f ->
  digits false 10 f v <> [] /\ Forall dig (digits false 10 f v) /\ fold_left (fun a c => 10 * a + (c - 48))%N (digits false 10 f v) 0%N = v.
Proof.
  induction f as [|f IH]; intros v Hv Hf; [lia|]. cbn [digits].
  pose proof (N.mod_lt v 10 ltac:(lia)) as ML. pose proof (N.div_mod v 10 ltac:(lia)) as DM.
  assert (DC : digit_char false (v mod 10) = (48 + v mod 10)%N).
  { unfold digit_char. destruct (N.ltb_spec (v mod 10) 10); [reflexivity|lia]. }
  rewrite DC. assert (Dg : dig (48 + v mod 10)%N).
  { clear - ML. unfold dig, is_digit. generalize dependent (v mod 10)%N. intros r ML. apply andb_true_iff. split; apply N.leb_le; lia. }
  split; [intros E; apply app_eq_nil in E; destruct E; discriminate|]. rewrite fold_left_app. cbn [fold_left].
  destruct (N.ltb_spec v 10) as [Hs|Hs].
  - split; [repeat constructor; exact Dg|]. cbn [fold_left]. rewrite N.mod_small by lia. lia.
  - assert (Hf' : 0 < f). { destruct f; [cbn in Hv; lia|lia]. }
    assert (Hd : (v / 10 < 10 ^ N.of_nat f)%N).
    { apply N.div_lt_upper_bound; [lia|]. rewrite Nnat.Nat2N.inj_succ, N.pow_succ_r' in Hv. exact Hv. }
    destruct (IH (v / 10)%N Hd Hf') as (_ & F & E). split; [apply Forall_app; split; [exact F|repeat constructor; exact Dg]|]. rewrite E.
    clear - DM. generalize dependent (v mod 10)%N. generalize (v / 10)%N. intros q r DM. lia.
Qed.
Definition printable (x : N) : Prop := (x < 2 ^ 128)%N.
Lemma num_ok x : printable x -> num false x <> [] /\ Forall dig (num false x) /\ fold_left (fun a c => 10 * a + (c - 48))%N (num false x) 0%N = x.
Proof.
  intros H. unfold num. apply digits_ok; [|lia]. unfold printable in H. assert (2 ^ 128 < 10 ^ N.of_nat 40)%N by reflexivity. lia.
Qed.
Lemma dig_line a : Forall dig a -> one_line a.
Proof. apply Forall_impl. intros c H ->. discriminate H. Qed.
Lemma num_line x : printable x -> one_line (num false x).
Proof. intros H. apply dig_line. now apply num_ok. Qed.
Lemma index_printable i : (N.of_nat i < 2 ^ 31)%N -> printable (N.of_nat i).
Proof. intros H. unfold printable. assert (2 ^ 31 < 2 ^ 128)%N by reflexivity. lia. Qed.

Lemma numbers_run s : forall v t, Forall dig s -> stops t ->
  numbers_from (Some v) (s ++ t) = fold_left (fun a c => 10 * a + (c - 48))%N s v :: numbers_from None t.
Proof.
  induction s as [|c s IH]; intros v t F St; cbn [app fold_left].
  - destruct t as [|c t]; [reflexivity|]. cbn [stops] in St. cbn [numbers_from]. now rewrite St.
  - inversion_clear F as [|? ? Hc F']. cbn [numbers_from]. rewrite Hc. now apply IH.
Qed.
Lemma numbers_num x t : printable x -> stops t -> numbers (num false x ++ t) = x :: numbers t.
Proof.
  intros H St. destruct (num_ok x H) as (Ne & F & E). unfold numbers. destruct (num false x) as [|c s]; [contradiction|].
  inversion_clear F as [|? ? Hc F']. cbn [app numbers_from]. rewrite Hc. rewrite numbers_run by assumption. cbn [fold_left] in E. now rewrite E.
Qed.
Lemma numbers_skip c t : is_digit c = false -> numbers (c :: t) = numbers t.
Proof. intros H. unfold numbers. cbn [numbers_from]. now rewrite H. Qed.

(** Parts that end with a character that is not a digit, and parts that begin with one. *)
Lemma flat_ends {A} (g : A -> list N) (vals : A -> list N) js t :
  (forall j t, In j js -> numbers (g j ++ t) = vals j ++ numbers t) -> numbers (flat_map g js ++ t) = flat_map vals js ++ numbers t.
Proof.
  induction js as [|j js IH]; intros H; cbn [flat_map app]; [reflexivity|]. rewrite <- !app_assoc, H by now left. f_equal.
  apply IH. intros j' t' Hj. apply H. now right.
Qed.
Lemma flat_begins {A} (g : A -> list N) (vals : A -> list N) js t : stops t ->
  (forall j t, In j js -> stops t -> numbers (g j ++ t) = vals j ++ numbers t) -> (forall j, In j js -> g j <> [] /\ stops (g j)) ->
  numbers (flat_map g js ++ t) = flat_map vals js ++ numbers t /\ stops (flat_map g js ++ t).
Proof.
  intros St. induction js as [|j js IH]; intros H B; cbn [flat_map app]; [now split|]. rewrite <- !app_assoc.
  destruct IH as [E S]; [intros j' t' Hj; apply H; now right|intros j' Hj; apply B; now right|]. split.
  - rewrite H; [now rewrite E|now left|exact S].
  - destruct (B j (or_introl eq_refl)) as [Ne Sj]. destruct (g j); [contradiction|exact Sj].
Qed.

Lemma lines_nl a t : one_line a -> lines (a ++ 10%N :: t) = a :: lines t.
Proof.
  induction 1 as [|c a Hc F IH]; cbn [app lines].
  - reflexivity.
  - destruct (N.eqb_spec c 10); [contradiction|]. now rewrite IH.
Qed.
Lemma table_nl a t : one_line a -> table (a ++ 10%N :: t) = numbers a :: table t.
Proof. intros H. unfold table. rewrite lines_nl by exact H. reflexivity. Qed.
Lemma flat_line {A} (g : A -> list N) js : (forall j, In j js -> one_line (g j)) -> one_line (flat_map g js).
Proof.
  induction js as [|j js IH]; intros H; cbn [flat_map]; [constructor|]. apply Forall_app. split; [apply H; now left|]. apply IH. intros j' Hj. apply H. now right.
Qed.
(** Lines that end with an end of line, and lines that begin with one. *)
Lemma flat_lines {A} (g : A -> list N) js t : (forall j, In j js -> one_line (g j)) ->
  table (flat_map (fun j => g j ++ [10%N]) js ++ t) = map (fun j => numbers (g j)) js ++ table t.
Proof.
  induction js as [|j js IH]; intros H; cbn [flat_map map app]; [reflexivity|]. rewrite <- !app_assoc. cbn [app]. rewrite table_nl by (apply H; now left).
  f_equal. apply IH. intros j' Hj. apply H. now right.
Qed.
Lemma flat_lines_before {A} (g : A -> list N) : forall js a t, one_line a -> (forall j, In j js -> one_line (g j)) ->
  table (a ++ flat_map (fun j => 10%N :: g j) js ++ 10%N :: t) = numbers a :: map (fun j => numbers (g j)) js ++ table t.
Proof.
  induction js as [|j js IH]; intros a t Ha H; cbn [flat_map map app]; [now apply table_nl|]. rewrite table_nl by exact Ha. f_equal.
  rewrite <- app_assoc. apply IH; [apply H; now left|]. intros j' Hj. apply H. now right.
Qed.
Lemma dashes_spec x : forall k, k <= length x -> dashes false (N.of_nat k) x = Some (flat_map (fun a => num false a ++ [45%N]) (firstn k x)).
Proof.
  induction x as [|a x IH]; intros k Hk; destruct k as [|k]; try reflexivity; [cbn in Hk; lia|]. cbn [length] in Hk.
  cbn [dashes]. destruct (N.eqb_spec (N.of_nat (S k)) 0); [lia|]. replace (N.of_nat (S k) - 1)%N with (N.of_nat k) by lia. rewrite IH by lia.
  cbn [firstn flat_map]. now rewrite <- app_assoc.
Qed.
