(** The text form of records. *)
From Coq Require Import List NArith ZArith Arith Bool Lia.
From Verif.Model Require Import Common Props Bytes Header.
From Verif.Proof Require Import ListP Tac.
Import ListNotations.
Open Scope nat_scope.

(** ** Numbers *)

Definition digits (l : list N) : Prop := Forall (fun c => is_digit c = true) l.

Lemma read_digits_app l : forall acc r, digits l -> read_digits acc (l ++ r) = read_digits (read_digits acc l) r.
Proof.
  induction l as [|c t IH]; intros acc r H; [reflexivity|]. inversion H; subst. cbn [app read_digits]. rewrite H2. now apply IH.
Qed.

Lemma digit_ok v : is_digit (48 + v mod 10) = true.
Proof.
  unfold is_digit. pose proof (N.mod_lt v 10 ltac:(discriminate)).
  apply andb_true_iff. split; apply N.leb_le; lia.
Qed.

Lemma digits_loop_ok fuel : forall v, (v < 2 ^ N.of_nat fuel)%N -> 0 < fuel ->
  digits (digits_loop fuel v) /\ digits_loop fuel v <> [] /\ read_digits 0 (digits_loop fuel v) = v.
Proof.
  induction fuel as [|f IH]; intros v Hv Hf; [lia|]. cbn [digits_loop].
  assert (Hd : digits [(48 + v mod 10)%N]) by (constructor; [apply digit_ok|constructor]).
  assert (Hr : forall acc, read_digits acc [(48 + v mod 10)%N] = (10 * acc + v mod 10)%N).
  { intros acc. cbn [read_digits]. rewrite digit_ok. f_equal. rewrite N.add_comm. apply N.add_sub. }
  destruct (N.ltb_spec v 10) as [Hs|Hs].
  - cbn [app]. split; [exact Hd|]. split; [discriminate|]. rewrite Hr. rewrite N.mod_small by lia. lia.
  - assert (Hq : (v / 10 < 2 ^ N.of_nat f)%N).
    { apply N.div_lt_upper_bound; [discriminate|]. rewrite Nat2N.inj_succ, N.pow_succ_r' in Hv. lia. }
    assert (Hf' : 0 < f).
    { destruct f; [|lia]. change (2 ^ N.of_nat 0)%N with 1%N in Hq.
      assert (1 <= v / 10)%N by (apply N.div_le_lower_bound; lia). lia. }
    destruct (IH _ Hq Hf') as (A & B & C). split; [apply Forall_app; auto|].
    split; [intros E; apply app_eq_nil in E; destruct E; discriminate|].
    rewrite read_digits_app by exact A. rewrite C, Hr. symmetry. apply N.div_mod'.
Qed.

Lemma print_number_ok v : digits (print_number v) /\ print_number v <> [] /\ read_digits 0 (print_number v) = v.
Proof.
  apply digits_loop_ok; [|lia]. rewrite Nat2N.inj_succ, N2Nat.id, N.pow_succ_r'. pose proof (N.size_gt v). lia.
Qed.

Lemma digit_range c : is_digit c = true -> (48 <= c <= 57)%N.
Proof. unfold is_digit. intros H. apply andb_true_iff in H. destruct H as [A B]. apply N.leb_le in A, B. lia. Qed.

Lemma mem_char_false s c : (forall x, In x s -> c <> x) -> mem_char s c = false.
Proof.
  intros H. unfold mem_char. destruct (existsb (N.eqb c) s) eqn:E; [|reflexivity].
  apply existsb_exists in E. destruct E as (x & Hx & E). apply N.eqb_eq in E. destruct (H x Hx E).
Qed.

Ltac not_digit := intros x Hx; cbn [In] in Hx; intuition subst; lia.

Lemma digit_blank1 c : is_digit c = true -> not_in blanks1 c = true.
Proof. intros H. apply digit_range in H. unfold not_in. rewrite mem_char_false; [reflexivity|]. unfold blanks1. not_digit. Qed.
Lemma digit_blank2 c : is_digit c = true -> not_in blanks2 c = true.
Proof. intros H. apply digit_range in H. unfold not_in. rewrite mem_char_false; [reflexivity|]. unfold blanks2. not_digit. Qed.
Lemma digit_space c : is_digit c = true -> is_space c = false.
Proof. intros H. apply digit_range in H. unfold is_space. rewrite mem_char_false; [reflexivity|]. not_digit. Qed.
Lemma digit_comment c : is_digit c = true -> mem_char [35; 59]%N c = false.
Proof. intros H. apply digit_range in H. rewrite mem_char_false; [reflexivity|]. not_digit. Qed.
Lemma digit_eq c : is_digit c = true -> (c =? ch_eq)%N = false.
Proof. intros H. apply digit_range in H. apply N.eqb_neq. unfold ch_eq. lia. Qed.
Lemma digit_nl c : is_digit c = true -> (c =? ch_nl)%N = false.
Proof. intros H. apply digit_range in H. apply N.eqb_neq. unfold ch_nl. lia. Qed.

Lemma stoul_digits l : digits l -> l <> [] -> (read_digits 0 l < 2 ^ 64)%N -> stoul l = Some (read_digits 0 l).
Proof.
  intros Hl Hne Hv. destruct l as [|c t]; [contradiction|]. inversion Hl as [|? ? Hc Ht]; subst.
  unfold stoul. cbn [drop_space]. rewrite (digit_space _ Hc).
  assert (E : (match c :: t with 45%N :: t0 => (true, t0) | 43%N :: t0 => (false, t0) | _ => (false, c :: t) end) = (false, c :: t)).
  { pose proof (digit_range _ Hc) as R. destruct c as [|p]; [lia|].
    do 7 (destruct p as [p|p|]; try reflexivity; try lia). }
  rewrite E, Hc. apply N.ltb_lt in Hv. now rewrite Hv.
Qed.

(** ** Searching *)

Lemma find_from_app p l : forall i c t, Forall (fun x => p x = false) l -> p c = true ->
  find_from p i (l ++ c :: t) = Some (i + length l).
Proof.
  induction l as [|x l IH]; intros i c t Hl Hc; cbn [app find_from length].
  - rewrite Hc. f_equal. lia.
  - inversion Hl as [|? ? Hx Hr]; subst. rewrite Hx, (IH (S i)) by assumption. f_equal. lia.
Qed.

Lemma find_last_app p l c t : Forall (fun x => p x = false) t -> p c = true -> find_last p (l ++ c :: t) = Some (length l).
Proof.
  intros Ht Hc. unfold find_last. rewrite rev_app_distr. cbn [rev]. rewrite <- app_assoc. cbn [app].
  rewrite find_from_app; [|apply Forall_rev; exact Ht|exact Hc]. f_equal. rewrite rev_length, app_length. cbn [length]. lia.
Qed.

Lemma until_nl_app l t : Forall (fun x => (x =? ch_nl)%N = false) l -> until_nl (l ++ ch_nl :: t) = (l, t).
Proof.
  induction l as [|x l IH]; intros Hl; cbn [app until_nl]; [reflexivity|].
  inversion Hl as [|? ? Hx Hr]; subst. rewrite Hx, IH by assumption. reflexivity.
Qed.

Lemma snoc_cases {A} (l : list A) : l <> [] -> exists t c, l = t ++ [c].
Proof. intros H. destruct (exists_last H) as (t & c & E). eauto. Qed.

Lemma firstn_all_app {A} (l r : list A) : firstn (length l) (l ++ r) = l.
Proof. rewrite firstn_app, Nat.sub_diag, firstn_all, app_nil_r. reflexivity. Qed.

Lemma skipn_all_app {A} (l r : list A) : skipn (length l) (l ++ r) = r.
Proof. rewrite skipn_app, Nat.sub_diag, skipn_all. reflexivity. Qed.

(** ** One line *)
Lemma parse_line_ok D1 D2 : digits D1 -> D1 <> [] -> digits D2 -> D2 <> [] ->
  (read_digits 0 D1 < 2 ^ 64)%N -> (read_digits 0 D2 < 2 ^ 64)%N ->
  parse_line (D1 ++ [32; ch_eq; 32]%N ++ D2) = Some (Some (read_digits 0 D1, wrap 32 (read_digits 0 D2))).
Proof.
  intros H1 N1 H2 N2 V1 V2. unfold parse_line.
  destruct D1 as [|c1 T1] eqn:ED1; [contradiction|]. rewrite <- ED1 in *.
  assert (Hc1 : is_digit c1 = true) by (rewrite ED1 in H1; inversion H1; assumption).
  assert (F1 : find_first (not_in blanks1) 0 (D1 ++ [32; ch_eq; 32]%N ++ D2) = Some 0).
  { unfold find_first. cbn [skipn]. rewrite ED1. cbn [app find_from]. now rewrite digit_blank1. }
  rewrite F1.
  assert (G0 : get 0%N (D1 ++ [32; ch_eq; 32]%N ++ D2) 0 = c1) by (rewrite ED1; reflexivity). rewrite G0.
  rewrite digit_comment by exact Hc1.
  assert (F2 : find_first (fun c => (c =? ch_eq)%N) 0 (D1 ++ [32; ch_eq; 32]%N ++ D2) = Some (S (length D1))).
  { unfold find_first. cbn [skipn].
    replace (D1 ++ [32; ch_eq; 32]%N ++ D2) with ((D1 ++ [32%N]) ++ ch_eq :: 32%N :: D2) by (rewrite <- app_assoc; reflexivity).
    rewrite find_from_app; [f_equal; rewrite app_length; cbn [length]; lia| |reflexivity].
    apply Forall_app. split; [|constructor; [reflexivity|constructor]].
    eapply Forall_impl; [|exact H1]. intros c. apply digit_eq. }
  rewrite F2. cbv zeta. rewrite Nat.sub_0_r.
  assert (K0 : substr (D1 ++ [32; ch_eq; 32]%N ++ D2) 0 (S (length D1)) = D1 ++ [32%N]).
  { unfold substr. cbn [skipn].
    replace (D1 ++ [32; ch_eq; 32]%N ++ D2) with ((D1 ++ [32%N]) ++ ch_eq :: 32%N :: D2) by (rewrite <- app_assoc; reflexivity).
    replace (S (length D1)) with (length (D1 ++ [32%N])) by (rewrite app_length; cbn [length]; lia). apply firstn_all_app. }
  rewrite K0.
  destruct (snoc_cases D1 N1) as (T & c & ET).
  assert (Hc : is_digit c = true). { rewrite ET in H1. apply Forall_app in H1. destruct H1 as [_ H1]. inversion H1; assumption. }
  assert (L1 : find_last (not_in blanks1) (D1 ++ [32%N]) = Some (length T)).
  { rewrite ET, <- app_assoc. cbn [app]. apply find_last_app; [constructor; [reflexivity|constructor]|now apply digit_blank1]. }
  rewrite L1.
  assert (K1 : firstn (S (length T)) (D1 ++ [32%N]) = D1).
  { replace (S (length T)) with (length D1) by (rewrite ET, app_length; cbn [length]; lia). apply firstn_all_app. }
  rewrite K1. rewrite (stoul_digits D1) by assumption.
  destruct D2 as [|c2 T2] eqn:ED2; [contradiction|]. rewrite <- ED2 in *.
  assert (Hc2 : is_digit c2 = true) by (rewrite ED2 in H2; inversion H2; assumption).
  assert (F3 : find_first (not_in blanks2) (S (S (length D1))) (D1 ++ [32; ch_eq; 32]%N ++ D2) = Some (S (S (S (length D1))))).
  { unfold find_first.
    replace (D1 ++ [32; ch_eq; 32]%N ++ D2) with ((D1 ++ [32; ch_eq]%N) ++ 32%N :: D2) by (rewrite <- app_assoc; reflexivity).
    replace (S (S (length D1))) with (length (D1 ++ [32; ch_eq]%N)) at 2 by (rewrite app_length; cbn [length]; lia).
    rewrite skipn_all_app. cbn [find_from]. change (not_in blanks2 32) with false. cbn iota. rewrite ED2. cbn [find_from].
    rewrite digit_blank2 by exact Hc2. reflexivity. }
  rewrite F3. rewrite ED1 at 1. cbn iota.
  destruct (snoc_cases D2 N2) as (U & d & EU).
  assert (Hd : is_digit d = true). { rewrite EU in H2. apply Forall_app in H2. destruct H2 as [_ H2]. inversion H2; assumption. }
  assert (L2 : find_last (not_in blanks2) (D1 ++ [32; ch_eq; 32]%N ++ D2) = Some (length D1 + 3 + length U)).
  { rewrite EU. replace (D1 ++ [32; ch_eq; 32]%N ++ U ++ [d]) with ((D1 ++ [32; ch_eq; 32]%N ++ U) ++ [d]) by (rewrite <- !app_assoc; reflexivity).
    rewrite find_last_app; [|constructor|now apply digit_blank2]. f_equal. rewrite !app_length. cbn [length]. lia. }
  rewrite L2. destruct (Nat.leb_spec (S (S (S (length D1)))) (S (length D1 + 3 + length U))); [|lia].
  assert (K2 : substr (D1 ++ [32; ch_eq; 32]%N ++ D2) (S (S (S (length D1)))) (S (length D1 + 3 + length U) - S (S (S (length D1)))) = D2).
  { unfold substr. rewrite app_assoc.
    replace (S (S (S (length D1)))) with (length (D1 ++ [32; ch_eq; 32]%N)) by (rewrite app_length; cbn [length]; lia).
    rewrite skipn_all_app. apply firstn_all2. rewrite app_length, EU, app_length. cbn [length]. lia. }
  rewrite K2, (stoul_digits D2) by assumption. reflexivity.
Qed.

(** ** The whole text *)
Lemma parse_loop_print ps : forall fuel acc, length ps < fuel ->
  Forall (fun p => (fst p < 2 ^ 64 /\ snd p < 2 ^ 32)%N) ps ->
  parse_loop fuel (print_props ps) acc = Some (acc ++ ps).
Proof.
  induction ps as [|[k x] t IH]; intros fuel acc Hf Hv; destruct fuel as [|f]; try (cbn in Hf; lia).
  - cbn. now rewrite app_nil_r.
  - inversion Hv as [|? ? [Hk Hx] Ht]; subst. cbn [fst snd] in *.
    destruct (print_number_ok k) as (A1 & B1 & C1), (print_number_ok x) as (A2 & B2 & C2).
    assert (E : print_props ((k, x) :: t) = (print_number k ++ [32; ch_eq; 32]%N ++ print_number x) ++ ch_nl :: print_props t).
    { unfold print_props. cbn [flat_map fst snd]. rewrite <- !app_assoc. reflexivity. }
    assert (X : Forall (fun c => (c =? ch_nl)%N = false) (print_number k ++ [32; ch_eq; 32]%N ++ print_number x)).
    { apply Forall_app. split; [eapply Forall_impl; [|exact A1]; intros c; apply digit_nl|].
      apply Forall_app. split; [repeat constructor|]. eapply Forall_impl; [|exact A2]. intros c. apply digit_nl. }
    cbn [parse_loop]. rewrite E. unfold getline.
    destruct ((print_number k ++ [32; ch_eq; 32]%N ++ print_number x) ++ ch_nl :: print_props t) as [|c0 r0] eqn:E0.
    { exfalso. destruct (print_number k); [contradiction|discriminate]. }
    rewrite <- E0. rewrite until_nl_app by exact X.
    rewrite parse_line_ok; auto; [| |rewrite C2]; [|rewrite C1; assumption|].
    + rewrite C1, C2. unfold wrap. rewrite N.mod_small by exact Hx. unfold props_add.
      rewrite IH; [|cbn [length] in Hf; lia|assumption]. rewrite <- app_assoc. reflexivity.
    + eapply N.lt_trans; [exact Hx|reflexivity].
Qed.

Lemma flat_map_length_ge {A B} (f : A -> list B) l : (forall a, f a <> []) -> length l <= length (flat_map f l).
Proof.
  intros H. induction l as [|a t IH]; cbn [flat_map length]; [lia|]. rewrite app_length.
  specialize (H a). destruct (f a); [contradiction|]. cbn [length]. lia.
Qed.

Lemma parse_print ps : Forall (fun p => (fst p < 2 ^ 64 /\ snd p < 2 ^ 32)%N) ps -> parse_props (print_props ps) [] = Some ps.
Proof.
  intros H. unfold parse_props. rewrite parse_loop_print; [reflexivity| |exact H].
  apply Nat.lt_succ_r. apply flat_map_length_ge. intros p E. apply app_eq_nil in E. destruct E as [_ E]. discriminate.
Qed.
