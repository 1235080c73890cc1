(** Files of the driver: names, and the effect of the writes. *)
From Coq Require Import List NArith Arith Bool Lia.
From Verif.Model Require Import Common Fnt Props Header Streams Cached Driver.
From Verif.Proof Require Import TextP.
Import ListNotations.
Open Scope nat_scope.

Lemma text_eqb_spec a : forall b, reflect (a = b) (text_eqb a b).
Proof.
  induction a as [|x a IH]; destruct b as [|y b]; cbn [text_eqb]; try (constructor; congruence).
  destruct (N.eqb_spec x y) as [->|E]; cbn [andb]; [|constructor; congruence].
  destruct (IH b) as [->|E]; constructor; congruence.
Qed.

Lemma find_write fs n t name : find_file (write_file fs n t) name = if text_eqb n name then Some t else find_file fs name.
Proof. reflexivity. Qed.
Lemma find_write_same fs n t : find_file (write_file fs n t) n = Some t.
Proof. rewrite find_write. destruct (text_eqb_spec n n); congruence. Qed.
Lemma find_write_other fs n t name : n <> name -> find_file (write_file fs n t) name = find_file fs name.
Proof. intros H. rewrite find_write. destruct (text_eqb_spec n name); congruence. Qed.

(** ** Names *)
Lemma read_zeros n : forall r, read_digits 0 (repeat 48%N n ++ r) = read_digits 0 r.
Proof. induction n as [|n IH]; intros r; [reflexivity|]. cbn [repeat app read_digits]. exact (IH r). Qed.
Lemma zeros_digits n : digits (repeat 48%N n).
Proof. induction n; constructor; auto. Qed.

Definition padded (z i : nat) : text := repeat 48%N (z - length (print_number (N.of_nat i))) ++ print_number (N.of_nat i).
Lemma padded_digits z i : digits (padded z i).
Proof. apply Forall_app. split; [apply zeros_digits|apply print_number_ok]. Qed.
Lemma padded_inj z z' i j : padded z i = padded z' j -> i = j.
Proof.
  intros H. apply (f_equal (read_digits 0)) in H. unfold padded in H. rewrite !read_zeros in H.
  rewrite !(proj2 (proj2 (print_number_ok _))) in H. lia.
Qed.
Lemma filename_eq pfx t z i e : get_filename pfx t z i e = pfx ++ [46; t]%N ++ padded z i ++ e.
Proof. unfold get_filename, padded. rewrite <- !app_assoc. reflexivity. Qed.

Lemma data_inj pfx k i j : data_name pfx k i = data_name pfx k j -> i = j.
Proof.
  unfold data_name. rewrite !filename_eq, !app_nil_r. intros H. apply app_inv_head in H. injection H as H. now apply padded_inj in H.
Qed.
Lemma code_inj pfx k i j : code_name pfx k i = code_name pfx k j -> i = j.
Proof.
  unfold code_name. rewrite !filename_eq, !app_nil_r. intros H. apply app_inv_head in H. injection H as H. now apply padded_inj in H.
Qed.
Lemma props_inj pfx k i j : props_name pfx k i = props_name pfx k j -> i = j.
Proof.
  unfold props_name. rewrite !filename_eq. intros H. apply app_inv_head in H.
  change ([46; 99]%N ++ padded (count_digits (k - 1)) i ++ ext_props) with (46%N :: 99%N :: padded (count_digits (k - 1)) i ++ ext_props) in H.
  change ([46; 99]%N ++ padded (count_digits (k - 1)) j ++ ext_props) with (46%N :: 99%N :: padded (count_digits (k - 1)) j ++ ext_props) in H.
  injection H as H. apply app_inv_tail in H. now apply padded_inj in H.
Qed.
Lemma data_code pfx k no i j : data_name pfx k i <> code_name pfx no j.
Proof. unfold data_name, code_name. rewrite !filename_eq. intros H. apply app_inv_head in H. discriminate. Qed.
Lemma data_props pfx k no i j : data_name pfx k i <> props_name pfx no j.
Proof. unfold data_name, props_name. rewrite !filename_eq. intros H. apply app_inv_head in H. discriminate. Qed.
Lemma code_props pfx no i j : code_name pfx no i <> props_name pfx no j.
Proof.
  unfold code_name, props_name. rewrite !filename_eq, app_nil_r. intros H. apply app_inv_head in H.
  assert (E : padded (count_digits (no - 1)) i = padded (count_digits (no - 1)) j ++ ext_props) by (apply (f_equal (skipn 2)) in H; exact H).
  pose proof (padded_digits (count_digits (no - 1)) i) as D. rewrite E in D. apply Forall_app in D. destruct D as (_ & D).
  inversion D as [|x l X _]. discriminate.
Qed.

(** ** The writes *)
Definition put_codes pfx no (outs : list text) (ps : list props) (l : list nat) (fs : files) : files :=
  fold_left (fun fs i => write_file (write_file fs (code_name pfx no i) (get [] outs i))
                                    (props_name pfx no i) (print_props (get [] ps i))) l fs.
Lemma put_codes_cons pfx no outs ps a l fs : put_codes pfx no outs ps (a :: l) fs =
  put_codes pfx no outs ps l (write_file (write_file fs (code_name pfx no a) (get [] outs a)) (props_name pfx no a) (print_props (get [] ps a))).
Proof. reflexivity. Qed.
Lemma put_codes_other pfx no outs ps name l : (forall i, In i l -> name <> code_name pfx no i /\ name <> props_name pfx no i) ->
  forall fs, find_file (put_codes pfx no outs ps l fs) name = find_file fs name.
Proof.
  induction l as [|a l IH]; intros H fs; [reflexivity|]. rewrite put_codes_cons.
  rewrite IH by (intros; apply H; now right). destruct (H a (or_introl eq_refl)). rewrite !find_write_other by congruence. reflexivity.
Qed.
Lemma put_codes_code pfx no outs ps i l : In i l -> forall fs,
  find_file (put_codes pfx no outs ps l fs) (code_name pfx no i) = Some (get [] outs i).
Proof.
  induction l as [|a l IH]; intros H fs; [destruct H|]. rewrite put_codes_cons.
  destruct (in_dec Nat.eq_dec i l) as [Hi|Hi]; [now apply IH|]. destruct H as [->|H]; [|contradiction].
  rewrite put_codes_other.
  - rewrite find_write_other by (intros E; symmetry in E; now apply code_props in E). apply find_write_same.
  - intros j Hj. split; [intros E; apply code_inj in E; congruence|apply code_props].
Qed.
Lemma put_codes_props pfx no outs ps i l : In i l -> forall fs,
  find_file (put_codes pfx no outs ps l fs) (props_name pfx no i) = Some (print_props (get [] ps i)).
Proof.
  induction l as [|a l IH]; intros H fs; [destruct H|]. rewrite put_codes_cons.
  destruct (in_dec Nat.eq_dec i l) as [Hi|Hi]; [now apply IH|]. destruct H as [->|H]; [|contradiction].
  rewrite put_codes_other; [apply find_write_same|].
  intros j Hj. split; [intros E; symmetry in E; now apply code_props in E|intros E; apply props_inj in E; congruence].
Qed.

Definition put_data pfx k (d : list (option text)) (outs : list text) (l : list nat) (fs : files) : files :=
  fold_left (fun fs i => if is_missing (get None d i) then write_file fs (data_name pfx k i) (get [] outs i) else fs) l fs.
Lemma put_data_cons pfx k d outs a l fs : put_data pfx k d outs (a :: l) fs =
  put_data pfx k d outs l (if is_missing (get None d a) then write_file fs (data_name pfx k a) (get [] outs a) else fs).
Proof. reflexivity. Qed.
Lemma put_data_other pfx k d outs name l : (forall i, In i l -> name <> data_name pfx k i \/ is_missing (get None d i) = false) ->
  forall fs, find_file (put_data pfx k d outs l fs) name = find_file fs name.
Proof.
  induction l as [|a l IH]; intros H fs; [reflexivity|]. rewrite put_data_cons.
  rewrite IH by (intros; apply H; now right). destruct (H a (or_introl eq_refl)) as [E|E].
  - destruct (is_missing _); [|reflexivity]. apply find_write_other. congruence.
  - rewrite E. reflexivity.
Qed.
Lemma put_data_data pfx k d outs i l : In i l -> is_missing (get None d i) = true -> forall fs,
  find_file (put_data pfx k d outs l fs) (data_name pfx k i) = Some (get [] outs i).
Proof.
  intros H M. induction l as [|a l IH]; intros fs; [destruct H|]. rewrite put_data_cons.
  destruct (in_dec Nat.eq_dec i l) as [Hi|Hi]; [now apply IH|]. destruct H as [->|H]; [|contradiction].
  rewrite put_data_other; [rewrite M; apply find_write_same|]. intros j Hj. left. intros E. apply data_inj in E. congruence.
Qed.

Lemma all_some_map {A B} (f : A -> option B) (g : A -> B) l : (forall a, In a l -> f a = Some (g a)) -> all_some (map f l) = Some (map g l).
Proof.
  induction l as [|a l IH]; intros H; [reflexivity|]. cbn [map all_some]. rewrite (H a) by now left. rewrite IH by (intros; apply H; now right).
  reflexivity.
Qed.
