(** The options of the driver. *)
From Coq Require Import List NArith ZArith Arith Bool Ascii String Lia.
From Verif.Model Require Import Common Header Cached DriverMain.
From Verif.Spec Require Import DriverMain.
From Verif.Proof Require Import TextP.
Import ListNotations.
Open Scope N_scope.

(** ** Names and numbers *)
Lemma text_eqb_spec a : forall b, text_eqb a b = true <-> a = b.
Proof.
  induction a as [|x a IH]; intros [|y b]; cbn; try (split; [discriminate|discriminate]); [tauto|].
  rewrite andb_true_iff, N.eqb_eq, IH. split; [intros [-> ->]; reflexivity|intros E; now injection E].
Qed.

Lemma code_of_known s c : In (s, c) driver_codes -> code_of (txt s) = Some c.
Proof. unfold driver_codes. intros H. repeat (destruct H as [H|H]; [injection H as <- <-; reflexivity|]). destruct H. Qed.

Lemma code_of_some a c : code_of a = Some c -> exists s, In (s, c) driver_codes /\ a = txt s.
Proof.
  unfold code_of. intros H.
  repeat match type of H with (if text_eqb a (txt ?t) then _ else _) = _ =>
    destruct (text_eqb a (txt t)) eqn:E; [injection H as <-; exists t; split; [unfold driver_codes; cbn [In]; tauto|now apply text_eqb_spec]|clear E] end.
  discriminate.
Qed.

Lemma digit_not_space c : is_digit c = true -> is_space c = false.
Proof. intros H. apply digit_range in H. unfold is_space. apply mem_char_false. not_digit. Qed.

Lemma read_stop l r : digits l -> (forall c t, r = c :: t -> is_digit c = false) -> forall acc, read_digits acc (l ++ r) = read_digits acc l.
Proof.
  intros H Hr acc. rewrite read_digits_app by exact H. destruct r as [|c t]; [reflexivity|]. cbn [read_digits]. now rewrite (Hr c t eq_refl).
Qed.

(** ** The loop *)
Definition upd {A} (f : opt -> option A) (l : list opt) (d : A) : A := fold_left (fun a o => match f o with Some b => b | None => a end) l d.

Lemma upd_last {A} (f : opt -> option A) l d l1 o l2 a : l = l1 ++ o :: l2 -> f o = Some a -> (forall o', In o' l2 -> f o' = None) -> upd f l d = a.
Proof.
  intros -> E H. unfold upd. rewrite fold_left_app. cbn [fold_left]. rewrite E. generalize dependent H. clear.
  induction l2 as [|o l2 IH]; intros H; [reflexivity|]. cbn [fold_left]. rewrite (H o) by now left. apply IH. intros o' Ho. apply H. now right.
Qed.

Lemma upd_from {A} (f : opt -> option A) l : forall d, upd f l d = d \/ exists l1 o l2, l = l1 ++ o :: l2 /\ f o = Some (upd f l d) /\ forall o', In o' l2 -> f o' = None.
Proof.
  induction l as [|o l IH]; intros d; [now left|]. change (upd f (o :: l) d) with (upd f l (match f o with Some b => b | None => d end)).
  assert (H : (exists l1 o' l2, l = l1 ++ o' :: l2 /\ f o' <> None) \/ forall o', In o' l -> f o' = None).
  { clear. induction l as [|a l IH]; [right; intros o' []|]. destruct (f a) eqn:E.
    - left. exists [], a, l. split; [reflexivity|]. now rewrite E.
    - destruct IH as [(l1 & o' & l2 & -> & E')|H]; [left; exists (a :: l1), o', l2; now split|right]. intros o' [<-|Ho]; auto. }
  assert (N : (forall o', In o' l -> f o' = None) -> forall e, upd f l e = e).
  { clear. induction l as [|a l IH]; intros H e; [reflexivity|]. change (upd f (a :: l) e) with (upd f l (match f a with Some b => b | None => e end)).
    rewrite (H a) by now left. apply IH. intros o' Ho. apply H. now right. }
  destruct (IH (match f o with Some b => b | None => d end)) as [E|(l1 & o' & l2 & -> & E & Z)].
  - destruct H as [(l1 & o' & l2 & -> & E')|H].
    + right. clear E. specialize (IH d). assert (Q : forall e, exists a1 a a2, l1 ++ o' :: l2 = a1 ++ a :: a2 /\ f a = Some (upd f (l1 ++ o' :: l2) e) /\ forall x, In x a2 -> f x = None).
      { clear IH N. intros e. assert (Last : exists a1 a a2 v, l1 ++ o' :: l2 = a1 ++ a :: a2 /\ f a = Some v /\ forall x, In x a2 -> f x = None).
        { clear e. induction l2 as [|b l2 IH2] using rev_ind.
          - destruct (f o') as [v|] eqn:Ev; [|now destruct E']. exists l1, o', [], v. split; [reflexivity|]. split; [exact Ev|intros x []].
          - destruct (f b) as [v|] eqn:Ev.
            + exists (l1 ++ o' :: l2), b, [], v. split; [now rewrite <- app_assoc|]. split; [exact Ev|intros x []].
            + destruct IH2 as (a1 & a & a2 & v & Q1 & Q2 & Q3). exists a1, a, (a2 ++ [b]), v. split; [|split; [exact Q2|]].
              * change (l1 ++ o' :: l2 ++ [b]) with (l1 ++ (o' :: l2) ++ [b]). rewrite app_assoc, Q1, <- app_assoc. reflexivity.
              * intros x Hx. apply in_app_or in Hx. destruct Hx as [Hx|[<-|[]]]; auto. }
        destruct Last as (a1 & a & a2 & v & Q1 & Q2 & Q3). exists a1, a, a2. split; [exact Q1|]. split; [|exact Q3].
        rewrite Q2. f_equal. symmetry. eapply upd_last; eassumption. }
      destruct (Q (match f o with Some b => b | None => d end)) as (a1 & a & a2 & Q1 & Q2 & Q3). exists (o :: a1), a, a2.
      split; [cbn; now rewrite Q1|]. split; [exact Q2|exact Q3].
    + destruct (f o) as [v|] eqn:Ev; [|left; exact E]. right. exists [], o, l. split; [reflexivity|]. split; [rewrite E; exact Ev|exact H].
  - right. exists (o :: l1), o', l2. split; [reflexivity|]. split; [exact E|exact Z].
Qed.

Lemma upd_cons {A} (f : opt -> option A) o l d : upd f (o :: l) d = upd f l (match f o with Some b => b | None => d end).
Proof. reflexivity. Qed.

Definition num (f : opt -> option text) (o : opt) : option Z := match f o with Some a => stoi a | None => None end.
Definition fw (o : opt) : option N := option_map (fun z => Z.to_N (z mod 2 ^ 32)) (num arg_w o).
Definition fe (o : opt) : option ecode := match arg_e o with Some a => option_map fst (code_of a) | None => None end.
Definition fv (o : opt) : option bool := match arg_e o with Some a => match code_of a with Some (_, m) => m | None => None end | None => None end.
Definition fp (o : opt) : option (option text) := option_map Some (arg_p o).
Definition is_r (o : opt) : bool := match o with OR => true | _ => false end.
Definition is_c (o : opt) : bool := match o with OC => true | _ => false end.
Definition is_u (o : opt) : bool := match o with OU => true | _ => false end.
Definition is_t (o : opt) : bool := match o with OT => true | _ => false end.

Lemma parse_good l : forall s, Forall good_opt l ->
  parse l s = POk (mkSet (upd (num arg_n) l (o_data s)) (upd (num arg_m) l (o_par s)) (o_c s || existsb is_c l) (o_r s || existsb is_r l)
    (o_u s || existsb is_u l) (upd fe l (o_e s)) (upd fv l (o_vdm s)) (upd fw l (o_ws s)) (upd fp l (o_pfx s)) (o_t s || existsb is_t l)).
Proof.
  induction l as [|o l IH]; intros s H; [destruct s; cbn; now rewrite !orb_false_r|]. inversion H as [|? ? Ho Hl]; subst.
  destruct s as [d p c r u e v w x t]. destruct o as [a|a| | | | |a|a|a| |]; cbn [parse good_opt] in *.
  - destruct Ho as (nm & cc & Hin & ->). rewrite (code_of_known _ _ Hin). destruct cc as [e' m']. rewrite IH by exact Hl.
    cbn [o_data o_par o_c o_r o_u o_e o_vdm o_ws o_pfx o_t existsb orb]. do 2 f_equal; unfold upd; cbn [fold_left]; unfold fe, fv; cbn [arg_e];
      rewrite (code_of_known _ _ Hin); reflexivity.
  - destruct Ho as (z & E). rewrite E. rewrite IH by exact Hl. cbn [o_data o_par o_c o_r o_u o_e o_vdm o_ws o_pfx o_t existsb orb]. assert (F : fw (OW a) = Some (Z.to_N (z mod 2 ^ 32))) by (unfold fw, num; cbn [arg_w]; rewrite E; reflexivity).
    rewrite !upd_cons, F. reflexivity.
  - now rewrite IH by exact Hl.
  - rewrite IH by exact Hl. cbn. now rewrite ?orb_true_r.
  - rewrite IH by exact Hl. cbn. now rewrite ?orb_true_r.
  - rewrite IH by exact Hl. cbn. now rewrite ?orb_true_r.
  - destruct Ho as (z & E). rewrite E. rewrite IH by exact Hl. cbn [o_data o_par o_c o_r o_u o_e o_vdm o_ws o_pfx o_t existsb orb]. assert (F : num arg_n (ON a) = Some z) by exact E.
    rewrite !upd_cons, F. reflexivity.
  - destruct Ho as (z & E). rewrite E. rewrite IH by exact Hl. cbn [o_data o_par o_c o_r o_u o_e o_vdm o_ws o_pfx o_t existsb orb]. assert (F : num arg_m (OM a) = Some z) by exact E.
    rewrite !upd_cons, F. reflexivity.
  - now rewrite IH by exact Hl.
  - rewrite IH by exact Hl. cbn. now rewrite ?orb_true_r.
  - destruct Ho.
Qed.

Lemma parse_only_good l : forall s s', parse l s = POk s' -> Forall good_opt l.
Proof.
  induction l as [|o l IH]; intros s s' H; [constructor|]. destruct s as [d p c r u e v w x t].
  destruct o as [a|a| | | | |a|a|a| |]; cbn [parse] in H; try discriminate;
    try (constructor; [exact I|eapply IH; exact H]).
  - destruct (code_of a) as [[e' m']|] eqn:E; [|discriminate]. constructor; [|eapply IH; exact H].
    destruct (code_of_some _ _ E) as (nm & Hin & ->). now exists nm, (e', m').
  - destruct (stoi a) as [z|] eqn:E; [|discriminate]. constructor; [now exists z|eapply IH; exact H].
  - destruct (stoi a) as [z|] eqn:E; [|discriminate]. constructor; [now exists z|eapply IH; exact H].
  - destruct (stoi a) as [z|] eqn:E; [|discriminate]. constructor; [now exists z|eapply IH; exact H].
Qed.
