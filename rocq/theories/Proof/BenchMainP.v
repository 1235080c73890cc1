(** The options of the benchmark. *)
From Coq Require Import List NArith ZArith Arith Bool Ascii String Lia.
From Verif.Model Require Import Common Header Cached DriverMain Bench BenchMain.
From Verif.Spec Require Import BenchMain.
From Verif.Proof Require Import DriverMainP.
Import ListNotations.
Open Scope N_scope.

Lemma fec_known s t : In (s, t) bench_codes -> fec_of (txt s) = Some t.
Proof. unfold bench_codes. intros H. repeat (destruct H as [H|H]; [injection H as <- <-; reflexivity|]). destruct H. Qed.
Lemma fec_some a t : fec_of a = Some t -> exists s, In (s, t) bench_codes /\ a = txt s.
Proof.
  unfold fec_of. intros H.
  repeat match type of H with (if text_eqb a (txt ?t) then _ else _) = _ =>
    destruct (text_eqb a (txt t)) eqn:E; [injection H as <-; exists t; split; [unfold bench_codes; cbn [In]; tauto|now apply text_eqb_spec]|clear E] end.
  discriminate.
Qed.
Lemma sce_known s t : In (s, t) bench_scenarios -> sce_of (txt s) = Some t.
Proof. unfold bench_scenarios. intros H. repeat (destruct H as [H|H]; [injection H as <- <-; reflexivity|]). destruct H. Qed.
Lemma sce_some a t : sce_of a = Some t -> exists s, In (s, t) bench_scenarios /\ a = txt s.
Proof.
  unfold sce_of. intros H.
  repeat match type of H with (if text_eqb a (txt ?t) then _ else _) = _ =>
    destruct (text_eqb a (txt t)) eqn:E; [injection H as <-; exists t; split; [unfold bench_scenarios; cbn [In]; tauto|now apply text_eqb_spec]|clear E] end.
  discriminate.
Qed.

Lemma chosen_nil A (g : bopt -> A -> Prop) d : chosen g [] d d.
Proof. right. split; [intros o b []|reflexivity]. Qed.
Lemma chosen_skip A (g : bopt -> A -> Prop) o l d a : (forall b, ~ g o b) -> chosen g l d a -> chosen g (o :: l) d a.
Proof.
  intros H [(l1 & o' & l2 & -> & G & N)|[N ->]].
  - left. exists (o :: l1), o', l2. auto.
  - right. split; [|reflexivity]. intros o' b [<-|Ho]; [apply H|now apply N].
Qed.
Lemma chosen_take A (g : bopt -> A -> Prop) o l d b a : g o b -> chosen g l b a -> chosen g (o :: l) d a.
Proof.
  intros H [(l1 & o' & l2 & -> & G & N)|[N ->]].
  - left. exists (o :: l1), o', l2. auto.
  - left. exists [], o, l. auto.
Qed.

(** A number, as it is stored. *)
Definition stored (f : nfield) (p : params) : Z :=
  match f with
  | FT => p_T p | FW => Z.of_N (p_ws p) | FK => p_k p | FM => p_m p | FC => Z.of_N (p_chunk p) | FP => Z.of_N (p_pkt p)
  | FN => Z.of_N (p_samples p) | FX => p_extra p | FG => Z.of_N (p_threads p) | FF => p_print p
  end.
Definition conv (f : nfield) (z : Z) : Z :=
  match f with
  | FW | FC | FP => (z mod 2 ^ 64)%Z
  | FN | FG => (z mod 2 ^ 32)%Z
  | _ => z
  end.
Lemma of_u64 z : Z.of_N (to_u64 z) = (z mod 2 ^ 64)%Z.
Proof. unfold to_u64. apply Z2N.id. apply Z.mod_pos_bound. reflexivity. Qed.
Lemma of_u32 z : Z.of_N (to_u32 z) = (z mod 2 ^ 32)%Z.
Proof. unfold to_u32. apply Z2N.id. apply Z.mod_pos_bound. reflexivity. Qed.
Lemma stored_same f z p : stored f (set_num f z p) = conv f z.
Proof. destruct p, f; cbn -[to_u64 to_u32 Z.modulo Z.pow]; rewrite ?of_u64, ?of_u32; reflexivity. Qed.
Lemma stored_other f g z p : f <> g -> stored f (set_num g z p) = stored f p.
Proof. intros H. destruct p, f, g; try (now destruct H); reflexivity. Qed.
Lemma field_dec (f g : nfield) : {f = g} + {f <> g}.
Proof. decide equality. Qed.

Lemma parse_run l : forall p p', bparse l p = BRun p' ->
  Forall bench_good l /\ chosen gives_type l (p_type p) (p_type p') /\ chosen gives_sce l (p_sce p) (p_sce p') /\
  p_packet p' = p_packet p /\
  forall f d, stored f p = conv f d -> exists z, chosen (gives_num f) l d z /\ stored f p' = conv f z.
Proof.
  induction l as [|o l IH]; intros p p' H.
  - injection H as <-. split; [constructor|]. split; [apply chosen_nil|]. split; [apply chosen_nil|]. split; [reflexivity|].
    intros f d E. exists d. split; [apply chosen_nil|exact E].
  - assert (NT : forall f a t, ~ gives_type (BNum f a) t) by (intros f a t (s & _ & E); discriminate).
    assert (NT' : forall a t, ~ gives_type (BS a) t) by (intros a t (s & _ & E); discriminate).
    assert (NS : forall f a t, ~ gives_sce (BNum f a) t) by (intros f a t (s & _ & E); discriminate).
    assert (NS' : forall a t, ~ gives_sce (BE a) t) by (intros a t (s & _ & E); discriminate).
    assert (NN : forall f a t, ~ gives_num f (BE a) t) by (intros f a t (s & E & _); discriminate).
    assert (NN' : forall f a t, ~ gives_num f (BS a) t) by (intros f a t (s & E & _); discriminate).
    destruct o as [a|a|f a|]; cbn [bparse] in H; [| | |discriminate].
    + destruct (fec_of a) as [t|] eqn:E; [|discriminate]. apply fec_some in E. destruct E as (s & Hs & ->).
      destruct (IH _ _ H) as (A & B & C & D & F). assert (G : gives_type (BE (txt s)) t) by (exists s; auto).
      split; [constructor; [left; exists t; exact G|exact A]|]. split; [eapply chosen_take; [exact G|]; now destruct p|].
      split; [apply chosen_skip; [auto|]; now destruct p|]. split; [rewrite D; now destruct p|].
      intros f d Ef. destruct (F f d) as (z & Z1 & Z2); [rewrite <- Ef; now destruct p, f|]. exists z. split; [apply chosen_skip; auto|exact Z2].
    + destruct (sce_of a) as [t|] eqn:E; [|discriminate]. apply sce_some in E. destruct E as (s & Hs & ->).
      destruct (IH _ _ H) as (A & B & C & D & F). assert (G : gives_sce (BS (txt s)) t) by (exists s; auto).
      split; [constructor; [right; left; exists t; exact G|exact A]|]. split; [apply chosen_skip; [auto|]; now destruct p|].
      split; [eapply chosen_take; [exact G|]; now destruct p|]. split; [rewrite D; now destruct p|].
      intros f d Ef. destruct (F f d) as (z & Z1 & Z2); [rewrite <- Ef; now destruct p, f|]. exists z. split; [apply chosen_skip; auto|exact Z2].
    + destruct (stoi a) as [z|] eqn:E; [|discriminate].
      destruct (IH _ _ H) as (A & B & C & D & F). assert (G : gives_num f (BNum f a) z) by (exists a; auto).
      split; [constructor; [right; right; exists f, z; exact G|exact A]|]. split; [apply chosen_skip; [auto|]; now destruct p, f|].
      split; [apply chosen_skip; [auto|]; now destruct p, f|]. split; [rewrite D; now destruct p, f|].
      intros g d Eg. destruct (field_dec g f) as [->|Hne].
      * destruct (F f z) as (z' & Z1 & Z2); [apply stored_same|]. exists z'. split; [eapply chosen_take; eassumption|exact Z2].
      * destruct (F g d) as (z' & Z1 & Z2); [now rewrite stored_other|]. exists z'. split; [|exact Z2].
        apply chosen_skip; [|exact Z1]. intros b (a' & Ea & _). injection Ea as E1 _. congruence.
Qed.
Lemma parse_good l : forall p, Forall bench_good l -> forall r, exists p', bparse (l ++ r) p = bparse r p'.
Proof.
  induction l as [|o l IH]; intros p H r; [exists p; reflexivity|]. inversion H as [|? ? G Hl]; subst. clear H. cbn [app bparse].
  destruct G as [(t & s & Hs & ->)|[(t & s & Hs & ->)|(f & z & a & -> & E)]].
  - rewrite (fec_known s t Hs). now apply IH.
  - rewrite (sce_known s t Hs). now apply IH.
  - rewrite E. now apply IH.
Qed.
