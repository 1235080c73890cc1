(** Fields with the same operations: what the constructors find is the same, whatever the width of the type. *)
From Coq Require Import List NArith Arith Bool Lia.
From Verif.Model Require Import Common Arith Ring FftCodes.
From Verif.Spec Require Import Primes.
From Verif.Proof Require Import ListP ArithP PrimeP CodeLenP FactorU.
Import ListNotations.
Open Scope N_scope.

(** The same operations on the numbers below the cardinal. *)
Record agree (G G' : gfops) : Prop := Agree {
  ag_card : g_card G = g_card G';
  ag_one : 1 < g_card G;
  ag_add : forall a b, a < g_card G -> b < g_card G -> g_add G a b = g_add G' a b /\ g_add G a b < g_card G;
  ag_mul : forall a b, a < g_card G -> b < g_card G -> g_mul G a b = g_mul G' a b /\ g_mul G a b < g_card G;
  ag_exp : forall a e, a < g_card G -> e < g_card G -> g_exp G a e = g_exp G' a e /\ g_exp G a e < g_card G
}.

Lemma factor_prime_w h h' n : 0 < h -> 0 < h' -> n <> 0 -> n < 2 ^ (2 * h) -> n < 2 ^ (2 * h') ->
  factor_prime (2 * h) n = factor_prime (2 * h') n.
Proof.
  intros H0 H0' N0 L L'. destruct (factor_prime_spec h H0 n N0 L) as (l & -> & A). destruct (factor_prime_spec h' H0' n N0 L') as (l' & -> & B).
  f_equal. eapply factorisation_unique; eauto.
Qed.

Section Agree.
Variables (G G' : gfops) (h h' : N).
Hypothesis A : agree G G'.
Hypothesis h0 : 0 < h.
Hypothesis h0' : 0 < h'.
Hypothesis hq : g_card G <= 2 ^ (2 * h).
Hypothesis hq' : g_card G <= 2 ^ (2 * h').

Lemma ord_factor : factor_prime (2 * h) (g_card G - 1) = factor_prime (2 * h') (g_card G - 1).
Proof. pose proof (ag_one _ _ A). apply factor_prime_w; auto; lia. Qed.

Lemma proper_lt d l : In d (get_proper_divisors_of (g_card G - 1) l) -> d < g_card G.
Proof.
  pose proof (ag_one _ _ A). unfold get_proper_divisors_of. intros Hd. apply in_flat_map in Hd. destruct Hd as (p & _ & Hd).
  destruct (p <? g_card G - 1); [|easy]. destruct Hd as [<-|[]]. destruct p as [|p]; [cbn; destruct (g_card G - 1); cbn; lia|].
  assert ((g_card G - 1) / N.pos p <= g_card G - 1) by (apply N.div_le_upper_bound; nia). lia.
Qed.

Lemma primitive_eq l nb : (forall d, In d l -> d < g_card G) -> nb < g_card G -> is_primitive_root G l nb = is_primitive_root G' l nb.
Proof.
  intros Hl Hn. unfold is_primitive_root. induction l as [|d l IHl]; [reflexivity|]. cbn [forallb].
  rewrite (proj1 (ag_exp _ _ A nb d Hn (Hl d ltac:(now left)))). f_equal. apply IHl; intros; apply Hl; now right.
Qed.
Lemma root_loop l : (forall d, In d l -> d < g_card G) -> forall fuel nb,
  find_root_loop fuel G l (g_card G - 1) nb = find_root_loop fuel G' l (g_card G - 1) nb.
Proof.
  intros Hl. pose proof (ag_one _ _ A). induction fuel as [|fuel IH]; intros nb; [reflexivity|]. cbn [find_root_loop].
  destruct (N.leb_spec nb (g_card G - 1)); [|reflexivity]. rewrite <- primitive_eq by (auto; lia). destruct (is_primitive_root G l nb); auto.
Qed.

Lemma root_w : find_primitive_root (2 * h) G = find_primitive_root (2 * h') G'.
Proof.
  unfold find_primitive_root. rewrite <- (ag_card _ _ A), <- ord_factor. destruct (g_card G - 1 =? 1); [reflexivity|].
  destruct (factor_prime _ _); [|reflexivity]. apply root_loop. intros d. apply proper_lt.
Qed.
Lemma root_lt root : find_primitive_root (2 * h) G = Some root -> root < g_card G.
Proof.
  clear h0 h0' hq hq'.
  pose proof (ag_one _ _ A). unfold find_primitive_root. destruct (N.eqb_spec (g_card G - 1) 1); [intros E; injection E as <-; lia|].
  destruct (factor_prime _ _) as [fs|]; [|discriminate]. generalize (N.to_nat (g_card G - 1)) 2. intros fuel.
  induction fuel as [|fuel IH]; intros nb; [discriminate|]. cbn [find_root_loop]. destruct (N.leb_spec nb (g_card G - 1)); [|discriminate].
  destruct (is_primitive_root _ _ _); [|apply IH]. intros E. injection E as <-. lia.
Qed.

Lemma nth_root_w root n : root < g_card G -> get_nth_root G root n = get_nth_root G' root n /\ get_nth_root G root n < g_card G.
Proof.
  clear h0 h0' hq hq'.
  intros Hr. pose proof (ag_one _ _ A). unfold get_nth_root. rewrite <- (ag_card _ _ A). apply (ag_exp _ _ A); [exact Hr|].
  assert (X : (g_card G - 1) / gcd n (g_card G - 1) <= g_card G - 1); [|lia]. set (x := gcd n (g_card G - 1)).
  destruct x as [|x]; [destruct (g_card G - 1); cbn; lia|]. apply N.div_le_upper_bound; nia.
Qed.

Lemma code_len_w n : ring_code_len_high_compo (2 * h) (g_card G) n = ring_code_len_high_compo (2 * h') (g_card G') n.
Proof. unfold ring_code_len_high_compo, get_prime_factors. rewrite <- (ag_card _ _ A), ord_factor. reflexivity. Qed.
End Agree.

(** A polynomial with coefficients [words] at [x], with the operations of the field. *)
Definition horner_n (G : gfops) (words : list N) (x : N) : N := fold_right (fun a acc => g_add G a (g_mul G acc x)) 0 words.
Lemma horner_agree G G' words x : agree G G' -> Forall (fun a => a < g_card G) words -> x < g_card G ->
  horner_n G words x = horner_n G' words x /\ horner_n G words x < g_card G.
Proof.
  intros A Hw Hx. induction Hw as [|a l Ha _ (IH & IHv)]; cbn [horner_n fold_right].
  - split; [reflexivity|]. pose proof (ag_one _ _ A). lia.
  - fold (horner_n G l x). fold (horner_n G' l x). rewrite <- IH. destruct (ag_mul _ _ A _ x IHv Hx) as (<- & V). now apply (ag_add _ _ A).
Qed.

(** What the constructors keep. *)
Lemma make_inv w G p limit had root k m tn t2 c : fcode_make w G p limit had root k m tn t2 = Some c -> exists n,
  ring_code_len_high_compo w (g_card G) (N.of_nat (k + m)) = Some n /\ f_G c = G /\ f_n c = N.to_nat n /\ f_limit c = limit /\
  f_rpow c = map (fun i => g_exp G (get_nth_root G root (N.of_nat (f_n c))) (N.of_nat i)) (seq 0 (f_n c)).
Proof.
  unfold fcode_make, int_len. destruct (ring_code_len_high_compo w (g_card G) (N.of_nat (k + m))) as [n|]; [|discriminate].
  destruct (ring_code_len_high_compo w (g_card G) (N.of_nat (2 * k))) as [l2|]; [|discriminate].
  destruct (n <? 2 ^ 31); [|discriminate]. destruct (l2 <? 2 ^ 31); [|discriminate].
  destruct (tn _); [|discriminate]. destruct (t2 _); [|discriminate]. intros E. injection E as <-. exists n. cbn. auto.
Qed.

(** Two codes over the same field: the same length and the same points. *)
Lemma make_w G G' h h' p p' limit had had' root root' k m tn tn' t2 t2' c c' : agree G G' -> 0 < h -> 0 < h' ->
  g_card G <= 2 ^ (2 * h) -> g_card G <= 2 ^ (2 * h') ->
  find_primitive_root (2 * h) G = Some root -> find_primitive_root (2 * h') G' = Some root' ->
  fcode_make (2 * h) G p limit had root k m tn t2 = Some c -> fcode_make (2 * h') G' p' limit had' root' k m tn' t2' = Some c' ->
  (2 <= k + m)%nat ->
  f_n c = f_n c' /\ f_rpow c = f_rpow c' /\ f_limit c = f_limit c' /\ agree (f_G c) (f_G c').
Proof.
  intros A H0 H0' HQ HQ' E1 E2 E3 E4 km. destruct (make_inv _ _ _ _ _ _ _ _ _ _ _ E3) as (n & En & -> & Nn & L & R).
  destruct (make_inv _ _ _ _ _ _ _ _ _ _ _ E4) as (n' & En' & -> & Nn' & L' & R').
  pose proof (root_w _ _ _ _ A H0 H0' HQ HQ') as Rw. rewrite E1, E2 in Rw. injection Rw as ->.
  pose proof (code_len_w _ _ _ _ A H0 H0' HQ HQ' (N.of_nat (k + m))) as Cw. rewrite En, En' in Cw. injection Cw as ->.
  assert (Hr : root' < g_card G) by (apply (root_lt G G' h A); exact E1).
  assert (Le : n' <= g_card G - 1).
  { pose proof (ag_one _ _ A). destruct (N.leb_spec (N.of_nat (k + m)) (g_card G - 1)) as [Hle|Hgt].
    - destruct (ring_code_len_ok h (g_card G) (N.of_nat (k + m)) H0 HQ ltac:(lia) Hle) as (r & Er & _ & D).
      rewrite En in Er. injection Er as <-. apply N.divide_pos_le in D; lia.
    - unfold ring_code_len_high_compo in En. destruct (N.ltb_spec (g_card G - 1) (N.of_nat (k + m))); [discriminate|lia]. }
  rewrite L, L', R, R', Nn, Nn'. split; [reflexivity|]. split; [|split; [reflexivity|exact A]].
  apply map_ext_in. intros i Hi. apply in_seq in Hi. destruct (nth_root_w _ _ A root' (N.of_nat (N.to_nat n')) Hr) as (<- & V).
  apply (ag_exp _ _ A); [exact V|]. pose proof (ag_one _ _ A). lia.
Qed.
