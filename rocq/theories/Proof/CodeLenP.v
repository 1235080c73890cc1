(** Code lengths (arith.h:636-712, gf_ring.h:815-822). *)
From Coq Require Import List NArith ZArith Bool Lia.
From Verif.Model Require Import Common Arith Ring.
From Verif.Spec Require Import Primes.
From Verif.Proof Require Import Tac ArithP PrimeP.
Import ListNotations.
Open Scope N_scope.

Lemma list_prod_pos l : Forall (fun f => 0 < f) l -> 0 < list_prod l.
Proof. induction 1 as [|f l Hf _ IH]; [reflexivity|]. change (0 < f * list_prod l). nia. Qed.

(** Dividing the product of [fs] by the factors one by one, from the front. *)
Lemma high_compo_back_spec n : 2 <= n -> forall fs x, Forall (fun f => 0 < f) fs -> x = list_prod fs -> n <= x ->
  exists r, high_compo_back fs x n = inl r /\ n <= r /\ (r | x) /\ exists f, In f fs /\ r / f < n.
Proof.
  intros Hn. induction fs as [|f fs IH]; intros x Hf Hx Hle.
  - change (list_prod []) with 1 in Hx. lia.
  - inversion_clear Hf. change (list_prod (f :: fs)) with (f * list_prod fs) in Hx.
    cbn [high_compo_back]. rewrite Hx.
    assert (Ed : f * list_prod fs / f = list_prod fs) by (rewrite N.mul_comm; apply N.div_mul; lia).
    rewrite Ed. destruct (N.ltb_spec (list_prod fs) n) as [Hl|Hl].
    + exists (list_prod fs * f). split; [reflexivity|]. split; [lia|]. split; [exists 1; lia|].
      exists f. split; [left; auto|]. rewrite N.div_mul by lia. auto.
    + destruct (IH (list_prod fs) H0 eq_refl Hl) as (r & E & R1 & R2 & g & G1 & G2).
      exists r. split; [exact E|]. split; [auto|]. split; [apply N.divide_mul_r; auto|].
      exists g. split; [right; auto|auto].
Qed.

Lemma high_compo_loop_spec n : 2 <= n -> forall fs seen x, Forall (fun f => 0 < f) (seen ++ fs) ->
  x = list_prod seen -> n <= list_prod (seen ++ fs) -> fs <> [] -> x < n ->
  exists r, high_compo_loop seen fs x n = Some r /\ n <= r /\ (r | list_prod (seen ++ fs)) /\
    exists f, In f (seen ++ fs) /\ r / f < n.
Proof.
  intros Hn. induction fs as [|f fs IH]; intros seen x Hf Hx Hle Hne Hlt; [congruence|].
  cbn [high_compo_loop].
  assert (Es : seen ++ f :: fs = (seen ++ [f]) ++ fs) by (rewrite <- app_assoc; reflexivity).
  assert (Ep : list_prod (seen ++ [f]) = x * f).
  { rewrite list_prod_app, Hx. unfold list_prod; cbn. lia. }
  rewrite Es in *. apply Forall_app in Hf as Hf'. destruct Hf' as [Hf1 Hf2].
  destruct (N.leb_spec n (x * f)) as [Hr|Hr].
  - destruct (high_compo_back_spec n Hn (seen ++ [f]) (x * f) Hf1 ltac:(auto) Hr) as (r & -> & R1 & R2 & g & G1 & G2).
    exists r. split; [reflexivity|]. split; [auto|]. split; [rewrite list_prod_app, Ep; apply N.divide_mul_l; auto|].
    exists g. split; [apply in_or_app; auto|auto].
  - destruct fs as [|g fs].
    + rewrite app_nil_r in Hle. lia.
    + apply (IH (seen ++ [f])); auto. discriminate.
Qed.

(** For positive factors with product at least [n >= 2]: a divisor of the product, at least [n], that falls below [n]
    when divided by one of the factors. *)
Theorem get_code_len_high_compo_spec fs n : 2 <= n -> Forall (fun f => 0 < f) fs -> n <= list_prod fs ->
  exists r, get_code_len_high_compo fs n = Some r /\ n <= r /\ (r | list_prod fs) /\ exists f, In f fs /\ r / f < n.
Proof.
  intros Hn Hf Hle. apply (high_compo_loop_spec n Hn fs [] 1); auto; [|lia].
  intros ->. change (list_prod []) with 1 in Hle. lia.
Qed.

Lemma get_code_len_high_compo_none fs n : 2 <= n -> Forall (fun f => 0 < f) fs -> list_prod fs < n ->
  get_code_len_high_compo fs n = None.
Proof.
  intros Hn Hf Hlt. unfold get_code_len_high_compo.
  assert (X : forall fs seen x, Forall (fun f => 0 < f) (seen ++ fs) -> x = list_prod seen -> list_prod (seen ++ fs) < n ->
    high_compo_loop seen fs x n = None).
  { clear fs Hf Hlt. induction fs as [|f fs IH]; intros seen x Hf Hx Hlt; [reflexivity|]. cbn [high_compo_loop].
    assert (Es : seen ++ f :: fs = (seen ++ [f]) ++ fs) by (rewrite <- app_assoc; reflexivity).
    assert (Ep : list_prod (seen ++ [f]) = x * f) by (rewrite list_prod_app, Hx; unfold list_prod; cbn; lia).
    rewrite Es in *. destruct (N.leb_spec n (x * f)) as [Hr|Hr].
    - rewrite list_prod_app, Ep in Hlt. apply Forall_app in Hf. destruct Hf as [_ Hf].
      pose proof (list_prod_pos fs Hf). nia.
    - apply (IH (seen ++ [f])); auto. }
  apply (X fs []); auto.
Qed.

(** Over the factors of a power of two: the least power of two that is at least [n]. *)
Lemma divide_pow2 r t : (r | 2 ^ t) -> exists e, e <= t /\ r = 2 ^ e.
Proof.
  revert r. induction t as [|t IH] using N.peano_ind; intros r H.
  - rewrite N.pow_0_r in H. apply N.divide_1_r in H. exists 0. subst. split; [lia|reflexivity].
  - rewrite N.pow_succ_r' in H.
    destruct (N.eq_dec (r mod 2) 0) as [E|E].
    + assert (Er : r = 2 * (r / 2)) by dlia.
      rewrite Er in H. apply N.mul_divide_cancel_l in H; [|lia].
      destruct (IH _ H) as (e & He & Ee). exists (N.succ e). split; [lia|]. rewrite N.pow_succ_r', <- Ee. auto.
    + assert (G : N.gcd r 2 = 1).
      { destruct (N.gcd_divide_r r 2) as [c Hc]. pose proof (N.divide_pos_le (N.gcd r 2) 2 ltac:(lia) (N.gcd_divide_r r 2)).
        assert (N.gcd r 2 <> 0) by (intros X; rewrite X in Hc; lia).
        destruct (N.eq_dec (N.gcd r 2) 1); auto. assert (X : N.gcd r 2 = 2) by lia.
        pose proof (N.gcd_divide_l r 2) as D. rewrite X in D. apply N.mod_divide in D; lia. }
      apply N.gauss in H; auto. destruct (IH _ H) as (e & He & Ee). exists e. split; [lia|auto].
Qed.

Theorem code_len_pow2 t n : 2 <= n -> n <= 2 ^ N.of_nat t ->
  exists e, (e <= t)%nat /\ get_code_len_high_compo (repeat 2 t) n = Some (2 ^ N.of_nat e) /\
    n <= 2 ^ N.of_nat e /\ 2 ^ N.of_nat e < 2 * n.
Proof.
  intros Hn Hle. destruct (get_code_len_high_compo_spec (repeat 2 t) n Hn) as (r & E & R1 & R2 & f & F1 & F2).
  - apply Forall_forall. intros x Hx. apply repeat_spec in Hx. lia.
  - rewrite list_prod_repeat. auto.
  - rewrite list_prod_repeat in R2. destruct (divide_pow2 _ _ R2) as (e & He & ->).
    apply repeat_spec in F1. subst f.
    exists (N.to_nat e). rewrite N2Nat.id. split; [lia|]. split; [auto|]. split; [auto|].
    destruct (N.eq_dec e 0) as [->|He0]; [rewrite N.pow_0_r in *; lia|].
    replace e with (N.succ (N.pred e)) in * by lia. rewrite N.pow_succ_r' in *.
    rewrite N.mul_comm, N.div_mul in F2 by lia. lia.
Qed.

(** The prime factors of a power of two. *)
Lemma factors_unique_pow2 l t : Forall primeN l -> list_prod l = 2 ^ t -> l = repeat 2 (N.to_nat t).
Proof.
  intros Hl. revert t. induction Hl as [|p l Hp Hl IH]; intros t E.
  - change (list_prod []) with 1 in E. destruct (N.eq_dec t 0) as [->|H0]; [reflexivity|].
    exfalso. replace t with (N.succ (N.pred t)) in E by lia. rewrite N.pow_succ_r' in E. lia.
  - change (list_prod (p :: l)) with (p * list_prod l) in E.
    assert (D : (p | 2)) by (apply prime_divides_pow with t; auto; rewrite <- E; apply N.divide_factor_l).
    assert (p = 2). { pose proof (N.divide_pos_le p 2 ltac:(lia) D). destruct Hp. lia. } subst p.
    destruct (N.eq_dec t 0) as [->|H0]; [rewrite N.pow_0_r in E; lia|].
    replace t with (N.succ (N.pred t)) in E |- * by lia. rewrite N.pow_succ_r' in E.
    rewrite N2Nat.inj_succ. cbn [repeat]. f_equal. apply IH. lia.
Qed.

Theorem ring_code_len_pow2 h card t n : 0 < h -> card <= 2 ^ (2 * h) -> card = 2 ^ t + 1 -> 2 <= n -> n <= 2 ^ t ->
  exists e, e <= t /\ ring_code_len_high_compo (2 * h) card n = Some (2 ^ e) /\ n <= 2 ^ e /\ 2 ^ e < 2 * n.
Proof.
  intros Hh Hc Et Hn Hle. unfold ring_code_len_high_compo.
  replace (card - 1) with (2 ^ t) by lia. destruct (N.ltb_spec (2 ^ t) n); [lia|].
  destruct (get_prime_factors_spec h Hh (2 ^ t)) as (l & -> & P1 & P2 & _); [apply N.pow_nonzero; lia|lia|].
  rewrite (factors_unique_pow2 l t P1 P2).
  destruct (code_len_pow2 (N.to_nat t) n Hn) as (e & E1 & E2 & E3 & E4); [rewrite N2Nat.id; auto|].
  exists (N.of_nat e). split; [lia|]. auto.
Qed.

(** Any order. *)
Theorem ring_code_len_ok h card n : 0 < h -> card <= 2 ^ (2 * h) -> 2 <= n -> n <= card - 1 ->
  exists r, ring_code_len_high_compo (2 * h) card n = Some r /\ n <= r /\ (r | card - 1).
Proof.
  intros Hh Hc Hn Hle. unfold ring_code_len_high_compo. destruct (N.ltb_spec (card - 1) n); [lia|].
  destruct (get_prime_factors_spec h Hh (card - 1)) as (l & -> & P1 & P2 & _); [lia|lia|].
  destruct (get_code_len_high_compo_spec l n Hn) as (r & E & R1 & R2 & _).
  - apply Forall_forall. intros f Hf. rewrite Forall_forall in P1. destruct (P1 f Hf). lia.
  - rewrite P2. auto.
  - exists r. rewrite P2 in R2. auto.
Qed.

(** ** [get_code_len] *)
Lemma code_len_down_spec order n : 0 < order -> 0 < n -> forall i, (N.of_nat i <= order / n) -> (0 < i)%nat ->
  exists r, code_len_down i order = Some r /\ (r | order) /\ n <= r.
Proof.
  intros H0 Hn. induction i as [|i IH]; intros Hi Hp; [lia|].
  cbn [code_len_down]. destruct (N.eqb_spec (order mod N.of_nat (S i)) 0) as [E|E].
  - eexists. split; [reflexivity|].
    assert (Eo : order = N.of_nat (S i) * (order / N.of_nat (S i))) by (rewrite (N.div_mod order (N.of_nat (S i))) at 1 by lia; lia).
    split; [exists (N.of_nat (S i)); lia|].
    assert (N.of_nat (S i) * n <= order).
    { pose proof (N.mul_div_le order n ltac:(lia)). nia. }
    set (z := order / N.of_nat (S i)) in *. nia.
  - destruct i as [|i]; [rewrite N.mod_1_r in E; lia|]. apply IH; lia.
Qed.

Lemma code_len_up_spec order root : 0 < order -> root <= order -> forall fuel i, 0 < i -> i <= order ->
  (code_len_up fuel order i root | order) /\ i <= code_len_up fuel order i root.
Proof.
  intros H0 Hro. induction fuel as [|f IH]; intros i Hi Hio; cbn [code_len_up].
  - split; [apply N.divide_refl|auto].
  - destruct (N.leb_spec i root) as [Hr|Hr]; [|split; [apply N.divide_refl|auto]].
    destruct (N.eqb_spec (order mod i) 0) as [E|E].
    + split; [apply N.mod_divide; lia|lia].
    + destruct (N.eq_dec i order) as [->|Hne]; [rewrite N.mod_same in E; lia|].
      destruct (IH (i + 1)) as [A B]; [lia|lia|]. split; [auto|lia].
Qed.

Theorem get_code_len_spec h order n : 0 < h -> order < 2 ^ (2 * h) -> 0 < n -> n <= order ->
  exists r, get_code_len (2 * h) order n = Some r /\ (r | order) /\ n <= r.
Proof.
  intros Hh Ho Hn Hle. unfold get_code_len.
  destruct (N.eqb_spec n 0); [lia|]. destruct (N.eqb_spec (order mod n) 0) as [E|E].
  - exists n. split; [auto|]. split; [apply N.mod_divide; lia|lia].
  - destruct (N.ltb_spec order n); [lia|].
    destruct (sqrt_spec h order Hh Ho) as [S1 S2].
    destruct (N.ltb_spec (sqrt (2 * h) order) n).
    + assert (0 < order / n) by (apply N.div_str_pos; lia). apply code_len_down_spec; lia.
    + eexists. split; [reflexivity|]. apply code_len_up_spec; lia || nia.
Qed.
