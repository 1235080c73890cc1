(** Jacobi symbol (C26) and Solovay-Strassen test (C51) of src/arith.h. *)
From Coq Require Import List NArith ZArith Arith Bool Lia.
From Verif.Model Require Import Common Arith.
From Verif.Spec Require Import Primes Legendre.
From Verif.Proof Require Import PrimeP JacP SolovayP.
Import ListNotations.
Open Scope Z_scope.

(** * C26 Jacobi symbol *)
(** Every positive odd modulus is a product of odd primes, so the theorem covers all of them. *)
Theorem C26_odd_moduli m : 0 < m -> m mod 2 = 1 -> exists ps, odd_primes ps /\ Z.of_N (list_prod ps) = m.
Proof. apply primes_of. Qed.

Theorem C26_jacobi b fuel n ps : odd_primes ps -> Z.abs n < 2 ^ Z.of_nat b -> Z.of_N (list_prod ps) < 2 ^ Z.of_nat b ->
  (2 * b + 2 < fuel)%nat -> jacobi fuel n (Z.of_N (list_prod ps)) = Some (jacobi_symbol n ps).
Proof. apply jacobi_correct. Qed.

(** The other moduli raise an exception. *)
Theorem C26_jacobi_domain fuel n m : m mod 2 = 0 \/ m < 0 -> jacobi fuel n m = None.
Proof.
  intros H. unfold jacobi. rewrite rem2. destruct (Z.eqb_spec (m mod 2) 0); auto. destruct (Z.ltb_spec m 0); auto. lia.
Qed.

Example C26_jacobi_case : odd_primes [3; 3; 5; 7]%N /\ jacobi_symbol (-11) [3; 3; 5; 7]%N = -1 /\ jacobi 40 (-11) 315 = Some (-1) /\
  jacobi_symbol 21 [3; 3; 5; 7]%N = 0 /\ jacobi 40 21 315 = Some 0 /\ jacobi 40 2 15 = Some 1 /\ jacobi_symbol 2 [3; 5]%N = 1 /\ residueb 2 15 = false.
Proof.
  split; [|repeat split; vm_compute; reflexivity].
  repeat (constructor; [split; [apply (is_prime_spec 16); [reflexivity|lia|lia|vm_compute; reflexivity]|reflexivity]|]). constructor.
Qed.

(** * C51 Solovay-Strassen *)
(** One round accepts exactly the bases that satisfy the congruence. *)
Theorem C51_round w fuel a ps : odd_primes ps -> (1 < list_prod ps)%N -> (list_prod ps * list_prod ps <= 2 ^ w)%N ->
  (a < 2 ^ w)%N -> (2 * N.to_nat w + 2 < fuel)%nat ->
  exists r, solovay_strassen1 fuel w a (list_prod ps) = Some r /\ (r = true <-> euler_jacobi (Z.of_N a) ps).
Proof. apply test_unit. Qed.

(** An odd prime is never rejected, whatever the generator returns. *)
Theorem C51_prime w fuel n rnd : primeN n -> N.odd n = true -> (n * n <= 2 ^ w)%N -> (forall i, (rnd i < 2 ^ w)%N) ->
  (2 * N.to_nat w + 2 < fuel)%nat -> solovay_strassen fuel w n rnd = Some true.
Proof.
  intros Pn On Hw Hr Hf. pose proof (proj1 Pn) as P1. apply loop_accepts. intros j _.
  assert (E : list_prod [n] = n) by (cbn; lia). destruct (test_unit w fuel (rnd j) [n]) as (r & Er & H); rewrite ?E; auto.
  { constructor; [now split|constructor]. }
  rewrite E in Er. rewrite Er. f_equal. apply H. now apply prime_liar.
Qed.

(** For an odd composite number at most half of the units are accepted by a round. *)
Theorem C51_composite w fuel ps : odd_primes ps -> (1 < length ps)%nat -> (list_prod ps * list_prod ps <= 2 ^ w)%N ->
  (2 * N.to_nat w + 2 < fuel)%nat ->
  (2 * length (filter (fun a => match solovay_strassen1 fuel w a (list_prod ps) with Some true => true | _ => false end) (unitsN (list_prod ps)))
   <= length (unitsN (list_prod ps)))%nat.
Proof.
  intros Hp Hl Hw Hf. pose proof (half_liars ps Hp Hl) as H. pose proof (zprod_pos ps Hp) as Hpos.
  assert (H1 : (1 < list_prod ps)%N).
  { destruct ps as [|p [|q l]]; cbn in Hl; try lia. inversion Hp as [|? ? [[P _] _] H2]; subst. inversion H2 as [|? ? [[Q _] _] H3]; subst.
    pose proof (zprod_pos l H3). unfold zprod in *. cbn [list_prod fold_right]. fold (list_prod l). nia. }
  change (zprod ps) with (Z.of_N (list_prod ps)) in H. rewrite <- unitsN_Z in H. rewrite map_length in H.
  rewrite (filter_map_length Z.of_N _ (liarb ps)); auto. intros a Ha.
  assert (R : (a < list_prod ps)%N).
  { unfold unitsN in Ha. apply filter_In in Ha. destruct Ha as [Ha _]. apply in_map_iff in Ha. destruct Ha as (x & <- & Hx). apply in_seq in Hx. lia. }
  destruct (test_unit w fuel a ps) as (r & -> & Er); auto; [nia|].
  pose proof (liarb_spec ps (Z.of_N a) Hp) as Ls. destruct r, (liarb ps (Z.of_N a)); auto.
  - symmetry. apply Ls, Er. reflexivity.
  - apply Er, Ls. reflexivity.
Qed.

(** The whole test rejects as soon as one of the 100 bases fails the congruence. *)
Theorem C51_rejects w fuel rnd ps : odd_primes ps -> (1 < list_prod ps)%N -> (list_prod ps * list_prod ps <= 2 ^ w)%N ->
  (forall i, (rnd i < 2 ^ w)%N) -> (2 * N.to_nat w + 2 < fuel)%nat ->
  (exists r, solovay_strassen fuel w (list_prod ps) rnd = Some r) /\
  (solovay_strassen fuel w (list_prod ps) rnd = Some false <-> exists i, (i < 100)%nat /\ ~ euler_jacobi (Z.of_N (rnd i)) ps).
Proof.
  intros Hp H1 Hw Hr Hf. assert (T : forall j, exists r, solovay_strassen1 fuel w (rnd j) (list_prod ps) = Some r /\ (r = true <-> liar ps (Z.of_N (rnd j)))) by (intros; now apply test_unit).
  assert (D : (exists i, (i < 100)%nat /\ solovay_strassen1 fuel w (rnd i) (list_prod ps) = Some false) \/
              (forall i, (i < 100)%nat -> solovay_strassen1 fuel w (rnd i) (list_prod ps) = Some true)).
  { generalize 100%nat. induction n as [|n [(i & Hi & E)|IH]]; [right; lia|left; exists i; split; [lia|exact E]|]. destruct (T n) as ([|] & E & _); [right|left].
    - intros i Hi. destruct (Nat.eq_dec i n) as [->|]; auto. apply IH. lia.
    - exists n. split; [lia|exact E]. }
  unfold solovay_strassen. destruct D as [(i & Hi & E)|D].
  - assert (R : solovay_loop 100 0 fuel w (list_prod ps) rnd = Some false).
    { apply loop_rejects; [intros j _; destruct (T j) as (r & Er & _); eauto|]. exists i. split; [lia|exact E]. }
    rewrite R. split; [eauto|]. split; [intros _|reflexivity]. exists i. split; auto. destruct (T i) as (r & Er & H). rewrite E in Er. injection Er as <-. intros L. now apply H in L.
  - assert (R : solovay_loop 100 0 fuel w (list_prod ps) rnd = Some true) by (apply loop_accepts; intros j Hj; apply D; lia).
    rewrite R. split; [eauto|]. split; [discriminate|]. intros (i & Hi & L). destruct L. destruct (T i) as (r & Er & H). rewrite (D i Hi) in Er. injection Er as <-. now apply H.
Qed.

(** Bases that are not units may pass for a composite number: with such a generator the test accepts 9. *)
Theorem C51_nonunits_refuted : exists n rnd, (forall i, (0 < rnd i < n)%N) /\ ~ primeN n /\ solovay_strassen 70 32 n rnd = Some true.
Proof.
  exists 9%N, (fun _ => 3%N). split; [intros; lia|]. split; [|vm_compute; reflexivity]. intros [_ H]. specialize (H 3%N). destruct H; [exists 3%N; reflexivity|lia|lia].
Qed.
(** The prime 2 raises an exception. *)
Theorem C51_two_refuted fuel w rnd : primeN 2 /\ solovay_strassen fuel w 2 rnd = None.
Proof.
  split; [apply (is_prime_spec 16); [reflexivity|lia|lia|vm_compute; reflexivity]|]. reflexivity.
Qed.
(** Without the bound on [n] the products wrap: the 32-bit test rejects the prime 65537. *)
Theorem C51_wide_refuted : exists n rnd, primeN n /\ N.odd n = true /\ (forall i, (0 < rnd i < n)%N) /\ solovay_strassen 70 32 n rnd = Some false.
Proof. exists 65537%N, (fun _ => 2%N). split; [apply (is_prime_spec 16); [reflexivity|lia|lia|vm_compute; reflexivity]|]. split; [reflexivity|]. split; [intros; lia|]. vm_compute. reflexivity. Qed.

Example C51_case : odd_primes [3; 11; 17]%N /\ (1 < length [3; 11; 17]%N)%nat /\ (561 * 561 <= 2 ^ 32)%N /\
  solovay_strassen1 70 32 2 561 = Some true /\ solovay_strassen1 70 32 5 561 = Some false /\ solovay_strassen1 70 32 5 65521 = Some true.
Proof.
  split; [|repeat split; vm_compute; try reflexivity; try lia; discriminate].
  repeat (constructor; [split; [apply (is_prime_spec 16); [reflexivity|lia|lia|vm_compute; reflexivity]|reflexivity]|]). constructor.
Qed.

Print Assumptions C26_jacobi.
Print Assumptions C51_round.
Print Assumptions C51_prime.
Print Assumptions C51_composite.
Print Assumptions C51_rejects.
Print Assumptions C51_wide_refuted.
