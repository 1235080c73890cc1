(** The instances of the Fermat-field code: word sizes 1 and 2. *)
From Coq Require Import List NArith ZArith Arith Lia.
From Verif.Model Require Import Common Arith Ring Fft2n Radix2 Poly Props Simd Fnt.
From Verif.Spec Require Import Primes Modular Code Widths.
From Verif.Proof Require Import PrimeP Build SimdP SimdK SimdPost FntNew.
Import ListNotations.
Open Scope nat_scope.

Lemma prime257 : primeN 257.
Proof. apply (is_prime_spec 16); [reflexivity|lia|lia|vm_compute; reflexivity]. Qed.
Lemma prime65537 : primeN 65537.
Proof. apply (is_prime_spec 16); [reflexivity|lia|lia|vm_compute; reflexivity]. Qed.

Lemma jac257 : jacobi 100 3 257 = Some (-1)%Z. Proof. vm_compute. reflexivity. Qed.
Lemma jac65537 : jacobi 100 3 65537 = Some (-1)%Z. Proof. vm_compute. reflexivity. Qed.

(** What is known of a code made by the constructor. *)
Definition fnt_made (w : N) (sys : bool) (ws k m pkt n : nat) (cw : (nat -> N) -> nat -> N) (c : fnt) : Prop :=
  (exists nh, fnt_build nh w ws /\ fnt_new nh w sys ws k m pkt = Some c) /\ code_spec c cw /\ c_n c = n /\
  c_sys c = sys /\ c_ws c = ws /\ c_k c = k /\ c_m c = m /\ c_pkt c = pkt /\
  g_card (c_G c) = (256 ^ N.of_nat ws + 1)%N.

Lemma made_build nh h sys ws k m pkt n r f f2 rpow : fnt_build nh (2 * h) ws -> is_true (ssrnat.leq 1 pkt) ->
  build_ok (fnt_make nh (2 * h) sys ws k m pkt (prime_ops (2 * h) (256 ^ N.of_nat ws + 1)) n r f f2 rpow).
Proof.
  intros Hb Hp. assert (Hp' : 0 < pkt) by exact (ssrbool.elimT ssrnat.ltP Hp). clear Hp.
  destruct nh as [|nh0]; [apply plain_build|]. destruct Hb as [Hb|(Hb & H16 & H32)]; [discriminate|]. remember (S nh0) as nh eqn:Enh.
  assert (Hn : nh = 1 \/ nh = 2) by lia. unfold fnt_make, simd_size.
  assert (K : forall e, e = 2 \/ e = 4 -> (2 * h)%N = wbits e -> (256 ^ N.of_nat ws + 1)%N = vcard e ->
    build_ok (mkFnt sys ws k m pkt (prime_ops (2 * h) (256 ^ N.of_nat ws + 1)) n r f f2 rpow
      (simd_kernels e nh (prime_ops (2 * h) (256 ^ N.of_nat ws + 1)) pkt) (simd_hadamard e nh (256 ^ N.of_nat ws + 1))
      (simd_post e nh pkt))).
  { intros e He Ew Ec. rewrite Ew. split; cbn [c_K c_G c_pkt c_had c_post].
    - now apply simd_kern.
    - now apply simd_agree.
    - intros n' x y Hx Hy. now apply (simd_had_ok e nh He Hn _ Ec n').
    - intros offset output ps H. unfold c_h. cbn [c_G g_card prime_ops]. now apply (simd_post_eq e nh He Hn (wbits e)). }
  rewrite Enh at 1. cbv beta iota. destruct (N.eqb_spec (2 * h) 16) as [E|E]; [|destruct (N.eqb_spec (2 * h) 32) as [E'|E']].
  - apply K; [now left|exact E|]. rewrite (H16 E). reflexivity.
  - apply K; [now right|exact E'|]. rewrite (H32 E'). reflexivity.
  - apply plain_build.
Qed.

Theorem fnt_new_spec w sys ws k m : fnt_width w ws -> fnt_sizes ws k m ->
  exists cw r n, poly_code sys (256 ^ N.of_nat ws + 1) r n k cw /\
   forall nh pkt, fnt_build nh w ws -> 0 < pkt ->
    exists c, fnt_new nh w sys ws k m pkt = Some c /\ fnt_made w sys ws k m pkt n cw c.
Proof.
  intros Hw (k0 & m0 & km & k2).
  assert (G : forall h t p, p = (2 ^ t + 1)%N -> (256 ^ N.of_nat ws = 2 ^ t)%N -> primeN p -> (0 < h)%N -> (t < 32)%N ->
     (2 * p <= 2 ^ (2 * h))%N -> ws < 4 -> wrap (2 * h) (2 ^ (8 * N.of_nat ws) + 1) = p ->
     find_primitive_root (2 * h) (prime_ops (2 * h) p) = Some 3%N -> jacobi 100 3 (Z.of_N p) = Some (-1)%Z -> w = (2 * h)%N ->
     exists cw r n, poly_code sys (256 ^ N.of_nat ws + 1) r n k cw /\
      forall nh pkt, fnt_build nh w ws -> 0 < pkt ->
       exists c, fnt_new nh w sys ws k m pkt = Some c /\ fnt_made w sys ws k m pkt n cw c).
  { intros h t p Ep Et Hp Hh Ht Hpw Hws Hwr Hr Hj ->. subst p. unfold fnt_made.
    pose proof (fun nh pkt n r f f2 rpow => made_build nh h sys ws k m pkt n r f f2 rpow) as MB. rewrite Et in *.
    destruct (fnt_new_gen h t Hp Hh Ht Hpw (fun nh => fnt_build nh (2 * h) ws) 3%N sys ws k m MB) as (cw & r & n & E3 & E); auto;
      try (apply (ssrbool.introT ssrnat.ltP); assumption).
    exists cw, r, n. split; [exact E3|]. intros nh pkt Hb p0.
    destruct (E nh pkt Hb (ssrbool.introT ssrnat.ltP p0)) as (c & [E1 E2 E4 [[A1 A2 A3 A4 A5] A6]]).
    exists c. rewrite A6. split; [exact E1|]. split; [exists nh; auto|]. do 7 (split; [assumption|]). reflexivity. }
  destruct Hw as [[-> Hw]|[-> Hw]]; repeat (destruct Hw as [<-|Hw]); [..|destruct Hw| | |destruct Hw].
  - apply (G 8%N 8%N 257%N); first [reflexivity|apply prime257|exact jac257|lia|vm_compute; reflexivity|idtac]; vm_compute; discriminate.
  - apply (G 16%N 8%N 257%N); first [reflexivity|apply prime257|exact jac257|lia|vm_compute; reflexivity|idtac]; vm_compute; discriminate.
  - apply (G 32%N 8%N 257%N); first [reflexivity|apply prime257|exact jac257|lia|vm_compute; reflexivity|idtac]; vm_compute; discriminate.
  - apply (G 16%N 16%N 65537%N); first [reflexivity|apply prime65537|exact jac65537|lia|vm_compute; reflexivity|idtac]; vm_compute; discriminate.
  - apply (G 32%N 16%N 65537%N); first [reflexivity|apply prime65537|exact jac65537|lia|vm_compute; reflexivity|idtac]; vm_compute; discriminate.
Qed.
