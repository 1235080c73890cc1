(** Property C53: fft::Large (src/fft_large.h). *)
From Coq Require Import List NArith Arith Lia Bool.
From Verif.Model Require Import Common Arith Ring Large.
From Verif.Spec Require Import Modular Conv.
From Verif.Proof Require Import LargeR ConvP.
Import ListNotations.
Open Scope N_scope.

(** Parameters of the object: [T] of [tw] bits, modulus [m] (prime or not), size [2^l], root [w]. *)
Definition large_params (tw m : N) (l : nat) (w : N) : Prop :=
  In tw [16; 32; 64] /\ 1 < m < 2 ^ tw /\ (1 <= l < 31)%nat /\ N.of_nat l < tw /\ w < m.

(** A principal root of unity modulo an odd number: its power [2^(l-1)] is -1. *)
Definition principal (m : N) (l : nat) (w : N) : Prop :=
  N.odd m = true /\ w ^ (2 ^ N.of_nat (l - 1)) mod m = m - 1.

Ltac ssr := first [apply ssrnat.leP; lia | lia].

(** fft is the discrete Fourier transform modulo [m], whatever the unset entries [u], [u'] of the tables, for all words of
    the type, reduced or not. *)
Theorem C53_fft tw m l w u u' x : large_params tw m l w -> w ^ (2 ^ N.of_nat l) mod m = 1 ->
  Forall (fun v => v < 2 ^ tw) x ->
  large_fft tw m (large_new tw m l w u u') x = map (dft_mod m w (2 ^ l) x) (seq 0 (2 ^ l)).
Proof. intros [_ [M [Hl [Lw Wm]]]] W1 Xw. apply fft_list; try ssr; assumption. Qed.

(** ifft undoes fft, up to the reduction of the words. *)
Theorem C53_round_trip tw m l w u u' x : large_params tw m l w -> principal m l w ->
  length x = (2 ^ l)%nat -> Forall (fun v => v < 2 ^ tw) x ->
  large_ifft tw m (large_new tw m l w u u') (large_fft tw m (large_new tw m l w u u') x) = map (fun v => v mod m) x.
Proof. intros [_ [M [Hl [Lw Wm]]]] [Od W1] Lx Xw. apply round_list; try ssr; assumption. Qed.

(** The product of transforms is the transform of the cyclic convolution. *)
Theorem C53_convolution tw m l w u u' x y : large_params tw m l w -> principal m l w ->
  Forall (fun v => v < 2 ^ tw) x -> Forall (fun v => v < 2 ^ tw) y ->
  let L := large_new tw m l w u u' in
  large_ifft tw m L (map (fun ab => g_mul (prime_ops tw m) (fst ab) (snd ab)) (combine (large_fft tw m L x) (large_fft tw m L y)))
  = map (cyclic_conv m (2 ^ l) x y) (seq 0 (2 ^ l)).
Proof. intros [_ [M [Hl [Lw Wm]]]] [Od W1] Xw Yw L. apply conv_list; try ssr; assumption. Qed.

(** Multiplication of numbers of [ka] and [kb] digits in base [b] (test/fft_utest.cpp TestFftLarge2): the entries of the
    result are the digits of the product before the carries. *)
Theorem C53_product tw m l w u u' b ka kb x y : large_params tw m l w -> principal m l w ->
  (ka + kb <= 2 ^ l)%nat -> N.of_nat ka * ((b - 1) * (b - 1)) < m -> 1 < b <= 2 ^ tw ->
  length x = (2 ^ l)%nat -> length y = (2 ^ l)%nat ->
  Forall (fun v => v < b) x -> Forall (fun v => v < b) y ->
  (forall i, (ka <= i)%nat -> nth i x 0 = 0) -> (forall i, (kb <= i)%nat -> nth i y 0 = 0) ->
  let L := large_new tw m l w u u' in
  value b (large_ifft tw m L (map (fun ab => g_mul (prime_ops tw m) (fst ab) (snd ab)) (combine (large_fft tw m L x) (large_fft tw m L y))))
  = value b x * value b y.
Proof.
intros P Q K S B Lx Ly Xb Yb X0 Y0 L.
assert (Wide : forall z, Forall (fun v => v < b) z -> Forall (fun v => v < 2 ^ tw) z).
{ intros z Hz. eapply Forall_impl; [|exact Hz]. cbv beta. intros; lia. }
unfold L. rewrite (C53_convolution tw m l w u u' x y) by auto.
apply (value_conv m b (2 ^ l) ka kb x y); auto.
- apply nth_bound; [lia|exact Xb].
- apply nth_bound; [lia|exact Yb].
- now rewrite map_length, seq_length.
- intros i Hi. now rewrite ListP.nth_map_seq.
Qed.

(** Concrete cases: 495 is a principal root of order 8 modulo 697 = 17 * 41; the parameters of TestFftLarge2. *)
Example C53_case : large_params 16 697 3 495 /\ principal 697 3 495 /\
  let L := large_new 16 697 3 495 7 9 in
  let x := [1; 2; 65535; 4; 0; 0; 0; 0] in
  large_fft 16 697 L x <> x /\ large_ifft 16 697 L (large_fft 16 697 L x) = [1; 2; 17; 4; 0; 0; 0; 0].
Proof.
split; [|split; [|cbv zeta; split]]; [| |vm_compute; discriminate|vm_compute; reflexivity].
- unfold large_params; repeat split; cbn [In]; try lia; vm_compute; reflexivity.
- split; vm_compute; reflexivity.
Qed.

Lemma squares m w : m <> 0 -> forall k, w ^ (2 ^ N.of_nat k) mod m = Nat.iter k (fun v => v * v mod m) (w mod m).
Proof.
intros Hm. induction k as [|k IH]; [now rewrite N.pow_0_r, N.pow_1_r|].
rewrite Nat2N.inj_succ, N.pow_succ_r', N.mul_comm, N.pow_mul_r, N.pow_2_r, N.mul_mod, IH by exact Hm. reflexivity.
Qed.

Example C53_test_case : large_params 64 (65537 * 163841) 15 25559439 /\ principal (65537 * 163841) 15 25559439.
Proof.
split.
- unfold large_params; repeat split; cbn [In]; try lia; vm_compute; reflexivity.
- split; [reflexivity|]. rewrite squares by discriminate. vm_compute. reflexivity.
Qed.

Print Assumptions C53_fft.
Print Assumptions C53_round_trip.
Print Assumptions C53_convolution.
Print Assumptions C53_product.
