(** Cyclic convolution of digits gives the digits (not reduced) of the product (Spec/Conv.v). *)
From Coq Require Import List NArith Arith Lia.
From Verif.Spec Require Import Modular Conv.
From Verif.Proof Require Import LargeB.
Import ListNotations.
Open Scope N_scope.

Lemma sumN_app f a b : sumN f (a + b) = sumN f a + sumN (fun q => f (a + q)%nat) b.
Proof. induction b as [|b IH]; [rewrite Nat.add_0_r; simpl; lia|]. rewrite Nat.add_succ_r. simpl. rewrite IH. lia. Qed.
Lemma sumN_0 f n : (forall q, (q < n)%nat -> f q = 0) -> sumN f n = 0.
Proof. induction n as [|n IH]; intros H; [reflexivity|]. simpl. rewrite IH, H by (intros; try apply H; lia). reflexivity. Qed.
Lemma sumN_mul f c n : c * sumN f n = sumN (fun q => c * f q) n.
Proof. induction n as [|n IH]; [simpl; lia|]. simpl. rewrite <- IH. lia. Qed.
Lemma sumN_add f g n : sumN (fun q => f q + g q) n = sumN f n + sumN g n.
Proof. induction n as [|n IH]; [reflexivity|]. simpl. rewrite IH. lia. Qed.
Lemma sumN_swap (f : nat -> nat -> N) a b : sumN (fun i => sumN (f i) b) a = sumN (fun j => sumN (fun i => f i j) a) b.
Proof.
induction a as [|a IH]; simpl.
- symmetry. apply sumN_0. reflexivity.
- rewrite IH, <- sumN_add. reflexivity.
Qed.
Lemma sumN_le f c n : (forall q, (q < n)%nat -> f q <= c) -> sumN f n <= N.of_nat n * c.
Proof.
induction n as [|n IH]; intros H; [simpl; lia|]. simpl sumN.
assert (H1 := IH ltac:(intros; apply H; lia)). assert (H2 := H n ltac:(lia)). rewrite Nat2N.inj_succ. nia.
Qed.
(** Terms beyond [a] vanish. *)
Lemma sumN_cut f a n : (a <= n)%nat -> (forall q, (a <= q < n)%nat -> f q = 0) -> sumN f n = sumN f a.
Proof.
intros H1 H2. replace n with (a + (n - a))%nat by lia. rewrite sumN_app, (sumN_0 _ (n - a)); [lia|].
intros q Hq. apply H2. lia.
Qed.

Lemma sumN_drop f s n : (s <= n)%nat -> (forall q, (q < s)%nat -> f q = 0) -> sumN f n = sumN (fun q => f (s + q)%nat) (n - s).
Proof. intros H1 H2. replace n with (s + (n - s))%nat at 1 by lia. rewrite sumN_app, (sumN_0 _ s H2). lia. Qed.

Lemma value_sum b x : value b x = sumN (fun i => nth i x 0 * b ^ N.of_nat i) (length x).
Proof.
induction x as [|d x IH]; [reflexivity|].
cbn [value fold_right length]. fold (value b x). rewrite sumN_shift, IH, sumN_mul.
cbn [nth]. rewrite N.pow_0_r, N.mul_1_r. f_equal. apply sumN_ext. intros q _.
rewrite Nat2N.inj_succ, N.pow_succ_r'. lia.
Qed.

Section Prod.
Variables (m b : N) (n ka kb : nat) (x y : list N).
Hypothesis kn : (ka + kb <= n)%nat.
Hypothesis xb : forall i, nth i x 0 < b.
Hypothesis yb : forall i, nth i y 0 < b.
Hypothesis x0 : forall i, (ka <= i)%nat -> nth i x 0 = 0.
Hypothesis y0 : forall i, (kb <= i)%nat -> nth i y 0 = 0.
Hypothesis small : N.of_nat ka * ((b - 1) * (b - 1)) < m.

Lemma conv_exact i : cyclic_conv m n x y i = sumN (fun s => nth s x 0 * nth (Nat.modulo (i + n - s) n) y 0) n.
Proof.
unfold cyclic_conv. apply N.mod_small. rewrite (sumN_cut _ ka n); [|lia|intros q Hq; rewrite x0 by lia; lia].
eapply N.le_lt_trans; [|exact small]. apply sumN_le. intros q _.
apply N.mul_le_mono; [specialize (xb q)|specialize (yb (Nat.modulo (i + n - q) n))]; lia.
Qed.

Lemma value_conv z : length z = n -> (forall i, (i < n)%nat -> nth i z 0 = cyclic_conv m n x y i) ->
  length x = n -> length y = n -> value b z = value b x * value b y.
Proof.
intros Lz Hz Lx Ly. rewrite !value_sum, Lz, Lx, Ly.
transitivity (sumN (fun i => sumN (fun s => nth s x 0 * nth (Nat.modulo (i + n - s) n) y 0 * b ^ N.of_nat i) n) n).
{ apply sumN_ext. intros i Hi. rewrite Hz, conv_exact, N.mul_comm, sumN_mul by lia. apply sumN_ext. intros; lia. }
rewrite sumN_swap, N.mul_comm, sumN_mul. apply sumN_ext. intros s Hs.
rewrite N.mul_comm, sumN_mul.
destruct (le_lt_dec ka s) as [G|G].
{ rewrite (x0 s) by lia. rewrite !sumN_0; [reflexivity| |]; intros; lia. }
match goal with |- sumN ?f n = _ => rewrite (sumN_drop f s n) end; [|lia|].
2:{ intros q Hq. rewrite Nat.mod_small by lia. rewrite y0 by lia. lia. }
rewrite (sumN_cut (fun q => nth s x 0 * b ^ N.of_nat s * (nth q y 0 * b ^ N.of_nat q)) (n - s) n); [|lia|intros q Hq; rewrite y0 by lia; lia].
apply sumN_ext. intros q Hq.
replace (s + q + n - s)%nat with (q + 1 * n)%nat by lia.
rewrite Nat.mod_add, Nat.mod_small, Nat2N.inj_add, N.pow_add_r by lia. lia.
Qed.
End Prod.
