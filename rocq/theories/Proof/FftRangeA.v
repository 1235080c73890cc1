(** Two facts on powers of two and the bit-reversal table, in terms of numbers. *)
Set Warnings "-notation-overridden,-ambiguous-paths".
From Coq Require Import NArith Arith Lia.
From Coq Require List.
From mathcomp Require Import all_ssreflect zify.
From Verif.Model Require Import Common Arith Fft2n.
From Verif.Spec Require Import Dft.
From Verif.Proof Require Import BitRev DftAlg Fft2nP.

Lemma pow2_divide a L : Nat.divide a (Nat.pow 2 L) -> exists k, (k <= L)%coq_nat /\ a = Nat.pow 2 k.
Proof.
move=> [q]; rewrite powE => E; have D : a %| 2 ^ L by apply/dvdnP; exists q.
have [k Hk ->] := @dvdn_pfactor 2 a L isT D.
by exists k; rewrite powE; split=> //; apply/leP.
Qed.

Lemma rev_groups L e : (L < 32)%coq_nat -> (e <= L)%coq_nat -> exists r, forall i, (i < Nat.pow 2 e)%coq_nat ->
  (r i < Nat.pow 2 e)%coq_nat /\ r (r i) = i /\ List.nth i (init_bitrev (Nat.pow 2 L)) O = (Nat.pow 2 (L - e)%coq_nat * r i)%coq_nat.
Proof.
rewrite !powE => /ltP HL /leP He; exists (brev e) => i /ltP Hi.
have Hg : (2 ^ L = 2 ^ (L - e) * 2 ^ e)%N by rewrite -expnD; congr expn; lia.
split; first by apply/ltP; apply: brev_lt.
split; first exact: brevK.
rewrite rev_table //; last by rewrite Hg; have := expn_gt0 2 (L - e); nia.
have {1}-> : L = (e + (L - e))%N by lia.
by rewrite brev_add // mulnC.
Qed.
