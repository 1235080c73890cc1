(** The old contents of the output of a transform do not matter. *)
Set Warnings "-notation-overridden,-ambiguous-paths".
From Coq Require Import NArith Arith Lia.
From Coq Require List.
From mathcomp Require Import all_ssreflect zify.
From Verif.Model Require Import Common Arith Ring Fft2n Radix2.
From Verif.Spec Require Import Dft.
From Verif.Proof Require Import ListP Fft2nL BitRev DftAlg Fft2nP.

Lemma scatter_out C T (S : symops C T) L D0 e input out out' : (L < 32)%coq_nat -> (e <= L)%coq_nat ->
  Nat.max D0 (List.length input) = Nat.pow 2 e -> List.length out = Nat.pow 2 L -> List.length out' = Nat.pow 2 L ->
  fft_scatter S (Nat.pow 2 L) D0 (init_bitrev (Nat.pow 2 L)) input out =
  fft_scatter S (Nat.pow 2 L) D0 (init_bitrev (Nat.pow 2 L)) input out'.
Proof.
rewrite !powE => /ltP HL /leP He HD Ho Ho'.
have Hg : (2 ^ L = 2 ^ (L - e) * 2 ^ e)%N by rewrite -expnD; congr expn; lia.
have X o : List.length o = (2 ^ L)%N -> List.length (fft_scatter S (2 ^ L) D0 (init_bitrev (2 ^ L)) input o) = (2 ^ L)%N /\
    forall i s, (i < 2 ^ e)%coq_nat -> (s < 2 ^ (L - e))%coq_nat ->
    List.nth (2 ^ (L - e) * brev e i + s) (fft_scatter S (2 ^ L) D0 (init_bitrev (2 ^ L)) input o) (s_zero S) = List.nth i input (s_zero S).
  move=> Hl; have [] := scatter_spec C T S (2 ^ L) D0 (init_bitrev (2 ^ L)) input o (brev e) (2 ^ (L - e)) (2 ^ e) => //.
  - by have := expn_gt0 2 e; lia.
  - move=> i /ltP Hi; split; [by apply/ltP; apply: brev_lt|split; first exact: brevK].
    rewrite rev_table //; last by rewrite Hg; have := expn_gt0 2 (L - e); nia.
    have {1}-> : L = (e + (L - e))%N by lia.
    by rewrite brev_add // mulnC.
have [L1 H1] := X out Ho; have [L2 H2] := X out' Ho'.
apply: (list_ext _ (s_zero S)); first by rewrite L1 L2.
move=> i; rewrite L1 => /ltP Hi.
have g0 : (0 < 2 ^ (L - e))%N by rewrite expn_gt0.
have Hd : (i %/ 2 ^ (L - e) < 2 ^ e)%N by rewrite ltn_divLR // mulnC -Hg.
have Ei : i = (2 ^ (L - e) * brev e (brev e (i %/ 2 ^ (L - e))) + i %% 2 ^ (L - e))%N.
  by rewrite brevK // mulnC -divn_eq.
have Hb : (brev e (i %/ 2 ^ (L - e)) < 2 ^ e)%coq_nat by apply/ltP; apply: brev_lt.
have Hs : (i %% 2 ^ (L - e) < 2 ^ (L - e))%coq_nat by apply/ltP; rewrite ltn_mod.
have E1 := H1 _ _ Hb Hs; have E2 := H2 _ _ Hb Hs.
by rewrite -Ei in E1; rewrite -Ei in E2; rewrite E1 E2.
Qed.
Lemma fft_vec_out C T (S : symops C T) dC L D0 e W input out out' : (L < 32)%coq_nat -> (e <= L)%coq_nat ->
  Nat.max D0 (List.length input) = Nat.pow 2 e -> List.length out = Nat.pow 2 L -> List.length out' = Nat.pow 2 L ->
  fft_vec S dC (Nat.pow 2 L) D0 (init_bitrev (Nat.pow 2 L)) W out input =
  fft_vec S dC (Nat.pow 2 L) D0 (init_bitrev (Nat.pow 2 L)) W out' input.
Proof. by move=> H1 H2 H3 H4 H5; rewrite /fft_vec (scatter_out _ _ S L D0 e input out out' H1 H2 H3 H4 H5). Qed.
