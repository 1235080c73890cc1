(** The algebra behind the radix-2 transforms: splitting of sums over even and odd indices. *)
Set Warnings "-notation-overridden,-ambiguous-paths".
From Coq Require Import Lia.
From mathcomp Require Import all_ssreflect ssralg zify.
From Verif.Spec Require Import Dft.
Import GRing.Theory.
Local Open Scope ring_scope.

Lemma sum_split2 (V : zmodType) (f : nat -> V) m :
  \sum_(q < m.*2) f q = \sum_(q < m) f q.*2 + \sum_(q < m) f q.*2.+1.
Proof.
elim: m => [|m IH]; first by rewrite !big_ord0 addr0.
rewrite doubleS !big_ord_recr /= IH.
by rewrite -!addrA; congr (_ + _); rewrite [RHS]addrCA.
Qed.

(** ** Bit reversal *)
Lemma brev_lt l b : (brev l b < 2 ^ l)%N.
Proof.
elim: l b => [|l IH] b //=; rewrite expnS; have := IH b./2.
by case: (odd b); move: (2 ^ l)%N (brev l _) => p q; lia.
Qed.

Lemma brev_double l b : brev l.+1 b.*2 = brev l b.
Proof. by rewrite /= odd_double half_double. Qed.

Lemma brev_doubleS l b : brev l.+1 b.*2.+1 = (brev l b + 2 ^ l)%N.
Proof. by rewrite /= odd_double uphalf_double mul1n addnC. Qed.

(** Reversal seen from the other end. *)
Lemma brev_recr l b : (b < 2 ^ l.+1)%N ->
  brev l.+1 b = ((2 ^ l <= b) + (brev l (if 2 ^ l <= b then b - 2 ^ l else b)).*2)%N.
Proof.
elim: l b => [|l IH] b.
  by rewrite expn1 expn0; case: b => [|[|b]].
move=> Hb.
have E2 : (2 ^ l.+1 = (2 ^ l).*2)%N by rewrite expnS mul2n.
have E3 : (2 ^ l.+2 = (2 ^ l.+1).*2)%N by rewrite expnS mul2n.
have -> : brev l.+2 b = (odd b * 2 ^ l.+1 + brev l.+1 b./2)%N by [].
have Hb2 : (b./2 < 2 ^ l.+1)%N by move: Hb; rewrite E3; move: (2 ^ l.+1)%N => p; lia.
rewrite (IH _ Hb2) E2.
case: (leqP (2 ^ l) b./2) => H.
- have -> : ((2 ^ l).*2 <= b)%N = true by move: H; move: (2 ^ l)%N => p; lia.
  have -> : brev l.+1 (b - (2 ^ l).*2) = (odd b * 2 ^ l + brev l (b./2 - 2 ^ l))%N.
    rewrite /=; congr (_ * _ + brev _ _)%N.
      by rewrite oddB ?odd_double ?addbF //; move: H; move: (2 ^ l)%N => p; lia.
    by move: H; move: (2 ^ l)%N => p; lia.
  by move: (2 ^ l)%N (brev _ _) => p q; lia.
- have -> : ((2 ^ l).*2 <= b)%N = false by move: H; move: (2 ^ l)%N => p; lia.
  have -> : brev l.+1 b = (odd b * 2 ^ l + brev l b./2)%N by [].
  by move: (2 ^ l)%N (brev _ _) => p q; lia.
Qed.

Lemma brevK l b : (b < 2 ^ l)%N -> brev l (brev l b) = b.
Proof.
elim: l b => [|l IH] b; first by rewrite expn0; case: b.
move=> Hb; have E2 : (2 ^ l.+1 = (2 ^ l).*2)%N by rewrite expnS mul2n.
rewrite (brev_recr _ _ Hb).
case: (leqP (2 ^ l) b) => H.
- rewrite add1n brev_doubleS IH; first by lia.
  by move: Hb H; rewrite E2; lia.
- by rewrite add0n brev_double IH.
Qed.

(** Numbers below [2^l] reversed on more bits. *)
Lemma brev_add l t b : (b < 2 ^ l)%N -> brev (l + t) b = (brev l b * 2 ^ t)%N.
Proof.
elim: l b => [|l IH] b.
  rewrite expn0 add0n; case: b => // _.
  have Z : forall t, brev t 0 = 0%N by elim=> [|t0 IH] //=.
  by rewrite Z.
move=> Hb; rewrite addSn /= IH; last by move: Hb; rewrite expnS; move: (2 ^ l)%N => p; lia.
by rewrite mulnDl -mulnA -expnD.
Qed.

Section Sub.
Variables (F : fieldType) (x : nat -> F).

(** Transform of length [2^t] of the inputs [r], [r + 2^(L-t)], ... *)
Definition sdft (w : F) (L t r s : nat) : F :=
  \sum_(q < 2 ^ t) x (r + 2 ^ (L - t) * q)%N * w ^+ (2 ^ (L - t) * s * q).

Variables (w : F) (L : nat).
Hypothesis wL : w ^+ (2 ^ L) = 1.

Lemma sdft_split t r s : (t < L)%N ->
  sdft w L t.+1 r s = sdft w L t r s + w ^+ (2 ^ (L - t.+1) * s) * sdft w L t (r + 2 ^ (L - t.+1)) s.
Proof.
move=> Ht; rewrite /sdft expnS mul2n.
have E : (2 ^ (L - t) = (2 ^ (L - t.+1)).*2)%N by rewrite -mul2n -expnS; congr expn; lia.
rewrite (sum_split2 F (fun q => x (r + 2 ^ (L - t.+1) * q)%N * w ^+ (2 ^ (L - t.+1) * s * q))).
rewrite E; move: (2 ^ (L - t.+1))%N => p; congr (_ + _).
- apply: eq_bigr => q _; congr (x _ * w ^+ _); nia.
- rewrite mulr_sumr; apply: eq_bigr => q _.
  rewrite mulrCA -exprD; congr (x _ * w ^+ _); nia.
Qed.

Lemma sdft_period t r s : (t <= L)%N -> sdft w L t r (s + 2 ^ t) = sdft w L t r s.
Proof.
move=> Ht; apply: eq_bigr => q _; congr (_ * _).
rewrite mulnDr -expnD subnK // mulnDl exprD.
by rewrite [X in _ * X]exprM wL expr1n mulr1.
Qed.

Lemma sdft_low t r s : (0 < L)%N -> w ^+ (2 ^ L.-1) = -1 -> (t < L)%N ->
  sdft w L t.+1 r (s + 2 ^ t) =
  sdft w L t r s - w ^+ (2 ^ (L - t.+1) * s) * sdft w L t (r + 2 ^ (L - t.+1)) s.
Proof.
move=> L0 wm Ht; rewrite sdft_split // !sdft_period; try lia.
congr (_ + _); rewrite mulnDr -expnD exprD.
have -> : (L - t.+1 + t = L.-1)%N by lia.
by rewrite wm mulrN1 mulNr.
Qed.

(** Only the first input of each class is non-zero: the short transform is constant. *)
Lemma sdft_short t r s : (t <= L)%N -> (forall i, (2 ^ (L - t) <= i)%N -> x i = 0) -> (r < 2 ^ (L - t))%N ->
  sdft w L t r s = x r.
Proof.
move=> Ht Hx Hr; rewrite /sdft.
have [p ->] : exists p, (2 ^ t = p.+1)%N by exists (2 ^ t).-1; rewrite prednK // expn_gt0.
rewrite big_ord_recl /= !muln0 addn0 expr0 mulr1 big1 ?addr0 // => i _.
by rewrite Hx ?mul0r // /bump /=; nia.
Qed.

Lemma sdft_full s : sdft w L L 0 s = dft F w (2 ^ L) x s.
Proof.
rewrite /sdft /dft subnn expn0; apply: eq_bigr => q _.
by rewrite add0n !mul1n.
Qed.

(** ** Decimation in frequency *)
Definition edft (t r s : nat) : F :=
  \sum_(q < 2 ^ (L - t)) x (s + 2 ^ t * q)%N * w ^+ ((s + 2 ^ t * q) * r).

Lemma edft_top s : edft L 0 s = x s.
Proof. by rewrite /edft subnn expn0 big_ord_recl big_ord0 addr0 /= muln0 addn0 muln0 expr0 mulr1. Qed.

Lemma edft_even t r s : (t < L)%N -> edft t r s = edft t.+1 r s + edft t.+1 r (s + 2 ^ t).
Proof.
move=> Ht; rewrite /edft.
have -> : (2 ^ (L - t) = (2 ^ (L - t.+1)).*2)%N by rewrite -mul2n -expnS; congr expn; lia.
rewrite (sum_split2 F (fun q => x (s + 2 ^ t * q)%N * w ^+ ((s + 2 ^ t * q) * r))).
rewrite expnS; move: (2 ^ t)%N => p; congr (_ + _); apply: eq_bigr => q _; congr (x _ * w ^+ _); nia.
Qed.

Lemma edft_odd t r s : (0 < L)%N -> w ^+ (2 ^ L.-1) = -1 -> (t < L)%N ->
  edft t (r + 2 ^ (L - t.+1)) s = w ^+ (s * 2 ^ (L - t.+1)) * (edft t.+1 r s - edft t.+1 r (s + 2 ^ t)).
Proof.
move=> L0 wm Ht; rewrite /edft.
have -> : (2 ^ (L - t) = (2 ^ (L - t.+1)).*2)%N by rewrite -mul2n -expnS; congr expn; lia.
set h := (2 ^ (L - t.+1))%N.
have E : forall q, w ^+ ((s + 2 ^ t * q) * (r + h)) = w ^+ (s * h) * (w ^+ ((s + 2 ^ t * q) * r) * (-1) ^+ q).
  move=> q; rewrite -wm -exprM -!exprD; congr (w ^+ _).
  have -> : (2 ^ L.-1 = 2 ^ t * h)%N by rewrite /h -expnD; congr expn; lia.
  by move: (2 ^ t)%N h => a b; nia.
rewrite (sum_split2 F (fun q => x (s + 2 ^ t * q)%N * w ^+ ((s + 2 ^ t * q) * (r + h)))).
rewrite mulrBr !mulr_sumr -sumrN expnS; congr (_ + _); apply: eq_bigr => q _; rewrite E mulrCA -?mulrN; congr (_ * _).
- rewrite -signr_odd odd_double expr0 mulr1; congr (x _ * w ^+ _); move: (2 ^ t)%N => p; nia.
- rewrite -signr_odd /= odd_double expr1 mulrN1 !mulrN; congr (- (x _ * w ^+ _)); move: (2 ^ t)%N => p; nia.
Qed.

Lemma edft_zero t r s : (forall i, (s <= i)%N -> x i = 0) -> edft t r s = 0.
Proof. by move=> H; rewrite /edft big1 // => q _; rewrite H ?mul0r //; lia. Qed.

Lemma edft_full r : edft 0 r 0 = dft F w (2 ^ L) x r.
Proof. by rewrite /edft /dft subn0 expn0; apply: eq_bigr => q _; rewrite add0n mul1n mulnC. Qed.

End Sub.
