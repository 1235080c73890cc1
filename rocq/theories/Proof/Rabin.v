(** Rabin's criterion of irreducibility over F2 for degrees that are powers of a prime. *)
Set Warnings "-notation-overridden,-ambiguous-paths".
From mathcomp Require Import all_ssreflect ssralg poly polydiv zmodp matrix mxalgebra mxpoly finalg.
From Verif.Proof Require Import FinF QuotF.
Import GRing.Theory.
Local Open Scope ring_scope.

Lemma irr_factor (h : {poly 'F_2}) : (1 < size h)%N -> exists g : irr, irr_poly g %| h.
Proof.
  have [m] := ubnP (size h); elim: m h => // m IH h hm h1.
  have h0 : h != 0 by rewrite -size_poly_gt0; apply: ltnW h1.
  have [/existsP [g]|no] := boolP [exists v : 'rV['F_2]_(size h).-1, (1 < size (rVpoly v))%N && (rVpoly v %| h)].
  - case/andP=> g1 gh; case: (IH (rVpoly g)) => //; last by move=> k kg; exists k; apply: dvdp_trans kg gh.
    have sg : (size (rVpoly g) <= (size h).-1)%N by exact: size_poly.
    rewrite ltnS in hm; apply: leq_trans hm; apply: leq_ltn_trans sg _; rewrite ltn_predL; exact: ltnW h1.
  - suff I : irreducible_poly h by exists (Irr h I).
    split => // k k1 kh; rewrite -dvdp_size_eqp // eqn_leq dvdp_leq //= leqNgt; apply/negP => kl.
    case/negP: no; apply/existsP; exists (poly_rV k); rewrite poly_rV_K; last by rewrite -ltnS prednK // ltnW.
    rewrite kh andbT; have k0 : (0 < size k)%N.
      by rewrite size_poly_gt0; apply: contraTneq kh => ->; rewrite dvd0p.
    by case: (size k) k0 k1 => // -[].
Qed.

Section Frob.
Variables (R : ringType) (x : R).
Definition fixed k := x ^+ (2 ^ k) = x.
Lemma fixedD a b : fixed a -> fixed b -> fixed (a + b).
Proof. by rewrite /fixed => Ha Hb; rewrite expnD exprM Ha Hb. Qed.
Lemma fixedM a k : fixed a -> fixed (k * a).
Proof. by move=> Ha; elim: k => [|k IH]; [rewrite /fixed expr1|rewrite mulSn; apply: fixedD]. Qed.
Lemma fixedB a b : fixed (a + b) -> fixed a -> fixed b.
Proof. by rewrite /fixed => Hab Ha; move: Hab; rewrite expnD exprM Ha. Qed.
Lemma fixed_gcd a b : (0 < a)%N -> fixed a -> fixed b -> fixed (gcdn a b).
Proof.
  move=> a0 Ha Hb; case: (egcdnP b a0) => km kn E _.
  apply: (@fixedB (kn * b)); last exact: fixedM. by rewrite -E; apply: fixedM.
Qed.
End Frob.

Lemma rabin (f : {poly 'F_2}) q j : prime q -> size f = (q ^ j.+1).+1 ->
  f %| 'X^(2 ^ (q ^ j.+1)) - 'X -> (exists y, f %| ('X^(2 ^ (q ^ j)) - 'X) * y - 1) -> irreducible_poly f.
Proof.
  move=> pq sf fx [y fy]. have n0 : (0 < q ^ j.+1)%N by rewrite expn_gt0 prime_gt0.
  have f0 : f != 0 by rewrite -size_poly_gt0 sf.
  split; first by rewrite sf ltnS.
  move=> h h1 hf; rewrite -dvdp_size_eqp // eqn_leq dvdp_leq //= leqNgt; apply/negP => hl.
  have h0 : (0 < size h)%N by rewrite size_poly_gt0; apply: contraTneq hf => ->; rewrite dvd0p.
  have h1' : (1 < size h)%N by case: (size h) h0 h1 => // -[].
  case: (irr_factor _ h1') => g gh. have gf := dvdp_trans gh hf.
  have hn0 : h != 0 by rewrite -size_poly_gt0.
  have gs : ((size g).-1 < q ^ j.+1)%N.
    rewrite -ltnS prednK ?(ltnW (irr_size g)) // -sf (leq_ltn_trans _ hl) // ?dvdp_leq //.
  pose x := pi g 'X.
  have H1 : fixed _ x (q ^ j.+1).
    have := dvdp_trans gf fx; rewrite -pi_eq0 rmorphB rmorphX subr_eq0 => /eqP; apply.
  have H2 : fixed _ x (size g).-1 by rewrite /fixed -(card_qf g); apply: expf_card.
  have d0 : (0 < (size g).-1)%N by rewrite -ltnS prednK ?irr_size // ltnW // irr_size.
  have H3 := fixed_gcd _ _ _ _ d0 H2 H1.
  have H4 : fixed _ x (q ^ j).
    have gd : (gcdn (size g).-1 (q ^ j.+1) %| q ^ j.+1)%N by apply: dvdn_gcdr.
    case/(dvdn_pfactor _ _ pq): gd => i ij E; rewrite E in H3.
    have lij : (i <= j)%N.
      rewrite leqNgt; apply/negP => ji. have Ei : i = j.+1 by apply/eqP; rewrite eqn_leq ij.
      have : (gcdn (size g).-1 (q ^ j.+1) <= (size g).-1)%N by rewrite dvdn_leq // dvdn_gcdl.
      by rewrite E Ei leqNgt gs.
    by rewrite -(subnK lij) expnD; apply: fixedM.
  have := dvdp_trans gf fy; rewrite -pi_eq0 rmorphB rmorphM rmorphB rmorphX rmorph1 /= -/x.
  by rewrite H4 subrr mul0r sub0r oppr_eq0 oner_eq0.
Qed.
