(** Inversion of the DFT and its relation with polynomials. *)
Set Warnings "-notation-overridden,-ambiguous-paths".
From mathcomp Require Import all_ssreflect ssralg poly.
From mathcomp Require Import zify.
From Verif.Spec Require Import Dft.
Import GRing.Theory.
Local Open Scope ring_scope.

Section S.
Variable F : fieldType.

Lemma dft_ext w n (x y : nat -> F) i : (forall j, (j < n)%N -> x j = y j) -> dft F w n x i = dft F w n y i.
Proof. by move=> H; apply: eq_bigr => j _; rewrite H. Qed.

Lemma dft_horner w n (x : nat -> F) i : dft F w n x i = (\poly_(j < n) x j).[w ^+ i].
Proof. by rewrite horner_poly; apply: eq_bigr => j _; rewrite exprM. Qed.

(** A root of order n sums to zero over its powers, unless the exponent is a multiple of n. *)
Lemma sum_powers (w : F) n d : n.-primitive_root w -> \sum_(j < n) w ^+ (d * j) = if (n %| d)%N then n%:R else 0.
Proof.
move=> Pw; case: ifP => Hd.
  rewrite (eq_bigr (fun _ => 1)) ?sumr_const ?card_ord // => j _.
  by apply/eqP; rewrite -(prim_order_dvd Pw) dvdn_mulr.
have H1 : w ^+ d != 1 by rewrite -(prim_order_dvd Pw) Hd.
apply: (mulfI (_ : w ^+ d - 1 != 0)); first by rewrite subr_eq0.
rewrite mulr0; have := subrX1 (w ^+ d) n.
rewrite -exprM mulnC exprM (prim_expr_order Pw) expr1n subrr.
by move=> E; rewrite [RHS]E; congr (_ * _); apply: eq_bigr => j _; rewrite exprM.
Qed.

Lemma prim_unit (w : F) n : n.-primitive_root w -> w != 0.
Proof.
move=> Pw; apply/eqP => E; have := prim_expr_order Pw; have := prim_order_gt0 Pw.
by case: n {Pw} => // n _; rewrite E exprS mul0r => /eqP; rewrite eq_sym oner_eq0.
Qed.

Lemma dft_inverse (w : F) n (x : nat -> F) i : n.-primitive_root w -> (i < n)%N ->
  dft F w^-1 n (dft F w n x) i = n%:R * x i.
Proof.
move=> Pw Hi; rewrite /dft.
have w0 := prim_unit _ _ Pw.
under eq_bigr => j _ do rewrite big_distrl /=.
rewrite exchange_big /= (bigD1 (Ordinal Hi)) //= [X in _ + X]big1 ?addr0; last first.
  move=> l Hl.
  have H := sum_powers w n (l + (n - i)) Pw.
  have Nd : (n %| l + (n - i))%N = false.
    apply/negbTE/negP => /dvdnP[c Hc]; have Hln := ltn_ord l.
    have c1 : c = 1%N by case: c Hc => [|[|c]] Hc; [lia|by []|have := leq_pmull n (ltn0Sn c); nia].
    by case/eqP: Hl; apply: val_inj => /=; move: Hc; rewrite c1; lia.
  rewrite Nd in H.
  transitivity (x l * \sum_(j < n) w ^+ ((l + (n - i)) * j)); last by rewrite H mulr0.
  rewrite big_distrr /=; apply: eq_bigr => j _; rewrite -mulrA; congr (_ * _).
  rewrite exprVn mulnDl exprD; congr (_ * _); first by rewrite mulnC.
  apply: (mulfI (expf_neq0 (i * j) w0)); rewrite divff ?expf_neq0 // -exprD -mulnDl subnKC ?(ltnW Hi) //.
  by rewrite exprM (prim_expr_order Pw) expr1n.
rewrite (eq_bigr (fun _ => x i)) ?sumr_const ?card_ord ?mulr_natl // => j _.
by rewrite -mulrA exprVn (mulnC i) divff ?mulr1 // expf_neq0.
Qed.

Lemma prim_inv (w : F) n : n.-primitive_root w -> n.-primitive_root w^-1.
Proof.
move=> Pw; have n0 := prim_order_gt0 Pw; have w0 := prim_unit _ _ Pw.
have E : w^-1 = w ^+ n.-1.
  by apply: (mulfI w0); rewrite divff // -exprS prednK // (prim_expr_order Pw).
rewrite E prim_root_exp_coprime //.
by case: n n0 {Pw E} => // n _ /=; rewrite coprimenS.
Qed.

(** A root of order 2^L: its half power is -1. *)
Lemma prim_half (w : F) L : (0 < L)%N -> (2 ^ L).-primitive_root w -> w ^+ (2 ^ L.-1) = -1.
Proof.
case: L => // L _ Pw /=.
have E : (w ^+ (2 ^ L) - 1) * (w ^+ (2 ^ L) + 1) = 0.
  by rewrite -subr_sqr expr1n -exprM -expnSr (prim_expr_order Pw) subrr.
move/eqP: E; rewrite mulf_eq0 => /orP[]; last by rewrite addr_eq0 => /eqP.
rewrite subr_eq0 -(prim_order_dvd Pw) => /dvdn_leq; rewrite expn_gt0 => /(_ isT).
by rewrite leq_exp2l // ltnn.
Qed.

Lemma prim_natr (w : F) n : n.-primitive_root w -> n%:R != 0 :> F.
Proof.
move=> Pw; apply/eqP => E; have n0 := prim_order_gt0 Pw.
(* x^n - 1 would have a double root everywhere: use the inversion formula on a constant *)
have := dft_inverse w n (fun j => (j == 0%N)%:R) 0 Pw n0.
rewrite E mul0r /dft.
have H0 : forall i, \sum_(j < n) (nat_of_ord j == 0%N)%:R * w ^+ (i * j) = 1 :> F.
  move=> i; rewrite (bigD1 (Ordinal n0)) //= muln0 expr0 mulr1 big1 ?addr0 // => j Hj.
  by rewrite (_ : nat_of_ord j == 0%N = false) ?mul0r //; apply/negbTE; move: Hj; rewrite -val_eqE.
move=> _.
(* n = 0 in F: the n-th powers sum identically, so Frobenius makes x^n-1 not separable *)
have [c Hc] : exists c, c \in [char F].
  have [d Hd] : exists d, (d > 0)%N && (d%:R == 0 :> F) by exists n; rewrite n0 E eqxx.
  have Ex : exists d, (d > 0)%N && (d%:R == 0 :> F) by exists n; rewrite n0 E eqxx.
  case: (ex_minnP Ex) => c /andP[c0 /eqP cz] cm; exists c; rewrite inE cz eqxx andbT.
  apply/primeP; split.
    by case: c c0 cz {cm} => [|[|c]] // _ /eqP; rewrite oner_eq0.
  move=> e /dvdnP[q Hq].
  have : (e%:R * q%:R == 0 :> F) by rewrite -natrM mulnC -Hq cz.
  rewrite mulf_eq0 => /orP[] Z.
  - have e0 : (0 < e)%N by case: e Hq {Z} => // Hq; move: c0; rewrite Hq muln0.
    have := cm e; rewrite e0 Z => /(_ isT) => Hle; apply/orP; right.
    by rewrite eqn_leq Hle (dvdn_leq c0) // Hq dvdn_mull.
  - have q0 : (0 < q)%N by case: q Hq {Z} => // Hq; move: c0; rewrite Hq mul0n.
    have := cm q; rewrite q0 Z => /(_ isT); rewrite Hq.
    have := c0; rewrite Hq; case: e {Hq Z} => [|[|e]]; rewrite ?muln0 //; nia.
have Dn : (c %| n)%N by rewrite (dvdn_charf Hc) E.
have [d Hd] := dvdnP Dn.
have : (w ^+ d - 1) ^+ c = 0.
  have E1 := Frobenius_autB_comm Hc (commr1 (w ^+ d)).
  by rewrite !Frobenius_autE in E1; rewrite E1 expr1n -exprM -Hd (prim_expr_order Pw) subrr.
move/eqP; rewrite expf_eq0 subr_eq0 => /andP[_]; rewrite -(prim_order_dvd Pw) => /dvdn_leq.
have := n0; rewrite Hd; have := prime_gt1 (charf_prime Hc); case: (d) => [|d']; nia.
Qed.
End S.
