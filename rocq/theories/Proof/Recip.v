(** Quadratic residues modulo a prime: Euler's criterion, Gauss's lemma, the reciprocity law. *)
Set Warnings "-notation-overridden,-ambiguous-paths".
From mathcomp Require Import all_ssreflect fingroup ssralg poly cyclic zmodp finalg.
From mathcomp Require Import zify.
From Verif.Proof Require Import FinF.
Import GRing.Theory.

(** Division as a sum of comparisons. *)
Lemma sum_le p n k : 0 < p -> \sum_(1 <= y < k.+1) (p * y <= n) = minn k (n %/ p).
Proof.
move=> p0; elim: k => [|k IH]; first by rewrite big_geq // min0n.
rewrite big_nat_recr //= IH mulnC -leq_divRL //; case: leqP; lia.
Qed.

Lemma odd_sum (I : Type) (s : seq I) (F : I -> nat) : odd (\sum_(i <- s) F i) = \big[addb/false]_(i <- s) odd (F i).
Proof. by apply: (big_morph odd) => // x y; rewrite oddD. Qed.

Section Gauss.
Variable p : nat.
Hypothesis Pp : prime p.
Hypothesis p_odd : odd p.
Let h := p./2.
Lemma pE : p = h.*2.+1.
Proof. by rewrite -(odd_double_half p) p_odd. Qed.
Let p0 : 0 < p := prime_gt0 Pp.
Lemma h0 : 0 < h.
Proof. by have := prime_gt1 Pp; have := pE; lia. Qed.

Definition r a x := (a * x) %% p.
Definition f a x := if h < r a x then p - r a x else r a x.
(** Whether [a] is not a residue. *)
Definition nres a := odd (\sum_(x <- iota 1 h) (h < r a x)).

Lemma ndvd x : 0 < x < p -> ~~ (p %| x).
Proof. by case/andP => H1 H2; apply/negP => /(dvdn_leq H1); lia. Qed.

Lemma nat0F x : ((x%:R : 'F_p) == 0)%R = (p %| x).
Proof. by rewrite -(dvdn_charf (char_Fp Pp)). Qed.


Section A.
Variable a : nat.
Hypothesis Ha : ~~ (p %| a).

Lemma r_pos x : 0 < x < p -> 0 < r a x.
Proof. by move=> Hx; rewrite lt0n; apply/negP => D; move: (Euclid_dvdM a x Pp); rewrite [_ %| _ * _]D (negbTE Ha) (negbTE (ndvd x Hx)). Qed.
Lemma r_lt x : r a x < p.
Proof. exact: ltn_pmod. Qed.
Lemma f_in x : x \in iota 1 h -> f a x \in iota 1 h.
Proof.
rewrite !mem_iota => Hx; have := r_lt x; have := pE => E.
have := r_pos x; have -> : 0 < x < p by lia.
by move/(_ isT); rewrite /f; case: (ltnP h (r a x)); lia.
Qed.
Lemma f_inj : {in iota 1 h &, injective (f a)}.
Proof.
have key : forall x y, x \in iota 1 h -> y \in iota 1 h -> r a x = r a y -> x = y.
  have W : forall x y, x <= y -> y \in iota 1 h -> r a x = r a y -> x = y.
    move=> x y Hxy; rewrite mem_iota => Hy E; apply/eqP; case: ltngtP Hxy => // Hl _.
    have /eqP D : a * y == a * x %[mod p] by apply/eqP.
    move/eqP: D; rewrite eqn_mod_dvd ?leq_mul2l ?(ltnW Hl) ?orbT // -mulnBr Euclid_dvdM // (negbTE Ha) /=.
    by have := ndvd (y - x); have := pE; lia.
  by move=> x y Hx Hy E; case/orP: (leq_total x y) => L; [apply: W L Hy E | symmetry; apply: W L Hx (esym E)].
have opp : forall x y, x \in iota 1 h -> y \in iota 1 h -> r a x + r a y <> p.
  move=> x y; rewrite !mem_iota => Hx Hy E.
  have D : p %| a * (x + y).
    by rewrite mulnDr /dvdn -modnDm -/(r a x) -/(r a y) E modnn.
  by move: D; rewrite Euclid_dvdM // (negbTE Ha) /=; have := ndvd (x + y); have := pE; lia.
move=> x y Hx Hy; have := r_lt x; have := r_lt y; have := opp x y Hx Hy; have := key x y Hx Hy.
rewrite /f; case: (ltnP h (r a x)) => ?; case: (ltnP h (r a y)) => ? K O L1 L2 E; [apply: K|exfalso; apply: O|exfalso; apply: O|apply: K]; lia.
Qed.
Lemma f_perm : perm_eq [seq f a x | x <- iota 1 h] (iota 1 h).
Proof.
have U : uniq [seq f a x | x <- iota 1 h] by rewrite map_inj_in_uniq ?iota_uniq //; apply: f_inj.
apply: uniq_perm; rewrite ?iota_uniq //.
have S : {subset [seq f a x | x <- iota 1 h] <= iota 1 h} by move=> y /mapP[x Hx ->]; apply: f_in.
by case: (uniq_min_size U S); rewrite ?size_map.
Qed.

Lemma gauss : ((a%:R : 'F_p) ^+ h = (-1) ^+ nres a)%R.
Proof.
set P := (\prod_(x <- iota 1 h) (x%:R : 'F_p))%R.
have P0 : (P != 0)%R.
  rewrite prodf_seq_neq0; apply/allP => x; rewrite mem_iota => Hx /=; rewrite nat0F; apply: ndvd; have := pE; lia.
apply: (mulIf P0).
transitivity (\prod_(x <- iota 1 h) ((a * x)%:R : 'F_p))%R.
  rewrite (eq_bigr (fun x => (a%:R : 'F_p) * x%:R)%R); last by move=> x _; rewrite natrM.
  by rewrite big_split /= big_const_seq count_predT size_iota iter_mulr_1.
transitivity (\prod_(x <- iota 1 h) (((-1) ^+ (h < r a x)%N) * (f a x)%:R : 'F_p))%R.
  apply: eq_bigr => x _.
  have -> : ((a * x)%:R = (r a x)%:R :> 'F_p)%R.
    by rewrite {1}(divn_eq (a * x) p) natrD natrM char_Fp_0 // mulr0 add0r.
  rewrite /f; case: (ltnP h (r a x)) => _ /=; last by rewrite expr0 mul1r.
  by rewrite expr1 mulN1r natrB ?(ltnW (r_lt x)) // char_Fp_0 // sub0r opprK.
rewrite big_split /=; congr (_ * _)%R.
  rewrite /nres; elim: (iota 1 h) => [|x s IH]; first by rewrite !big_nil.
  by rewrite !big_cons IH oddD -signr_addb oddb.
by rewrite -(big_map (f a) xpredT (fun y => (y%:R : 'F_p)%R)) (perm_big _ f_perm).
Qed.

(** Parity of the number of sign changes. *)
Lemma parity : odd (\sum_(x <- iota 1 h) a * x) = odd (\sum_(x <- iota 1 h) (a * x) %/ p) (+) odd (\sum_(x <- iota 1 h) x) (+) nres a.
Proof.
rewrite -[in X in _ (+) X (+) _](perm_big _ f_perm) big_map /nres !odd_sum -!big_split /=.
apply: eq_bigr => x _; rewrite {1}(divn_eq (a * x) p) oddD oddM p_odd andbT -addbA; congr (_ (+) _).
rewrite -/(r a x) /f; have := r_lt x; case: (ltnP h (r a x)) => _ L /=; last by rewrite addbF.
by rewrite oddB ?(ltnW L) // p_odd /= addbT negbK.
Qed.
Lemma eisenstein : odd a -> nres a = odd (\sum_(x <- iota 1 h) (a * x) %/ p).
Proof.
move=> Oa; have := parity; rewrite -big_distrr /= oddM Oa /=.
by case: (odd (\sum_(x <- _) x)); case: (odd _); case: nres.
Qed.
End A.

Lemma nres_2 : nres 2 = odd (h * h.+1)./2.
Proof.
have H2 : ~~ (p %| 2) by apply: ndvd; have := prime_gt1 Pp; have := pE; lia.
have := parity 2 H2.
have -> : \sum_(x <- iota 1 h) (2 * x) %/ p = 0.
  by apply: big1_seq => x /andP[_]; rewrite mem_iota => Hx; rewrite divn_small //; have := pE; lia.
rewrite -big_distrr /= oddM /=.
have -> : \sum_(x <- iota 1 h) x = (h * h.+1)./2.
  have E : forall n, (\sum_(x <- iota 1 n) x).*2 = n * n.+1.
    elim=> [|n IH]; first by rewrite big_nil.
    have -> : iota 1 n.+1 = iota 1 n ++ [:: n.+1] by rewrite -{1}[n.+1]addn1 iotaD.
    by rewrite big_cat big_seq1 doubleD IH; lia.
  by rewrite -E doubleK.
by case: (odd _); case: nres.
Qed.

(** Euler's criterion. *)
Lemma fermatF (x : 'F_p) : (x != 0)%R -> (x ^+ p.-1 = 1)%R.
Proof.
move=> Hx; apply: (mulIf Hx); rewrite -exprSr prednK // mul1r.
by have := expf_card x; rewrite card_Fp.
Qed.
Lemma pm1 : p.-1 = h.*2.
Proof. by have := pE; lia. Qed.
Lemma prim_gen : exists g : 'F_p, (p.-1.-primitive_root g)%R.
Proof.
pose rs := [seq x <- enum 'F_p | x != 0%R].
have : (has p.-1.-primitive_root rs)%R.
  apply: has_prim_root; first by rewrite pm1; have := h0; lia.
  - by apply/allP => z; rewrite mem_filter => /andP[Hz _]; apply/unity_rootP; apply: fermatF.
  - by rewrite filter_uniq // enum_uniq.
  - rewrite size_filter -[X in _ <= X]/(count _ _); have := count_predC (fun x : 'F_p => x == 0%R) (enum 'F_p).
    rewrite -cardE card_Fp // -(eq_count (a1 := pred1 0%R)) // count_uniq_mem ?enum_uniq // mem_enum.
    rewrite -(eq_count (a1 := (fun z : 'F_p => z != 0%R))) //; lia.
by case/hasP => g _ H2; exists g.
Qed.
Lemma eulerF (x : 'F_p) : (x != 0)%R -> (x ^+ h == 1)%R = [exists y : 'F_p, y ^+ 2 == x]%R.
Proof.
move=> Hx; apply/eqP/existsP => [E|[y /eqP Hy]]; last first.
  rewrite -Hy -exprM mul2n -pm1; apply: fermatF; apply/eqP => Y0; move: Hx; rewrite -Hy Y0 expr0n eqxx //.
have [g Hg] := prim_gen.
have [[i Hl] /= Hi] := prim_rootP Hg (fermatF x Hx).
move: E; rewrite Hi -exprM => /eqP; rewrite -(prim_order_dvd Hg) pm1 -muln2 mulnC dvdn_pmul2r ?h0 // => D.
have [j Hj] := dvdnP D; exists (g ^+ j)%R; by rewrite -exprM -Hj.
Qed.
Lemma euler a : ~~ (p %| a) -> nres a = ~~ [exists y : 'F_p, y ^+ 2 == a%:R]%R.
Proof.
move=> Ha; rewrite -eulerF ?nat0F // gauss //; case: nres; rewrite ?expr1 ?expr0 ?eqxx //.
apply/esym/negP => /eqP E.
have : (((2%N)%:R : 'F_p) == 0)%R by rewrite mulr2n -{1}E addNr.
by rewrite nat0F => /dvdn_leq; have := prime_gt1 Pp; have := pE; lia.
Qed.

(** There is a non-residue. *)
Lemma nres_exists : exists a, ~~ (p %| a) && nres a.
Proof.
have [g Hg] := prim_gen; exists (nat_of_ord g).
have G0 : (g != 0)%R.
  apply/eqP => E; have := prim_expr_order Hg; rewrite E expr0n pm1; have -> : (h.*2 == 0) = false by have := h0; lia.
  by move/eqP; rewrite eq_sym oner_eq0.
have E : ((nat_of_ord g)%:R = g)%R by rewrite natr_Zp.
have Ha : ~~ (p %| g) by rewrite -nat0F E.
rewrite Ha /= euler // E -eulerF //; apply/negP => /eqP X.
have : (p.-1 %| h) by rewrite (prim_order_dvd Hg) X.
by move/dvdn_leq; have := h0; have := pE; lia.
Qed.

Lemma nres_mul a b : ~~ (p %| a) -> ~~ (p %| b) -> nres (a * b) = nres a (+) nres b.
Proof.
move=> Ha Hb; have Hab : ~~ (p %| a * b) by rewrite Euclid_dvdM // negb_or Ha.
have := gauss _ Hab; rewrite natrM exprMn !gauss // -signr_addb => /eqP.
have N : forall u v : bool, ((-1) ^+ u == ((-1) ^+ v : 'F_p))%R -> u = v.
  have K : (-1 != 1 :> 'F_p)%R.
    apply/eqP => E; have : (((2%N)%:R : 'F_p) == 0)%R by rewrite mulr2n -{1}E addNr.
    by rewrite nat0F => /dvdn_leq; have := prime_gt1 Pp; have := pE; lia.
  by case=> [] [] //=; rewrite ?expr0 ?expr1 ?(negbTE K) // eq_sym (negbTE K).
by move/N.
Qed.
Lemma nres_pred : nres p.-1 = odd h.
Proof.
have Ha : ~~ (p %| p.-1) by apply: ndvd; have := prime_gt1 Pp; lia.
have := gauss _ Ha; have -> : ((p.-1)%:R = -1 :> 'F_p)%R by rewrite -subn1 natrB // char_Fp_0 // sub0r.
rewrite -signr_odd => /eqP; have K : (-1 != 1 :> 'F_p)%R.
  apply/eqP => E; have : (((2%N)%:R : 'F_p) == 0)%R by rewrite mulr2n -{1}E addNr.
  by rewrite nat0F => /dvdn_leq; have := prime_gt1 Pp; have := pE; lia.
by case: nres; case: (odd h) => //=; rewrite ?expr0 ?expr1 ?(negbTE K) // eq_sym (negbTE K).
Qed.
End Gauss.

Lemma lattice p q : prime p -> prime q -> odd p -> odd q -> p != q ->
  \sum_(x <- iota 1 p./2) (q * x) %/ p + \sum_(y <- iota 1 q./2) (p * y) %/ q = p./2 * q./2.
Proof.
move=> Pp Pq Op Oq ne; have Ep := pE p Op; have Eq := pE q Oq.
have II : forall k, iota 1 k = index_iota 1 k.+1 by move=> k; rewrite /index_iota subn1.
have D : forall p q x, prime p -> odd p -> odd q -> x \in iota 1 p./2 ->
    (q * x) %/ p = \sum_(1 <= y < (q./2).+1) (p * y <= q * x).
  move=> p' q' x Pp' Op' Oq'; rewrite mem_iota => Hx; have Ep' := pE p' Op'; have Eq' := pE q' Oq'.
  rewrite sum_le ?prime_gt0 //; apply/esym/minn_idPr; rewrite -ltnS ltn_divLR ?prime_gt0 //; nia.
rewrite (eq_big_seq _ (fun x Hx => D p q x Pp Op Oq Hx)) (eq_big_seq _ (fun x Hx => D q p x Pq Oq Op Hx)).
rewrite !II exchange_big /= -big_split /=.
rewrite (eq_big_nat _ _ (F2 := fun _ => p./2)); first by rewrite sum_nat_const_nat subn1 mulnC.
move=> y Hy; rewrite -big_split /= (eq_big_nat _ _ (F2 := fun _ => 1)); first by rewrite sum_nat_const_nat subn1 muln1.
move=> x Hx; have N : p * y != q * x.
  apply/eqP => E; have : p %| q * x by rewrite -E dvdn_mulr.
  rewrite Euclid_dvdM // dvdn_prime2 // (negbTE ne) /= => /dvdn_leq; lia.
by case: (ltngtP (p * y) (q * x)) N.
Qed.
Theorem reciprocity p q : prime p -> prime q -> odd p -> odd q -> p != q -> nres p q (+) nres q p = odd (p./2 * q./2).
Proof.
move=> Pp Pq Op Oq ne.
have D1 : ~~ (p %| q) by rewrite dvdn_prime2.
have D2 : ~~ (q %| p) by rewrite dvdn_prime2 // eq_sym.
by rewrite (eisenstein p Pp Op q D1 Oq) (eisenstein q Pq Oq p D2 Op) -oddD lattice.
Qed.
