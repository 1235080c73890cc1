(** The erasures that the code built on the Cauchy matrix whose first row and first column are ones cannot decode. *)
Set Warnings "-notation-overridden,-ambiguous-paths".
From Coq Require Import NArith Arith.
From Coq Require List.
From Verif.Model Require Import Common Arith Ring Matrix.
From Verif.Proof Require Import ListP MatrixL.
From mathcomp Require Import all_ssreflect fingroup perm ssralg poly matrix mxalgebra.
From mathcomp Require Import zify.
From Verif.Spec Require Import Matrix.
From Verif.Proof Require Import Pres MatrixI MatrixC MatrixK.
Import GRing.Theory.
Local Open Scope ring_scope.

Lemma coef_roots (F : fieldType) (s : seq F) : (0 < size s)%N -> (\prod_(z <- s) ('X - z%:P))`_(size s).-1 = - \sum_(z <- s) z.
Proof.
  elim: s => // a s IH _; rewrite !big_cons /= mulrBl coefB coefXM coefCM.
  have top : (\prod_(z <- s) ('X - z%:P))`_(size s) = 1.
    have := monicP (monic_prod_XsubC s xpredT (fun z : F => z)); by rewrite lead_coefE size_prod_XsubC.
  rewrite top mulr1; case: (posnP (size s)) => [/size0nil ->|s0]; first by rewrite big_nil addr0 sub0r.
  by rewrite IH // opprD addrC.
Qed.

(** ** A Cauchy matrix with both a row and a column of ones *)
Section Kernel.
Variables (F : fieldType) (E : seq nat) (y : nat -> F) (xs : seq F).
Hypothesis U : uniq E.
Hypothesis y_inj : {in E &, injective y}.
Hypothesis Ux : uniq xs.
Hypothesis D : forall x l, x \in xs -> l \in E -> x != y l.
Hypothesis Sz : size xs = size E.
Notation P := (\prod_(z <- xs) ('X - z%:P)).
Notation gap := (\sum_(l <- E) y l - \sum_(z <- xs) z).

Lemma all_yE : all_y F E y = \prod_(z <- [seq y l | l <- E]) ('X - z%:P).
Proof. by rewrite /all_y big_map. Qed.
(** The coefficient below the top one. *)
Lemma coef_num c a : (0 < size E)%N -> (num F E y c a)`_(size E).-1 = \sum_(l <- E) c l - a * \sum_(l <- E) y l.
Proof.
  move=> E0; rewrite /num coefD coefZ all_yE.
  have := coef_roots F [seq y l | l <- E]; rewrite size_map => -> //; rewrite big_map mulrN addrC coef_sum; congr (_ - _).
  rewrite [LHS]big_seq [RHS]big_seq; apply: eq_bigr => j Hj.
  by rewrite coefZ -(size_others F E y U j Hj) -lead_coefE (monicP (monic_others F E y j)) mulr1.
Qed.
Lemma lead_num c a : a != 0 -> size (num F E y c a) = (size E).+1 /\ lead_coef (num F E y c a) = a.
Proof.
  move=> a0; have Hs : (size (num F E y c a) <= (size E).+1)%N by have := size_num F E y c U a; rewrite a0 addn1.
  have Ct : (num F E y c a)`_(size E) = a.
    rewrite /num coefD coefZ; have := monicP (monic_all F E y); rewrite lead_coefE size_all /= => ->.
    rewrite mulr1 coef_sum big1_seq ?addr0 // => j /andP [_ Hj]; rewrite coefZ nth_default ?mulr0 //; by rewrite (size_others F E y U j Hj).
  have e : size (num F E y c a) = (size E).+1.
    apply/eqP; rewrite eqn_leq Hs /= ltnNge; apply/negP => H; have := nth_default 0 H; rewrite Ct => /eqP; by rewrite (negbTE a0).
  by split=> //; rewrite lead_coefE e.
Qed.

Lemma bordered_kernel c a : a + \sum_(l <- E) c l = 0 -> (forall x, x \in xs -> a + \sum_(l <- E) c l / (x - y l) = 0) ->
  gap != - 1 -> a = 0 /\ forall l, l \in E -> c l = 0.
Proof.
  move=> R0 R g1; case: (eqVneq a 0) => [a0|a0].
    apply: (cauchy_kernel F E y c U y_inj a xs) => //; left; by rewrite a0 eqxx addn0 Sz.
  case: (posnP (size E)) => [/size0nil e|E0]; first by rewrite e big_nil addr0 in R0; rewrite R0 eqxx in a0.
  exfalso; move/eqP: g1; apply.
  have [sn ln] := lead_num c a a0.
  have H := @all_roots_prod_XsubC F (num F E y c a) xs; rewrite sn Sz uniq_rootsE Ux in H.
  have H' := H erefl _ erefl; rewrite ln in H'.
  have Hp : num F E y c a = a *: P.
    by apply: H'; apply/allP => x Hx; rewrite rootE num_at ?R ?mulr0 // => l; apply: D.
  have := congr1 (fun q : {poly F} => q`_(size E).-1) Hp; rewrite /= coef_num // coefZ -Sz coef_roots ?Sz //.
  have -> : \sum_(l <- E) c l = - a by apply/eqP; rewrite -addr_eq0 addrC R0.
  by move=> e; apply: (mulfI a0); rewrite mulrN1 mulrBr -mulrN -e addrCA subrr addr0.
Qed.

(** With the gap, the coefficients of the partial fractions of a quotient are a vector of the kernel. *)
Definition fractions (l : nat) : F := P.[y l] / (others F E y l).[y l].
Lemma others_nz l : l \in E -> (others F E y l).[y l] != 0.
Proof.
  move=> Hl; rewrite /others horner_prod prodf_seq_neq0; apply/allP => j Hj; apply/implyP => lj.
  rewrite hornerXsubC subr_eq0; apply: contra lj => /eqP e; by rewrite (y_inj _ _ Hl Hj e).
Qed.
Lemma num_fractions : num F E y fractions 1 = P.
Proof.
  apply/eqP; rewrite -subr_eq0; apply/negPn/negP => nz.
  have Hr : all (root (num F E y fractions 1 - P)) [seq y l | l <- E].
    apply/allP => _ /mapP [l Hl ->]; rewrite rootE hornerD hornerN subr_eq0; apply/eqP.
    rewrite /num hornerD hornerZ (all_others F E y U l Hl) hornerM hornerXsubC subrr mul0r mulr0 add0r horner_sum (bigD1_seq l) //= big1_seq => [|j /andP [jl Hj]].
      by rewrite addr0 hornerZ /fractions divfK ?others_nz.
    rewrite hornerZ /others -big_filter (bigD1_seq l) ?filter_uniq ?mem_filter ?Hl ?andbT // 1?eq_sym //=.
    by rewrite hornerM hornerXsubC subrr mul0r mulr0.
  have Uy : uniq [seq y l | l <- E] by rewrite map_inj_in_uniq.
  have := max_poly_roots nz Hr Uy; rewrite size_map ltnNge => /negP; apply.
  have [sn ln] := lead_num fractions 1 (oner_neq0 F).
  apply/leq_sizeP => i Hi; rewrite coefB.
  have sP : size P = (size E).+1 by rewrite size_prod_XsubC Sz.
  case: (ltngtP i (size E)) => Hi2; first by lia.
    by rewrite !nth_default ?subrr // ?sn ?sP.
  have := ln; rewrite lead_coefE sn /= Hi2 => ->.
  by have := monicP (monic_prod_XsubC xs xpredT (fun z : F => z)); rewrite lead_coefE sP /= => ->; rewrite subrr.
Qed.
Lemma bordered_singular : gap = - 1 ->
  1 + \sum_(l <- E) fractions l = 0 /\ forall x, x \in xs -> 1 + \sum_(l <- E) fractions l / (x - y l) = 0.
Proof.
  move=> g1; split.
    case: (posnP (size E)) => [e|E0].
      have e2 : xs = [::] by apply: size0nil; rewrite Sz.
      by move: g1; rewrite (size0nil e) e2 !big_nil subrr => /eqP; rewrite eq_sym oppr_eq0 oner_eq0.
    have := coef_num fractions 1 E0; rewrite num_fractions -Sz coef_roots ?Sz // mul1r => e.
    have -> : \sum_(l <- E) fractions l = gap by rewrite -[LHS](subrK (\sum_(l <- E) y l)) -e addrC.
    by rewrite g1 subrr.
  move=> x Hx; have ne l : l \in E -> x != y l by move=> Hl; exact: D.
  have := num_at F E y fractions U 1 x ne; rewrite num_fractions => e.
  have : P.[x] = 0 by apply/rootP; rewrite root_prod_XsubC.
  by rewrite e => /eqP; rewrite mulf_eq0 (negbTE (all_at F E y x ne)) => /eqP.
Qed.
End Kernel.

Section Cauchy.
Variables (F : fieldType) (G : gfops) (phi : N -> F) (gdiv : N -> N -> N).
Hypothesis Pr : gf_pres F G phi.
Hypothesis Hd : forall a b, gvalid G a -> gvalid G b -> b <> 0%num -> gvalid G (gdiv a b) /\ phi (gdiv a b) = phi a / phi b.
Hypothesis opp : forall u : F, - u = u.
Hypothesis hx : forall a b, gvalid G a -> gvalid G b -> g_add G a b = N.lxor a b.
Variables (k m : nat) (junk' : N).
Hypothesis k0 : (0 < k)%N.
Hypothesis m0 : (0 < m)%N.
Hypothesis km : (N.of_nat (k + m) <= g_card G)%num.
Notation ok := (gvalid G).
Notation x r := (phi (N.of_nat r)).
Notation K := (cauchy G gdiv (new_matrix junk' m k)).

Let okx r : (r < k + m)%N -> ok (N.of_nat r). Proof. exact: (okx G k m k0 km r). Qed.
Let x_inj r s : (r < k + m)%N -> (s < k + m)%N -> x r = x s -> r = s. Proof. exact: (x_inj _ _ _ Pr k m k0 km). Qed.

Lemma xor_sum (s : seq nat) : (forall r, r \in s -> (r < k + m)%N) -> ok (xor_all s) /\ phi (xor_all s) = \sum_(r <- s) x r.
Proof.
  elim: s => [|a s IH] H; first by rewrite big_nil (gp_0 _ _ _ Pr); split=> //; have := okx 0 ltac:(lia).
  have [o E] : ok (xor_all s) /\ phi (xor_all s) = \sum_(r <- s) x r by apply: IH => r Hr; apply: H; rewrite inE Hr orbT.
  have oa := okx a (H a (mem_head a s)).
  rewrite big_cons /= -(hx _ _ oa o) -E; exact: (gp_add _ _ _ Pr).
Qed.

Variables (data par : nat -> bool).
Notation missing := (missing k data).
Notation rows := (rows k m data par).
Lemma lostE : lost k data = missing. Proof. by rewrite /lost (filterE (fun j => ~~ data j)) seq_iota. Qed.
Lemma usedpE : parities_used k m data par = rows.
Proof.
  rewrite /parities_used /MatrixK.rows lostE -[length missing]/(size missing); congr List.firstn.
  have := size_missing k data; rewrite -[length _]/(size _); lia.
Qed.
Lemma missing_lt l : l \in missing -> (l < k)%N. Proof. by rewrite mem_filter mem_iota => /andP [_]. Qed.
Notation E' := (rem 0%N missing).
Notation R' := (rem 0%N rows).
Let Um : uniq missing. Proof. by rewrite filter_uniq ?iota_uniq. Qed.
Let Ur : uniq rows. Proof. exact: rows_uniq. Qed.

Lemma gapE : 0%N \in rows ->
  (\sum_(l <- E') x (l + m)%N - \sum_(z <- [seq x i | i <- R']) z == - 1) =
  N.eqb 1 (xor_all (rows ++ List.map (fun j => (j + m)%N) (List.filter (fun j => negb (Nat.eqb 0 j)) missing))).
Proof.
  move=> r0; set s := rows ++ _.
  have sE : s = rows ++ [seq (j + m)%N | j <- E'].
    congr (_ ++ _); rewrite (rem_filter _ Um) (filterE (fun j => ~~ Nat.eqb 0 j)) -[List.map _ _]/(map _ _); congr map; apply: eq_filter => j.
    by case: j.
  have [o E] : ok (xor_all s) /\ phi (xor_all s) = \sum_(r <- s) x r.
    apply: xor_sum => r; rewrite sE mem_cat => /orP [/rows_lt [H _]|/mapP [j /mem_rem /missing_lt H ->]]; lia.
  have P1 : \sum_(r <- s) x r = \sum_(l <- E') x (l + m)%N - \sum_(z <- [seq x i | i <- R']) z.
    have x0 : x 0%N = 0 by exact: (gp_0 _ _ _ Pr).
    have e : \sum_(i <- rows) x i = \sum_(i <- R') x i by rewrite (perm_big _ (perm_to_rem r0)) big_cons /= x0 add0r.
    by rewrite sE big_cat /= e !big_map opp addrC.
  rewrite -P1 -E opp -(gp_1 _ _ _ Pr); apply/eqP/N.eqb_spec => [e|<- //].
  by apply/esym; apply: (gp_inj _ _ _ Pr) => //; exact: (gp_card _ _ _ Pr).
Qed.
Lemma undecodableE : undecodable k m data par = (0%N \in missing) && (0%N \in rows) &&
  (\sum_(l <- E') x (l + m)%N - \sum_(z <- [seq x i | i <- R']) z == - 1).
Proof.
  rewrite /undecodable lostE usedpE mem_filter mem_iota /= k0 andbT.
  have -> : List.existsb (Nat.eqb 0) rows = (0%N \in rows).
    by elim: (rows) => //= a s ->; rewrite inE; case: a.
  by case: (boolP (0%N \in rows)) => [r0|]; rewrite ?andbF //= gapE.
Qed.

Hypothesis L : length (used_ids k m data par) = k.
Let sr : size rows = size missing.
Proof.
  have e1 := size_missing k data; rewrite filterE seq_iota -[length _]/(size _) in e1.
  have e2 := L; rewrite usedE -[length _]/(size _) size_cat size_map in e2.
  by apply: (@addnI (size (filter data (iota 0 k)))); exact: etrans e2 (esym e1).
Qed.
Let ne i l : (i < m)%N -> (l < k)%N -> x i != x (l + m)%N.
Proof. by move=> Hi Hl; apply/eqP => e; have := x_inj i (l + m)%N ltac:(lia) ltac:(lia) e; lia. Qed.
Let UE : uniq E'. Proof. by rewrite rem_uniq. Qed.
Let sE l : l \in E' -> l \in missing /\ l != 0%N. Proof. by rewrite mem_rem_uniq // !inE => /andP []. Qed.
Let sR i : i \in R' -> i \in rows /\ i != 0%N. Proof. by rewrite mem_rem_uniq // !inE => /andP []. Qed.
Let yi : {in E' &, injective (fun l => x (l + m)%N)}.
Proof. by move=> a b /sE [Ha _] /sE [Hb _]; exact: (MatrixK.y_inj F G phi Pr k m k0 m0 km data a b Ha Hb). Qed.
Let UR : uniq [seq x i | i <- R'].
Proof.
  rewrite map_inj_in_uniq ?rem_uniq // => a b /sR [/rows_lt [Ha _] _] /sR [/rows_lt [Hb _] _]; apply: x_inj; lia.
Qed.
Let DR z l : z \in [seq x i | i <- R'] -> l \in E' -> z != x (l + m)%N.
Proof. by move=> /mapP [i /sR [/rows_lt [Hi _] _] ->] /sE [/missing_lt Hl _]; apply: ne. Qed.

Lemma kernel_exact (v : nat -> F) : undecodable k m data par = false ->
  (forall t, (t < k)%N -> \sum_(j < k) full F phi k K (List.nth t (used_ids k m data par) 0%N) j * v j = 0) ->
  forall j, (j < k)%N -> v j = 0.
Proof.
  rewrite undecodableE => Ud H.
  have Simple : good k m data par -> forall j, (j < k)%N -> v j = 0.
    by move=> Gd; apply: (kernel_zero F G phi gdiv Pr Hd opp hx k m junk' k0 m0 km data par v L Gd H).
  case: (boolP (0%N \in missing)) => z0; last first.
    by apply: Simple; right; right; move: z0; rewrite mem_filter mem_iota /= k0 andbT negbK.
  case: (boolP (0%N \in rows)) => r0; last by apply: Simple; right; left.
  move: Ud; rewrite z0 r0 /= => gap.
  have [Z R] := kernel_missing F G phi gdiv Pr Hd opp k m junk' k0 m0 km data par v L H.
  have split_sum (f : nat -> F) : \sum_(l <- missing) f l = f 0%N + \sum_(l <- E') f l.
    by rewrite (perm_big _ (perm_to_rem z0)) big_cons.
  have Sz : size [seq x i | i <- R'] = size E' by rewrite size_map !size_rem // sr.
  have [||| v0 vE] := @bordered_kernel F E' (fun l => x (l + m)%N) [seq x i | i <- R'] UE yi UR DR Sz v (v 0%N).
  - rewrite -[RHS](R 0%N r0) split_sum /cau eqxx /= mul1r; congr (_ + _); by apply: eq_bigr => l _; rewrite mul1r.
  - move=> _ /mapP [i /sR [Hi i0] ->]; rewrite -[RHS](R i Hi) split_sum /cau eqxx orbT mul1r; congr (_ + _).
    by rewrite [LHS]big_seq [RHS]big_seq; apply: eq_bigr => l /sE [_ /negbTE ->]; rewrite orbF (negbTE i0) mulrC.
  - by rewrite gap.
  move=> j Hj; case dj: (data j); first exact: Z.
  case: (eqVneq j 0%N) => [->//|j0]; apply: vE.
  by rewrite mem_rem_uniq // !inE j0 mem_filter dj mem_iota.
Qed.

Lemma kernel_stuck : undecodable k m data par -> exists v : nat -> F, v 0%N <> 0 /\
  forall t, (t < k)%N -> \sum_(j < k) full F phi k K (List.nth t (used_ids k m data par) 0%N) j * v j = 0.
Proof.
  rewrite undecodableE => /andP [/andP [z0 r0] /eqP gap].
  have Sz : size [seq x i | i <- R'] = size E' by rewrite size_map !size_rem // sr.
  have [S0 S1] := @bordered_singular F E' (fun l => x (l + m)%N) [seq x i | i <- R'] UE yi UR DR Sz gap.
  set c := fractions _ _ _ _ in S0 S1.
  pose v j := if data j then 0 else if j == 0%N then 1 else c j.
  have d0 : data 0%N = false by move: z0; rewrite mem_filter => /andP [/negbTE].
  exists v; split; first by rewrite /v d0 eqxx; apply/eqP; exact: oner_neq0.
  have split_sum (f : nat -> F) : \sum_(l <- missing) f l = f 0%N + \sum_(l <- E') f l.
    by rewrite (perm_big _ (perm_to_rem z0)) big_cons.
  have vE l : l \in E' -> v l = c l.
    by move=> /sE []; rewrite /v mem_filter => /andP [/negbTE -> _] /negbTE ->.
  have R i : i \in rows -> \sum_(j <- missing) cau F phi m i j * v j = 0.
    move=> Hi; rewrite split_sum /cau eqxx orbT mul1r {1}/v d0 eqxx.
    case: (eqVneq i 0%N) => [i0|i0] /=.
      rewrite -[RHS]S0; congr (_ + _); rewrite [LHS]big_seq [RHS]big_seq; apply: eq_bigr => l Hl; by rewrite mul1r vE.
    rewrite -[RHS](S1 (x i)); last by apply: map_f; rewrite mem_rem_uniq // !inE i0.
    congr (_ + _); rewrite [LHS]big_seq [RHS]big_seq; apply: eq_bigr => l Hl; have [_ /negbTE ->] := sE l Hl; by rewrite vE // mulrC.
  move=> t Ht; have : List.nth t (used_ids k m data par) 0%N \in used_ids k m data par.
    by apply: mem_In; apply: List.nth_In; rewrite L; apply/ltP.
  move: (List.nth _ _ _) => id; rewrite usedE mem_cat => /orP [|/mapP [i Hi ->]].
    rewrite mem_filter mem_iota add0n => /andP [di /andP [_ Hid]].
    rewrite /full Hid (bigD1 (Ordinal Hid)) //= eqxx mul1r {1}/v di big1 ?addr0 // => j jn.
    by rewrite -val_eqE /= in jn; rewrite eq_sym (negbTE jn) mul0r.
  have [Hm _] := rows_lt _ _ _ _ i Hi; rewrite -[RHS](R i Hi).
  have Ei : iota 0 k = index_iota 0 k by rewrite /index_iota subn0.
  rewrite /MatrixK.missing big_filter Ei -(big_mkord xpredT (fun j => full F phi k K (k + i) j * v j)).
  rewrite [in RHS]big_mkcond /= [in RHS]big_seq [LHS]big_seq; apply: eq_bigr => j; rewrite mem_index_iota => Hj.
  rewrite /full ltnNge leq_addr /= addKn (proj2 (cauchy_F F G phi gdiv Pr Hd opp k m junk' k0 m0 km)) //.
  by case: ifP => // /negbFE dj; rewrite /v dj mulr0.
Qed.
End Cauchy.
