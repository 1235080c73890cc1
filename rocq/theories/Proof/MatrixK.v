(** The Cauchy matrix whose first row and first column are ones. *)
Set Warnings "-notation-overridden,-ambiguous-paths".
From Coq Require Import NArith Arith.
From Coq Require List.
From Verif.Model Require Import Common Arith Ring Matrix.
From Verif.Proof Require Import ListP MatrixL.
From mathcomp Require Import all_ssreflect fingroup perm ssralg poly matrix mxalgebra.
From mathcomp Require Import zify.
From Verif.Proof Require Import Pres MatrixI MatrixC.
Import GRing.Theory.
Local Open Scope ring_scope.

(** ** Kernel of a Cauchy matrix, maybe with a row or a column of ones *)
Section Kernel.
Variables (F : fieldType) (E : seq nat) (y c : nat -> F).
Hypothesis U : uniq E.
Hypothesis y_inj : {in E &, injective y}.
Definition others (j : nat) : {poly F} := \prod_(l <- E | l != j) ('X - (y l)%:P).
Definition all_y : {poly F} := \prod_(l <- E) ('X - (y l)%:P).
Definition num (a : F) : {poly F} := a *: all_y + \sum_(j <- E) c j *: others j.

Lemma all_others j : j \in E -> all_y = ('X - (y j)%:P) * others j.
Proof. by move=> Hj; rewrite /all_y /others (bigD1_seq j). Qed.
Lemma size_all : size all_y = (size E).+1. Proof. exact: size_prod_XsubC. Qed.
Lemma monic_all : all_y \is monic. Proof. exact: monic_prod_XsubC. Qed.
Lemma monic_others j : others j \is monic. Proof. exact: monic_prod_XsubC. Qed.
Lemma size_others j : j \in E -> size (others j) = size E.
Proof.
  move=> Hj; have := size_all; rewrite (all_others j Hj) size_Mmonic ?monic_others ?(monic_neq0 (monicXsubC _)) // size_XsubC.
  by rewrite addSn add1n => -[].
Qed.
Lemma all_at x : (forall l, l \in E -> x != y l) -> all_y.[x] != 0.
Proof.
  move=> H; rewrite /all_y horner_prod prodf_seq_neq0; apply/allP => l Hl; rewrite /= hornerXsubC subr_eq0; exact: H.
Qed.
Lemma others_at x j : j \in E -> (forall l, l \in E -> x != y l) -> (others j).[x] = all_y.[x] / (x - y j).
Proof.
  move=> Hj H; rewrite (all_others j Hj) hornerM hornerXsubC mulrAC mulfV ?mul1r // subr_eq0; exact: H.
Qed.
Lemma num_at a x : (forall l, l \in E -> x != y l) -> (num a).[x] = all_y.[x] * (a + \sum_(j <- E) c j / (x - y j)).
Proof.
  move=> H; rewrite /num hornerD hornerZ horner_sum mulrDr mulrC big_distrr /=; congr (_ + _).
  by rewrite [LHS]big_seq [RHS]big_seq; apply: eq_bigr => j Hj; rewrite hornerZ others_at // mulrCA.
Qed.
Lemma size_num a : (size (num a) <= size E + (a != 0%R))%N.
Proof.
  rewrite /num (leq_trans (size_add _ _)) // geq_max; apply/andP; split.
    by case: eqP => [->|_]; rewrite ?scale0r ?size_poly0 // addn1 -size_all; exact: size_scale_leq.
  rewrite (leq_trans (size_sum _ _ _)) //; apply/bigmax_leqP_seq => j Hj _.
  by rewrite (leq_trans (size_scale_leq _ _)) // size_others // leq_addr.
Qed.
Lemma size_num0 : \sum_(j <- E) c j = 0 -> (size (num 0) <= (size E).-1)%N.
Proof.
  move=> S0; have := size_num 0; rewrite eqxx addn0.
  case: (posnP (size E)) => [->|E0] // Hs; apply/leq_sizeP => i Hi.
  case: (ltnP i (size E)) => Hi2; last by move/leq_sizeP: Hs; apply.
  have -> : i = (size E).-1 by lia.
  rewrite /num scale0r add0r coef_sum -[RHS]S0 big_seq [RHS]big_seq; apply: eq_bigr => j Hj.
  by rewrite coefZ -(size_others j Hj) -lead_coefE (monicP (monic_others j)) mulr1.
Qed.
Lemma num_zero a : num a = 0 -> a = 0 /\ forall j, j \in E -> c j = 0.
Proof.
  move=> Z; have cz j : j \in E -> c j = 0.
    move=> Hj; have := congr1 (horner^~ (y j)) Z; rewrite /num hornerD hornerZ (all_others j Hj) hornerM hornerXsubC subrr mul0r mulr0 add0r.
    rewrite horner_sum horner0 (bigD1_seq j) //= big1_seq => [|l /andP [lj Hl]].
      rewrite addr0 hornerZ => /eqP; rewrite mulf_eq0 => /orP [/eqP //|].
      rewrite /others horner_prod prodf_seq_eq0 => /hasP [l Hl /andP [lj]]; rewrite hornerXsubC subr_eq0 => /eqP /(y_inj _ _ Hj Hl) e.
      by rewrite e eqxx in lj.
    rewrite hornerZ /others -big_filter (bigD1_seq j) ?filter_uniq ?mem_filter ?Hj ?andbT // 1?eq_sym //=.
    by rewrite hornerM hornerXsubC subrr mul0r mulr0.
  split=> //; have := congr1 lead_coef Z; rewrite /num [X in _ + X]big1_seq => [|j /andP [_ Hj]]; last by rewrite cz // scale0r.
  by rewrite addr0 lead_coefZ (monicP monic_all) mulr1 lead_coef0.
Qed.

Lemma cauchy_kernel a (xs : seq F) : uniq xs -> (forall x l, x \in xs -> l \in E -> x != y l) ->
  (forall x, x \in xs -> a + \sum_(j <- E) c j / (x - y j) = 0) ->
  ((size E + (a != 0%R) <= size xs)%N \/ [/\ a = 0, \sum_(j <- E) c j = 0 & ((size E).-1 <= size xs)%N]) ->
  a = 0 /\ forall j, j \in E -> c j = 0.
Proof.
  move=> Ux D R H; apply: num_zero; apply/eqP; apply/negPn/negP => nz.
  have sz : (size (num a) <= size xs)%N.
    case: H => [H|[-> S0 H]]; [exact: leq_trans (size_num a) H|exact: leq_trans (size_num0 S0) H].
  have Hr : all (root (num a)) xs by apply/allP => x Hx; rewrite rootE num_at ?R ?mulr0 // => l; apply: D.
  by have := max_poly_roots nz Hr Ux; rewrite ltnNge sz.
Qed.
End Kernel.

Lemma lxor_1 n : (N.lxor n 1 <= n + 1)%num. Proof. by case: n => [|[p|p|]] //=; lia. Qed.

Section Cauchy.
Variables (F : fieldType) (G : gfops) (phi : N -> F) (gdiv : N -> N -> N).
Hypothesis Pr : gf_pres F G phi.
Hypothesis Hd : forall a b, gvalid G a -> gvalid G b -> b <> 0%num -> gvalid G (gdiv a b) /\ phi (gdiv a b) = phi a / phi b.
Hypothesis opp : forall u : F, - u = u.
Hypothesis hx : forall a b, gvalid G a -> gvalid G b -> g_add G a b = N.lxor a b.
Variables (k m : nat) (junk' : N).
Hypothesis k0 : (0 < k)%N.
Hypothesis m0 : (0 < m)%N.
Hypothesis km : (N.of_nat (k + m) <= g_card G)%num.
Notation ok := (gvalid G).
Notation en := (en F phi).
Notation mvd := (mvd G).
Notation x r := (phi (N.of_nat r)).
Notation K := (cauchy G gdiv (new_matrix junk' m k)).

Let okx r : (r < k + m)%N -> ok (N.of_nat r). Proof. exact: (okx G k m k0 km r). Qed.
Let x_inj r s : (r < k + m)%N -> (s < k + m)%N -> x r = x s -> r = s. Proof. exact: (x_inj _ _ _ Pr k m k0 km). Qed.

Lemma cau_aF i j : (i < m)%N -> (j < k)%N -> ok (cau_a G m i j) /\ phi (cau_a G m i j) = (x i - x (j + m)%N)^-1 /\ cau_a G m i j <> 0%num.
Proof.
  move=> Hi Hj; rewrite /cau_a -[(j + m)%coq_nat]/(j + m)%N.
  have [o E] := gp_add _ _ _ Pr _ _ (okx i ltac:(lia)) (okx (j + m)%N ltac:(lia)).
  have nzF : x i - x (j + m)%N != 0.
    by rewrite subr_eq0; apply/eqP => e; have := x_inj i (j + m)%N ltac:(lia) ltac:(lia) e; lia.
  have E' : phi (g_add G (N.of_nat i) (N.of_nat (j + m))) = x i - x (j + m)%N by rewrite E opp.
  have nz : g_add G (N.of_nat i) (N.of_nat (j + m)) <> 0%num.
    by move=> Z; move: E' nzF; rewrite Z (gp_0 _ _ _ Pr) => <-; rewrite eqxx.
  have [oi Ei] := gp_inv _ _ _ Pr _ o nz; rewrite Ei E'; split=> //; split=> // Z.
  by move: Ei; rewrite Z (gp_0 _ _ _ Pr) E' => /esym /eqP; rewrite invr_eq0 (negbTE nzF).
Qed.
Lemma div_self a : ok a -> a <> 0%num -> gdiv a a = 1%num.
Proof.
  move=> Ha a0; have [o E] := Hd _ _ Ha Ha a0; apply: (gp_inj _ _ _ Pr) => //; first exact: (gp_card _ _ _ Pr).
  rewrite E (gp_1 _ _ _ Pr) mulfV // (phi_eq0 _ _ _ Pr) //; apply/negP; by move/N.eqb_spec.
Qed.
Lemma div_one a : ok a -> gdiv a 1%num = a.
Proof.
  move=> Ha; have [o E] := Hd a 1%num Ha (gp_card _ _ _ Pr) ltac:(by []); apply: (gp_inj _ _ _ Pr) => //.
  by rewrite E (gp_1 _ _ _ Pr) divr1.
Qed.
(** The matrix: ones in the first row and the first column. *)
Definition cau (i j : nat) : F := if (i == 0%N) || (j == 0%N) then 1 else (x i - x (j + m)%N)^-1.
Lemma cau_bE i j : (i < m)%N -> (j < k)%N -> cau_b G gdiv m i j = if i == 0%N then 1%num else cau_a G m i j.
Proof.
  move=> Hi Hj; rewrite /cau_b; have [o [_ n]] := cau_aF 0 j m0 Hj; rewrite div_self //.
  case: Nat.eqb_spec => [->|/eqP/negbTE ->] //; apply: div_one; by case: (cau_aF i j Hi Hj).
Qed.
Lemma cauchy_F : mvd m k K /\ forall i j, (i < m)%N -> (j < k)%N -> en K i j = cau i j.
Proof.
  have [W E] := cauchy_spec G gdiv m k (new_matrix junk' m k) (mwf_new junk' m k) ltac:(lia) ltac:(lia).
  have C i j (Hi : (i < m)%N) (Hj : (j < k)%N) : cau_c G gdiv m i j = if (i == 0%N) || (j == 0%N) then 1%num else cau_a G m i j.
    rewrite /cau_c !cau_bE //; case: Nat.eqb_spec => [->|/eqP/negbTE i0]; first by [].
    rewrite i0 /=; have [o [_ n]] := cau_aF i 0 Hi k0; rewrite div_self //.
    case: Nat.eqb_spec => [->|/eqP/negbTE ->] //; apply: div_one; by case: (cau_aF i j Hi Hj).
  have o i j (Hi : (i < m)%N) (Hj : (j < k)%N) : ok (cau_c G gdiv m i j) /\ phi (cau_c G gdiv m i j) = cau i j.
    rewrite C // /cau; case: ifP => _; first by split; [exact: (gp_card _ _ _ Pr)|exact: (gp_1 _ _ _ Pr)].
    by have [o1 [E1 _]] := cau_aF i j Hi Hj.
  split; first by split=> // i j Hi Hj; rewrite E; [case: (o i j Hi Hj)|lia|lia].
  by move=> i j Hi Hj; rewrite /MatrixI.en E; [case: (o i j Hi Hj)|lia|lia].
Qed.

Variables (data par : nat -> bool).
Definition missing : seq nat := [seq j <- iota 0 k | ~~ data j].
Definition rows : seq nat := List.firstn (k - length (List.filter data (List.seq 0 k))) (List.filter par (List.seq 0 m)).

Lemma filterE (f : nat -> bool) s : List.filter f s = filter f s. Proof. by elim: s => //= a s ->. Qed.
Lemma take_firstn (n : nat) (s : seq nat) : List.firstn n s = take n s. Proof. by elim: n s => [|n IH] [|a s] //=; rewrite IH. Qed.
Lemma rowsE : rows = take (k - length (List.filter data (List.seq 0 k))) (filter par (iota 0 m)).
Proof. by rewrite /rows take_firstn (filterE par) seq_iota. Qed.
Lemma rows_uniq : uniq rows. Proof. by rewrite rowsE take_uniq // filter_uniq // iota_uniq. Qed.
Lemma rows_lt i : i \in rows -> (i < m)%N /\ par i.
Proof. by rewrite rowsE => /mem_take; rewrite mem_filter mem_iota => /andP [-> /andP [_ H]]. Qed.
Lemma size_missing : (length (List.filter data (List.seq 0 k)) + size missing = k)%N.
Proof. by rewrite filterE seq_iota -[length _]/(size _) -size_cat -[RHS](size_iota 0 k); apply: perm_size; rewrite perm_filterC. Qed.
Lemma usedE : used_ids k m data par = [seq j <- iota 0 k | data j] ++ [seq (k + i)%N | i <- rows].
Proof. by rewrite /used_ids -/rows (filterE data) seq_iota. Qed.

(** A vector of the kernel is supported by the missing columns, where the rows in use vanish. *)
Lemma kernel_missing (v : nat -> F) : length (used_ids k m data par) = k ->
  (forall t, (t < k)%N -> \sum_(j < k) full F phi k K (List.nth t (used_ids k m data par) 0%N) j * v j = 0) ->
  (forall j, (j < k)%N -> data j -> v j = 0) /\
  (forall i, i \in rows -> \sum_(j <- missing) cau i j * v j = 0).
Proof.
  move=> L H.
  have H' id : id \in used_ids k m data par -> \sum_(j < k) full F phi k K id j * v j = 0.
    by move=> /nth_In_ex [t [Ht <-]]; apply: H; rewrite -[X in (_ < X)%N]L.
  have Z j : (j < k)%N -> data j -> v j = 0.
    move=> Hj dj; have := H' j; rewrite usedE mem_cat mem_filter mem_iota dj Hj /= => /(_ erefl).
    rewrite /full Hj (bigD1 (Ordinal Hj)) //= eqxx mul1r big1 ?addr0 // => i ij.
    by rewrite -val_eqE /= in ij; rewrite eq_sym (negbTE ij) mul0r.
  split=> // i Hi; have [Hm _] := rows_lt i Hi.
  have := H' (k + i)%N; rewrite usedE mem_cat mem_map; last by move=> a b; lia.
  rewrite Hi orbT => /(_ erefl) e; rewrite -[RHS]e.
  have Ei : iota 0 k = index_iota 0 k by rewrite /index_iota subn0.
  rewrite /missing big_filter Ei -(big_mkord xpredT (fun j => full F phi k K (k + i) j * v j)).
  rewrite big_mkcond /= [in RHS]big_seq [LHS]big_seq; apply: eq_bigr => j; rewrite mem_index_iota => Hj.
  rewrite /full ltnNge leq_addr /= addKn (proj2 cauchy_F) //.
  by case: ifP => // /negbFE dj; rewrite Z ?mulr0 //; lia.
Qed.

Lemma y_inj : {in missing &, injective (fun j => x (j + m)%N)}.
Proof.
  by move=> a b; rewrite !mem_filter !mem_iota => /andP [_ Ha] /andP [_ Hb] e; have := x_inj (a + m)%N (b + m)%N ltac:(lia) ltac:(lia) e; lia.
Qed.

(** No more than two erasures, or the first parity is not used, or the first data fragment is there. *)
Definition good : Prop := (size missing <= 2)%N \/ 0%N \notin rows \/ data 0%N.

Lemma kernel_zero (v : nat -> F) : length (used_ids k m data par) = k -> good ->
  (forall t, (t < k)%N -> \sum_(j < k) full F phi k K (List.nth t (used_ids k m data par) 0%N) j * v j = 0) ->
  forall j, (j < k)%N -> v j = 0.
Proof.
  move=> L Gd H; have [Z R] := kernel_missing v L H.
  have sr : size rows = size missing.
    have e1 := size_missing; rewrite filterE seq_iota -[length _]/(size _) in e1.
    have e2 := L; rewrite usedE -[length _]/(size _) size_cat size_map in e2.
    by apply: (@addnI (size (filter data (iota 0 k)))); exact: etrans e2 (esym e1).
  suff Hm j : j \in missing -> v j = 0.
    by move=> j Hj; case dj: (data j); [exact: Z|apply: Hm; rewrite mem_filter dj mem_iota].
  have mk l : l \in missing -> (l < k)%N by rewrite mem_filter mem_iota => /andP [_].
  have Um : uniq missing by rewrite filter_uniq ?iota_uniq.
  have ne i l : (i < m)%N -> (l < k)%N -> x i != x (l + m)%N.
    by move=> Hi Hl; apply/eqP => e; have := x_inj i (l + m)%N ltac:(lia) ltac:(lia) e; lia.
  have inj_rows (s : seq nat) : {subset s <= rows} -> uniq s -> uniq [seq x i | i <- s].
    move=> Hs Us; rewrite map_inj_in_uniq // => a b /Hs /rows_lt [Ha _] /Hs /rows_lt [Hb _] e; apply: x_inj e; apply: leq_trans; [exact: Ha|exact: leq_addl|exact: Hb|exact: leq_addl].
  case z0: (0%N \in missing); last first.
    (* the first column is not concerned *)
    have cauE i l : l \in missing -> cau i l = if i == 0%N then 1 else (x i - x (l + m)%N)^-1.
      move=> Hl; rewrite /cau; have -> : (l == 0%N) = false by apply/negP => /eqP e; rewrite e z0 in Hl.
      by rewrite orbF.
    have Hk (s : seq nat) : {subset s <= rows} -> uniq s -> 0%N \notin s ->
       ((size missing <= size s)%N \/ (\sum_(l <- missing) v l = 0 /\ ((size missing).-1 <= size s)%N)) -> forall l, l \in missing -> v l = 0.
      move=> Hs Us ns Hc.
      have [|||_ //] := @cauchy_kernel F missing (fun l => x (l + m)%N) v Um y_inj 0 [seq x i | i <- s] (inj_rows s Hs Us).
      - by move=> _ l /mapP [i Hi ->] Hl; apply: ne; [case: (rows_lt i (Hs i Hi))|exact: mk].
      - move=> _ /mapP [i Hi ->]; rewrite add0r -[RHS](R i (Hs i Hi)) [LHS]big_seq [RHS]big_seq; apply: eq_bigr => l Hl.
        rewrite cauE // ifF 1?mulrC //; by apply/negP => /eqP e; rewrite e (negbTE ns) in Hi.
      - by rewrite eqxx addn0 size_map; case: Hc => [|[]]; [left|right].
    case r0: (0%N \in rows); last by move=> Hj; apply: (Hk rows) => //; [exact: rows_uniq|rewrite r0|left; rewrite sr].
    move=> Hj; apply: (Hk (rem 0%N rows)) => //; first exact: mem_rem.
    - by rewrite rem_uniq // rows_uniq.
    - by rewrite mem_rem_uniqF // rows_uniq.
    - right; rewrite size_rem // sr; split=> //.
      by rewrite -[RHS](R 0%N r0) [LHS]big_seq [RHS]big_seq; apply: eq_bigr => l Hl; rewrite cauE // mul1r.
  have d0 : data 0%N = false by move: z0; rewrite mem_filter => /andP [/negbTE].
  pose E' := rem 0%N missing.
  have Ue : uniq E' by rewrite rem_uniq.
  have sE l : l \in E' -> l \in missing /\ l != 0%N by rewrite /E' mem_rem_uniq // !inE => /andP [].
  have split_sum (f : nat -> F) : \sum_(l <- missing) f l = f 0%N + \sum_(l <- E') f l.
    by rewrite (perm_big _ (perm_to_rem z0)) big_cons.
  have memE l : l \in missing -> l = 0%N \/ l \in E'.
    by move=> Hl; case: (eqVneq l 0%N) => [->|l0]; [left|right; rewrite /E' mem_rem_uniq // !inE l0].
  case r0: (0%N \in rows); last first.
    have yi : {in E' &, injective (fun l => x (l + m)%N)} by move=> a b /sE [Ha _] /sE [Hb _]; exact: y_inj.
    have ur : uniq [seq x i | i <- rows] by apply: inj_rows => //; exact: rows_uniq.
    move=> Hj; have [|||a0 H0] := @cauchy_kernel F E' (fun l => x (l + m)%N) v Ue yi (v 0%N) [seq x i | i <- rows] ur.
    - by move=> _ l /mapP [i Hi ->] /sE [Hl _]; apply: ne; [case: (rows_lt i Hi)|exact: mk].
    - move=> _ /mapP [i Hi ->]; rewrite -[RHS](R i Hi) split_sum /cau eqxx orbT mul1r; congr (_ + _).
      rewrite [LHS]big_seq [RHS]big_seq; apply: eq_bigr => l /sE [_ /negbTE ->]; rewrite orbF ifF 1?mulrC //.
      by apply/negP => /eqP e; rewrite e r0 in Hi.
    - left; rewrite size_map sr size_rem //; move: z0; rewrite -has_pred1 has_count => z0.
      have : (0 < size missing)%N by apply: leq_trans z0 (count_size _ _).
      by case: eqP => _ /=; lia.
    - by case: (memE _ Hj) => [->|/H0].
  case: Gd => [sm|[|]]; rewrite ?r0 ?d0 //.
  have e0 : v 0%N + \sum_(l <- E') v l = 0.
    rewrite -[RHS](R 0%N r0) split_sum /cau eqxx /= mul1r; congr (_ + _); by apply: eq_bigr => l _; rewrite mul1r.
  have sE' : size E' = (size missing).-1 by rewrite size_rem.
  case EE: E' => [|a [|b s]].
  - by move: e0 => + /memE; rewrite EE big_nil addr0 => e0 [->|].
  - have [aM a0] := sE a ltac:(by rewrite EE mem_head).
    case RR: (rem 0%N rows) => [|i rs]; first by have := size_rem r0; rewrite RR sr -sE' EE.
    have : i \in rem 0%N rows by rewrite RR mem_head.
    rewrite mem_rem_uniq ?rows_uniq // !inE => /andP [i0 Hi].
    have := R i Hi; rewrite split_sum EE big_seq1 /cau eqxx orbT (negbTE i0) (negbTE a0) /= mul1r => e1.
    rewrite EE big_seq1 in e0.
    have [Hm _] := rows_lt i Hi; have ak := mk a aM.
    have nx : (x i - x (a + m)%N)^-1 != 1.
      rewrite invr_eq1; apply/negP => /eqP E1.
      have [oa Ea] := gp_add _ _ _ Pr _ _ (okx i ltac:(lia)) (okx (a + m)%N ltac:(lia)).
      have e1' : g_add G (N.of_nat i) (N.of_nat (a + m)) = 1%num.
        by apply: (gp_inj _ _ _ Pr) => //; [exact: (gp_card _ _ _ Pr)|rewrite Ea (gp_1 _ _ _ Pr) -E1 opp].
      rewrite hx in e1'; try (apply: okx; lia).
      have := lxor_1 (N.of_nat i); rewrite -e1' -N.lxor_assoc N.lxor_nilpotent N.lxor_0_l; lia.
    have va : v a = 0.
      have : ((x i - x (a + m)%N)^-1 - 1) * v a = 0 by rewrite mulrBl mul1r -[X in X - _](addKr (v 0%N)) e1 addr0 -(addKr (v 0%N) (v a)) e0 addr0 subrr.
      by move/eqP; rewrite mulf_eq0 subr_eq0 (negbTE nx) => /eqP.
    move=> /memE [->|]; last by rewrite EE inE => /eqP ->.
    by move: e0; rewrite va addr0.
  - by move: sE'; rewrite EE /=; lia.
Qed.
End Cauchy.
