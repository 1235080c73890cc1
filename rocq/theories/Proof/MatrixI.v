(** Gauss-Jordan inversion (vec_matrix.h:188-265). *)
Set Warnings "-notation-overridden,-ambiguous-paths".
From Coq Require Import NArith Arith.
From Coq Require List.
From Verif.Model Require Import Common Arith Ring Matrix.
From Verif.Proof Require Import MatrixL.
From mathcomp Require Import all_ssreflect fingroup perm ssralg matrix mxalgebra.
From mathcomp Require Import zify.
From Verif.Proof Require Import Pres.
Import GRing.Theory.
Local Open Scope ring_scope.

Lemma seq_iota a k : List.seq a k = iota a k. Proof. by elim: k a => //= k IH a; rewrite IH. Qed.
Lemma forallb_iota (P : nat -> bool) k : List.forallb P (List.seq 0 k) = [forall i : 'I_k, P i].
Proof.
  apply/idP/forallP => [/List.forallb_forall H i|H].
    by apply: H; apply/List.in_seq; move: (ltn_ord i); lia.
  apply/List.forallb_forall => i /List.in_seq Hi.
  have Hi' : (i < k)%N by lia.
  exact: (H (Ordinal Hi')).
Qed.

Section Inv.
Variables (F : fieldType) (G : gfops) (phi : N -> F) (gdiv : N -> N -> N).
Hypothesis Pr : gf_pres F G phi.
Hypothesis Hd : forall a b, gvalid G a -> gvalid G b -> b <> 0%num -> gvalid G (gdiv a b) /\ phi (gdiv a b) = phi a / phi b.
Notation ok := (gvalid G).
Implicit Type M : Matrix.matrix.

Lemma ok0 : ok 0%num. Proof. have := gp_card _ _ _ Pr; rewrite /gvalid; lia. Qed.
Lemma ok1 : ok 1%num. Proof. exact: (gp_card _ _ _ Pr). Qed.
Lemma phi_eq0 a : ok a -> (phi a == 0) = (a =? 0)%num.
Proof.
  move=> Ha; apply/eqP/N.eqb_spec => [E|->]; last exact: (gp_0 _ _ _ Pr).
  by apply: (gp_inj _ _ _ Pr) => //; [exact: ok0|rewrite (gp_0 _ _ _ Pr)].
Qed.
Lemma phi_delta i j : phi (delta i j) = (i == j)%:R.
Proof.
  rewrite /delta; case: Nat.eqb_spec => [->|/eqP/negbTE ->]; rewrite ?eqxx; first exact: (gp_1 _ _ _ Pr).
  exact: (gp_0 _ _ _ Pr).
Qed.
Lemma ok_delta i j : ok (delta i j).
Proof. by rewrite /delta; case: ifP => _; [exact: ok1|exact: ok0]. Qed.

(** Well-formed matrices whose cells are elements. *)
Definition mvd R C (M : Matrix.matrix) : Prop := mwf R C M /\ forall i j, (i < R)%N -> (j < C)%N -> ok (mget M i j).
Definition en M i j : F := phi (mget M i j).
Lemma mv_wf R C M : mvd R C M -> mwf R C M. Proof. by case. Qed.
Lemma mv_ok R C M i j : mvd R C M -> (i < R)%N -> (j < C)%N -> ok (mget M i j). Proof. by case=> _; apply. Qed.

Section RC.
Variables (n W : nat).
Notation mv := (mvd n W).

Lemma e_swap M a b : mv M -> (a < n)%N -> (b < n)%N -> mv (swap_rows M a b) /\
  forall i j, (i < n)%N -> (j < W)%N -> en (swap_rows M a b) i j = if i == a then en M b j else if i == b then en M a j else en M i j.
Proof.
  move=> [HM Hv] Ha Hb; have [W' E] := swap_rows_spec n W M a b HM ltac:(lia) ltac:(lia).
  have E' i j : (i < n)%N -> (j < W)%N -> mget (swap_rows M a b) i j = if i == a then mget M b j else if i == b then mget M a j else mget M i j.
    move=> Hi Hj; rewrite E; try lia.
    by case: (Nat.eqb_spec i a) => [->|/eqP/negbTE ->]; rewrite ?eqxx //; case: (Nat.eqb_spec i b) => [->|/eqP/negbTE ->]; rewrite ?eqxx.
  split; first by split=> // i j Hi Hj; rewrite E' //; do ! case: ifP => _; apply: Hv.
  by move=> i j Hi Hj; rewrite /en E' //; do ! case: ifP => _.
Qed.
Lemma e_mul M r x : mv M -> (r < n)%N -> ok x -> mv (mul_row G M r x) /\
  forall i j, (i < n)%N -> (j < W)%N -> en (mul_row G M r x) i j = if i == r then en M i j * phi x else en M i j.
Proof.
  move=> [HM Hv] Hr Hx; have [W' E] := mul_row_spec n W G M r x HM ltac:(lia).
  have E' i j : (i < n)%N -> (j < W)%N -> mget (mul_row G M r x) i j = if i == r then g_mul G (mget M i j) x else mget M i j.
    by move=> Hi Hj; rewrite E; try lia; case: (Nat.eqb_spec i r) => [->|/eqP/negbTE ->]; rewrite ?eqxx.
  have K i j (Hi : (i < n)%N) (Hj : (j < W)%N) := gp_mul _ _ _ Pr _ _ (Hv i j Hi Hj) Hx.
  split; first by split=> // i j Hi Hj; rewrite E' //; case: ifP => _; [case: (K i j Hi Hj)|apply: Hv].
  by move=> i j Hi Hj; rewrite /en E' //; case: ifP => _ //; case: (K i j Hi Hj).
Qed.
Lemma e_add M s d x : mv M -> (s < n)%N -> (d < n)%N -> ok x -> mv (add_rows G M s d x) /\
  forall i j, (i < n)%N -> (j < W)%N -> en (add_rows G M s d x) i j = if i == d then en M i j + phi x * en M s j else en M i j.
Proof.
  move=> [HM Hv] Hs Hr Hx; have [W' E] := add_rows_spec n W G M s d x HM ltac:(lia) ltac:(lia).
  have E' i j : (i < n)%N -> (j < W)%N -> mget (add_rows G M s d x) i j = if i == d then g_add G (mget M i j) (g_mul G (mget M s j) x) else mget M i j.
    by move=> Hi Hj; rewrite E; try lia; case: (Nat.eqb_spec i d) => [->|/eqP/negbTE ->]; rewrite ?eqxx.
  have K j (Hj : (j < W)%N) := gp_mul _ _ _ Pr _ _ (Hv s j Hs Hj) Hx.
  have K' i j (Hi : (i < n)%N) (Hj : (j < W)%N) := gp_add _ _ _ Pr _ _ (Hv i j Hi Hj) (proj1 (K j Hj)).
  split; first by split=> // i j Hi Hj; rewrite E' //; case: ifP => _; [case: (K' i j Hi Hj)|apply: Hv].
  by move=> i j Hi Hj; rewrite /en E' //; case: ifP => _ //; rewrite (proj2 (K' _ _ Hi Hj)) (proj2 (K _ Hj)) mulrC.
Qed.

(** A square part of the columns, from column [s] on. *)
Definition sl s M : 'M[F]_n := \matrix_(i, j) en M i (j + s)%N.
Definition rop M M' : Prop := exists E : 'M[F]_n, E \in unitmx /\ forall s, (s + n <= W)%N -> sl s M' = E *m sl s M.

Lemma rop_refl M : rop M M. Proof. by exists 1%:M; rewrite unitmx1; split=> // s _; rewrite mul1mx. Qed.
Lemma rop_trans M1 M2 M3 : rop M1 M2 -> rop M2 M3 -> rop M1 M3.
Proof.
  move=> [E [uE H]] [E' [uE' H']]; exists (E' *m E); rewrite unitmx_mul uE uE'; split=> // s Hs.
  by rewrite H' // H // mulmxA.
Qed.
Lemma col_lt s (j : 'I_n) : (s + n <= W)%N -> (j + s < W)%N. Proof. by move: (ltn_ord j); lia. Qed.

Lemma rop_swap M a b : mv M -> (a < n)%N -> (b < n)%N -> rop M (swap_rows M a b).
Proof.
  move=> HM Ha Hb; have [_ E] := e_swap M a b HM Ha Hb.
  exists (tperm_mx (Ordinal Ha) (Ordinal Hb)); rewrite unitmx_perm; split=> // s Hs.
  rewrite /tperm_mx -row_permE; apply/matrixP => i j; rewrite !mxE E ?col_lt //.
  case: tpermP => [->|->|H1 H2] /=; rewrite ?eqxx //.
  - by case: eqP => // ->.
  - by case: eqP => [e|_]; [case: H1; apply/val_inj|case: eqP => [e|//]; case: H2; apply/val_inj].
Qed.
Lemma rop_mul M r x : mv M -> (r < n)%N -> ok x -> x <> 0%num -> rop M (mul_row G M r x).
Proof.
  move=> HM Hr Hx x0; have [_ E] := e_mul M r x HM Hr Hx.
  have nz : phi x != 0 by rewrite phi_eq0 //; apply/negP => /N.eqb_spec.
  exists (diag_mx (\row_i (if i == r :> nat then phi x else 1))); split.
    rewrite unitmxE det_diag unitfE; apply/prodf_neq0 => i _; rewrite mxE.
    by case: ifP => _ //; exact: oner_neq0.
  move=> s Hs; apply/matrixP => i j; rewrite mul_diag_mx !mxE E ?col_lt //.
  by case: ifP => _; rewrite ?mul1r // mulrC.
Qed.
Lemma rop_add M s d x : mv M -> (s < n)%N -> (d < n)%N -> s <> d -> ok x -> rop M (add_rows G M s d x).
Proof.
  move=> HM Hs Hd' sd Hx; have [_ E] := e_add M s d x HM Hs Hd' Hx.
  pose D : 'M[F]_n := delta_mx (Ordinal Hd') (Ordinal Hs).
  have D0 : D *m D = 0 by rewrite mul_delta_mx_cond (_ : _ == _ = false) ?mulr0n //; apply/eqP => -[].
  exists (1%:M + phi x *: D); split.
    suff : (1%:M + phi x *: D) *m (1%:M - phi x *: D) = 1%:M by case/mulmx1_unit.
    rewrite mulmxBr mulmx1 mulmxDl mul1mx -scalemxAr -scalemxAl D0 !scaler0 addr0.
    by rewrite addrK.
  move=> t Ht; apply/matrixP => i j; rewrite mulmxDl mul1mx -scalemxAl !mxE E ?col_lt //.
  rewrite (bigD1 (Ordinal Hs)) //= big1 => [|k kn]; last by rewrite !mxE (negbTE kn) andbF mul0r.
  rewrite !mxE addr0 eqxx andbT -val_eqE /=; case: ifP => _; rewrite ?mul1r ?mul0r ?mulr0 ?addr0 //.
Qed.

(** Clearing column [c] in the rows of [rs] with row [s]. *)
Lemma elim_fold s c rs : forall M, mv M -> (s < n)%N -> (c < W)%N -> uniq rs -> s \notin rs -> (forall i, i \in rs -> (i < n)%N) ->
  let M' := List.fold_left (fun M i => add_rows G M s i (g_neg G (mget M i c))) rs M in
  mv M' /\ rop M M' /\
  forall i j, (i < n)%N -> (j < W)%N -> en M' i j = if i \in rs then en M i j - en M i c * en M s j else en M i j.
Proof.
  elim: rs => [|r rs IH] M HM Hs Hc U Sn Hr /=; first by split=> //; split; first exact: rop_refl.
  move: U Sn; rewrite /= inE negb_or => /andP [rn U] /andP [sr Sn].
  have rlt : (r < n)%N by apply: Hr; rewrite inE eqxx.
  have [on En] := gp_neg _ _ _ Pr _ (mv_ok _ _ _ r c HM rlt Hc).
  have [HM1 E1] := e_add M s r _ HM Hs rlt on.
  have sd : s <> r by apply/eqP.
  have R1 := rop_add M s r _ HM Hs rlt sd on.
  have [|HM' [R' E']] := IH _ HM1 Hs Hc U Sn; first by move=> i Hi; apply: Hr; rewrite inE Hi orbT.
  split=> //; split; first exact: rop_trans R1 R'.
  move=> i j Hi Hj; rewrite E' // !E1 // (negbTE sr) inE.
  case: (eqVneq i r) => [->|ir] /=; first by rewrite (negbTE rn) En mulNr.
  by [].
Qed.
End RC.

Lemma mul_unit_pid n (L : 'M[F]_n) r : (r <= n)%N -> L \in unitmx -> \rank (L *m (pid_mx r : 'M[F]_n)) = r.
Proof. by move=> Hr uL; rewrite eqmxMfull ?row_full_unit // rank_pid_mx. Qed.
Lemma mul_pid_E n (L : 'M[F]_n) r i j : (L *m (pid_mx r : 'M[F]_n)) i j = if (j < r)%N then L i j else 0.
Proof.
  rewrite mxE (bigD1 j) //= big1 ?addr0 => [|k kj]; last by move: kj; rewrite !mxE -val_eqE /= => /negbTE ->; rewrite mulr0.
  by rewrite !mxE eqxx /=; case: ifP => _; rewrite ?mulr1 ?mulr0.
Qed.
Lemma pid_mul_E n (L : 'M[F]_n) r i j : ((pid_mx r : 'M[F]_n) *m L) i j = if (i < r)%N then L i j else 0.
Proof.
  rewrite mxE (bigD1 i) //= big1 ?addr0 => [|k kj]; last by move: kj; rewrite eq_sym !mxE -val_eqE /= => /negbTE ->; rewrite mul0r.
  by rewrite !mxE eqxx /=; case: ifP => _; rewrite ?mul1r ?mul0r.
Qed.
(** In an invertible matrix, the first [j + 1] columns are not zero from row [j] on. *)
Lemma unit_pivot n (L : 'M[F]_n) (j : nat) : (j < n)%N -> L \in unitmx ->
  exists (i c : 'I_n), (j <= i)%N /\ (c <= j)%N /\ L i c != 0.
Proof.
  move=> Hj uL; case: (pickP (fun ic : 'I_n * 'I_n => [&& (j <= ic.1)%N, (ic.2 <= j)%N & L ic.1 ic.2 != 0])) => [[i c] /and3P [? ? ?]|none].
    by exists i, c.
  have E : (pid_mx j : 'M[F]_n) *m (L *m (pid_mx j.+1 : 'M[F]_n)) = L *m (pid_mx j.+1 : 'M[F]_n).
    apply/matrixP => i c; rewrite pid_mul_E !mul_pid_E; case: ltnP => // Hi; case: ltnP => // Hc.
    by have := none (i, c); rewrite /= Hi -ltnS Hc /= => /negbFE/eqP.
  have := mxrankM_maxl (pid_mx j : 'M[F]_n) (L *m (pid_mx j.+1 : 'M[F]_n)).
  by rewrite E mul_unit_pid // rank_pid_mx ?(ltnW Hj) // ltnn.
Qed.

Section Gauss.
Arguments ref_column : simpl never.
Variables (n : nat).
Notation W := (n * 2)%N.
Notation mv := (mvd n W).
Notation rop := (rop n W).
Notation sl := (sl n).
Let nW : (n <= W)%N. Proof. lia. Qed.

Lemma ref_column_rop M num j : mv M -> (j < W)%N -> (num <= n)%N ->
  let s := ref_column G gdiv (M, num) j in
  mv s.1 /\ rop M s.1 /\ (num <= s.2 <= n)%N.
Proof.
  move=> HM Hj Hn; have [[Er [Ec _]] _] := HM; rewrite /ref_column Er.
  case: Nat.ltb_spec => Hlt; last by split=> //; split; [exact: rop_refl|rewrite /= leqnn].
  have [Hp1 [Hp2 Hp3]] := find_pivot_spec M j (n - num)%N num; set p := find_pivot _ _ _ _ in Hp1 Hp2 Hp3 *.
  case: Nat.eqb_spec => Hpn; first by split=> //; split; [exact: rop_refl|rewrite /= leqnn].
  have num_n : (num < n)%N by lia.
  have p_n : (p < n)%N by lia.
  have [HM1 E1] := e_swap n W M num p HM num_n p_n; have R1 := rop_swap n W M num p HM num_n p_n.
  set M1 := swap_rows M num p in HM1 E1 R1 *.
  have ok_p : ok (mget M1 num j) by apply: mv_ok HM1 _ _.
  have nzp : mget M1 num j <> 0%num.
    have := E1 num j num_n Hj; rewrite eqxx => E0 Z; apply: Hp3; first lia.
    by apply/N.eqb_spec; rewrite -phi_eq0; [move: E0; rewrite /en => <-; rewrite Z (gp_0 _ _ _ Pr)|exact: mv_ok HM _ _].
  have [okx Ex] := Hd _ _ ok1 ok_p nzp; set x := gdiv _ _ in okx Ex *.
  have nx : x <> 0%num.
    move=> Z; move/eqP: Ex; rewrite Z (gp_0 _ _ _ Pr) (gp_1 _ _ _ Pr) div1r eq_sym invr_eq0 phi_eq0 //; by move/N.eqb_spec.
  have [HM2 E2] := e_mul n W M1 num x HM1 num_n okx; have R2 := rop_mul n W M1 num x HM1 num_n okx nx.
  set M2 := mul_row G M1 num x in HM2 E2 R2 *.
  have [[-> _] _] := HM2; rewrite seq_iota.
  have [|||HM3 [R3 E3]] := elim_fold n W num j (iota num.+1 (n - num.+1)) M2 HM2 num_n Hj; rewrite ?iota_uniq ?mem_iota ?ltnn //.
    by move=> i; rewrite mem_iota; lia.
  by split=> //; split=> /=; [exact: rop_trans R1 (rop_trans _ _ _ _ _ R2 R3)|lia].
Qed.

(** The columns below [j] are the ones of a unitriangular matrix. *)
Definition stair (j : nat) M : Prop := forall i c, (i < n)%N -> (c < j)%N -> (c <= i)%N -> en M i c = (i == c)%:R.

Lemma sl0_unit M M' : rop M M' -> sl 0 M \in unitmx -> sl 0 M' \in unitmx.
Proof. by move=> [E [uE H]] uM; rewrite H ?add0n ?nW // unitmx_mul uE. Qed.

Lemma ref_column_stair M j : mv M -> (j < n)%N -> stair j M -> sl 0 M \in unitmx ->
  let s := ref_column G gdiv (M, j) j in s.2 = j.+1 /\ stair j.+1 s.1.
Proof.
  move=> HM Hj St uM; have [[Er [Ec _]] _] := HM; rewrite /ref_column Er.
  have Hj2 : (j < W)%N by lia.
  case: Nat.ltb_spec => Hlt; last lia.
  have [Hp1 [Hp2 Hp3]] := find_pivot_spec M j (n - j)%N j; set p := find_pivot _ _ _ _ in Hp1 Hp2 Hp3 *.
  case: Nat.eqb_spec => Hpn.
    have [i [c [ji [cj /negP []]]]] := unit_pivot n (sl 0 M) j Hj uM.
    rewrite mxE addn0; case: (ltnP c j) => cj'.
      rewrite St //; last lia.
      by rewrite (_ : (i == c :> nat) = false) //; lia.
    have -> : c = j :> nat by lia.
    by rewrite /en Hp2 ?(gp_0 _ _ _ Pr) //; move: (ltn_ord i); lia.
  have p_n : (p < n)%N by lia.
  have [HM1 E1] := e_swap n W M j p HM Hj p_n.
  set M1 := swap_rows M j p in HM1 E1 *.
  have ok_p : ok (mget M1 j j) by apply: mv_ok HM1 _ _.
  have nzp : mget M1 j j <> 0%num.
    have := E1 j j Hj Hj2; rewrite eqxx => E0 Z; apply: Hp3; first lia.
    by apply/N.eqb_spec; rewrite -phi_eq0; [move: E0; rewrite /en => <-; rewrite Z (gp_0 _ _ _ Pr)|exact: mv_ok HM _ _].
  have nzp' : en M1 j j != 0 by rewrite phi_eq0 //; apply/negP => /N.eqb_spec.
  have [okx Ex] := Hd _ _ ok1 ok_p nzp; set x := gdiv _ _ in okx Ex *.
  have [HM2 E2] := e_mul n W M1 j x HM1 Hj okx.
  set M2 := mul_row G M1 j x in HM2 E2 *.
  have [[-> _] _] := HM2; rewrite seq_iota.
  have [|||HM3 [R3 E3]] := elim_fold n W j j (iota j.+1 (n - j.+1)) M2 HM2 Hj Hj2; rewrite ?iota_uniq ?mem_iota ?ltnn //.
    by move=> i; rewrite mem_iota; lia.
  split=> //= i c Hi Hc ci.
  have cW : (c < W)%N by lia.
  have St1 i' c' : (i' < n)%N -> (c' < j)%N -> (c' <= i')%N -> en M1 i' c' = (i' == c')%:R.
    move=> Hi' Hc' ci'; rewrite E1 //; last lia.
    have jc : (j == c') = false by lia.
    have pc : (p == c') = false by lia.
    case: eqP => [->|_]; first by rewrite St; try lia; rewrite jc pc.
    case: eqP => [->|_]; first by rewrite St; try lia; rewrite jc pc.
    by rewrite St //; lia.
  have St2 i' c' : (i' < n)%N -> (c' < j)%N -> (c' <= i')%N -> en M2 i' c' = (i' == c')%:R.
    move=> Hi' Hc' ci'; rewrite E2 //; last lia.
    rewrite St1 //; case: eqP => // ij; rewrite (_ : i' == c' = false) ?mul0r //; lia.
  have jj2 : en M2 j j = 1 by rewrite E2 // eqxx Ex (gp_1 _ _ _ Pr) div1r mulfV.
  rewrite E3 // mem_iota; case: (ltnP c j) => cj.
    rewrite (St2 i c) // (St2 j c) //; try exact: ltnW.
    by rewrite (_ : j == c = false) ?mulr0 ?subr0 ?if_same //; lia.
  have -> : c = j by lia.
  rewrite jj2 mulr1 subrr; case: (eqVneq i j) => [->|ij]; first by rewrite ltnn /=.
  by rewrite ifT //; lia.
Qed.

Lemma ref_fold_rop js : forall M num, mv M -> (num <= n)%N -> (forall j, j \in js -> (j < W)%N) ->
  let s := List.fold_left (ref_column G gdiv) js (M, num) in mv s.1 /\ rop M s.1 /\ (num <= s.2 <= n)%N.
Proof.
  elim: js => [|j js IH] M num HM Hn Hj; first by rewrite /= leqnn; split=> //; split; first exact: rop_refl.
  have [HM1 [R1 L1]] := ref_column_rop M num j HM (Hj _ (mem_head _ _)) Hn.
  change (List.fold_left _ (j :: js) _) with (List.fold_left (ref_column G gdiv) js (ref_column G gdiv (M, num) j)).
  case: (ref_column _ _ _ _) HM1 R1 L1 => M1 num1 /= HM1 R1 L1.
  have [||HM2 [R2 L2]] := IH M1 num1 HM1; try lia; first by move=> i Hi; apply: Hj; rewrite inE Hi orbT.
  by split=> //; split; [exact: rop_trans R1 R2|lia].
Qed.
Lemma ref_full M js : mv M -> List.fold_left (ref_column G gdiv) js (M, n) = (M, n).
Proof.
  move=> [[Er _] _]; elim: js => //= j js IH; rewrite [ref_column _ _ _ _](_ : _ = (M, n)) //.
  by rewrite /ref_column Er; case: Nat.ltb_spec => //; lia.
Qed.
Lemma ref_stair k : forall M j, mv M -> (j + k = n)%N -> stair j M -> sl 0 M \in unitmx ->
  let s := List.fold_left (ref_column G gdiv) (iota j k) (M, j) in mv s.1 /\ rop M s.1 /\ s.2 = n /\ stair n s.1.
Proof.
  elim: k => [|k IH] M j HM jk St uM /=; first by move: St; rewrite (_ : j = n) //; try lia; split=> //; split; first exact: rop_refl.
  have jW : (j < W)%N by lia.
  have jn : (j <= n)%N by lia.
  have jn' : (j < n)%N by lia.
  have := ref_column_rop M j j HM jW jn.
  have := ref_column_stair M j HM jn' St uM.
  case: (ref_column _ _ _ _) => M1 num1 /= [-> St1] [HM1 [R1 _]].
  have [||HM2 [R2 [E2 St2]]] := IH M1 j.+1 HM1 _ St1; try lia; first exact: sl0_unit R1 uM.
  by split=> //; split; first exact: rop_trans R1 R2.
Qed.

Lemma rref_row_rop M i : mv M -> (i < n)%N -> mv (rref_row G M i) /\ rop M (rref_row G M i).
Proof.
  move=> HM Hi; have [[Er [Ec _]] _] := HM; rewrite /rref_row Ec.
  have [Hp1 _] := find_pivot_col_spec M i W 0; set p := find_pivot_col _ _ _ _ in Hp1 *.
  case: Nat.eqb_spec => Hpn; first by split=> //; exact: rop_refl.
  have pW : (p < W)%N by lia.
  rewrite seq_iota.
  have -> : List.rev (iota 0 i) = rev (iota 0 i) by elim: (iota 0 i) => //= x s IH; rewrite IH rev_cons -cats1.
  have [|||HM' [R' _]] := elim_fold n W i p (rev (iota 0 i)) M HM Hi pW; rewrite ?rev_uniq ?iota_uniq ?mem_rev ?mem_iota ?ltnn ?andbF //.
  by move=> k; rewrite mem_rev mem_iota; lia.
Qed.
Lemma rref_fold_rop rs : forall M, mv M -> (forall i, i \in rs -> (i < n)%N) ->
  mv (List.fold_left (rref_row G) rs M) /\ rop M (List.fold_left (rref_row G) rs M).
Proof.
  elim: rs => [|i rs IH] M HM Hi /=; first by split=> //; exact: rop_refl.
  have [HM1 R1] := rref_row_rop M i HM (Hi _ (mem_head _ _)).
  have [|HM2 R2] := IH _ HM1; first by move=> k Hk; apply: Hi; rewrite inE Hk orbT.
  by split=> //; exact: rop_trans R1 R2.
Qed.

(** The columns from [i] to [n - 1] are done. *)
Definition done (i : nat) M : Prop := forall r c, (r < n)%N -> (i <= c < n)%N -> en M r c = (r == c)%:R.
Lemma rref_row_done M i : mv M -> (i < n)%N -> stair n M -> done i.+1 M ->
  stair n (rref_row G M i) /\ done i (rref_row G M i).
Proof.
  move=> HM Hi St Dn; have [[Er [Ec _]] _] := HM; rewrite /rref_row Ec.
  have [Hp1 [Hp2 Hp3]] := find_pivot_col_spec M i W 0; set p := find_pivot_col _ _ _ _ in Hp1 Hp2 Hp3 *.
  have iW : (i < W)%N by lia.
  have nz : mget M i i <> 0%num.
    move=> Z; have := St i i Hi Hi (leqnn _); rewrite /en Z (gp_0 _ _ _ Pr) eqxx => /eqP; rewrite eq_sym oner_eq0 //.
  have pi : p = i.
    case: (ltnP p i) => H.
      case: Hp3; first lia.
      apply/N.eqb_spec; rewrite -phi_eq0; last by apply: mv_ok HM _ _ => //; lia.
      by rewrite -/(en M i p) St; try lia; rewrite (_ : i == p = false) //; lia.
    case: (ltnP i p) => H'; last lia.
    by case: nz; apply: Hp2; lia.
  case: Nat.eqb_spec => Hpn; first lia.
  rewrite pi seq_iota.
  have -> : List.rev (iota 0 i) = rev (iota 0 i) by elim: (iota 0 i) => //= x s IH; rewrite IH rev_cons -cats1.
  have [|||HM' [R' E]] := elim_fold n W i i (rev (iota 0 i)) M HM Hi iW; rewrite ?rev_uniq ?iota_uniq ?mem_rev ?mem_iota ?ltnn ?andbF //.
    by move=> k; rewrite mem_rev mem_iota; lia.
  set M' := List.fold_left _ _ _ in HM' R' E *; clearbody M'.
  have rowi c : (c < n)%N -> en M i c = (i == c)%:R.
    move=> Hc; case: (ltnP i c) => ic; [by apply: Dn; lia|by apply: St].
  have E' r c : (r < n)%N -> (c < n)%N -> en M' r c = if (r < i)%N then en M r c - en M r i * (i == c)%:R else en M r c.
    by move=> Hr Hc; rewrite E //; [rewrite mem_rev mem_iota /= add0n rowi|lia].
  split=> r c Hr Hc.
    move=> cr; rewrite E' // St //; case: ifP => ri //; rewrite (_ : i == c = false) ?mulr0 ?subr0 //; lia.
  rewrite E' //; last lia; case: (ltnP i c) => ic.
    rewrite Dn //; last lia.
    by rewrite (_ : i == c = false) ?mulr0 ?subr0 ?if_same //; lia.
  have -> : c = i by lia.
  rewrite eqxx mulr1 subrr; case: (ltngtP r i) => ri //.
    by rewrite St //; try exact: ltnW; rewrite (_ : r == i = false) //; lia.
  by rewrite ri St // eqxx.
Qed.
Lemma rref_done : forall k M, mv M -> (k <= n)%N -> stair n M -> done k M ->
  done 0 (List.fold_left (rref_row G) (rev (iota 0 k)) M).
Proof.
  elim=> [|k IH] M HM Hk St Dn //.
  have -> : rev (iota 0 k.+1) = k :: rev (iota 0 k) by rewrite -addn1 iotaD rev_cat.
  have [HM1 _] := rref_row_rop M k HM Hk; have [St1 Dn1] := rref_row_done M k HM Hk St Dn.
  by apply: IH => //; exact: ltnW.
Qed.

Lemma rrefE M : mv M -> exists M1 num, List.fold_left (ref_column G gdiv) (iota 0 W) (M, 0%N) = (M1, num) /\
  reduced_row_echelon_form G gdiv M = List.fold_left (rref_row G) (rev (iota 0 num)) M1.
Proof.
  move=> HM; have [[Er [Ec _]] _] := HM; rewrite /reduced_row_echelon_form Ec !seq_iota.
  case: (List.fold_left _ _ _) => M1 num; exists M1, num; split=> //; congr List.fold_left; rewrite seq_iota.
  by elim: (iota 0 num) => //= x s IH; rewrite IH rev_cons -cats1.
Qed.
Lemma rref_rop M : mv M -> mv (reduced_row_echelon_form G gdiv M) /\ rop M (reduced_row_echelon_form G gdiv M).
Proof.
  move=> HM; have [M1 [num [E ->]]] := rrefE M HM.
  have := ref_fold_rop (iota 0 W) M 0 HM (leq0n n); rewrite E => -[|HM1 [R1 L1]].
    by move=> j; rewrite mem_iota.
  rewrite /= in HM1 R1 L1.
  have [|HM2 R2] := rref_fold_rop (rev (iota 0 num)) M1 HM1; first by move=> i; rewrite mem_rev mem_iota; lia.
  by split=> //; exact: rop_trans R1 R2.
Qed.
Lemma rref_complete M : mv M -> sl 0 M \in unitmx -> sl 0 (reduced_row_echelon_form G gdiv M) = 1%:M.
Proof.
  move=> HM uM; have [M1 [num [E ->]]] := rrefE M HM.
  have E' : iota 0 W = iota 0 n ++ iota n n by rewrite -iotaD; congr iota; lia.
  have := ref_stair n M 0 HM (add0n n) ltac:(by []) uM; move: E; rewrite E' List.fold_left_app.
  case: (List.fold_left _ (iota 0 n) _) => M2 num2 /= E [HM2 [R2 [e2 St2]]]; subst num2.
  rewrite ref_full // in E; case: E => ? ?; subst.
  have Dn := rref_done n M1 HM2 (leqnn n) St2 ltac:(by move=> r c _; lia).
  by apply/matrixP => i j; rewrite !mxE addn0 Dn //= ltn_ord.
Qed.

Definition mx M : 'M[F]_n := \matrix_(i, j) en M i j.
Theorem minv_spec junk M : Matrix.m_rows M = n -> mvd n n M -> exists o, minv G gdiv junk M = Some o /\
  match o with
  | Some B => mvd n n B /\ mx M *m mx B = 1%:M /\ mx B *m mx M = 1%:M
  | None => mx M \notin unitmx
  end.
Proof.
  move=> _ [Wf Hv]; have [Er [Ec El]] := Wf; rewrite /minv Er Ec Nat.eqb_refl.
  have [Wt Et] := augment_spec n junk M Wf; set t := List.fold_left _ _ (new_matrix _ _ _) in Wt Et *.
  have Ht : mv t.
    split=> // i j Hi Hj; case: (ltnP j n) => jn; first by rewrite (proj1 (Et i j _ _)); [apply: Hv|lia|lia].
    have -> : j = (j - n + n)%coq_nat by lia.
    by rewrite (proj2 (Et i (j - n)%N _ _)); [exact: ok_delta|lia|lia].
  have t0 : sl 0 t = mx M.
    by apply/matrixP => i j; rewrite !mxE addn0 /en (proj1 (Et i j _ _)) //; apply/ltP.
  have tn : sl n t = 1%:M.
    by apply/matrixP => i j; rewrite !mxE /en -[(j + n)%N]/(j + n)%coq_nat (proj2 (Et i j _ _)) ?phi_delta //; apply/ltP.
  have [Hr [E [uE HE]]] := rref_rop t Ht; have Hc := rref_complete t Ht.
  set r := reduced_row_echelon_form G gdiv t in Hr HE Hc *; clearbody r; clearbody t.
  have rL : sl 0 r = E *m mx M by rewrite HE ?t0 //; lia.
  have rR : sl n r = E by rewrite HE ?tn ?mulmx1 //; lia.
  have test : List.forallb (fun i => List.forallb (fun j => (mget r i j =? delta i j)%num) (List.seq 0 n)) (List.seq 0 n) = (sl 0 r == 1%:M).
    rewrite forallb_iota; apply/forallP/eqP => [H|H i].
      apply/matrixP => i j; have := H i; rewrite forallb_iota => /forallP /(_ j) /N.eqb_spec E0.
      by rewrite !mxE addn0 /en E0 phi_delta.
    rewrite forallb_iota; apply/forallP => j; apply/N.eqb_spec; apply: (gp_inj _ _ _ Pr).
    - by apply: mv_ok Hr _ _ => //; move: (ltn_ord j); lia.
    - exact: ok_delta.
    - by move/matrixP/(_ i j): H; rewrite !mxE addn0 phi_delta.
  rewrite test; case: eqP => [H|H]; last first.
    exists None; split=> //; apply/negP => uM; apply: H; apply: Hc; by rewrite t0.
  have [Wf' Ef] := fill_spec n n M (fun i j => mget r i (j + n)%coq_nat) Wf.
  eexists; split; first by []. rewrite /=.
  set B := fill _ _ in Wf' Ef *.
  have EB : mx B = E.
    by rewrite -rR; apply/matrixP => i j; rewrite !mxE /en Ef //; apply/ltP.
  split; last by rewrite EB; split; [apply: mulmx1C|]; rewrite -rL.
  split=> // i j Hi Hj; rewrite Ef; [|lia|lia]; apply: mv_ok Hr _ _ => //; lia.
Qed.
End Gauss.
End Inv.
