(** Loops over vectors, and one step of the Taylor expansion. *)
Set Warnings "-notation-overridden,-ambiguous-paths".
From Coq Require Import NArith Arith.
From Coq Require List.
From Verif.Model Require Import Common Arith Ring Views Additive.
From Verif.Proof Require Import ListP MatrixL.
From mathcomp Require Import all_ssreflect ssralg poly.
From mathcomp Require Import zify.
From Verif.Spec Require Import Mixed Additive.
From Verif.Proof Require Import Pres MixedL.
Import GRing.Theory.
Local Open Scope ring_scope.

Lemma at_set (l : list N) a b x : (a < size l)%N -> at_ (Common.set l a x) b = if a == b then x else at_ l b.
Proof. exact: rd_set. Qed.
Lemma at_rep x n i : (i < n)%N -> at_ (List.repeat x n) i = x.
Proof. by rewrite /at_ /get; elim: n i => // n IH [|i] //= H; rewrite IH. Qed.
Lemma size_rep (x : N) n : size (List.repeat x n) = n.
Proof. exact: List.repeat_length. Qed.
Lemma at_out (l : list N) i : (size l <= i)%N -> at_ l i = 0%num.
Proof. by move=> H; apply: List.nth_overflow; apply/leP. Qed.

(** An upward loop that writes the cells [d + i]. *)
Lemma loop_up (f : list N -> nat -> N) d s n (l : list N) : (d + s + n <= size l)%N ->
  (forall i l1, (s <= i < s + n)%N -> size l1 = size l -> (forall a, ~~ (d + s <= a < d + i)%N -> at_ l1 a = at_ l a) -> f l1 i = f l i) ->
  size (List.fold_left (fun l i => Common.set l (d + i) (f l i)) (List.seq s n) l) = size l /\
  forall a, at_ (List.fold_left (fun l i => Common.set l (d + i) (f l i)) (List.seq s n) l) a =
    if (d + s <= a < d + s + n)%N then f l (a - d)%N else at_ l a.
Proof.
  elim: n => [|n IH] Hn Hf.
    by split=> // a; case: ifP => //; lia.
  have [||S R] := IH; first by lia.
    by move=> i l1 Hi; apply: Hf; lia.
  rewrite List.seq_S List.fold_left_app /=; set l1 := List.fold_left _ _ _ in S R *.
  split; first by rewrite set_size.
  have -> : f l1 (s + n)%coq_nat = f l (s + n)%N.
    apply: Hf => //; first by lia.
    by move=> a Ha; rewrite R; case: ifP => //; lia.
  move=> a; rewrite at_set ?S; last by lia.
  case: eqP => [e|ne].
    by case: ifP; [move=> _; congr f; lia|lia].
  by rewrite R; case: ifP => h1; case: ifP => h2 //; lia.
Qed.
(** A downward loop. *)
Lemma loop_down (f : list N -> nat -> N) s n (l : list N) : (s + n <= size l)%N ->
  (forall i l1, (s <= i < s + n)%N -> size l1 = size l -> (forall a, ~~ (i < a < s + n)%N -> at_ l1 a = at_ l a) -> f l1 i = f l i) ->
  size (List.fold_left (fun l i => Common.set l i (f l i)) (List.rev (List.seq s n)) l) = size l /\
  forall a, at_ (List.fold_left (fun l i => Common.set l i (f l i)) (List.rev (List.seq s n)) l) a =
    if (s <= a < s + n)%N then f l a else at_ l a.
Proof.
  elim: n s => [|n IH] s Hn Hf.
    by split=> // a; case: ifP => //; lia.
  have [||S R] := IH s.+1; first by lia.
    move=> i l1 Hi S1 R1; apply: Hf => //; first by lia.
    by move=> a Ha; apply: R1; lia.
  rewrite [List.seq s n.+1]/= [List.rev _]/= List.fold_left_app /=; set l1 := List.fold_left _ _ _ in S R *.
  split; first by rewrite set_size.
  have -> : f l1 s = f l s.
    apply: Hf => //; first by lia.
    by move=> a Ha; rewrite R; case: ifP => //; lia.
  move=> a; rewrite at_set ?S; last by lia.
  case: eqP => [<-|ne]; first by case: ifP => //; lia.
  by rewrite R; case: ifP => h1; case: ifP => h2 //; lia.
Qed.

Section Vec.
Variables (F : fieldType) (G : gfops) (phi : N -> F).
Hypothesis Pr : gf_pres F G phi.
Notation ok := (gvalid G).
Notation cf := (cf F phi).

(** All the elements are in the field. *)
Definition vok (l : list N) : Prop := forall i, ok (at_ l i).
Lemma ok0 : ok 0%num. Proof. by have := gp_card _ _ _ Pr; rewrite /gvalid; lia. Qed.
Lemma ok1 : ok 1%num. Proof. by have := gp_card _ _ _ Pr; rewrite /gvalid; lia. Qed.
Lemma cf_out l i : (size l <= i)%N -> cf l i = 0.
Proof. by move=> H; rewrite /Additive.cf -[List.nth _ _ _]/(at_ l i) at_out // (gp_0 _ _ _ Pr). Qed.

Lemma add_mutual_spec l dest src len : vok l -> (dest + len <= size l)%N ->
  (dest + len <= src)%N \/ (src + len <= dest)%N ->
  let l' := add_mutual G l dest src len in
  [/\ size l' = size l, vok l' & forall a, cf l' a = cf l a + (if (dest <= a < dest + len)%N then cf l (src + (a - dest)) else 0)].
Proof.
  move=> V H D l'.
  have [||S R] := loop_up (fun l i => g_add G (at_ l (dest + i)) (at_ l (src + i))) dest 0 len l; first by lia.
    move=> i l1 Hi _ E; rewrite !E //; lia.
  rewrite -[List.fold_left _ _ _]/l' addn0 in S R.
  have A a : (dest <= a < dest + len)%N -> ok (at_ l' a) /\ phi (at_ l' a) = cf l a + cf l (src + (a - dest)).
    move=> Ha; rewrite R Ha; have -> : (dest + (a - dest))%N = a by lia.
    by exact: (gp_add _ _ _ Pr).
  split=> //.
    by move=> i; case E: (dest <= i < dest + len)%N; [case: (A i E)|rewrite R E].
  move=> a; case: ifP => E; first by case: (A a E).
  by rewrite addr0 /Additive.cf -!/(at_ _ _) -[List.nth a l' 0%num]/(at_ l' a) R E.
Qed.

Hypothesis ch2 : forall u : F, u + u = 0.

(** One step. *)
Lemma Yt_pow t k : Yt F t ^+ (2 ^ k) = 'X^(t * 2 ^ k) + 'X^(2 ^ k) :> {poly F}.
Proof.
  have c2 (p : {poly F}) : p + p = 0 by apply/polyP => i; rewrite coefD coef0 ch2.
  elim: k => [|k IH]; first by rewrite expn0 expr1 muln1.
  rewrite expnS mulnC exprM IH sqrrD mulr2n c2 addr0 -!exprM.
  by congr ('X^_ + 'X^_); rewrite mulnA.
Qed.

Section Step.
Variables (l : list N) (off ln n t k : nat) (cut : bool).
Notation K := (2 ^ k)%N.
Notation D := (t * 2 ^ k)%N.
Hypothesis V : vok l.
Hypothesis t2 : (1 < t)%N.
Hypothesis Hk : (D < n <= 2 * D)%N.
Hypothesis Hln : (n <= ln < n + t)%N.
Hypothesis Hsz : (off + ln <= size l)%N.
Hypothesis Hz : forall a, (off + n <= a < off + ln)%N -> at_ l a = 0%num.
Hypothesis Hc : cut \/ n = (2 * D)%N.

Lemma expand_step_spec : exists l1, expand_step G l off ln n t k cut = Some l1 /\
  [/\ size l1 = size l, vok l1, (forall a, ~~ (off <= a < off + n)%N -> at_ l1 a = at_ l a) &
      \poly_(i < n) cf l (off + i) =
      \poly_(i < D) cf l1 (off + i) + Yt F t ^+ K * \poly_(i < n - D) cf l1 (off + D + i)].
Proof.
  have KD : (2 * K <= D)%N by rewrite leq_mul2r t2 orbT.
  have K0 : (0 < K)%N by rewrite expn_gt0.
  have tK : (t - 1 <= D - K)%N by rewrite -{2}[K]mul1n -mulnBl -{1}[(t - 1)%N]muln1 leq_mul2l K0 orbT.
  rewrite /expand_step -[Nat.pow 2 k]/(Nat.pow 2 k) (_ : Nat.pow 2 k = K); last by elim: (k) => //= k' ->; rewrite expnS; lia.
  rewrite -!multE -!minusE -!plusE; set hdeg := if _ then _ else _.
  have hd : [/\ (hdeg <= D - K)%N, (hdeg <= n - D)%N & (hdeg = D - K \/ hdeg = n - D)%N].
    rewrite /hdeg; case: Hc => [->|e] /=; first by case: Nat.ltb_spec => h; split; lia.
    by case: cut => /=; first case: Nat.ltb_spec => h; split; lia.
  have n0 : slice_len D 0 ln = D by rewrite /slice_len; do ?case: Nat.ltb_spec => ?; lia.
  have n1 : slice_len (n - D) D ln = (n - D)%N by rewrite /slice_len; do ?case: Nat.ltb_spec => ?; lia.
  pose n2 := slice_len K (D + (D - K)) ln.
  have Hn2 : [/\ (n2 <= K)%N, (n2 <= n - D)%N, (forall j, (j < n2)%N -> (D + (D - K) + j < ln)%N) & forall j, (n2 <= j < K)%N -> (n <= D + (D - K) + j)%N].
    by rewrite /n2 /slice_len; do ?case: Nat.ltb_spec => ?; split; lia.
  rewrite -/n2 n0 n1; have [c1 c2 c3 c4] := Hn2; have [d1 d2 d3] := hd.
  have -> : Nat.leb n2 (n - D) by lia.
  have -> : (Nat.eqb hdeg 0 || Nat.leb (K + hdeg) D) by apply/orP; right; lia.
  have -> : Nat.leb hdeg (n - D) by lia.
  rewrite /check; set l1 := add_mutual G l _ _ _; set l2 := add_mutual G l1 _ _ _; exists l2; split=> //.
  have [||S1 V1 R1] := add_mutual_spec l (off + D) (off + D + (D - K)) n2 V; [lia|lia|].
  have [||S2 V2 R2] := add_mutual_spec l1 (off + K) (off + D) hdeg V1; [rewrite S1; lia|lia|].
  split; first by rewrite S2.
  - exact: V2.
  - move=> a Ha; apply: (gp_inj _ _ _ Pr); [exact: V2|exact: V|].
    have := R2 a; rewrite R1; case: ifP => [|_]; first by lia.
    by case: ifP => [|_]; [lia|rewrite !addr0].
  pose c i := if (i < n)%N then cf l (off + i) else 0.
  have C i : (i < ln)%N -> cf l (off + i) = c i.
    by rewrite /c; case: ifP => // h Hi; rewrite /Additive.cf -[List.nth _ _ _]/(at_ l _) Hz ?(gp_0 _ _ _ Pr) //; lia.
  pose g1 j := if (j < n - D)%N then cf l1 (off + D + j) else 0.
  have E1 j : g1 j = c (D + j)%N + (if (j < K)%N then c (D + (D - K) + j)%N else 0).
    rewrite /g1; case: (ltnP j (n - D)%N) => [Hj|Hj]; last first.
      rewrite {1}/c; have -> : (D + j < n)%N = false by lia.
      by case: ifP => h; rewrite ?add0r // /c; have -> : (D + (D - K) + j < n)%N = false by lia.
    rewrite R1 (_ : cf l (off + D + j) = c (D + j)%N); last by rewrite -addnA C //; lia.
    congr (_ + _); have -> : (off + D <= off + D + j < off + D + n2)%N = (j < n2)%N by lia.
    case: ifP => h1; case: ifP => h2 //; last first.
    - by rewrite /c; have := c4 j; case: ifP => //; lia.
    - by lia.
    - by rewrite (_ : off + D + (D - K) + (off + D + j - (off + D)) = off + (D + (D - K) + j))%N ?C //; [apply: c3|lia].
  have E2 i : (i < D)%N -> cf l2 (off + i) = c i + (if (K <= i)%N then g1 (i - K)%N else 0).
    move=> Hi; rewrite R2 R1 C; last by lia.
    case: ifP => [|_]; first by lia.
    rewrite addr0; congr (_ + _).
    case: ifP => h1; case: ifP => h2 //; try lia.
      by rewrite /g1; case: ifP => h3; [congr (cf l1 _); lia|lia].
    by rewrite /g1; case: ifP => h3 //; lia.
  have E3 j : (j < n - D)%N -> cf l2 (off + D + j) = g1 j.
    by move=> Hj; rewrite R2; case: ifP => h; [lia|rewrite addr0 /g1 Hj].
  apply/polyP => i; rewrite Yt_pow mulrDl !coefD !coefXnM !coef_poly.
  have g1E a : (if (a < n - D)%N then cf l2 (off + D + a) else 0) = g1 a.
    by case: ifP => h; [rewrite E3|rewrite /g1 h].
  rewrite !g1E -/(c i); case: (ltnP i D) => [Hi|Hi]; rewrite ?add0r.
    rewrite E2 //; case: (ltnP i K) => h; first by rewrite !addr0.
    by rewrite -addrA ch2 addr0.
  have -> : (i < K)%N = false by lia.
  rewrite !E1; have -> : (i - K < K)%N = false by lia.
  have -> : (D + (i - D))%N = i by lia.
  have -> : (D + (i - K))%N = (D + (D - K) + (i - D))%N by lia.
  rewrite addr0; case: ifP => h; first by rewrite -addrA ch2 addr0.
  rewrite addr0 -[LHS]addr0; congr (_ + _); rewrite /c; case: ifP => //; lia.
Qed.
End Step.
End Vec.
