(** The Taylor expansions and their inverses. *)
Set Warnings "-notation-overridden,-ambiguous-paths".
From Coq Require Import NArith Arith.
From Coq Require List.
From Verif.Model Require Import Common Arith Ring Views Additive.
From Verif.Proof Require Import ListP MatrixL.
From mathcomp Require Import all_ssreflect ssralg poly.
From mathcomp Require Import zify.
From Verif.Spec Require Import Mixed Additive.
From Verif.Proof Require Import Pres MixedL AddL.
Import GRing.Theory.
Local Open Scope ring_scope.

Lemma pow2E k : Nat.pow 2 k = (2 ^ k)%N.
Proof. by elim: k => //= k ->; rewrite expnS; lia. Qed.

Lemma find_k_spec n t : (0 < t < n)%N -> exists k, find_k n t = Some k /\ (t * 2 ^ k < n <= 2 * (t * 2 ^ k))%N.
Proof.
  move=> /andP [t0 tn]; rewrite /find_k; have -> : Nat.ltb t n by lia.
  rewrite /check; suff H fuel k : (fuel + k = n)%N -> (t * 2 ^ k < n)%N -> let k' := find_k_loop fuel n (t * 2 ^ k) k in (t * 2 ^ k' < n <= 2 * (t * 2 ^ k'))%N.
    exists (find_k_loop n n t 0); split=> //; have := H n 0%N; rewrite addn0 expn0 muln1; exact.
  elim: fuel k => [|f IH] k e h.
    by have : (k < t * 2 ^ k)%N; [apply: leq_trans (ltn_expl k (isT : 1 < 2)%N) _; rewrite leq_pmull|lia].
  rewrite [find_k_loop _ _ _ _]/=; case: Nat.ltb_spec => [h1|h1]; last by lia.
  case: Nat.leb_spec => [h2|h2] /=; first by lia.
  by have := IH k.+1; rewrite expnS mulnCA; apply; lia.
Qed.

Lemma expand_t2S G l off ln n k : expand_t2 G l off ln n k.+1 =
  match expand_step G l off ln n 2 k.+1 false with
  | None => None
  | Some l1 =>
      match expand_t2 G l1 off (slice_len (2 * Nat.pow 2 k.+1) 0 ln) (2 * Nat.pow 2 k.+1) k with
      | None => None
      | Some l2 => expand_t2 G l2 (off + 2 * Nat.pow 2 k.+1) (slice_len (n - 2 * Nat.pow 2 k.+1) (2 * Nat.pow 2 k.+1) ln) (n - 2 * Nat.pow 2 k.+1) k
      end
  end.
Proof. by []. Qed.

Section Taylor.
Variables (F : fieldType) (G : gfops) (phi : N -> F).
Hypothesis Pr : gf_pres F G phi.
Hypothesis ch2 : forall u : F, u + u = 0.
Notation ok := (gvalid G).
Notation cf := (cf F phi).
Notation vok := (vok G).
Notation Y := (Yt F).

Definition tsum t off n l : {poly F} := \sum_(i < n) cf l (off + i) *: ('X^(i %% t) * Y t ^+ (i %/ t)).
Lemma tsumE t n l : tsum t 0 n l = taylor_sum F phi t n l.
Proof. by []. Qed.
Lemma tsum_ext t off n l l' : (forall i, (i < n)%N -> at_ l (off + i) = at_ l' (off + i)) -> tsum t off n l = tsum t off n l'.
Proof. by move=> H; apply: eq_bigr => i _; congr (_ *: _); rewrite /Additive.cf -![List.nth _ _ _]/(at_ _ _) H. Qed.
Lemma tsum_split t K off n l : (0 < t)%N -> (t * K <= n)%N ->
  tsum t off n l = tsum t off (t * K) l + Y t ^+ K * tsum t (off + t * K) (n - t * K) l.
Proof.
  move=> t0 H; rewrite -{1}(subnKC H) {1}/tsum big_split_ord /=; congr (_ + _).
  rewrite /tsum mulr_sumr; apply: eq_bigr => i _; rewrite addnA -scalerAr; congr (_ *: _).
  case: i => i _ /=; by rewrite mulnC modnMDl divnMDl // exprD mulrCA.
Qed.
Lemma tsum_small t off n l : (n <= t)%N -> tsum t off n l = \poly_(i < n) cf l (off + i).
Proof.
  move=> H; rewrite poly_def; apply: eq_bigr => i _.
  have Hi : (i < t)%N by apply: leq_trans H.
  by rewrite modn_small // divn_small // expr0 mulr1.
Qed.

Definition expanded t off n l l' : Prop :=
  [/\ size l' = size l, vok l', (forall a, ~~ (off <= a < off + n)%N -> at_ l' a = at_ l a) &
      \poly_(i < n) cf l (off + i) = tsum t off n l'].

Lemma expanded_join t k off n l l1 l2 l3 : (0 < t)%N -> (t * 2 ^ k <= n)%N ->
  [/\ size l1 = size l, vok l1, (forall a, ~~ (off <= a < off + n)%N -> at_ l1 a = at_ l a) &
      \poly_(i < n) cf l (off + i) =
      \poly_(i < t * 2 ^ k) cf l1 (off + i) + Yt F t ^+ (2 ^ k) * \poly_(i < n - t * 2 ^ k) cf l1 (off + t * 2 ^ k + i)] ->
  expanded t off (t * 2 ^ k) l1 l2 -> expanded t (off + t * 2 ^ k) (n - t * 2 ^ k) l2 l3 -> expanded t off n l l3.
Proof.
  move=> t0 H [S1 V1 R1 E1] [S2 V2 R2 E2] [S3 V3 R3 E3]; split=> //; first by rewrite S3 S2.
    by move=> a Ha; rewrite R3 ?R2 ?R1 //; lia.
  rewrite E1 (tsum_split t (2 ^ k)) //; congr (_ + _).
    by rewrite E2; apply: tsum_ext => i Hi; rewrite R3 //; lia.
  congr (_ * _); rewrite -E3; apply/polyP => i; rewrite !coef_poly; case: ifP => // Hi.
  by rewrite /Additive.cf -![List.nth _ _ _]/(at_ _ _) R2 //; lia.
Qed.
Lemma expanded_small t off n l : (n <= t)%N -> vok l -> expanded t off n l l.
Proof. by move=> H V; split=> //; rewrite tsum_small. Qed.

Lemma slice_low n ln : (n <= ln)%N -> slice_len n 0 ln = n.
Proof. by rewrite /slice_len; do ?case: Nat.ltb_spec => ?; lia. Qed.
Lemma slice_high n D ln : (D < n <= ln)%N -> slice_len (n - D) D ln = (n - D)%N.
Proof. by rewrite /slice_len; do ?case: Nat.ltb_spec => ?; lia. Qed.

Lemma expand_spec t : (1 < t)%N -> forall fuel n off ln l, (n <= fuel)%N -> (t < n <= ln)%N -> (ln < n + t)%N -> (off + ln <= size l)%N ->
  (forall a, (off + n <= a < off + ln)%N -> at_ l a = 0%num) -> vok l ->
  exists l', expand G fuel l off ln n t = Some l' /\ expanded t off n l l'.
Proof.
  move=> t1; elim=> [|f IH] n off ln l Hf /andP [tn nl] lt Hs Hz V; first by lia.
  rewrite /expand -/expand; have [|k [-> /andP [k1 k2]]] := find_k_spec n t; first by lia.
  have [||l1 [-> St]] := expand_step_spec F G phi Pr ch2 l off ln n t k true V t1 _ _ Hs Hz (or_introl isT); [lia|lia|].
  rewrite pow2E ?multE ?plusE ?minusE; set D := (t * 2 ^ k)%N in k1 k2 St *.
  have tD : (t <= D)%N by rewrite /D leq_pmulr // expn_gt0.
  have [S1 V1 R1 _] := St.
  have [l2 [-> X2]] : exists l2, (if Nat.ltb t D then expand G f l1 off (slice_len D 0 ln) D t else Some l1) = Some l2 /\ expanded t off D l1 l2.
    case: Nat.ltb_spec => h; last by exists l1; split=> //; apply: expanded_small => //; lia.
    rewrite slice_low; last by lia.
    by apply: IH => //; rewrite ?S1; try lia; move=> a; lia.
  have [S2 V2 R2 _] := X2.
  have [l3 [-> X3]] : exists l3, (if Nat.ltb t (n - D) then expand G f l2 (off + D) (slice_len (n - D) D ln) (n - D) t else Some l2) = Some l3 /\ expanded t (off + D) (n - D) l2 l3.
    case: Nat.ltb_spec => h; last by exists l2; split=> //; apply: expanded_small => //; lia.
    rewrite slice_high; last by lia.
    by apply: IH => //; rewrite ?S2 ?S1; try lia; move=> a; lia.
  exists l3; split=> //; apply: (expanded_join t k off n l l1 l2 l3) => //; lia.
Qed.

Lemma expand_t2_spec k : forall off ln l, (ln = 4 * 2 ^ k)%N -> (off + ln <= size l)%N -> vok l ->
  exists l', expand_t2 G l off ln (4 * 2 ^ k) k = Some l' /\ expanded 2 off (4 * 2 ^ k) l l'.
Proof.
  elim: k => [|k IH] off ln l e Hs V.
    have [|||l1 [E St]] := expand_step_spec F G phi Pr ch2 l off ln 4 2 0 false V isT _ _ Hs _ (or_intror (erefl : 4 = 2 * (2 * 2 ^ 0))%N); [by []|by rewrite e|by move=> a; lia|].
    rewrite [expand_t2 _ _ _ _ _ _]/= e in E *; rewrite E.
    exists l1; split=> //; have [S1 V1 R1 _] := St.
    by apply: (expanded_join 2 0 off _ l l1 l1 l1) => //; apply: expanded_small.
  have P0 : (0 < 2 ^ k)%N by rewrite expn_gt0.
  rewrite expand_t2S.
  have [||||l1 [-> St]] := expand_step_spec F G phi Pr ch2 l off ln (4 * 2 ^ k.+1) 2 k.+1 false V isT _ _ Hs _ (or_intror _); try by rewrite ?e ?expnS; try move=> a; lia.
  have [S1 V1 R1 _] := St.
  rewrite pow2E ?multE ?plusE ?minusE e.
  have E2 : (2 * 2 ^ k.+1)%N = (4 * 2 ^ k)%N by rewrite expnS; lia.
  have E3 : (4 * 2 ^ k.+1 - 2 * 2 ^ k.+1)%N = (4 * 2 ^ k)%N by rewrite expnS; lia.
  rewrite slice_low ?slice_high; try lia.
  rewrite E3 E2; have [|l2 [-> X2]] := IH off (4 * 2 ^ k)%N l1 erefl _ V1; first by rewrite S1; lia.
  have [S2 V2 R2 _] := X2.
  have [|l3 [-> X3]] := IH (off + 4 * 2 ^ k)%N (4 * 2 ^ k)%N l2 erefl _ V2; first by rewrite S2 S1; lia.
  exists l3; split=> //; apply: (expanded_join 2 k.+1 off _ l l1 l2 l3 isT _ St); rewrite ?E3 ?E2 //; lia.
Qed.
End Taylor.
