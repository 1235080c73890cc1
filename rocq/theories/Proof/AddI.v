(** The expansions of vectors, and the way back. *)
Set Warnings "-notation-overridden,-ambiguous-paths".
From Coq Require Import NArith Arith.
From Coq Require List.
From Verif.Model Require Import Common Arith Ring Views Additive.
From Verif.Proof Require Import ListP MatrixL Ceil2P.
From mathcomp Require Import all_ssreflect ssralg poly.
From mathcomp Require Import zify.
From Verif.Spec Require Import Mixed Additive.
From Verif.Proof Require Import Pres MixedL AddL AddT.
Import GRing.Theory.
Local Open Scope ring_scope.

Lemma fold_down {A} (P : nat -> A -> Prop) (f : A -> nat -> A) k a :
  (forall i x, (i < k)%N -> P i.+1 x -> P i (f x i)) -> P k a -> P 0%N (List.fold_left f (List.rev (List.seq 0 k)) a).
Proof.
  elim: k a => [|k IH] a H Pa //; rewrite List.seq_S List.rev_app_distr /=.
  by apply: IH; [move=> i x Hi; apply: H; lia|apply: H].
Qed.
Lemma fold_map {A B C} (f : A -> B -> A) (g : C -> B) l a : List.fold_left f (List.map g l) a = List.fold_left (fun a x => f a (g x)) l a.
Proof. by elim: l a => //= x l IH a; rewrite IH. Qed.
Lemma fold_ext {A B} (f g : A -> B -> A) l a : (forall a x, f a x = g a x) -> List.fold_left f l a = List.fold_left g l a.
Proof. by move=> H; elim: l a => //= x l IH a; rewrite H. Qed.
Lemma fold_pair {A B C} (f : A -> C -> A) (g : B -> C -> B) l a b :
  List.fold_left (fun s x => (f s.1 x, g s.2 x)) l (a, b) = (List.fold_left f l a, List.fold_left g l b).
Proof. by elim: l a b => //= x l IH a b; rewrite IH. Qed.
Lemma steps2 fuel j h : (h - j <= fuel)%N -> steps fuel (2 * j) (2 * h) 2 = List.map (fun j => (2 * j)%N) (List.seq j (h - j)).
Proof.
  elim: fuel j => [|f IH] j H; first by have -> : (h - j = 0)%N by lia.
  rewrite [steps _ _ _ _]/=; case: Nat.ltb_spec => L; last by have -> : (h - j = 0)%N by lia.
  have -> : (h - j)%N = (h - j.+1).+1 by lia.
  rewrite /=; congr (_ :: _); rewrite -IH; last by lia.
  by congr (steps f _ _ _); lia.
Qed.

Section Inv.
Variables (F : fieldType) (G : gfops) (phi : N -> F).
Hypothesis Pr : gf_pres F G phi.
Hypothesis ch2 : forall u : F, u + u = 0.
Notation ok := (gvalid G).
Notation cf := (cf F phi).
Notation vok := (vok G).
Notation Y := (Yt F).
Notation tsum := (tsum F phi).

Lemma vok_set l i x : vok l -> ok x -> vok (Common.set l i x).
Proof.
  move=> V Vx a; case: (ltnP i (size l)) => H; last by rewrite (_ : Common.set l i x = l) //; elim: l i H {V} => [|y l IH] [|i] //= H; rewrite IH.
  by rewrite at_set //; case: eqP.
Qed.
Lemma vokP l : (forall i, (i < size l)%N -> ok (at_ l i)) -> vok l.
Proof. by move=> H i; case: (ltnP i (size l)) => h; [exact: H|rewrite at_out //; exact: (ok0 _ _ _ Pr)]. Qed.
Lemma vok_rep n : vok (List.repeat 0%num n).
Proof.
  move=> i; case: (ltnP i n) => H; first by rewrite at_rep //; exact: (ok0 _ _ _ Pr).
  by rewrite at_out ?size_rep //; exact: (ok0 _ _ _ Pr).
Qed.
Lemma cfE l i : cf l i = phi (at_ l i). Proof. by []. Qed.

(** ** taylor_expand *)
Theorem taylor_expand_ok t n out l : (1 < t)%N -> (0 < n)%N -> (size l <= n)%N -> (n <= size out < n + t)%N -> vok l ->
  exists l', taylor_expand G out l n t = Some l' /\ size l' = size out /\ vok l' /\
    poly_of F phi n l = taylor_sum F phi t (size l') l'.
Proof.
  move=> t1 n0 ln /andP [no nt] V; rewrite /taylor_expand.
  have -> : (Nat.leb 1 n && Nat.ltb 1 t && Nat.leb (length l) n) by rewrite -[length l]/(size l); apply/andP; split; [apply/andP; split|]; lia.
  rewrite /check; set o1 := (if Nat.ltb (length l) (length out) then List.repeat 0%num (length out) else out).
  have So1 : size o1 = size out by rewrite /o1; case: ifP => // _; rewrite size_rep.
  have -> : Nat.leb (length l) (length o1) by rewrite -![length _]/(size _) So1; lia.
  have [||S2 R2] := loop_up (fun _ i => at_ l i) 0 0 (size l) o1 => //; first by rewrite So1; lia.
  rewrite -[List.fold_left _ _ _]/(List.fold_left (fun l0 i => Common.set l0 i (at_ l i)) (List.seq 0 (length l)) o1) in S2 R2.
  set o2 := List.fold_left _ _ _ in S2 R2 *.
  have R a : (a < size out)%N -> at_ o2 a = at_ l a.
    move=> Ha; rewrite R2 subn0 !add0n /=; case: ifP => // h; rewrite (at_out l); last by lia.
    rewrite /o1; have -> : Nat.ltb (length l) (length out) by rewrite -![length _]/(size _); lia.
    by rewrite at_rep.
  have V2 : vok o2.
    move=> i; case: (ltnP i (size out)) => h; first by rewrite R //; exact: V.
    by rewrite at_out ?S2 ?So1 //; exact: (ok0 _ _ _ Pr).
  have Z a : (n <= a)%N -> at_ o2 a = 0%num.
    move=> Ha; case: (ltnP a (size out)) => h; first by rewrite R // at_out //; lia.
    by rewrite at_out ?S2 ?So1.
  have E0 : poly_of F phi n l = \poly_(i < n) cf o2 (0 + i).
    by apply/polyP => i; rewrite !coef_poly; case: ifP => // Hi; rewrite add0n !cfE R //; lia.
  have Fin l' : expanded F G phi t 0 n o2 l' -> size l' = size out /\ vok l' /\ poly_of F phi n l = taylor_sum F phi t (size l') l'.
    move=> [Sl Vl Rl El]; split; first by rewrite Sl S2 So1.
    split=> //; rewrite E0 El /AddT.tsum /taylor_sum Sl S2 So1.
    rewrite -(subnKC no) big_split_ord /= [X in _ = _ + X]big1 ?addr0 // => i _.
    by rewrite cfE Rl ?Z ?(gp_0 _ _ _ Pr) ?scale0r //; lia.
  case: Nat.ltb_spec => tn; last by exists o2; split=> //; apply: Fin; apply: expanded_small => //; lia.
  have [|||||l' [-> X]] := expand_spec F G phi Pr ch2 t t1 n n 0 (size o2) o2 (leqnn n); try (rewrite ?S2 ?So1; lia); try exact: V2.
    by move=> a Ha; apply: Z; lia.
  by exists l'; split=> //; apply: Fin.
Qed.

(** ** Products by [X^t + X] *)
Definition agree L (p : {poly F}) l := [/\ size l = L, vok l & forall i, (i < L)%N -> p`_i = cf l i].

Lemma mul_agree L p l t : (1 < t)%N -> agree L p l -> agree L (Y t * p) (mul_xt_x G l t).
Proof.
  move=> t1 [S V A]; case: (posnP (size l)) => l0.
    move: t1 V; rewrite -S l0; case: l l0 {S A} => // _; case: t => [|t] // _ V; split=> //.
  rewrite /mul_xt_x -![length _]/(size _).
  set l1 := List.fold_left _ _ l.
  have [S1 R1] : size l1 = size l /\ forall a, at_ l1 a = if (t <= a < size l)%N then g_add G (at_ l (a - t)) (at_ l (a - 1)) else at_ l a.
    case: (leqP t (size l)) => tl.
      have [||S1 R1] := loop_down (fun l i => g_add G (at_ l (i - t)) (at_ l (i - 1))) t (size l - t) l; first by lia.
        by move=> i l1' Hi _ R; rewrite !R //; lia.
      split=> // a; rewrite /l1 R1; congr (if _ then _ else _); lia.
    rewrite /l1; have -> : (size l - t)%coq_nat = 0%N by lia.
    by split=> // a; case: ifP => //; lia.
  have V1 : vok l1.
    move=> a; rewrite R1; case: ifP => _ //; have [] := gp_add _ _ _ Pr _ _ (V (a - t)%N) (V (a - 1)%N); by [].
  set l2 := List.fold_left _ _ l1.
  have [||S2 R2] := loop_down (fun l i => at_ l (i - 1)) 1 (Nat.min t (size l) - 1) l1; first by rewrite S1; lia.
    by move=> i l1' Hi _ R; rewrite R //; lia.
  rewrite -/l2 in S2 R2.
  have V2 : vok l2 by move=> a; rewrite R2; case: ifP.
  split; [by rewrite set_size S2 S1|by apply: vok_set => //; exact: (ok0 _ _ _ Pr)|] => i Hi.
  rewrite cfE at_set ?S2 ?S1 ?S; last by lia.
  rewrite /Yt mulrDl coefD -commr_polyXn coefMXn -commr_polyX coefMX.
  case: (posnP i) => [->|i0].
    by rewrite eqxx (_ : (0 < t)%N) ?(gp_0 _ _ _ Pr) ?addr0 //; lia.
  have -> : (0%N == i) = false by apply/eqP; lia.
  rewrite R2 R1 R1; case: (ltnP i t) => it.
    have -> : (1 <= i < 1 + (Nat.min t (size l) - 1)%coq_nat)%N by lia.
    have -> : (t <= i - 1 < size l)%N = false by lia.
    by rewrite add0r -subn1 A //; lia.
  have -> : (1 <= i < 1 + (Nat.min t (size l) - 1)%coq_nat)%N = false by lia.
  have -> : (i < size l)%N by lia.
  have [_ ->] := gp_add _ _ _ Pr _ _ (V (i - t)%N) (V (i - 1)%N).
  by rewrite -subn1 !A //; lia.
Qed.

(** ** inv_taylor_expand *)
Lemma vcopy_ok l v n dest src : (n + dest <= size l)%N ->
  exists l', [/\ vcopy l v n dest src = Some l', size l' = size l &
    forall a, at_ l' a = if (dest <= a < dest + n)%N then at_ v (src + (a - dest)) else at_ l a].
Proof.
  move=> H; rewrite /vcopy -![length _]/(size _).
  have -> : Nat.leb (n + dest)%coq_nat (size l) by lia.
  rewrite /check; set l' := List.fold_left _ _ _; exists l'.
  have [||S' R'] := loop_up (fun _ i => if Nat.ltb (src + i)%coq_nat (size v) then at_ v (src + i) else 0%num) dest 0 n l; [lia|by []|].
  rewrite -[List.fold_left _ _ _]/l' in S' R'.
  have R a : at_ l' a = if (dest <= a < dest + n)%N then at_ v (src + (a - dest)) else at_ l a.
    rewrite R' addn0; case: ifP => // _; case: Nat.ltb_spec => // h; rewrite at_out //; lia.
  by split.
Qed.
Lemma add_slice_ok L p l v i t : agree L p l -> vok v -> (i + t <= size v)%N -> (t <= L)%N -> (0 < t)%N ->
  exists l', add_slice G l v i t = Some l' /\ agree L (p + \poly_(j < t) cf v (i + j)) l'.
Proof.
  move=> [S V A] Vv H tL t0; rewrite /add_slice -![length _]/(size _).
  have -> : slice_len t i (size v) = t by rewrite /slice_len; do ?case: Nat.ltb_spec => ?; lia.
  have -> : Nat.leb t (size l) by lia.
  rewrite /check; set l' := List.fold_left _ _ _; exists l'; split=> //.
  have [||S' R'] := loop_up (fun l j => g_add G (at_ l j) (at_ v (i + j))) 0 0 t l; first by lia.
    by move=> j l1 Hj _ R; rewrite R //; lia.
  rewrite -[List.fold_left _ _ _]/l' in S' R'.
  have Ad a := gp_add _ _ _ Pr _ _ (V a) (Vv (i + a)%N).
  split; first by rewrite S'.
    by move=> a; rewrite R' subn0; case: ifP => // _; case: (Ad a).
  move=> a Ha; rewrite coefD coef_poly [cf l' a]cfE R' subn0 !add0n /= A //; case: ifP => _; last by rewrite addr0.
  by case: (Ad a) => _ ->.
Qed.

Lemma inv_loop_ok L t v fuel c b l : (1 < t)%N -> vok v -> size v = (t * (c + b))%N -> (c < fuel)%N -> (0 < b)%N -> L = size v ->
  agree L (tsum t (t * c) (t * b) v) l ->
  exists l', inv_expand_loop G fuel l v (t * c) t = Some l' /\ agree L (tsum t 0 (size v) v) l'.
Proof.
  move=> t1 Vv Sv; elim: fuel c b Sv l => [|f IH] c b Sv l // Hf b0 HL A.
  case: c => [|c] in Sv Hf A *.
    rewrite muln0 [inv_expand_loop _ _ _ _ _ _]/=; have -> : Nat.leb t 0 = false by lia.
    by exists l; split=> //; rewrite Sv add0n; rewrite muln0 in A.
  rewrite [inv_expand_loop _ _ _ _ _ _]/=; have -> : Nat.leb t (t * c.+1) by lia.
  have -> : (t * c.+1 - t)%coq_nat = (t * c)%N by lia.
  have [|||l' [-> A']] := add_slice_ok L _ _ v (t * c) t (mul_agree _ _ _ t t1 A) Vv; try nia.
  apply: (IH c b.+1) => //; try nia.
  rewrite (tsum_split _ _ t 1) ?muln1; try nia.
  rewrite tsum_small // expr1 (_ : (t * c + t = t * c.+1)%N); last by nia.
  by rewrite (_ : (t * b.+1 - t = t * b)%N) 1?addrC //; nia.
Qed.

Theorem inv_taylor_ok n out v t : (1 < t)%N -> (t %| size v)%N -> (0 < size v)%N -> (size out <= n)%N -> (size out <= size v)%N -> vok v ->
  exists out', inv_taylor_expand G n out v t = Some out' /\ size out' = size out /\ vok out' /\
    forall i, (i < size out)%N -> cf out' i = (taylor_sum F phi t (size v) v)`_i.
Proof.
  move=> t1 /dvdnP [b Eb] v0 Ho1 Ho2 V; rewrite mulnC in Eb.
  have b0 : (0 < b)%N by case: b Eb => //; lia.
  rewrite /inv_taylor_expand -![length _]/(size _).
  have -> : (Nat.leb (size out) n && Nat.leb (size out) (size v) && Nat.leb t (size v)).
    by apply/andP; split; [apply/andP; split|]; try lia; nia.
  rewrite /check.
  have A0 : agree (size v) 0 (List.repeat 0%num (size v)).
    split; [exact: size_rep|exact: vok_rep|] => i Hi.
    by rewrite coef0 cfE at_rep // (gp_0 _ _ _ Pr).
  have Hi : (size v - t)%coq_nat = (t * b.-1)%N by nia.
  have [|||l [-> A1]] := add_slice_ok (size v) _ _ v (size v - t) t A0 V; try nia.
  rewrite Hi in A1 *; rewrite add0r -(tsum_small _ _ t) // in A1.
  have [|||||l' [-> A2]] := inv_loop_ok (size v) t v (S (size v)) b.-1 1 l t1 V; try nia; rewrite ?muln1 //.
    by rewrite -Hi.
  case: A2 => S2 V2 C2; have [|out' [-> S' R']] := vcopy_ok out l' (size out) 0 0; first by lia.
  exists out'; do 2!split=> //; split.
    move=> i; case: (ltnP i (size out)) => Hj; first by rewrite R' add0n Hj; exact: V2.
    by rewrite at_out ?S' //; exact: (ok0 _ _ _ Pr).
  move=> i Hj; rewrite cfE R' add0n Hj /= subn0 add0n -cfE C2 //; lia.
Qed.

(** ** The roundtrip *)
Theorem taylor_roundtrip n N0 t l out back : (1 < t)%N -> (0 < n)%N -> size l = n -> (n <= size out < n + t)%N -> (t %| size out)%N ->
  size back = n -> (n <= N0)%N -> vok l ->
  exists l', taylor_expand G out l n t = Some l' /\ inv_taylor_expand G N0 back l' t = Some l.
Proof.
  move=> t1 n0 Sl So td Sb nN V.
  have [|l' [E1 [S1 [V1 P1]]]] := taylor_expand_ok t n out l t1 n0 _ So V; first by rewrite Sl.
  exists l'; split=> //.
  have [|||||b [E2 [S2 [V2 P2]]]] := inv_taylor_ok N0 back l' t t1; rewrite ?S1 ?Sb //; try lia.
  rewrite E2; congr Some; apply: (List.nth_ext _ _ 0%num 0%num) => [|i].
    by rewrite -![length _]/(size _) S2 Sb Sl.
  rewrite -[length _]/(size _) S2 Sb => /ltP Hi; rewrite -![List.nth _ _ _]/(at_ _ _).
  by apply: (gp_inj _ _ _ Pr) => //; rewrite -!cfE P2 ?Sb // -P1 coef_poly Hi.
Qed.

(** ** The case t = 2 *)
(** [g0 (Y) + X g1 (Y)] *)
Definition pairp h g0 g1 : {poly F} := \sum_(j < h) (cf g0 j *: Y 2 ^+ j + cf g1 j *: ('X * Y 2 ^+ j)).

Lemma tsum2 h l g0 g1 : (forall j, (j < h)%N -> at_ g0 j = at_ l (2 * j) /\ at_ g1 j = at_ l (2 * j + 1)) ->
  tsum 2 0 (2 * h) l = pairp h g0 g1.
Proof.
  elim: h => [|h IH] H; first by rewrite /AddT.tsum /pairp !big_ord0.
  rewrite /pairp big_ord_recr /= -/(pairp h g0 g1) -IH; last by move=> j Hj; apply: H; lia.
  rewrite /AddT.tsum (_ : (2 * h.+1)%N = (2 * h).+2); last by lia.
  rewrite 2!big_ord_recr /= -addrA; congr (_ + _); have [E0 E1] := H h (ltnSn h).
  rewrite !cfE E0 E1 !add0n addn1; congr (_ *: _ + _ *: _).
    by rewrite mulnC modnMl mulnK // expr0 mul1r.
  by rewrite -addn1 mulnC modnMDl divnMDl // expr1 addn0.
Qed.
Lemma pairp_eval h g0 g1 x : (pairp h g0 g1).[x] =
  (poly_of F phi h g0).[x ^+ 2 + x] + x * (poly_of F phi h g1).[x ^+ 2 + x].
Proof.
  rewrite /pairp /poly_of !poly_def !horner_sum mulr_sumr -big_split; apply: eq_bigr => j _ /=.
  by rewrite hornerD !hornerZ hornerM hornerX !hornerXn horner_exp /Yt hornerD hornerXn hornerX mulrCA.
Qed.

Lemma is_pow2 m : is_power_of_2 (N.of_nat (2 ^ m)).
Proof. by apply/is_power_of_2_spec; exists (N.of_nat m); rewrite -pow2E Nnat.Nat2N.inj_pow. Qed.

Lemma find_k_pow m : find_k (4 * 2 ^ m) 2 = Some m.
Proof.
  have [|k [-> /andP [h1 h2]]] := find_k_spec (4 * 2 ^ m) 2; first by have := expn_gt0 2 m; lia.
  have : (2 ^ k < 2 ^ m.+1)%N by rewrite expnS; lia.
  have : (2 ^ m <= 2 ^ k)%N by lia.
  by rewrite ltn_exp2l // leq_exp2l // => ? ?; congr Some; lia.
Qed.

Lemma repn A (f : A -> A) x n : List.fold_left (fun a _ => f a) (List.seq 0 n) x = iter n f x.
Proof. by elim: n => // n IH; rewrite List.seq_S List.fold_left_app IH. Qed.

Theorem taylor_t2_ok m l g0 g1 : let h := (2 ^ m)%N in size l = (2 * h)%N -> size g0 = h -> size g1 = h -> vok l ->
  exists l' g0' g1', [/\ taylor_expand_t2 G l (2 * h) g0 g1 = Some (l', g0', g1'), size g0' = size g0 /\ size g1' = size g1,
    vok g0' /\ vok g1' & poly_of F phi (2 * h) l = pairp h g0' g1'].
Proof.
  move=> h Sl S0 S1 V; rewrite /taylor_expand_t2.
  have h0 : (0 < h)%N by rewrite expn_gt0.
  have -> : (Nat.leb 1 (2 * h) && Nat.leb (length l) (2 * h) && is_power_of_2 (N.of_nat (2 * h))).
    by rewrite -[length l]/(size l) Sl /h -expnS is_pow2 andbT; apply/andP; split; apply/Nat.leb_spec0; rewrite expnS; lia.
  rewrite /check; case: Nat.leb_spec => Hh.
    have h1 : h = 1%N by lia.
    rewrite h1 /=; eexists; eexists; eexists; split; first by [].
    - by rewrite !set_size.
    - have X g x : size g = h -> ok x -> vok (Common.set g 0 x).
        by move=> Sg Vx; apply: vokP => -[|a]; rewrite set_size Sg h1 // at_set ?Sg ?h1.
      by split; apply: X.
    rewrite /pairp /poly_of poly_def muln1 !big_ord_recr !big_ord0 /= !add0r !expr0 expr1 mulr1.
    by rewrite !cfE !at_set //; lia.
  case: m @h Sl S0 S1 h0 Hh => [|m] h Sl S0 S1 h0 Hh; first by rewrite /h in Hh; lia.
  have Eh : (2 * h = 4 * 2 ^ m)%N by rewrite /h expnS; lia.
  rewrite -[length l]/(size l) Sl Eh find_k_pow.
  have [//||//|l' [-> [S' V' _ E']]] := expand_t2_spec F G phi Pr ch2 m 0 (4 * 2 ^ m) l; first by lia.
  rewrite -Eh in E' *.
  have -> : steps (2 * h) 0 (2 * h) 2 = List.map (fun j => (2 * j)%N) (List.seq 0 h) by have := steps2 (2 * h) 0 h; rewrite subn0; apply; lia.
  rewrite fold_map.
  have E g : List.fold_left (fun g i => (Common.set g.1 (Nat.div (2 * i) 2) (at_ l' (2 * i)), Common.set g.2 (Nat.div (2 * i) 2) (at_ l' (2 * i + 1)%coq_nat)))
     (List.seq 0 h) g = (List.fold_left (fun g i => Common.set g (0 + i) (at_ l' (2 * i))) (List.seq 0 h) g.1,
                         List.fold_left (fun g i => Common.set g (0 + i) (at_ l' (2 * i + 1))) (List.seq 0 h) g.2).
    case: g => a b; rewrite -fold_pair; apply: fold_ext => s x.
    by have -> : Nat.div (2 * x) 2 = x by rewrite -multE Nat.mul_comm Nat.div_mul.
  rewrite E [(g0, g1).1]/= [(g0, g1).2]/=.
  have [||T0 R0] := loop_up (fun _ i => at_ l' (2 * i)) 0 0 h g0; [lia|by []|].
  have [||T1 R1] := loop_up (fun _ i => at_ l' (2 * i + 1)) 0 0 h g1; [lia|by []|].
  eexists; eexists; eexists; split; first exact: erefl.
  - by split.
  - by split; apply: vokP => a Ha; rewrite ?R0 ?R1; case: ifP => //; lia.
  transitivity (tsum 2 0 (2 * h) l').
    by rewrite -E'; apply/polyP => i; rewrite !coef_poly.
  by apply: tsum2 => j Hj; rewrite R0 R1 !subn0 !add0n Hj.
Qed.

(** [size out] even, [h] the half *)
Definition pairs h g0 g1 i : {poly F} := \sum_(j < h - i) (cf g0 (i + j) *: Y 2 ^+ j + cf g1 (i + j) *: ('X * Y 2 ^+ j)).
Lemma pairsS h g0 g1 i : (i < h)%N -> pairs h g0 g1 i = Y 2 * pairs h g0 g1 i.+1 + ((cf g0 i)%:P + cf g1 i *: 'X).
Proof.
  move=> Hi; rewrite /pairs (_ : (h - i)%N = (h - i.+1).+1); last by lia.
  rewrite big_ord_recl addrC /= addn0 expr0 mulr1 alg_polyC; congr (_ + _).
  rewrite mulr_sumr; apply: eq_bigr => j _; rewrite /bump /= add1n addnS addSn mulrDr -!scalerAr exprS; congr (_ + _ *: _).
  by rewrite mulrCA.
Qed.

Theorem inv_taylor_t2_ok m out g0 g1 : let h := (2 ^ m)%N in size out = (2 * h)%N -> size g0 = size g1 -> vok g0 -> vok g1 ->
  exists out', [/\ inv_taylor_expand_t2 G out g0 g1 = Some out', size out' = size out, vok out' &
    poly_of F phi (2 * h) out' = pairp h g0 g1].
Proof.
  move=> h So Sg V0 V1; rewrite /inv_taylor_expand_t2 -![length _]/(size _) Sg So.
  have h0 : (0 < h)%N by rewrite expn_gt0.
  have -> : (Nat.eqb (size g1) (size g1) && is_power_of_2 (N.of_nat (2 * h))).
    by rewrite Nat.eqb_refl /h -expnS is_pow2.
  rewrite /check.
  set r := (if Nat.leb _ _ then _ else _).
  suff [out' [-> [S' V' A']]] : exists out', r = Some out' /\ agree (2 * h) (pairp h g0 g1) out'.
    exists out'; split=> //; apply/polyP => i; rewrite coef_poly; case: ltnP => Hi; first by rewrite A'.
    rewrite nth_default //; apply: leq_trans Hi.
    apply: leq_trans (size_sum _ _ _) _; apply/bigmax_leqP => j _.
    have Y2 : (size (Y 2) <= 3)%N by apply: leq_trans (size_add _ _) _; rewrite size_polyXn size_polyX.
    have Yj k : (size (Y 2 ^+ k)%R <= (2 * k).+1)%N.
      elim: k => [|k IH]; first by rewrite expr0 size_poly1.
      by rewrite exprS; apply: leq_trans (size_mul_leq _ _) _; lia.
    have := Yj j; have := ltn_ord j => Hj Yj'; apply: leq_trans (size_add _ _) _; rewrite geq_max; apply/andP; split.
      by apply: leq_trans (size_scale_leq _ _) _; lia.
    apply: leq_trans (size_scale_leq _ _) _; apply: leq_trans (size_mul_leq _ _) _; rewrite size_polyX; lia.
  have PE : pairp h g0 g1 = pairs h g0 g1 0 by rewrite /pairs subn0.
  rewrite /r {r}; case: Nat.leb_spec => Hh.
    have h1 : h = 1%N by lia.
    eexists; split; first exact: erefl; rewrite PE h1 pairsS // /pairs big_ord0 mulr0 add0r [Nat.eqb _ _]/=.
    have R a : (a < 2)%N -> at_ (Common.set (Common.set out 0 (at_ g0 0)) 1 (at_ g1 0)) a = if a == 0%N then at_ g0 0 else at_ g1 0.
      move=> Ha; rewrite at_set ?set_size ?So ?h1 // at_set ?So ?h1 //.
      by case: a Ha => [|[|a]].
    split; first by rewrite !set_size So h1.
      by apply: vokP => a; rewrite !set_size So h1 => Ha; rewrite R //; case: ifP.
    move=> a Ha; rewrite [RHS]cfE R // coefD coefC coefZ coefX; case: a Ha => [|[|a]] // _ /=.
      by rewrite mulr0 addr0.
    by rewrite mulr1 add0r.
  have Hd : (Nat.div (2 * h) 2 - 1)%coq_nat = h.-1 by rewrite -multE Nat.mul_comm Nat.div_mul //; lia.
  rewrite Hd; eexists; split; first exact: erefl.
  rewrite PE; apply: (fold_down (fun i l => agree (2 * h) (pairs h g0 g1 i) l)) => [i x Hi [Sx Vx Ax]|].
    have [Sm Vm Am] := mul_agree (2 * h) _ x 2 isT (And3 Sx Vx Ax).
    set y := mul_xt_x G x 2 in Sm Vm Am *.
    set y0 := Common.set y 0 _.
    have Sy0 : size y0 = (2 * h)%N by rewrite set_size.
    have Vy0 : vok y0 by apply: vok_set.
    have R0 a : at_ y0 a = if a == 0%N then at_ g0 i else at_ y a by rewrite at_set ?Sm ?[0%N == a]eq_sym //; lia.
    have Z0 : (Y 2 * pairs h g0 g1 i.+1)`_0 = 0 by rewrite /Yt mulrDl coefD -commr_polyXn coefMXn -commr_polyX coefMX addr0.
    set z := (if _ then _ else _).
    have [Az Vz] := gp_add _ _ _ Pr _ _ (Vy0 1%N) (V1 i).
    have [Sz Hz Rz] : [/\ size z = (2 * h)%N, vok z & forall a, phi (at_ z a) = phi (at_ y0 a) + if a == 1%N then phi (at_ g1 i) else 0].
      rewrite /z; case: N.ltb_spec => g.
        split; [by rewrite set_size|by apply: vok_set|] => a; rewrite at_set; last by lia.
        by rewrite [1%N == a]eq_sym; case: eqP => [->|]; rewrite ?addr0.
      split=> // a; have -> : at_ g1 i = 0%num by lia.
      by rewrite (gp_0 _ _ _ Pr) if_same addr0.
    split=> // a Ha; rewrite pairsS; last by lia.
    rewrite [RHS]cfE Rz R0 !coefD coefC coefZ coefX; case: eqP => [->|na].
      by rewrite Z0 add0r mulr0.
    by rewrite Am // add0r mulr_natr mulrb.
  rewrite pairsS; last by lia.
  rewrite (_ : h.-1.+1 = h); last by lia.
  rewrite {1}/pairs subnn big_ord0 mulr0 add0r.
  have R a : (a < 2 * h)%N -> at_ (Common.set (Common.set (List.repeat 0%num (2 * h)) 0 (at_ g0 h.-1)) 1 (at_ g1 h.-1)) a =
     if a == 1%N then at_ g1 h.-1 else if a == 0%N then at_ g0 h.-1 else 0%num.
    by move=> Ha; rewrite at_set ?set_size ?size_rep ?at_set ?size_rep ?at_rep ?[_ == a]eq_sym //; lia.
  split; first by rewrite !set_size size_rep.
    apply: vokP => a; rewrite !set_size size_rep => Ha; rewrite R //; do ?case: ifP => // _; exact: (ok0 _ _ _ Pr).
  move=> a Ha; rewrite [RHS]cfE R // coefD coefC coefZ coefX; case: a Ha => [|[|a]] Ha /=.
  - by rewrite mulr0 addr0.
  - by rewrite mulr1 add0r.
  by rewrite mulr0 addr0 (gp_0 _ _ _ Pr).
Qed.
End Inv.
