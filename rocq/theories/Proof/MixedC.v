(** The constructors of the Naive and Cooley-Tukey transforms, and the inverses. *)
Set Warnings "-notation-overridden,-ambiguous-paths".
From Coq Require Import NArith Arith.
From Coq Require List.
From Verif.Model Require Import Common Arith Ring Views Matrix MixedFft.
From Verif.Proof Require Import ListP MatrixL.
From mathcomp Require Import all_ssreflect ssralg poly.
From mathcomp Require Import zify.
From Verif.Spec Require Import Dft Mixed.
From Verif.Proof Require Import Pres MatrixI DftInv MixedL MixedF.
Import GRing.Theory.
Local Open Scope ring_scope.

Section Ct.
Variables (w : N) (F : fieldType) (G : gfops) (phi : N -> F).
Hypothesis Pr : gf_pres F G phi.
Notation ok := (gvalid G).
Notation tspec := (tspec w F G phi).
Notation ispec := (ispec w F G phi).

Lemma tspec_priv run n (p q : pred nat) r : p =1 q -> tspec run n p r -> tspec run n q r.
Proof.
  move=> pq H m out inp ao ai Wo Wi [B [D Pb]].
  have [|m' [E [S' F' V']]] := H m out inp ao ai Wo Wi.
    split; first by move=> i /B [? ? ? ?]; rewrite !pq.
    by split=> // a; rewrite pq; apply: Pb.
  by exists m'; split=> //; split=> // a; rewrite -pq; apply: F'.
Qed.

Lemma phi_n0 a : ok a -> phi a != 0 -> a <> 0%num.
Proof. by move=> _ /eqP H e; apply: H; rewrite e (gp_0 _ _ _ Pr). Qed.
Lemma inv_ok a : ok a -> phi a != 0 -> ok (g_inv G a) /\ phi (g_inv G a) = (phi a)^-1.
Proof. by move=> Va /(phi_n0 _ Va); apply: (gp_inv _ _ _ Pr). Qed.
Lemma unity_n0 (r : F) n : r ^+ n = 1 -> (0 < n)%N -> r != 0.
Proof. by move=> rn n0; apply/eqP => r0; move: rn; rewrite r0 expr0n; case: n n0 => //= ? _ /eqP; rewrite eq_sym oner_eq0. Qed.

(** ** Naive *)
Lemma compute_W_mat n wr r : (0 < n)%N -> (N.of_nat (n - 1) * N.of_nat (n - 1) < 2 ^ 31)%num -> (N.of_nat n <= g_card G)%num ->
  ok wr -> phi wr = r -> r ^+ n = 1 -> exists W, compute_W G n wr = Some W /\ mvd G n n W /\
    forall i j, (i < n)%N -> (j < n)%N -> en F phi W i j = r ^+ (i * j).
Proof.
  move=> n0 n31 nq Vw Ew rn; rewrite /compute_W; case: N.ltb_spec => H; last by lia.
  eexists; split; first by [].
  have [Wf E] := fill_spec n n (new_matrix 0 n n) (fun i j => g_exp G wr (N.of_nat (Nat.modulo (i * j)%coq_nat n))) (mwf_new 0 n n).
  have X i j : (i < n)%N -> (j < n)%N -> ok (mget (fill (new_matrix 0 n n) (fun i j => g_exp G wr (N.of_nat (Nat.modulo (i * j)%coq_nat n)))) i j) /\
     phi (mget (fill (new_matrix 0 n n) (fun i j => g_exp G wr (N.of_nat (Nat.modulo (i * j)%coq_nat n)))) i j) = r ^+ (i * j).
    move=> /ltP Hi /ltP Hj; rewrite E // modE //.
    have L : (N.of_nat ((i * j) %% n) < g_card G)%num by have := ltn_pmod (i * j) n0; lia.
    have [V ->] := gp_exp _ _ _ Pr _ _ Vw L; split=> //.
    by rewrite Nnat.Nat2N.id Ew; exact: expr_mod.
  split; first by split=> // i j Hi Hj; exact: (proj1 (X i j Hi Hj)).
  by move=> i j Hi Hj; exact: (proj2 (X i j Hi Hj)).
Qed.
Lemma compute_W_spec n wr r : (0 < n)%N -> (N.of_nat (n - 1) * N.of_nat (n - 1) < 2 ^ 31)%num -> (N.of_nat n <= g_card G)%num ->
  ok wr -> phi wr = r -> r ^+ n = 1 -> exists W, compute_W G n wr = Some W /\ tspec (vmul w G W) n pred0 r.
Proof.
  move=> n0 n31 nq Vw Ew rn; have [W [E [M X]]] := compute_W_mat n wr r n0 n31 nq Vw Ew rn.
  by exists W; split=> //; apply: vmul_tspec.
Qed.

Definition small_ok s n (r : F) := forall inv : bool, tspec (small_fft w G s inv) n pred0 (if inv then r^-1 else r).

Lemma new_naive_spec n wr r : (0 < n)%N -> (N.of_nat (n - 1) * N.of_nat (n - 1) < 2 ^ 31)%num -> (N.of_nat n <= g_card G)%num ->
  ok wr -> phi wr = r -> r ^+ n = 1 -> exists s, new_naive G n wr = Some s /\ small_ok s n r.
Proof.
  move=> n0 n31 nq Vw Ew rn; have r0 := unity_n0 r n rn n0.
  have [Vi Ei] := inv_ok wr Vw ltac:(by rewrite Ew); rewrite Ew in Ei.
  rewrite /new_naive; have [W [-> TW]] := compute_W_spec n wr r n0 n31 nq Vw Ew rn.
  have [|V [-> TV]] := compute_W_spec n _ (r^-1) n0 n31 nq Vi Ei; first by rewrite exprVn rn invr1.
  by eexists; split; first by []; case.
Qed.

Lemma prim2 (r : F) : 2.-primitive_root r -> r = -1.
Proof.
  move=> rp; have := prim_expr_order rp; move/eqP; rewrite sqrf_eq1 => /orP [/eqP r1|/eqP //].
  by have := prim_order_dvd rp 1; rewrite expr1 r1 eqxx.
Qed.

Lemma new_outer_spec n wr r : (1 < n)%N -> (N.of_nat (n - 1) * N.of_nat (n - 1) < 2 ^ 31)%num -> (N.of_nat n <= g_card G)%num ->
  ok wr -> phi wr = r -> n.-primitive_root r ->
  exists s, (if Nat.eqb n 2 then Some Size2 else new_naive G n wr) = Some s /\ small_ok s n r.
Proof.
  move=> n1 n31 nq Vw Ew rp; case: Nat.eqb_spec => [e|_]; last by apply: new_naive_spec => //; [lia|exact: prim_expr_order].
  subst n; have e := prim2 r rp; exists Size2; split=> //; rewrite e => -[]; rewrite ?invrN ?invr1; exact: size2_tspec.
Qed.

(** ** Cooley-Tukey *)
Definition ct_ok c n p (r : F) := forall inv : bool, tspec (ct_fft w G c inv) n p (if inv then r^-1 else r).

Lemma prim_pow (r : F) a b : (0 < b)%N -> (a * b)%N.-primitive_root r -> a.-primitive_root (r ^+ b).
Proof.
  move=> b0 /(dvdn_prim_root) => /(_ a); rewrite dvdn_mulr // => /(_ isT).
  by have a0 : (0 < a * b)%N -> True by []; case: (posnP a) => [->|a0']; rewrite ?mul0n ?div0n ?mulKn.
Qed.

Definition fits (f : nat) := (1 < f)%N /\ (N.of_nat (f - 1) * N.of_nat (f - 1) < 2 ^ 31)%num.
Lemma new_ct_spec fs : forall heap n wr r, fs <> nil -> List.Forall fits fs -> List.fold_right muln 1%N fs = n ->
  (N.of_nat n <= 2 ^ w)%num -> (N.of_nat n < g_card G)%num -> ok wr -> phi wr = r -> n.-primitive_root r ->
  exists c h, new_ct G fs heap n wr = Some (c, h) /\ (heap <= h)%N /\ ct_ok c n (area heap h) r.
Proof.
  elim: fs => // n1 fs IH heap n wr r _ /List.Forall_cons_iff [[n11 n131] Ff] En nw nq Vw Ew rp /=.
  rewrite /= -/(List.fold_right muln 1%N fs) in En.
  have n0 := prim_order_gt0 rp.
  case: Nat.eqb_spec => [|_]; first by lia.
  set n2 := List.fold_right _ _ _ in En.
  have n20 : (0 < n2)%N by move: n0; rewrite -En muln_gt0 => /andP [].
  have -> : Nat.div n n1 = n2 by rewrite -En -[(n1 * n2)%N]/(Nat.mul n1 n2) Nat.mul_comm Nat.div_mul //; lia.
  have [n1n n2n] : (n1 <= n)%N /\ (n2 <= n)%N by rewrite -En; split; [rewrite leq_pmulr|rewrite leq_pmull //; lia].
  have [V1 E1] := gp_exp _ _ _ Pr wr (N.of_nat n2) Vw ltac:(lia).
  have [V2 E2] := gp_exp _ _ _ Pr wr (N.of_nat n1) Vw ltac:(lia).
  rewrite !Nnat.Nat2N.id Ew in E1 E2.
  have p1 : n1.-primitive_root (r ^+ n2) by apply: prim_pow => //; rewrite En.
  have p2 : n2.-primitive_root (r ^+ n1) by apply: prim_pow; [lia|rewrite mulnC En].
  have r0 : r != 0 by apply: (unity_n0 r n) => //; exact: prim_expr_order.
  have [outer [-> So]] := new_outer_spec n1 _ _ n11 n131 ltac:(lia) V1 E1 p1.
  case: Nat.ltb_spec => H2.
    have [||||||||inner [h [-> [hh Ci]]]] := IH heap n2 (g_exp G wr (N.of_nat n1)) (r ^+ n1) => //; [|by lia..|].
      by move=> e; move: H2; rewrite /n2 e /=; lia.
    do 2 eexists; split; first by []; split; first by rewrite -[(h + n)%coq_nat]/(h + n)%N; lia.
    have [Vi Ei] := inv_ok wr Vw ltac:(by rewrite Ew); rewrite Ew in Ei.
    rewrite -En => inv.
    apply: (@tspec_priv _ _ (priv n1 n2 h (area heap h))).
      by move=> a; rewrite /priv /area -[(h + (n1 * n2)%N)%coq_nat]/(h + n1 * n2)%N; apply/idP/idP; lia.
    apply: node_tspec => //; [lia|by rewrite En| | | | | |].
    - by case: inv; rewrite En ?exprVn (prim_expr_order rp) ?invr1.
    - by case: inv.
    - by case: inv.
    - by have := So inv; case: (inv); rewrite ?exprVn.
    - by have := Ci inv; case: (inv); rewrite ?exprVn.
    - by move=> a; rewrite /area; lia.
  have e1 : n2 = 1%N by lia.
  do 2 eexists; split; first by []; split=> // inv; have := So inv; rewrite e1 expr1 -En e1 muln1 => S'.
  by apply: tspec_priv S' => a; rewrite /area /=; lia.
Qed.

(** ** The inverse *)
Lemma mul_scalar_spec m v n a c : win w v n a -> (forall i, (i < n)%N -> (a i < size m)%N /\ ok (rd m (a i))) ->
  (forall i j, (i < n)%N -> (j < n)%N -> a i = a j -> i = j) -> ok c ->
  exists m', mul_scalar w G m v c = Some m' /\ [/\ size m' = size m, (forall b, (forall i, (i < n)%N -> a i <> b) -> rd m' b = rd m b) &
    forall i, (i < n)%N -> ok (rd m' (a i)) /\ phi (rd m' (a i)) = phi (rd m (a i)) * phi c].
Proof.
  move=> [En W] B I Vc; rewrite /mul_scalar En.
  pose P t m' := [/\ size m' = size m, (forall b, (forall i, (i < n)%N -> a i <> b) -> rd m' b = rd m b) &
    forall i, (i < n)%N -> ok (rd m' (a i)) /\ phi (rd m' (a i)) = phi (rd m (a i)) * (if (i < t)%N then phi c else 1)].
  set f := (X in ofold X _ _).
  have [|t m1 /andP [_ Ht] [S1 F1 V1]|m' [E [S' F' V']]] := @ofold_inv _ f P n 0%N m.
  - by split=> // i /B [_ ?]; rewrite mulr1.
  - rewrite /f (proj1 (W m1 t 0%num Ht)); have [Ba _] := B t Ht; rewrite peekE ?S1 // (proj2 (W m1 t _ Ht)) pokeE ?S1 //.
    have [o e] := V1 t Ht; have [o2 e2] := gp_mul _ _ _ Pr _ _ o Vc.
    eexists; split; first by []; split; first by rewrite set_size.
      by move=> b Hb; rewrite rd_set ?S1 //; case: eqP => [eb|_]; [case: (Hb t Ht eb)|exact: F1].
    move=> i Hi; rewrite rd_set ?S1 //; case: eqP => [eb|ne].
      by rewrite -(I t i Ht Hi eb) ltnSn e2 e ltnn mulr1.
    have [oi ei] := V1 i Hi; split=> //; rewrite ei; congr (_ * _).
    by rewrite [(i < t.+1)%N]ltnS [(i <= t)%N]leq_eqVlt; case: (i =P t) => // eit; case: ne; rewrite eit.
  exists m'; split; first exact: E.
  split=> // i Hi; have [o e] := V' i Hi; split=> //; by rewrite e Hi.
Qed.

Lemma inverse_ispec run n p r c : (0 < n)%N -> n.-primitive_root r -> tspec run n p r^-1 ->
  ok c -> (if (1 <? c)%num then phi c = n%:R^-1 else n%:R = 1 :> F) ->
  ispec (fun m out inp => match run m out inp with Some m' => if (1 <? c)%num then mul_scalar w G m' out c else Some m' | None => None end) n p r.
Proof.
  move=> n0 rp T Vc Ec m out inp ao ai x Wo Wi Pre Hx; have [B [D Pb]] := Pre.
  have [m1 [-> [S1 F1 V1]]] := T m out inp ao ai Wo Wi Pre.
  have key i : (i < n)%N -> dft F r^-1 n (fun j => phi (rd m (ai j))) i = n%:R * x i.
    move=> Hi; have := dft_inverse F r n x i rp Hi => <-; by apply: dft_ext => j Hj; exact: Hx.
  have nn := prim_natr F r n rp.
  case: N.ltb_spec Ec => Hc Ec.
    have [||m2 [-> [S2 F2 V2]]] := mul_scalar_spec m1 out n ao c Wo _ _ Vc.
    - by move=> i Hi; have [? _ _ _] := B i Hi; rewrite S1; split=> //; exact: (proj1 (V1 i Hi)).
    - by move=> i j Hi Hj; exact: (proj1 (D i j Hi Hj)).
    exists m2; split=> //; split; first by rewrite S2.
      by move=> a pa Ha; rewrite F2 //; exact: F1.
    by move=> i Hi; have [o ->] := V2 i Hi; split=> //; rewrite (proj2 (V1 i Hi)) key // Ec mulrAC mulfV ?mul1r.
  exists m1; split=> //; split=> // i Hi; have [o ->] := V1 i Hi; split=> //; rewrite key // Ec mul1r //.
Qed.
End Ct.
