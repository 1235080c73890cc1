(** The operations of gf_bin_ext.h present the field F2[X]/(m). *)
Set Warnings "-notation-overridden,-ambiguous-paths".
From Coq Require Import NArith ZArith.
From Coq Require List.
From Verif.Model Require Import Common Arith Ring Gf2n.
From Verif.Proof Require Import Gf2nT ListP Gf2nL.
From mathcomp Require Import all_ssreflect ssralg poly polydiv zmodp.
From mathcomp Require Import zify.
From Verif.Spec Require Import Gf2n.
From Verif.Proof Require Import BitsP QuotF Rabin Gf2nA Gf2nI FinF RootP Pres Gf2nP Gf2nQ.
Import GRing.Theory.
Local Open Scope ring_scope.
Notation wrap := Common.wrap.

Section F.
Variables (n m : N).
Notation k := (N.to_nat n).
Hypothesis n0 : (0 < n)%num.
Hypothesis sm : size (P m) = k.+1.
Hypothesis Im : irreducible_poly (P m).
Notation isv := (isv k (P m)).
Notation q := (2 ^ n)%num.
Definition g : irr := Irr _ Im.
Definition phi (a : N) : qf g := pi g (P a).

Lemma two_q : (1 < q)%num.
Proof. by have := N.pow_le_mono_r 2 1 n; lia. Qed.
Lemma pi_mod p : pi g (p %% P m) = pi g p.
Proof. by rewrite /pi modp_mod. Qed.
Lemma isv_phi p a : isv p a <-> (a < q)%num /\ phi a = pi g p.
Proof.
  rewrite isvP; split=> -[Ha E]; split=> //; first by rewrite /phi E pi_mod.
  have : lift g (phi a) = lift g (pi g p) by rewrite E.
  rewrite !lift_pi /= modp_small // sm ltnS; apply/P_size; by rewrite kn.
Qed.
Lemma self a : (a < q)%num -> isv (P a) a.
Proof. by move=> Ha; apply: isv_self => //; rewrite kn. Qed.
Lemma phi_inj a b : (a < q)%num -> (b < q)%num -> phi a = phi b -> a = b.
Proof.
  move=> Ha Hb E; apply: (isv_uniq k (P m) (P b)); last exact: self.
  by apply/isv_phi; split.
Qed.
Lemma phi_0 : phi 0%num = 0. Proof. by rewrite /phi P0 rmorph0. Qed.
Lemma phi_1 : phi 1%num = 1. Proof. by rewrite /phi P1 rmorph1. Qed.
Lemma phi_neq0 a : (a < q)%num -> a <> 0%num -> phi a != 0.
Proof. by move=> Ha a0; apply/eqP; rewrite -phi_0 => /phi_inj E; apply: a0; apply: E => //; have := two_q; lia. Qed.
Lemma phi_xor a b : phi (N.lxor a b) = phi a + phi b.
Proof. by rewrite /phi P_xor rmorphD. Qed.
Lemma xor_lt a b : (a < q)%num -> (b < q)%num -> (N.lxor a b < q)%num.
Proof. by move=> Ha Hb; have := isv_xor _ _ _ _ _ _ (self a Ha) (self b Hb) => /isv_lt. Qed.
Lemma phi_opp (u : qf g) : - u = u.
Proof. by rewrite -(liftK g u) -rmorphN oppP. Qed.
Lemma phi_surj (u : qf g) : exists a, (a < q)%num /\ phi a = u.
Proof.
  have s : (size (lift g u) <= k)%N by rewrite -(liftK g u) lift_pi -ltnS -sm ltn_modp irr_neq0.
  by have [a [Ha Ea]] := P_surj _ _ s; exists a; rewrite kn in Ha; split=> //; rewrite /phi Ea liftK.
Qed.
Lemma q_exp : N.to_nat q = (2 ^ k)%N.
Proof. by rewrite N2Nat.inj_pow; elim: k => //= j IH; rewrite expnS -IH; lia. Qed.
Lemma card_q : #|{: qf g}| = N.to_nat q.
Proof. by rewrite card_qf /= sm q_exp. Qed.
Notation h := (N.to_nat (q - 1)).
Lemma fermat_phi a : (a < q)%num -> a <> 0%num -> phi a ^+ h = 1.
Proof.
  move=> Ha a0; apply: (mulfI (phi_neq0 a Ha a0)); rewrite mulr1 -exprS.
  rewrite (_ : h.+1 = #|{: qf g}|); first exact: expf_card.
  by rewrite card_q; have := two_q; lia.
Qed.

(** ** Tables of logarithms *)
Section Tab.
Variable z : qf g.
Hypothesis pz : h.-primitive_root z.
Variable e : nat -> N.
Hypothesis he : forall i, (i < h)%N -> (e i < q)%num /\ phi (e i) = z ^+ i.
Lemma e_inj i j : (i < h)%N -> (j < h)%N -> e i = e j -> i = j.
Proof.
  move=> Hi Hj E; have [_ Ei] := he i Hi; have [_ Ej] := he j Hj.
  have : z ^+ i == z ^+ j by rewrite -Ei -Ej E.
  by rewrite (eq_prim_root_expr pz) !modn_small // => /eqP.
Qed.
Lemma e_surj a : (a < q)%num -> a <> 0%num -> exists i, (i < h)%N /\ a = e i.
Proof.
  move=> Ha a0; have [i Ei] := prim_rootP pz (fermat_phi a Ha a0); exists i; split=> //.
  have [H1 H2] := he i (ltn_ord i); by apply: phi_inj => //; rewrite H2 Ei.
Qed.

Variable X : bin_ext.
Hypothesis Xc : x_card X = q.
Hypothesis Xw : (n < x_w X)%num.
Hypothesis Xt : forall i, (i < h)%N ->
   List.nth_error (x_log X) (N.to_nat (e i)) = Some (N.of_nat i) /\ List.nth_error (x_ilog X) i = Some (e i).

Lemma zh : z ^+ h = 1. Proof. exact: prim_expr_order. Qed.

Lemma mul_log_spec a b : (a < q)%num -> (b < q)%num ->
  exists r, mul_log X a b = Some r /\ (r < q)%num /\ phi r = phi a * phi b.
Proof.
  move=> Ha Hb; rewrite /mul_log.
  case: N.eqb_spec => [->|a0] /=; first by exists 0%num; rewrite phi_0 mul0r; split=> //; split=> //; have := two_q; lia.
  case: N.eqb_spec => [->|b0] /=; first by exists 0%num; rewrite phi_0 mulr0; split=> //; split=> //; have := two_q; lia.
  have [i [Hi Ei]] := e_surj a Ha a0; have [j [Hj Ej]] := e_surj b Hb b0; subst a b.
  have [_ Pi] := he i Hi; have [_ Pj] := he j Hj.
  have [-> _] := Xt i Hi; have [-> _] := Xt j Hj; rewrite Xc.
  have w2 : (2 * q <= 2 ^ x_w X)%num.
    by rewrite -N.pow_succ_r'; apply: N.pow_le_mono_r; lia.
  rewrite wrap_lt; last by lia.
  rewrite Pi Pj -exprD; case: N.leb_spec => Hl.
  - have Hr : (i + j - h < h)%N by lia.
    have [Q1 Q2] := he _ Hr; have [_ R] := Xt _ Hr; exists (e (i + j - h)%N).
    rewrite (_ : N.to_nat _ = (i + j - h)%N); last by lia.
    split=> //; split=> //; rewrite Q2 -[LHS]mulr1 -zh -exprD; congr (_ ^+ _); lia.
  - have Hr : (i + j < h)%N by lia.
    have [Q1 Q2] := he _ Hr; have [_ R] := Xt _ Hr; exists (e (i + j)%N).
    by rewrite (_ : N.to_nat _ = (i + j)%N); last by lia.
Qed.
Lemma div_log_spec a b : (a < q)%num -> (b < q)%num -> b <> 0%num ->
  exists r, div_log X a b = Some r /\ (r < q)%num /\ phi r = phi a / phi b.
Proof.
  move=> Ha Hb b0; rewrite /div_log.
  case: N.eqb_spec => [->|a0]; first by exists 0%num; rewrite phi_0 mul0r; split=> //; split=> //; have := two_q; lia.
  case: N.eqb_spec => [//|_].
  have [i [Hi Ei]] := e_surj a Ha a0; have [j [Hj Ej]] := e_surj b Hb b0; subst a b.
  have [_ Pi] := he i Hi; have [_ Pj] := he j Hj.
  have [-> _] := Xt i Hi; have [-> _] := Xt j Hj; rewrite Xc.
  have z0 : z ^+ j != 0 by rewrite -Pj phi_neq0 //; case: (he j Hj).
  cbv zeta; case: (Z.ltb_spec (Z.of_N (N.of_nat i) - Z.of_N (N.of_nat j))%Z 0) => Hl.
  - have Hr : (i + h - j < h)%N by lia.
    have [Q1 Q2] := he _ Hr; have [_ R] := Xt _ Hr; exists (e (i + h - j)%N).
    case: Z.ltb_spec => Hl2; first by lia.
    rewrite (_ : Z.to_nat _ = (i + h - j)%N); last by lia.
    split=> //; split=> //; rewrite Q2 Pi Pj; apply: (mulIf z0); rewrite mulfVK // -exprD.
    by rewrite -[RHS]mulr1 -zh -exprD; congr (_ ^+ _); lia.
  - have Hr : (i - j < h)%N by lia.
    have [Q1 Q2] := he _ Hr; have [_ R] := Xt _ Hr; exists (e (i - j)%N).
    case: Z.ltb_spec => Hl2; first by lia.
    rewrite (_ : Z.to_nat _ = (i - j)%N); last by lia.
    split=> //; split=> //; rewrite Q2 Pi Pj; apply: (mulIf z0); rewrite mulfVK // -exprD.
    by congr (_ ^+ _); lia.
Qed.
End Tab.

(** ** The operations, once products and inverses are right *)
Section Ops.
Variable X : bin_ext.
Hypothesis Xchk : forall a, x_check X a = (a <? q)%num.
Hypothesis Xmul : forall a b, (a < q)%num -> (b < q)%num ->
  exists r, x_mul X a b = Some r /\ (r < q)%num /\ phi r = phi a * phi b.
Hypothesis Xinv : forall a, (a < q)%num -> a <> 0%num ->
  exists r, x_inv X a = Some r /\ (r < q)%num /\ phi r = (phi a)^-1.
Hypothesis Xc1 : x_card_minus_one X = (q - 1)%num.

Lemma chk a : (a < q)%num -> x_check X a = true.
Proof. by move=> Ha; rewrite Xchk; apply/N.ltb_spec0. Qed.

Lemma add_spec a b : (a < q)%num -> (b < q)%num -> x_add X a b = Some (N.lxor a b).
Proof. by move=> Ha Hb; rewrite /x_add !chk. Qed.

Lemma exp_pos_spec a e : (a < q)%num -> exists r, x_exp_pos X a e = Some r /\ (r < q)%num /\ phi r = phi a ^+ Pos.to_nat e.
Proof.
  move=> Ha; elim: e => [e [t [Et [Ht Pt]]]|e [t [Et [Ht Pt]]]|]; cbn [x_exp_pos].
  - rewrite Et; have [u [-> [Hu Pu]]] := Xmul t t Ht Ht; have [v [-> [Hv Pv]]] := Xmul u a Hu Ha.
    exists v; split=> //; split=> //; rewrite Pv Pu Pt -exprD -exprSr; congr (_ ^+ _); lia.
  - rewrite Et; have [u [-> [Hu Pu]]] := Xmul t t Ht Ht.
    exists u; split=> //; split=> //; rewrite Pu Pt -exprD; congr (_ ^+ _); lia.
  - by exists a; rewrite expr1.
Qed.
Lemma exp_spec a e : (a < q)%num -> (e < q)%num ->
  exists r, x_exp X a e = Some r /\ (r < q)%num /\ phi r = phi a ^+ N.to_nat e.
Proof.
  move=> Ha He; rewrite /x_exp !chk //=; case: e He => [|e] He; last exact: exp_pos_spec.
  by exists 1%num; rewrite phi_1 expr0; split=> //; split=> //; exact: two_q.
Qed.

Theorem bin_pres : gf_pres (qf_fieldType g) (bin_ops X) phi.
Proof.
  have cq : g_card (bin_ops X) = q by rewrite /= Xc1; have := two_q; lia.
  have z0 : (0 < q)%num by have := two_q; lia.
  split; rewrite /gvalid ?cq.
  - exact: two_q.
  - exact: phi_inj.
  - exact: phi_0.
  - exact: phi_1.
  - by move=> a b Ha Hb; rewrite /= add_spec //=; split; [exact: xor_lt|exact: phi_xor].
  - by move=> a b Ha Hb; rewrite /= /x_sub add_spec //=; split; [exact: xor_lt|rewrite phi_xor phi_opp].
  - by move=> a b Ha Hb; have [r [E H]] := Xmul a b Ha Hb; rewrite /= E.
  - by move=> a Ha; rewrite /= /x_neg /x_sub add_spec // phi_opp [odef _]/=.
  - by move=> a Ha a0; have [r [E H]] := Xinv a Ha a0; rewrite /= E.
  - by move=> a e Ha He; have [r [E H]] := exp_spec a e Ha He; rewrite /= E.
Qed.

(** ** Discrete logarithms *)
Hypothesis Xcard : (q - 1 <= x_card X)%num.
Lemma log_loop_spec a b fuel : forall result tmp, (a < q)%num -> (tmp < q)%num -> phi tmp = phi a ^+ N.to_nat result ->
  (x_card X < result + N.of_nat fuel)%num -> (0 < fuel)%N ->
  exists o, x_log_loop X a b fuel result tmp = Some o /\
    match o with
    | Some r => (b < q)%num /\ phi a ^+ N.to_nat r = phi b /\ (result <= r)%num /\
        (forall i, (result <= i < r)%num -> phi a ^+ N.to_nat i <> phi b)
    | None => (b < q)%num -> forall i, (result <= i < x_card X)%num -> phi a ^+ N.to_nat i <> phi b
    end.
Proof.
  elim: fuel => [//|f IH] result tmp Ha Ht Et Hf _; cbn [x_log_loop].
  case: N.ltb_spec => Hc; last by exists None; split=> // _ i; lia.
  case: N.eqb_spec => [Eb|ne].
    by exists (Some result); split=> //; rewrite -Eb -Et; split=> //; split=> //; split; [lia|move=> i; lia].
  have [t' [-> [Ht' Et']]] := Xmul tmp a Ht Ha.
  have nb : (b < q)%num -> phi a ^+ N.to_nat result <> phi b by move=> Hb; rewrite -Et => /phi_inj E; apply: ne; apply: E.
  have [] := IH (result + 1)%num t' Ha Ht'.
  - by rewrite Et' Et -exprSr; congr (_ ^+ _); lia.
  - lia.
  - case: f IH Hf => // _; lia.
  case=> [r [-> [Hb [E1 [E2 E3]]]]|[-> H]].
  - exists (Some r); split=> //; split=> //; split=> //; split; first by lia.
    move=> i Hi; case: (N.eq_dec i result) => [->|ni]; [exact: nb|apply: E3; lia].
  - exists None; split=> // Hb i Hi; case: (N.eq_dec i result) => [->|ni]; [exact: nb|apply: H => //; lia].
Qed.
Theorem logarithm_spec a b : (a < q)%num -> (b < q)%num -> (1 < x_card X)%num ->
  exists o, x_logarithm X a b = Some o /\
    match o with
    | Some r => phi a ^+ N.to_nat r = phi b /\ (forall i, (i < N.to_nat r)%N -> phi a ^+ i <> phi b)
    | None => forall i : nat, phi a ^+ i <> phi b
    end.
Proof.
  move=> Ha Hb c0; rewrite /x_logarithm chk //; case: N.eqb_spec => [->|b1].
    by exists (Some 0%num); split=> //; rewrite phi_1 expr0.
  have b1' : phi b <> 1 by rewrite -phi_1 => /phi_inj E; apply: b1; apply: E => //; exact: two_q.
  have [|||o [-> H]] := log_loop_spec a b (N.to_nat (x_card X)) 1 a Ha Ha; [by rewrite expr1|lia|lia|].
  exists o; split=> //; case: o H => [r [_ [E1 [E2 E3]]]|H].
  - split=> // i Hi; case: i Hi => [|i] Hi; first by rewrite expr0 => /esym.
    by have := E3 (N.of_nat i.+1); rewrite Nat2N.id; apply; lia.
  - move=> i Ei; have {}H := H Hb.
    case: (N.eq_dec a 0) => [a0|a0].
      move: Ei; rewrite a0 phi_0; case: i => [|i]; first by rewrite expr0 => /esym.
      rewrite exprS mul0r -phi_0 => /phi_inj E; move: b1' H; rewrite -(E ltac:(lia) Hb) a0 => _ H.
      by apply: (H 1%num); [lia|rewrite phi_0 expr1].
    set o := (i %% h)%N.
    have Eo : phi a ^+ o = phi b by rewrite -Ei (divn_eq i h) exprD mulnC exprM fermat_phi // expr1n mul1r.
    have oh : (o < h)%N by rewrite ltn_mod; have := two_q; lia.
    case: (posnP o) => [o0|o0]; first by move: Eo; rewrite o0 expr0 => /esym.
    by apply: (H (N.of_nat o)); [lia|rewrite Nat2N.id].
Qed.
End Ops.
End F.
