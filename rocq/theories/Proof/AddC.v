(** The code with the additive transform: encoding, context and decoding. *)
Set Warnings "-notation-overridden,-ambiguous-paths".
From Coq Require Import NArith ZArith Arith.
From Coq Require List.
From Verif.Model Require Import Common Arith Ring Poly Views Gf2n Additive Fnt AddCode.
From Verif.Proof Require Import ListP.
From mathcomp Require Import all_ssreflect ssralg finalg poly.
From mathcomp Require Import zify.
From Verif.Spec Require Import Additive.
From Verif.Proof Require Import Pres Radix2P PolyP Interp InterpZ AddL AddT AddY.
Import GRing.Theory.
Local Open Scope ring_scope.
Notation lnth := List.nth.

(** The product of the [X - x_i]. *)
Section CtxA.
Variables (F : fieldType) (G : gfops) (phi : N -> F).
Hypothesis P : gf_pres F G phi.

Lemma ctx_A_gen n vx m (xs : nat -> F) : (m < n)%N -> List.length vx = m ->
  (forall i, (i < m)%N -> gvalid G (lnth i vx 0%num) /\ phi (lnth i vx 0%num) = xs i) ->
  exists q, [/\ ctx_A G n vx = Some q, pol F G phi q (Apoly F xs m), p_deg q = Z.of_nat m & List.length (p_buf q) = n].
Proof.
rewrite /ctx_A; elim: m vx => [|m IH] vx Hm Hl Hx.
  case: vx Hl Hx => // _ _; have n0 : (0 < n)%N by lia.
  have [q [E Hq Hd HL]] := pol_one F G phi P n n0.
  by exists q; split => //=; rewrite /Apoly big_ord0.
have Ex := firstn_last _ 0%num m vx Hl.
rewrite Ex List.fold_left_app /=.
have Hlm : List.length (List.firstn m vx) = m by rewrite List.firstn_length Hl; clear; lia.
have Hnf i : (i < m)%N -> lnth i (List.firstn m vx) 0%num = lnth i vx 0%num.
  by move=> Hi; rewrite nth_firstn; case: Nat.ltb_spec => //; lia.
have [q [E Hq Hd HL]] := IH (List.firstn m vx) ltac:(lia) Hlm ltac:(by move=> i Hi; rewrite Hnf //; apply: Hx; lia).
rewrite E; have [Vx Exm] := Hx m ltac:(lia).
have [Vc Ec] := gp_sub _ _ _ P 0%num _ (gvalid0 F G phi P) Vx.
have sA : size (Apoly F xs m) = m.+1 by rewrite size_Apoly.
have [q' [E' Hq' Hd' HL']] := mulXc_spec F G phi P q _ m _ Hq Hd sA ltac:(by rewrite HL; lia) Vc.
exists q'; split=> //; last by rewrite HL'.
by move: Hq'; rewrite Ec (gp_0 _ _ _ P) sub0r Exm polyCN /Apoly big_ord_recr.
Qed.
End CtxA.

Section Generic.
Variables (F : finFieldType) (G : gfops) (phi : N -> F).
Hypothesis P : gf_pres F G phi.

(** The index of the point that is zero, when there is at most one. *)
Definition zt (z : option nat) (i : nat) : bool := match z with Some j => Nat.eqb i j | None => false end.

Lemma find_zero_spec vx : (forall i j, (i < size vx)%N -> (j < size vx)%N -> lnth i vx 0%num = lnth j vx 0%num -> i = j) ->
  (forall i, (i < size vx)%N -> zt (find_zero vx) i = (lnth i vx 0 =? 0)%num) /\
  (forall j, find_zero vx = Some j -> (j < size vx)%N).
Proof.
move=> inj; rewrite /find_zero -[length vx]/(size vx).
set f := fun z i => _.
suff H m : (m <= size vx)%N -> let z := List.fold_left f (List.seq 0 m) None in
    (forall i, (i < m)%N -> zt z i = (lnth i vx 0 =? 0)%num) /\ (forall j, z = Some j -> (j < m)%N /\ lnth j vx 0%num = 0%num).
  by have [H1 H2] := H _ (leqnn _); split=> // j /H2 [].
elim: m => [|m IH] Hm; first by split.
have [I1 I2] := IH (ltnW Hm); cbv zeta; rewrite List.seq_S List.fold_left_app -[(0 + m)%coq_nat]/m [List.fold_left f [:: m] _]/= {1 3}/f.
rewrite /get; case: N.eqb_spec => E; split.
- move=> i Hi; rewrite /zt; case: Nat.eqb_spec => [->|ne]; first by rewrite E.
  case: N.eqb_spec => // E'; case: ne; apply: inj; [lia|lia|by rewrite E E'].
- by move=> j [<-].
- move=> i; rewrite ltnS leq_eqVlt => /orP [/eqP ->|]; last exact: I1.
  case: N.eqb_spec => // _; move: I2; case: (List.fold_left _ _ _) => [j|] //= I2.
  by have [Hj _] := I2 j erefl; case: Nat.eqb_spec Hj => [->|//]; rewrite ltnn.
- by move=> j /I2 [Hj ->]; split=> //; lia.
Qed.

(** The coefficients of the series. *)
Lemma series_spec k z vx ns j (x y : nat -> F) : (N.of_nat j < g_card G)%num ->
  (forall i, (i < k)%N -> gvalid G (lnth i vx 0%num) /\ phi (lnth i vx 0%num) = x i) ->
  (forall i, (i < k)%N -> gvalid G (lnth i ns 0%num) /\ phi (lnth i ns 0%num) = y i) ->
  (forall i, (i < k)%N -> zt z i = (x i == 0)) ->
  gvalid G (series_coef G k z vx ns j) /\ phi (series_coef G k z vx ns j) = \sum_(i < k | x i != 0) y i * ((x i) ^+ j)^-1.
Proof.
move=> Hj Hx Hn Hz; rewrite /series_coef.
set f := fun val i => _.
suff H m : (m <= k)%N -> let s := List.fold_left f (List.seq 0 m) 0%num in
    gvalid G s /\ phi s = \sum_(i < m | x i != 0) y i * ((x i) ^+ j)^-1 by exact: (H k (leqnn k)).
elim: m => [|m IH] Hm; first by rewrite big_ord0 /=; split; [exact: (gvalid0 F G phi P)|exact: (gp_0 _ _ _ P)].
have [I1 I2] := IH (ltnW Hm); cbv zeta; rewrite List.seq_S List.fold_left_app -[(0 + m)%coq_nat]/m [List.fold_left f [:: m] _]/= {1 3}/f.
rewrite -/(zt z m) Hz // big_mkcond big_ord_recr -big_mkcond /=.
case: eqP => [_|/eqP xm]; first by rewrite addr0.
have [V1 E1] := Hx m Hm; have [V2 E2] := Hn m Hm.
have [V3 E3] := gp_exp _ _ _ P _ _ V1 Hj.
have nz : g_exp G (lnth m vx 0%num) (N.of_nat j) <> 0%num.
  by move=> E0; move: E3; rewrite E0 (gp_0 _ _ _ P) E1 => /esym/eqP; rewrite expf_eq0 (negbTE xm) andbF.
have [V4 E4] := gp_inv _ _ _ P _ V3 nz.
have [V5 E5] := gp_mul _ _ _ P _ _ V2 V4.
have [V6 E6] := gp_add _ _ _ P _ _ I1 V5.
by rewrite /get; split=> //; rewrite E6 I2 E5 E4 E3 E2 E1 Nnat.Nat2N.id.
Qed.

(** Setting all the coefficients of a polynomial, whatever it held. *)
Lemma set_all k (val : nat -> N) (B : {poly F}) S : List.length (p_buf S) = k ->
  (forall j, (j < k)%N -> gvalid G (val j) /\ phi (val j) = B`_j) -> (size B <= k)%N ->
  exists S1, [/\ List.fold_left (fun o j => oset G o j (fun _ => val j)) (List.seq 0 k) (Some S) = Some S1,
    List.length (p_buf S1) = k, pol F G phi S1 B & (size B <= Z.to_nat (p_deg S1 + 1))%N].
Proof.
move=> HS Hv sB.
pose f (o : option Poly.poly) (j : nat) : option Poly.poly := oset G o j (fun _ => val j).
rewrite -[List.fold_left _ _ _]/(List.fold_left f (List.seq 0 k) (Some S)).
suff H m : (m <= k)%N -> exists S1, [/\ List.fold_left f (List.seq 0 m) (Some S) = Some S1, List.length (p_buf S1) = k,
    forall j, (j < m)%N -> lnth j (p_buf S1) 0%num = val j & forall j, (j < m)%N -> B`_j != 0 -> (Z.of_nat j <= p_deg S1)%Z].
  have [S1 [E1 L1 R1 D1]] := H k (leqnn k); exists S1; split=> //.
    move=> i; case: (ltnP i k) => Hi; first by rewrite R1 //; exact: Hv.
    rewrite List.nth_overflow; last by rewrite L1; lia.
    by split; [exact: (gvalid0 F G phi P)|rewrite (gp_0 _ _ _ P) nth_default //; exact: leq_trans Hi].
  case: (posnP (size B)) => [->//|s0].
  have := D1 (size B).-1 ltac:(lia); rewrite -lead_coefE lead_coef_eq0 -size_poly_eq0 => /(_ ltac:(by rewrite -lt0n)); lia.
elim: m => [|m IH] Hm; first by exists S; split.
have [S1 [E1 L1 R1 D1]] := IH (ltnW Hm).
have [Vm Em] := Hv m Hm.
rewrite List.seq_S List.fold_left_app -[(0 + m)%coq_nat]/m E1 /= /poly_set L1.
have -> : Nat.ltb m k by case: Nat.ltb_spec => //; lia.
have -> : (val m <? g_card G)%num by case: N.ltb_spec => //; move: Vm; rewrite /gvalid; lia.
eexists; split; first reflexivity; rewrite /=.
- by rewrite set_length.
- move=> j; rewrite ltnS leq_eqVlt => /orP [/eqP ->|Hj]; first by rewrite nth_set_eq // L1; lia.
  by rewrite nth_set_neq ?R1 //; lia.
- have nzE : B`_m != 0 -> (0 <? val m)%num.
    move=> nz; case: N.ltb_spec => // v0; move: nz; rewrite -Em; have -> : val m = 0%num by lia.
    by rewrite (gp_0 _ _ _ P) eqxx.
  move=> j; rewrite ltnS leq_eqVlt => /orP [/eqP ->|Hj] nz.
    by rewrite nzE // andbT; case: Z.ltb_spec => H; lia.
  by have := D1 j Hj nz; case: Z.ltb_spec => H /=; [case: ifP|]; lia.
Qed.

(** The last step: adding [n_z A / X]. *)
Lemma add_shift k (v : N) (A : list N) (R : nat -> F) (c : F) (a : nat -> F) S : List.length (p_buf S) = k ->
  (forall j, (j < k)%N -> gvalid G (lnth j (p_buf S) 0%num) /\ phi (lnth j (p_buf S) 0%num) = R j) ->
  (forall j, gvalid G (lnth j A 0%num) /\ phi (lnth j A 0%num) = a j) -> gvalid G v -> phi v = c ->
  exists S1, [/\ List.fold_left (fun o i => oset G o (i - 1)%coq_nat
      (fun q => g_add G (get 0%num (p_buf q) (i - 1)%coq_nat) (g_mul G v (get 0%num A i)))) (List.seq 1 k) (Some S) = Some S1,
    List.length (p_buf S1) = k &
    forall j, (j < k)%N -> gvalid G (lnth j (p_buf S1) 0%num) /\ phi (lnth j (p_buf S1) 0%num) = R j + c * a j.+1].
Proof.
move=> HS HR HA Vv Ev.
pose f (o : option Poly.poly) (i : nat) : option Poly.poly := oset G o (i - 1)%coq_nat
  (fun q => g_add G (get 0%num (p_buf q) (i - 1)%coq_nat) (g_mul G v (get 0%num A i))).
rewrite -[List.fold_left _ _ _]/(List.fold_left f (List.seq 1 k) (Some S)).
suff H m : (m <= k)%N -> exists S1, [/\ List.fold_left f (List.seq 1 m) (Some S) = Some S1, List.length (p_buf S1) = k &
    forall j, (j < k)%N -> gvalid G (lnth j (p_buf S1) 0%num) /\
       phi (lnth j (p_buf S1) 0%num) = R j + (if (j < m)%N then c * a j.+1 else 0)].
  by have [S1 [E1 L1 R1]] := H k (leqnn k); exists S1; split=> // j Hj; have := R1 j Hj; rewrite Hj.
elim: m => [|m IH] Hm; first by exists S; split=> // j Hj; rewrite addr0; exact: HR.
have [S1 [E1 L1 R1]] := IH (ltnW Hm).
rewrite List.seq_S List.fold_left_app E1 /= Nat.sub_0_r.
have [Vm Em] := R1 m Hm; have [Va Ea] := HA m.+1.
have [V1 E2] := gp_mul _ _ _ P _ _ Vv Va.
have [V3 E3] := gp_add _ _ _ P _ _ Vm V1.
rewrite /poly_set L1 /get.
have -> : Nat.ltb m k by case: Nat.ltb_spec => //; lia.
set nv := g_add _ _ _ in V3 E3 *.
have -> : (nv <? g_card G)%num by case: N.ltb_spec => //; move: V3; rewrite /gvalid; lia.
eexists; split; first reflexivity; rewrite /=.
- by rewrite set_length.
- move=> j Hj; case: (eqVneq j m) => [->|ne].
    by rewrite ltnSn nth_set_eq ?L1; [split=> //; rewrite E3 Em ltnn addr0 E2 Ev Ea|lia].
  rewrite nth_set_neq; last by move/eqP: ne.
  have -> : (j < m.+1)%N = (j < m)%N by rewrite ltnS leq_eqVlt (negbTE ne).
  exact: R1.
Qed.

(** ** A code whose transform evaluates at its points *)
Hypothesis ch2 : forall u : F, u + u = 0.
Variables (junk : N) (c : acode) (pt : nat -> F).
Notation k := (a_k c).
Notation n := (a_n c).
Record acode_ok : Prop := mkAcodeOk {
  ao_G : a_G c = G;
  ao_k : (0 < k < n)%N;
  ao_n : (N.of_nat n <= g_card G)%num;
  ao_pts : forall i, (i < n)%N -> gvalid G (lnth i (a_pts c) 0%num) /\ phi (lnth i (a_pts c) 0%num) = pt i;
  ao_inj : forall i j, (i < n)%N -> (j < n)%N -> pt i = pt j -> i = j;
  ao_fft : forall out l, size out = n -> size l = n -> vok G l ->
    exists o, [/\ add_fft G junk (a_fft c) out l = Some o, size o = n, vok G o &
                  forall i, (i < n)%N -> cf F phi o i = (poly_of F phi n l).[pt i]];
  ao_len : exists l2, ring_code_len_high_compo (a_w c) (g_card G) (2 * N.of_nat k) = Some l2;
}.
Hypothesis ok : acode_ok.

Lemma oppr2 (u : F) : - u = u.
Proof. by apply/eqP; rewrite eq_sym -subr_eq0 opprK ch2. Qed.
Lemma natr2 i : phi (N.of_nat i mod 2)%num = i%:R.
Proof.
have H2 : 2%:R = 0 :> F by rewrite mulr2n ch2.
rewrite (divn_eq i 2) natrD natrM H2 mulr0 add0r.
have -> : (N.of_nat (i %/ 2 * 2 + i %% 2) mod 2)%num = N.of_nat (i %% 2).
  by have := divn_eq i 2; move: (ltn_pmod i (isT : 0 < 2)%N) => Hr E; rewrite -E; lia.
by case: (i %% 2)%N (ltn_pmod i (isT : 0 < 2)%N) => [|[|]] // _; rewrite ?(gp_0 _ _ _ P) ?(gp_1 _ _ _ P).
Qed.

Lemma encode_ok out words : size out = n -> size words = k -> vok G words ->
  exists cw, [/\ aencode junk c out words = Some cw, size cw = n, vok G cw &
    forall i, (i < n)%N -> cf F phi cw i = (poly_of F phi k words).[pt i]].
Proof.
move=> So Sw Vw; rewrite /aencode (ao_G ok) -[length _]/(size _) Sw.
set l := List.app _ _.
have Hk := ao_k ok.
have Al i : lnth i l 0%num = lnth i words 0%num.
  rewrite /l; case: (ltnP i k) => Hi; first by rewrite List.app_nth1 // -[length _]/(size _) Sw; lia.
  rewrite List.app_nth2 -[length _]/(size _) Sw; last by lia.
  by rewrite List.nth_repeat List.nth_overflow // -[length _]/(size _) Sw; lia.
have Sl : size l = n.
  rewrite /l -[size _]/(length _) List.app_length -![length _]/(size _) Sw; have -> : forall (m : nat), size (List.repeat 0%num m) = m by elim=> //= m ->.
  by lia.
have Vl : vok G l by move=> i; rewrite /at_ /get Al; exact: Vw.
have [o [E1 S1 V1 R1]] := ao_fft ok out l So Sl Vl.
exists o; split=> // i Hi; rewrite R1 //; congr (_.[_]).
apply/polyP => j; rewrite !coef_poly /cf Al.
case: (ltnP j n) => Hj; case: (ltnP j k) => Hj' //; last by lia.
by rewrite List.nth_overflow ?(gp_0 _ _ _ P) // -[length _]/(size _) Sw; lia.
Qed.

Variable ids : list nat.
Hypothesis Hl : size ids = k.
Hypothesis ND : List.NoDup ids.
Hypothesis Hb : forall i, List.In i ids -> (i < n)%N.
Definition xp (i : nat) : F := pt (lnth i ids 0%N).

Lemma id_lt i : (i < k)%N -> (lnth i ids 0%N < n)%N.
Proof. by move=> Hi; apply: Hb; apply: List.nth_In; rewrite -[length _]/(size _) Hl; lia. Qed.
Lemma xp_inj i j : (i < k)%N -> (j < k)%N -> xp i = xp j -> i = j.
Proof.
move=> Hi Hj E; have E' := ao_inj ok _ _ (id_lt i Hi) (id_lt j Hj) E.
by apply: (proj1 (List.NoDup_nth ids 0%N) ND); rewrite -?[length _]/(size _) ?Hl; lia.
Qed.
Notation vx := (List.map (get 0%num (a_pts c)) ids).
Lemma vx_ok i : (i < k)%N -> gvalid G (lnth i vx 0%num) /\ phi (lnth i vx 0%num) = xp i.
Proof.
move=> Hi; rewrite (List.nth_indep _ 0%num (get 0%num (a_pts c) 0%N)); last first.
  by rewrite List.map_length -[length _]/(size _) Hl; lia.
by rewrite List.map_nth; apply: (ao_pts ok); exact: id_lt.
Qed.
Lemma vx_size : size vx = k.
Proof. by rewrite -[size _]/(length _) List.map_length. Qed.
Lemma zero_ok : (forall i, (i < k)%N -> zt (find_zero vx) i = (xp i == 0)) /\ (forall j, find_zero vx = Some j -> (j < k)%N).
Proof.
have [|H1 H2] := find_zero_spec vx.
  rewrite vx_size => i j Hi Hj E; apply: xp_inj => //.
  by rewrite -(proj2 (vx_ok i Hi)) -(proj2 (vx_ok j Hj)) E.
rewrite vx_size in H1 H2; split=> // i Hi; rewrite H1 //.
have [V E] := vx_ok i Hi; by rewrite -E (phi_eq0 F G phi P _ V).
Qed.

Notation A := (Apoly F xp k).
Record actx_ok (x : actx) : Prop := mkActxOk {
  xo_ids : ax_ids x = ids;
  xo_zero : ax_zero x = find_zero vx;
  xo_A : [/\ pol F G phi (ax_A x) A, p_deg (ax_A x) = Z.of_nat k & List.length (p_buf (ax_A x)) = n];
  xo_inv : forall i, (i < k)%N -> gvalid G (lnth i (ax_inv x) 0%num) /\
    phi (lnth i (ax_inv x) 0%num) = if xp i == 0 then ((deriv A).[xp i])^-1 else ((deriv A).[xp i] * xp i)^-1;
}.

Theorem actx_new_ok out : size out = n -> exists x, actx_new junk c ids out = Some x /\ actx_ok x.
Proof.
move=> So; rewrite /actx_new (ao_G ok); have [l2 ->] := ao_len ok.
have /andP [k0 kn] := ao_k ok.
have [q [EA HA DA LA]] := ctx_A_gen F G phi P n vx k xp kn vx_size vx_ok.
rewrite EA.
have gc : (0 < 2 <= g_card G)%num.
  by have := ao_n ok; have := ao_k ok; lia.
have [A' [EA' HA' _ LA']] := deriv_spec F G phi P q _ k 2 HA DA (size_Apoly _ _ _) ltac:(by rewrite LA; exact: kn) gc natr2.
rewrite EA'.
have [o [Eo So' Vo Ro]] := ao_fft ok out (p_buf A') So ltac:(by rewrite -[size _]/(length _) LA') (fun i => proj1 (HA' i)).
rewrite Eo; eexists; split; first reflexivity.
have [Z1 Z2] := zero_ok.
split=> //= i Hi; rewrite nth_map_seq; last by lia.
rewrite -/(zt (find_zero vx) i) Z1 //.
have Hv : gvalid G (get 0%num o (get 0%N ids i)) /\ phi (get 0%num o (get 0%N ids i)) = (deriv A).[xp i].
  split; first exact: Vo.
  rewrite -[phi _]/(cf F phi o (get 0%N ids i)) Ro; last exact: id_lt.
  congr (_.[_]); apply/polyP => j; rewrite coef_poly /cf (proj2 (HA' j)); case: ltnP => // Hj.
  rewrite nth_default //; apply: leq_trans Hj; apply: leq_trans (ltnW kn).
  by rewrite -ltnS -(size_Apoly F xp k) lt_size_deriv // -size_poly_eq0 size_Apoly.
have [V1 E1] := Hv; have [V2 E2] := vx_ok i Hi; have [V3 E3] := gp_mul _ _ _ P _ _ V1 V2.
have nzA : (deriv A).[xp i] != 0 by rewrite -(Acof_val F k xp (Ordinal Hi)); exact: (Acof_neq0 F k xp xp_inj (Ordinal Hi)).
case: eqP => [_|/eqP nz].
  have n0 : get 0%num o (get 0%N ids i) <> 0%num by move=> E0; move: nzA; rewrite -E1 E0 (gp_0 _ _ _ P) eqxx.
  by have [V4 E4] := gp_inv _ _ _ P _ V1 n0; rewrite E4 E1.
have n0 : g_mul G (get 0%num o (get 0%N ids i)) (lnth i vx 0%num) <> 0%num.
  by move=> E0; move: E3; rewrite E0 (gp_0 _ _ _ P) E1 E2 => /esym/eqP; rewrite mulf_eq0 (negbTE nzA) (negbTE nz).
by have [V4 E4] := gp_inv _ _ _ P _ V3 n0; rewrite E4 E3 E1 E2.
Qed.

Theorem decode_ok x S (Q : {poly F}) words : actx_ok x -> List.length (p_buf S) = k -> (size Q <= k)%N ->
  (forall i, (i < k)%N -> gvalid G (lnth i words 0%num) /\ phi (lnth i words 0%num) = Q.[xp i]) ->
  exists S' out, [/\ adecode c x S words = Some (S', out), List.length (p_buf S') = k, size out = k &
    forall i, (i < k)%N -> gvalid G (lnth i out 0%num) /\ phi (lnth i out 0%num) = Q`_i].
Proof.
move=> [Xi Xz [HA DA LA] Xv] LS sQ Hw; rewrite /adecode (ao_G ok) Xi.
have /andP [k0 kn] := ao_k ok.
set ns := List.fold_left _ _ (List.repeat _ _).
have Rns i : (i < k)%N -> gvalid G (lnth i ns 0%num) /\
    phi (lnth i ns 0%num) = Q.[xp i] * (if xp i == 0 then ((deriv A).[xp i])^-1 else ((deriv A).[xp i] * xp i)^-1).
  move=> Hi; have [_ /(_ i) [H1 _]] := fold_set_fill N 0%num (fun i => g_mul G (get 0%num words i) (get 0%num (ax_inv x) i)) (List.seq 0 k) (List.repeat 0%num n).
  rewrite /ns H1 ?List.in_seq ?List.repeat_length; [|lia|lia].
  have [V1 E1] := Hw i Hi; have [V2 E2] := Xv i Hi; have [V3 E3] := gp_mul _ _ _ P _ _ V1 V2.
  by rewrite /get; split=> //; rewrite E3 E1 E2.
have [Z1 Z2] := zero_ok.
pose y i := Q.[xp i] * (if xp i == 0 then ((deriv A).[xp i])^-1 else ((deriv A).[xp i] * xp i)^-1).
pose B : {poly F} := Qz F k xp (fun i => Q.[xp i]).
have [S1 [E1 L1 R1 D1]] := set_all k (fun j => series_coef G k (ax_zero x) vx ns j) B S LS
  ltac:(move=> j Hj; have [||||V E] := series_spec k (ax_zero x) vx ns j xp y;
     [have := ao_n ok; lia | exact: vx_ok | exact: Rns | by rewrite Xz | split=> //; rewrite E /B /Qz coef_poly Hj;
      apply: eq_bigr => i nz; rewrite /y (negbTE nz) //]) (size_poly _ _).
rewrite E1.
have [S2 [E2 D2 L2 R2 _]] := polymul_spec F G phi P S1 (ax_A x) B A (k - 1)%coq_nat R1 HA D1 ltac:(rewrite L1; lia) ltac:(rewrite LA; lia).
rewrite E2.
have ID j : (j < k)%N -> (B * A)`_j + \sum_(i < k | xp i == 0) (Q.[xp i] / (deriv A).[xp i]) * A`_j.+1 = Q`_j.
  by move=> Hj; rewrite -(decode_identity_zero F k xp k0 xp_inj Q j sQ Hj) oppr2.
have fin S3 : List.length (p_buf S3) = k ->
   (forall i, (i < k)%N -> gvalid G (lnth i (p_buf S3) 0%num) /\ phi (lnth i (p_buf S3) 0%num) = Q`_i) ->
   exists S' out, [/\ Some (S3, List.map (get 0%num (p_buf S3)) (List.seq 0 k)) = Some (S', out), List.length (p_buf S') = k, size out = k &
    forall i, (i < k)%N -> gvalid G (lnth i out 0%num) /\ phi (lnth i out 0%num) = Q`_i].
  move=> L3 R3; eexists; eexists; split; [reflexivity|by []| |].
    by rewrite -[size _]/(length _) List.map_length List.seq_length.
  by move=> i Hi; rewrite nth_map_seq; [exact: R3|lia].
case Ez: (ax_zero x) => [z|]; last first.
  apply: fin; first by rewrite L2.
  move=> i Hi; have [V E] := R2 i ltac:(lia); split=> //; rewrite E -ID // big_pred0 ?addr0 //.
  by move=> j; rewrite -Z1 // -Xz Ez.
have Hz : (z < k)%N by apply: Z2; rewrite -Xz.
have xz : xp z = 0 by apply/eqP; rewrite -Z1 // -Xz Ez /= Nat.eqb_refl.
have A0 : A`_0 = 0 by rewrite (Apoly_cof F k xp (Ordinal Hz)) /= xz subr0 coefXM.
have -> : (get 0 (p_buf (ax_A x)) 0 =? 0)%num.
  by have [V E] := HA 0%N; rewrite -(phi_eq0 F G phi P _ V) E A0.
have [V1 Ev] := Rns z Hz; rewrite xz eqxx in Ev.
rewrite DA Nat2Z.id.
have [S3 [E3 L3 R3]] := add_shift k (get 0%num ns z) (p_buf (ax_A x)) (fun j => (B * A)`_j) _ (fun j => A`_j) S2
  ltac:(by rewrite L2) ltac:(by move=> j Hj; apply: R2; lia) HA V1 Ev.
rewrite E3; apply: fin => // i Hi; have [V E] := R3 i Hi; split=> //; rewrite E -ID //; congr (_ + _).
rewrite (bigD1 (Ordinal Hz)) /= ?xz ?eqxx // big_pred0 ?addr0 //.
move=> j; apply/negP => /andP [/eqP xj /eqP ne]; apply: ne; apply: val_inj => /=.
by apply: xp_inj => //; rewrite xj xz.
Qed.
End Generic.
