(** Correctness of the decoding context and of the packet functions of the Fermat-field code, over any presented field. *)
Set Warnings "-notation-overridden,-ambiguous-paths".
From Coq Require Import NArith ZArith.
From Coq Require List.
From mathcomp Require Import all_ssreflect ssralg poly.
From mathcomp Require Import zify.
From Verif.Model Require Import Common Arith Ring Fft2n Radix2 Poly Props Fnt.
From Verif.Spec Require Import Dft.
From Verif.Proof Require Import ListP Kern PolyL Pres Fft2nP Radix2P PolyP DftInv Interp.
Import GRing.Theory.
Local Open Scope ring_scope.
Notation lnth := List.nth.

Record fnt_ok (F : fieldType) (phi : N -> F) (L L2 e : nat) (c : fnt) : Prop := FntOk {
  fo_P : gf_pres F (c_G c) phi;
  fo_k : (0 < c_k c)%N;
  fo_m : (0 < c_m c)%N;
  fo_n : c_n c = (2 ^ L)%N;
  fo_km : (c_k c + c_m c <= 2 ^ L)%N;
  fo_fft : radix2_ok F (c_G c) phi L (c_fft c);
  fo_e : (e <= L)%N;
  fo_dl : r_data_len (c_fft c) = (2 ^ e)%N;
  fo_ke : (c_k c <= 2 ^ e)%N;
  fo_fft2k : radix2_ok F (c_G c) phi L2 (c_fft2k c);
  fo_dl2 : r_data_len (c_fft2k c) = (2 ^ L2)%N;
  fo_k2 : (2 * c_k c <= 2 ^ L2)%N;
  fo_rpow : forall i, (i < 2 ^ L)%N -> gvalid (c_G c) (lnth i (c_rpow c) 0%num) /\
       phi (lnth i (c_rpow c) 0%num) = phi (r_w (c_fft c)) ^+ i;
  fo_h : gvalid (c_G c) (c_h c) /\ phi (c_h c) = -1;
  fo_char : forall i, phi (N.of_nat i mod g_card (c_G c))%num = i%:R
}.

Section Ctx.
Variables (F : fieldType) (phi : N -> F) (L L2 e : nat) (c : fnt).
Hypothesis ok : fnt_ok F phi L L2 e c.
Let G := c_G c.
Let P : gf_pres F G phi := fo_P _ _ _ _ _ _ ok.
Let k := c_k c.
Let w : F := phi (r_w (c_fft c)).
Let w2 : F := phi (r_w (c_fft2k c)).
Let n := (2 ^ L)%N.
Let n2 := (2 ^ L2)%N.

Lemma c_l2E : c_l2 c = n2. Proof. exact: (ro_n _ _ _ _ _ (fo_fft2k _ _ _ _ _ _ ok)). Qed.
Lemma wprim : n.-primitive_root w. Proof. exact: (ro_prim _ _ _ _ _ (fo_fft _ _ _ _ _ _ ok)). Qed.
Lemma w2prim : n2.-primitive_root w2. Proof. exact: (ro_prim _ _ _ _ _ (fo_fft2k _ _ _ _ _ _ ok)). Qed.
Lemma hmax a : gvalid G a -> (a <= c_h c)%num. Proof. by rewrite /gvalid /c_h -/G; lia. Qed.

Lemma w_neq0 : w != 0.
Proof. exact: prim_unit wprim. Qed.

Lemma kn : (k < n)%N. Proof. by have := fo_km _ _ _ _ _ _ ok; have := fo_m _ _ _ _ _ _ ok; rewrite -/n -/k; lia. Qed.

Lemma eL : (2 ^ e <= n)%N. Proof. by rewrite /n leq_exp2l //; exact: (fo_e _ _ _ _ _ _ ok). Qed.

(** Indices of the fragments used: [k] different ones below [n]. *)
Definition ids_ok (ids : list nat) : Prop :=
  List.length ids = k /\ List.NoDup ids /\ forall i, List.In i ids -> (i < n)%N.

Variable ids : list nat.
Hypothesis Hids : ids_ok ids.
Definition xpt (ids : list nat) (i : nat) : F := w ^+ (lnth i ids 0%N).

Lemma ids_lt i : (i < k)%N -> (lnth i ids 0%N < n)%N.
Proof. by case: Hids => Hl [_ H] Hi; apply: H; apply: List.nth_In; rewrite Hl; lia. Qed.

Lemma xpt_inj i j : (i < k)%N -> (j < k)%N -> xpt ids i = xpt ids j -> i = j.
Proof.
move=> Hi Hj /eqP; rewrite /xpt (eq_prim_root_expr wprim) !modn_small ?ids_lt // => /eqP E.
case: Hids => Hl [ND _].
by apply: (proj1 (List.NoDup_nth ids 0%N) ND); rewrite ?Hl //; lia.
Qed.

Lemma xpt_neq0 i : (i < k)%N -> xpt ids i != 0.
Proof. by move=> _; rewrite expf_neq0 // w_neq0. Qed.

Lemma vx_spec i : (i < k)%N -> let v := lnth i (List.map (get 0%num (c_rpow c)) ids) 0%num in
  gvalid G v /\ phi v = xpt ids i.
Proof.
move=> Hi v; rewrite /v.
rewrite (List.nth_indep _ 0%num (get 0%num (c_rpow c) 0%N)); last by rewrite List.map_length; case: Hids => ->; lia.
by rewrite List.map_nth; apply: (fo_rpow _ _ _ _ _ _ ok); exact: ids_lt.
Qed.

Lemma ctx_A_spec vx m (xs : nat -> F) : (m < n)%N -> List.length vx = m ->
  (forall i, (i < m)%N -> gvalid G (lnth i vx 0%num) /\ phi (lnth i vx 0%num) = xs i) ->
  exists q, [/\ ctx_A G n vx = Some q, pol F G phi q (Apoly F xs m), p_deg q = Z.of_nat m & List.length (p_buf q) = n].
Proof.
rewrite /ctx_A; elim: m vx => [|m IH] vx Hm Hl Hx.
  case: vx Hl Hx => // _ _; have n0 : (0 < n)%N by lia.
  have [q [E Hq Hd HL]] := pol_one F G phi P n n0.
  by exists q; split => //=; rewrite /Apoly big_ord0.
have Ex := firstn_last _ 0%num m vx Hl.
rewrite Ex List.fold_left_app /=.
have Hlm : List.length (List.firstn m vx) = m by rewrite List.firstn_length Hl; clear; lia.
have Hnf i : (i < m)%N -> lnth i (List.firstn m vx) 0%num = lnth i vx 0%num.
  by move=> Hi; rewrite nth_firstn; case: Nat.ltb_spec => //; lia.
have [q [E Hq Hd HL]] := IH (List.firstn m vx) ltac:(lia) Hlm ltac:(by move=> i Hi; rewrite Hnf //; apply: Hx; lia).
rewrite E; have [Vx Exm] := Hx m ltac:(lia).
have [Vc Ec] := gp_sub _ _ _ P 0%num _ (gvalid0 F G phi P) Vx.
have sA : size (Apoly F xs m) = m.+1 by rewrite size_Apoly.
have [q' [E' Hq' Hd' HL']] := mulXc_spec F G phi P q _ m _ Hq Hd sA ltac:(by rewrite HL; lia) Vc.
exists q'; split=> //; last by rewrite HL'.
by move: Hq'; rewrite Ec (gp_0 _ _ _ P) sub0r Exm polyCN /Apoly big_ord_recr.
Qed.

Definition ctx_ok (x : ctx) : Prop :=
  [/\ x_ids x = ids, List.length (x_invA x) = k, List.length (x_A2k x) = n2,
   (forall i, (i < k)%N -> gvalid G (lnth i (x_invA x) 0%num) /\
     phi (lnth i (x_invA x) 0%num) = ((deriv (Apoly F (xpt ids) k)).[xpt ids i] * xpt ids i)^-1)
   & (forall i, (i < n2)%N -> gvalid G (lnth i (x_A2k x) 0%num) /\
     phi (lnth i (x_A2k x) 0%num) = dft F w2 n2 (fun l => (Apoly F (xpt ids) k)`_l) i)].

Theorem ctx_new_ok junk1 junk2 : List.length junk1 = n -> List.length junk2 = n2 ->
  exists x, ctx_new c ids junk1 junk2 = Some x /\ ctx_ok x.
Proof.
move=> Hj1 Hj2; rewrite /ctx_new -/G (fo_n _ _ _ _ _ _ ok) -/n.
case: (Hids) => Hl [ND Hb].
have Hlx : List.length (List.map (get 0%num (c_rpow c)) ids) = k by rewrite List.map_length.
have [A [EA HA DA LA]] := ctx_A_spec _ _ _ kn Hlx vx_spec.
rewrite EA.
have gc : (0 < g_card G <= g_card G)%num by have := gp_card _ _ _ P; lia.
have [A' [EA' HA' _ LA']] := deriv_spec F G phi P A _ k (g_card G) HA DA (size_Apoly _ _ _)
   ltac:(by rewrite LA; exact: kn) gc (fo_char _ _ _ _ _ _ ok).
rewrite EA'; eexists; split; first reflexivity.
have SV := sym_vec_pres F G phi P.
set AF := r2_fft_vec _ _ _ _.
have HAF : reads (sym_vec G) (gvalid G) phi n AF (dft F w n (fun i => (deriv (Apoly F (xpt ids) k))`_i)).
  have [R1 R2] := r2_fft_vec_reads F G phi N (sym_vec G) _ _ SV L _ (fo_fft _ _ _ _ _ _ ok) L (p_buf A') junk1 (leqnn L)
     ltac:(by rewrite LA' LA (fo_dl _ _ _ _ _ _ ok) -/n; have := eL; move: (2 ^ e)%N n; clear; lia)
     Hj1 (fun i _ => proj1 (HA' i)).
  split=> // i Hi; have [R3 R4] := R2 i Hi; split=> //; rewrite R4.
  by apply: dft_ext => j _; exact: (proj2 (HA' j)).
have EAF i : (i < k)%N -> phi (lnth (lnth i ids 0%N) AF 0%num) = (deriv (Apoly F (xpt ids) k)).[xpt ids i] /\
   gvalid G (lnth (lnth i ids 0%N) AF 0%num).
  move=> Hi; have [_ R2] := HAF; have [R3 R4] := R2 _ (ids_lt _ Hi); split=> //.
  rewrite R4 dft_horner; congr (_.[_]).
  apply/polyP => j; rewrite coef_poly; case: ltnP => // Hj.
  rewrite nth_default //; apply: leq_trans Hj; apply: leq_trans (ltnW kn).
  by rewrite -ltnS -(size_Apoly F (xpt ids) k) lt_size_deriv // -size_poly_eq0 size_Apoly.
rewrite c_l2E.
have HA2 : reads (sym_vec G) (gvalid G) phi n2 (r2_fft_vec (sym_vec G) (c_fft2k c) junk2
     (List.map (get 0%num (p_buf A)) (List.seq 0 n2))) (dft F w2 n2 (fun l => (Apoly F (xpt ids) k)`_l)).
  have Nth i : (i < n2)%N -> lnth i (List.map (get 0%num (p_buf A)) (List.seq 0 n2)) 0%num = lnth i (p_buf A) 0%num.
    by move=> Hi; rewrite nth_map_seq //; move: Hi; clear; lia.
  have [R1 R2] := r2_fft_vec_reads F G phi N (sym_vec G) _ _ SV L2 _ (fo_fft2k _ _ _ _ _ _ ok) L2
    (List.map (get 0%num (p_buf A)) (List.seq 0 n2)) junk2 (leqnn L2)
     ltac:(by rewrite List.map_length List.seq_length (fo_dl2 _ _ _ _ _ _ ok) -/n2; clear; lia) Hj2
     ltac:(by rewrite List.map_length List.seq_length => i Hi; rewrite [s_zero _]/= Nth //; exact: (proj1 (HA i))).
  split=> // i Hi; have [R3 R4] := R2 i Hi; split=> //; rewrite R4.
  by apply: dft_ext => j Hj; rewrite [s_zero _]/= Nth //; exact: (proj2 (HA j)).
split => //=.
- by rewrite List.map_length List.combine_length Hlx Hl; clear; lia.
- exact: (proj1 HA2).
- move=> i Hi.
  have Hc : lnth i (List.combine ids (List.map (get 0%num (c_rpow c)) ids)) (0%N, 0%num) =
     (lnth i ids 0%N, lnth i (List.map (get 0%num (c_rpow c)) ids) 0%num).
    by apply: List.combine_nth; rewrite List.map_length.
  have [Vv Ev] := vx_spec i Hi; have [E1 V1] := EAF i Hi.
  have [M1 M2] := gp_mul _ _ _ P _ _ V1 Vv.
  rewrite (List.nth_indep _ 0%num (g_inv G (g_mul G (get 0%num AF 0%N) 0%num))); last first.
    by rewrite List.map_length List.combine_length Hlx Hl; move: Hi; clear; lia.
  rewrite (List.map_nth (fun jx => g_inv G (g_mul G (get 0%num AF (fst jx)) (snd jx))) _ (0%N, 0%num)) Hc /= /get.
  have nz : g_mul G (lnth (lnth i ids 0%N) AF 0%num) (lnth i (List.map (get 0%num (c_rpow c)) ids) 0%num) <> 0%num.
    move=> E0; move: M2; rewrite E0 (gp_0 _ _ _ P) => /esym/eqP; rewrite mulf_eq0 E1 Ev (negbTE (xpt_neq0 i Hi)) orbF.
    by rewrite -(Acof_val F k (xpt ids) (Ordinal Hi)) (negbTE (Acof_neq0 F k (xpt ids) xpt_inj (Ordinal Hi))).
  have [I1 I2] := gp_inv _ _ _ P _ M1 nz.
  by split=> //; rewrite I2 M2 E1 Ev.
- exact: (proj2 HA2).
Qed.

(** The vector given to the inverse transform: [v_i / (A'(x_i) x_i)] at the place [ids_i], zero elsewhere. *)
Lemma list_nth_nth (A : Type) (l : seq A) i d : lnth i l d = nth d l i.
Proof. by elim: l i => [|a l IH] [|i] //=. Qed.

Lemma sum_ids (y g : nat -> F) : (forall l, (l < n)%N -> ~ List.In l ids -> y l = 0) ->
  \sum_(l < n) y l * g l = \sum_(i < k) y (lnth i ids 0%N) * g (lnth i ids 0%N).
Proof.
move=> Hy; case: (Hids) => Hl [ND Hb].
have inE : forall l, reflect (List.In l ids) (l \in ids).
  by move=> l; elim: (ids) => [|a t IH] /=; [constructor|rewrite in_cons; apply: (iffP orP) => [[/eqP ->|/IH]|[->|/IH]]; auto].
have Un : uniq ids.
  elim: ND => //= a l Ha _ ->; rewrite andbT; apply/negP => H; apply: Ha.
  by elim: l H => //= b l IH; rewrite in_cons => /orP [/eqP ->|/IH]; [left|right].
rewrite -(big_mkord xpredT (fun l => y l * g l)) (bigID (fun l => l \in ids)) /=.
rewrite [X in _ + X]big1_seq ?addr0; last first.
  by move=> l /andP [/negP H]; rewrite mem_index_iota => Hln; rewrite Hy ?mul0r //; move/inE.
rewrite -big_filter (perm_big ids) /=; last first.
  apply: uniq_perm; rewrite ?filter_uniq ?iota_uniq // => l; rewrite mem_filter mem_index_iota.
  by case: inE => //= H; rewrite (Hb l H).
rewrite (big_nth 0%N) big_mkord.
have -> : size ids = k by exact: Hl.
by apply: eq_bigr => i _; rewrite list_nth_nth.
Qed.

Lemma fftinv_Q (y v : nat -> F) j : (forall l, (l < n)%N -> ~ List.In l ids -> y l = 0) ->
  (forall i, (i < k)%N -> y (lnth i ids 0%N) = ((deriv (Apoly F (xpt ids) k)).[xpt ids i] * xpt ids i)^-1 * v i) ->
  (j < k)%N -> dft F w^-1 n y j = (Qpoly F k (xpt ids) v)`_j.
Proof.
move=> Hy0 Hy Hj; rewrite /dft (sum_ids y (fun l => w^-1 ^+ (j * l))) // /Qpoly coef_poly Hj.
apply: eq_bigr => i _; rewrite Hy // [v i / _]mulrC; congr (_ * _).
by rewrite /xpt mulnC exprM exprVn.
Qed.

Lemma shuffle_spec T (z : T) src : List.length src = k ->
  List.length (shuffle z ids n src) = n /\
  (forall i, (i < k)%N -> lnth (lnth i ids 0%N) (shuffle z ids n src) z = lnth i src z) /\
  (forall l, ~ List.In l ids -> lnth l (shuffle z ids n src) z = z).
Proof.
move=> Hs; case: (Hids) => Hl [ND Hb].
have X m : (m <= k)%N -> let sh := List.fold_left (fun v i => set v (get 0%N ids i) (get z src i)) (List.seq 0 m) (List.repeat z n) in
  List.length sh = n /\ (forall i, (i < m)%N -> lnth (lnth i ids 0%N) sh z = lnth i src z) /\
  (forall l, ~ List.In l ids -> lnth l sh z = z).
  elim: m => [|m IH] Hm; first by split; [rewrite List.repeat_length|split=> // l _; rewrite List.nth_repeat].
  rewrite List.seq_S List.fold_left_app; have [I1 [I2 I3]] := IH (ltnW Hm).
  set sh := List.fold_left _ _ _ in I1 I2 I3 *; rewrite /= /get.
  split; first by rewrite set_length.
  split=> [i Hi|l Hli].
    case: (Nat.eq_dec i m) => [->|ne].
      by rewrite nth_set_eq // I1; have := ids_lt m Hm; clear; lia.
    rewrite nth_set_neq; first by apply: I2; move: Hi ne; clear; lia.
    move=> E; apply: ne.
    by apply: (proj1 (List.NoDup_nth ids 0%N) ND); rewrite ?Hl //; move: Hi Hm; clear; lia.
  rewrite nth_set_neq; first exact: I3.
  by move=> E; apply: Hli; rewrite E; apply: List.nth_In; rewrite Hl; move: Hm; clear; lia.
by rewrite /shuffle Hl; exact: X.
Qed.

(** ** Packets *)
Section Sym.
Variables (T : Type) (K : kernels T) (vT : T -> Prop) (hT : T -> F).
Hypothesis KO : kern_ok K.
Notation S := (k_sym K).
Hypothesis PS : sym_pres F N T S (gvalid G) phi vT hT.
Notation z := (s_zero S).
Notation reads := (reads S vT hT).

Let Vh := proj1 (fo_h _ _ _ _ _ _ ok).
Let Eh := proj2 (fo_h _ _ _ _ _ _ ok).

Lemma hz : hT z = 0. Proof. exact: (proj2 (sp_zero _ _ _ _ _ _ _ _ PS)). Qed.
Lemma vz : vT z. Proof. exact: (proj1 (sp_zero _ _ _ _ _ _ _ _ PS)). Qed.

Lemma k_n2 : (k < n2)%N.
Proof. by have := fo_k2 _ _ _ _ _ _ ok; have := fo_k _ _ _ _ _ _ ok; rewrite -/k -/n2; lia. Qed.

Lemma neg_nth (v : list T) i : (i < List.length v)%N -> vT (lnth i v z) ->
  vT (lnth i (neg_bufs S v) z) /\ hT (lnth i (neg_bufs S v) z) = - hT (lnth i v z).
Proof.
move=> Hi Hv; rewrite /neg_bufs (List.nth_indep _ z (s_neg S z)); last by rewrite List.map_length; lia.
rewrite List.map_nth; exact: (sp_neg _ _ _ _ _ _ _ _ PS).
Qed.

Lemma decode_tail_spec x b1 mx (Q : {poly F}) : ctx_ok x -> List.length b1 = n2 -> List.length mx = c_max c ->
  (size Q <= k)%N -> (forall j, (j < k)%N -> vT (lnth j mx z) /\ hT (lnth j mx z) = Q`_j) ->
  let r := decode_tail K c x b1 mx in
  [/\ List.length (fst r) = n2, List.length (snd r) = c_max c
    & forall j, (j < k)%N -> vT (lnth j (snd r) z) /\
      hT (lnth j (snd r) z) = - ((n2%:R)^-1 * dft F w2^-1 n2 (fun i =>
       dft F w2 n2 (fun l => (Apoly F (xpt ids) k)`_l) i * dft F w2 n2 (fun l => Q`_l) i) j)].
Proof.
move=> [X1 X2 X3 X4 X5] Hb1 Hmx sQ Hj.
have kn2 := k_n2; have c2 := c_l2E.
have Hmx2 : (n2 <= List.length mx)%N by rewrite Hmx /c_max c2; clear; lia.
rewrite /decode_tail c2.
set b2 := k_fft _ _ _ _.
have Lf : List.length (List.firstn k mx) = k by rewrite List.firstn_length; move: kn2 Hmx2; clear; lia.
have Nf i : lnth i (List.firstn k mx) z = if (i < k)%N then lnth i mx z else z.
  by rewrite nth_firstn; case: (Nat.ltb_spec i k) => H; case: ltnP => //; move: H; clear; lia.
have [B1 B2] : reads n2 b2 (dft F w2 n2 (fun l => Q`_l)).
  have [R1 R2] := k_fft_reads F G phi T K vT hT KO PS L2 _ (fo_fft2k _ _ _ _ _ _ ok) L2 (List.firstn k mx) b1 (leqnn _)
   ltac:(by rewrite Lf (fo_dl2 _ _ _ _ _ _ ok) -/n2; move: kn2; clear; lia) Hb1
   ltac:(by move=> i; rewrite Lf Nf => Hi; rewrite Hi; case: (Hj i Hi)).
  split=> // i Hi; have [R3 R4] := R2 i Hi; split=> //; rewrite R4; apply: dft_ext => l _.
  rewrite Nf; case: ltnP => Hl; first by case: (Hj l Hl).
  by rewrite hz nth_default //; exact: leq_trans sQ Hl.
set b3 := mul_vec_to_vecp _ _ _ _ _.
have [M1 [M2 _]] := mul_vec_spec F G phi P T S vT hT PS (c_h c) (x_A2k x) b2 b2 n2 _ Vh Eh
  ltac:(by rewrite X3 => i Hi; have [V_ _] := X5 i Hi; split=> //; exact: hmax) ltac:(by rewrite X3 B1) ltac:(by rewrite X3) B2.
rewrite -/b3 in M1 M2.
have Lb3 : List.length b3 = n2 by rewrite M1 B1.
have L1 : List.length (List.firstn n2 mx) = n2 by rewrite List.firstn_length; move: Hmx2; clear; lia.
have [I1 I2] := r2_ifft_buf_reads F G phi P T K vT hT KO PS L2 _ (fo_fft2k _ _ _ _ _ _ ok) (c_h c) b3 (List.firstn n2 mx) Vh Eh hmax
   L1 ltac:(by rewrite Lb3; move: kn2; clear; lia) ltac:(by rewrite Lb3) ltac:(by rewrite Lb3 => i Hi; case: (M2 i Hi)).
rewrite -/n2 in I1 I2.
set iv := r2_ifft_buf _ _ _ _ _ in I1 I2 *.
have Lall : List.length (iv ++ List.skipn n2 mx)%list = c_max c.
  by rewrite List.app_length I1 List.skipn_length -Hmx; move: Hmx2; clear; lia.
have Hkm : (k <= c_max c)%N by rewrite -Hmx; move: Hmx2 kn2; clear; lia.
split=> //=.
  by rewrite List.app_length List.map_length List.firstn_length List.skipn_length Lall; move: Hkm; rewrite -/k; clear; lia.
move=> j Hjk.
have Lk : List.length (List.firstn (c_k c) (iv ++ List.skipn n2 mx)) = k.
  by rewrite List.firstn_length Lall; move: Hkm; rewrite -/k; clear; lia.
rewrite List.app_nth1; last by rewrite List.map_length Lk; move: Hjk; clear; lia.
have Ej : lnth j (List.firstn (c_k c) (iv ++ List.skipn n2 mx)) z = lnth j iv z.
  rewrite nth_firstn; case: Nat.ltb_spec; last by move: Hjk; rewrite -/k; clear; lia.
  by move=> _; rewrite List.app_nth1 // I1; move: Hjk kn2; clear; lia.
have [I3 I4] := I2 j (ltn_trans Hjk kn2).
have [N1 N2] := neg_nth (List.firstn (c_k c) (iv ++ List.skipn n2 mx)) j ltac:(by rewrite Lk) ltac:(by rewrite Ej).
split=> //; rewrite N2 Ej I4; congr (- (_ * _)); apply: dft_ext => i Hi.
by have [_ M4] := M2 i Hi; rewrite M4; have [_ ->] := X5 i Hi.
Qed.

(** Values of a polynomial at the points of the context give back its coefficients. *)
Definition holds_values (Q : {poly F}) (words : list T) : Prop :=
  forall i, (i < k)%N -> vT (lnth i words z) /\ hT (lnth i words z) = Q.[xpt ids i].

Definition coeffs (Q : {poly F}) (v : list T) : Prop :=
  forall j, (j < k)%N -> vT (lnth j v z) /\ hT (lnth j v z) = Q`_j.

Lemma decode_common x b1 mx words (Q : {poly F}) (inp : list T -> list T) : ctx_ok x -> List.length b1 = n2 ->
  List.length mx = c_max c -> (size Q <= k)%N -> holds_values Q words ->
  (forall src, List.length src = k -> (0 < List.length (inp src) <= n)%N /\
     (forall i, (i < k)%N -> lnth (lnth i ids 0%N) (inp src) z = lnth i src z) /\
     (forall l, ~ List.In l ids -> lnth l (inp src) z = z)) ->
  let b1a := mul_vec_to_vecp S (c_h c) (x_invA x) words b1 in
  let mx1 := (k_fft_inv K (c_fft c) (List.firstn n mx) (inp (List.firstn k b1a)) ++ List.skipn n mx)%list in
  let r := decode_tail K c x b1a mx1 in
  [/\ List.length (fst r) = n2, List.length (snd r) = c_max c & coeffs Q (snd r)].
Proof.
move=> Hx Hb1 Hmx sQ Hw Hinp b1a mx1; have [X1 X2 X3 X4 X5] := Hx.
have kn2 := k_n2.
have [M1 [M2 _]] := mul_vec_spec F G phi P T S vT hT PS (c_h c) (x_invA x) words b1 k _ Vh Eh
  ltac:(by rewrite X2 => i Hi; have [V_ _] := X4 i Hi; split=> //; exact: hmax) ltac:(by rewrite X2 Hb1; exact: ltnW) ltac:(by rewrite X2) Hw.
rewrite -/b1a in M1 M2.
have Lf : List.length (List.firstn k b1a) = k by rewrite List.firstn_length M1 Hb1; move: kn2; clear; lia.
have Nf i : (i < k)%N -> lnth i (List.firstn k b1a) z = lnth i b1a z.
  by move=> Hi; rewrite nth_firstn; case: Nat.ltb_spec => //; move: Hi; clear; lia.
have [H1 [H2 H3]] := Hinp _ Lf.
pose iv := inp (List.firstn k b1a); rewrite -/iv in H1 H2 H3.
have Emx : mx1 = (k_fft_inv K (c_fft c) (List.firstn n mx) iv ++ List.skipn n mx)%list by [].
have Hmn : (n <= List.length mx)%N by rewrite Hmx /c_max (fo_n _ _ _ _ _ _ ok) -/n; clear; lia.
have Ln : List.length (List.firstn n mx) = n by rewrite List.firstn_length; move: Hmn; clear; lia.
have inV i : (i < List.length iv)%N -> vT (lnth i iv z).
  move=> _; case: (List.in_dec Nat.eq_dec i ids) => Hi; last by rewrite H3 //; exact: vz.
  have [t [Ht Et]] := List.In_nth ids i 0%N Hi.
  have Htk : (t < k)%N by move: Ht; case: Hids => ->; clear; lia.
  by rewrite -Et H2 // Nf //; case: (M2 t Htk).
have [V1 V2] := k_fft_inv_reads F G phi T K vT hT KO PS L _ (fo_fft _ _ _ _ _ _ ok) iv (List.firstn n mx) Ln
   ltac:(by case/andP: H1) ltac:(by case/andP: H1) inV.
rewrite -/n in V1 V2.
have Lmx1 : List.length mx1 = c_max c.
  by rewrite Emx List.app_length V1 List.skipn_length -Hmx; move: Hmn; clear; lia.
have Hj j : (j < k)%N -> vT (lnth j mx1 z) /\ hT (lnth j mx1 z) = (Qpoly F k (xpt ids) (fun i => Q.[xpt ids i]))`_j.
  move=> Hjk; have Hjn := ltn_trans Hjk kn.
  rewrite Emx List.app_nth1; last by rewrite V1; move: Hjn; clear; lia.
  have [V3 V4] := V2 j Hjn; split=> //; rewrite V4.
  apply: fftinv_Q => // [l Hl Hni|i Hi]; first by rewrite H3 // hz.
  by rewrite H2 // Nf //; have [_ ->] := M2 i Hi; have [_ ->] := X4 i Hi.
have [T1 T2 T3] := decode_tail_spec x b1a mx1 _ Hx ltac:(by rewrite M1) Lmx1 (size_Qpoly _ _ _ _) Hj.
split=> // j Hjk; have [T4 T5] := T3 j Hjk; split=> //; rewrite T5.
apply: (conv_identity F k (xpt ids) _ _ Q n2 w2 j) => //; first exact: xpt_inj.
- by move=> i Hi; exact: xpt_neq0.
- exact: (fo_k2 _ _ _ _ _ _ ok).
- exact: w2prim.
Qed.

Theorem decode_apply_spec x b1 mx words (Q : {poly F}) : ctx_ok x -> List.length b1 = n2 ->
  List.length mx = c_max c -> (size Q <= k)%N -> holds_values Q words ->
  let r := decode_apply K c x b1 mx words in
  [/\ List.length (fst r) = n2, List.length (snd r) = c_max c & coeffs Q (snd r)].
Proof.
move=> Hx Hb1 Hmx sQ Hw; rewrite /decode_apply (fo_n _ _ _ _ _ _ ok) -/n -/k.
have [-> _ _ _ _] := Hx.
apply: (decode_common x b1 mx words Q (shuffle z ids n)) => // src Hs.
have [S1 [S2 S3]] := shuffle_spec _ z src Hs; rewrite S1; split=> //.
by have := kn; clear; lia.
Qed.

Theorem decode_data_spec x b1 mx words (Q : {poly F}) : ctx_ok x -> (forall i, (i < k)%N -> lnth i ids 0%N = i) ->
  List.length b1 = n2 -> List.length mx = c_max c -> (size Q <= k)%N -> holds_values Q words ->
  let r := decode_data K c x b1 mx words in
  [/\ List.length (fst r) = n2, List.length (snd r) = c_max c & coeffs Q (snd r)].
Proof.
move=> Hx Hid Hb1 Hmx sQ Hw; rewrite /decode_data (fo_n _ _ _ _ _ _ ok) -/n -/k.
apply: (decode_common x b1 mx words Q (fun s => s)) => // src Hs; split.
  by have := kn; have := fo_k _ _ _ _ _ _ ok; rewrite Hs -/k; clear; lia.
split=> [i Hi|l Hl]; first by rewrite Hid.
apply: List.nth_overflow; rewrite Hs.
case: (ltnP l k) => Hlk; last by move: Hlk; clear; lia.
case: Hl; rewrite -(Hid l Hlk); apply: List.nth_In; case: Hids => ->; move: Hlk; clear; lia.
Qed.

(** Evaluation of a polynomial by the transform of the code. *)
Lemma fft_eval out v (Q : {poly F}) : (size Q <= k)%N -> List.length out = n -> List.length v = k -> coeffs Q v ->
  reads n (k_fft K (c_fft c) out v) (fun i => Q.[w ^+ i]).
Proof.
move=> sQ Ho Hv Hc.
have [R1 R2] := k_fft_reads F G phi T K vT hT KO PS L _ (fo_fft _ _ _ _ _ _ ok) e v out (fo_e _ _ _ _ _ _ ok)
  ltac:(by rewrite Hv (fo_dl _ _ _ _ _ _ ok); have := fo_ke _ _ _ _ _ _ ok; rewrite -/k; move: (2 ^ e)%N k; clear; lia) Ho
  ltac:(by rewrite Hv => i Hi; case: (Hc i Hi)).
split=> // i Hi; have [R3 R4] := R2 i Hi; split=> //; rewrite R4 dft_horner; congr (_.[_]).
apply/polyP => j; rewrite coef_poly; case: ltnP => Hj.
  case: (ltnP j k) => Hjk; first by case: (Hc j Hjk).
  rewrite List.nth_overflow ?hz ?nth_default //; first exact: leq_trans sQ Hjk.
  by rewrite Hv; move: Hjk; clear; lia.
rewrite nth_default //; apply: leq_trans Hj; exact: leq_trans sQ (ltnW kn).
Qed.
End Sym.
End Ctx.
