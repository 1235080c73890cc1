(** The transforms of an object built for a basis. *)
Set Warnings "-notation-overridden,-ambiguous-paths".
From Coq Require Import NArith Arith.
From Coq Require List.
From Verif.Model Require Import Common Arith Ring Views Additive.
From Verif.Proof Require Import ListP MatrixL.
From mathcomp Require Import all_ssreflect ssralg poly.
From mathcomp Require Import zify.
From Verif.Spec Require Import Mixed Additive.
From Verif.Proof Require Import Pres MixedL AddL AddT AddI AddG AddF AddX.
Import GRing.Theory.
Local Open Scope ring_scope.

Section Trans.
Variables (F : fieldType) (G : gfops) (phi : N -> F) (junk : N).
Hypothesis Pr : gf_pres F G phi.
Hypothesis ch2 : forall u : F, u + u = 0.
Notation ok := (gvalid G).
Notation cf := (cf F phi).
Notation vok := (vok G).
Notation point := (point F).
Notation pof := (poly_of F phi).
Notation rep := (rep F G phi).

Lemma vnew_size n : size (vnew junk n) = n.
Proof. by rewrite /vnew; elim: n => //= n ->. Qed.
Lemma pof_scale n l l' c x : (forall i, (i < n)%N -> cf l' i = cf l i * c ^+ i) -> (pof n l').[x] = (pof n l).[c * x].
Proof.
  move=> H; rewrite /poly_of !poly_def !horner_sum; apply: eq_bigr => i _.
  by rewrite !hornerZ !hornerXn H // exprMn mulrA.
Qed.
Lemma one_of bm : ok bm -> phi bm != 0 -> (1 <? bm)%num = false -> phi bm = 1.
Proof.
  move=> V nz; case: N.ltb_spec => // h _; have : bm = 0%num \/ bm = 1%num by lia.
  by case=> e; move: nz; rewrite e ?(gp_0 _ _ _ Pr) ?(gp_1 _ _ _ Pr) ?eqxx.
Qed.

(** The values at both halves of the points. *)
Lemma split_point m (b : nat -> F) i : b m != 0 -> (i < 2 ^ m)%N -> let x := point (fun j => b j / b m) m i in
  [/\ point b m.+1 i = b m * x, point b m.+1 (2 ^ m + i) = b m * (x + 1) & point (nextb F b m) m i = x ^+ 2 + x].
Proof.
  move=> b0 Hi x; have Ex : b m * x = point b m i.
    by rewrite /x -point_scale; apply: point_ext => j _; rewrite mulrC divfK.
  split; first by rewrite point_low.
    by rewrite point_high // mulrDr mulr1 Ex.
  exact: (point_sq F ch2).
Qed.
Lemma succ_sq (x : F) : (x + 1) ^+ 2 + (x + 1) = x ^+ 2 + x.
Proof. by rewrite sqrD2 // expr1n ch2 addr0. Qed.

Lemma add_fft_layer m bm ibm powers gs inner output input : add_fft G junk (Layer m bm ibm powers gs inner) output input =
  let n := Nat.pow 2 m in
  let m_k := Nat.pow 2 (m - 1)%coq_nat in
  match vcopy (vnew junk n) input n 0 0 with
  | None => None
  | Some mem =>
      match (if (1 <? bm)%num then hadamard_mul G mem powers else Some mem) with
      | None => None
      | Some mem =>
          match taylor_expand_t2 G mem n (vnew junk m_k) (vnew junk m_k) with
          | None => None
          | Some (_, g0, g1) =>
              match add_fft G junk inner (vnew junk m_k) g0, add_fft G junk inner (vnew junk m_k) g1 with
              | Some u, Some v =>
                  match vcopy output v m_k m_k 0, hadamard_mul G v gs with
                  | Some output, Some v =>
                      match vadd G v u with
                      | None => None
                      | Some v =>
                          match vcopy output v m_k 0 0 with
                          | None => None
                          | Some output => vadd_at G output v m_k
                          end
                      end
                  | _, _ => None
                  end
              | _, _ => None
              end
          end
      end
  end.
Proof. by []. Qed.

Theorem fft_ok m b a out l : rep m b a -> size out = (2 ^ m.+1)%N -> size l = (2 ^ m.+1)%N -> vok l ->
  exists out', [/\ add_fft G junk a out l = Some out', size out' = (2 ^ m.+1)%N, vok out' &
    forall i, (i < 2 ^ m.+1)%N -> cf out' i = (pof (2 ^ m.+1) l).[point b m.+1 i]].
Proof.
  elim: m b a out l => [|m IH] b [b1 ib1|mm bm ibm pw gs inner] out l // R So Sl V.
    case: R => Vb Eb Vib Eib b0; rewrite expn1 in So Sl *.
    rewrite /add_fft -![length _]/(size _) So Sl [andb _ _]/= /check.
    have [M1 M2] := gp_mul _ _ _ Pr _ _ (V 1%N) Vb; have [A1 A2] := gp_add _ _ _ Pr _ _ (V 0%N) M1.
    have R i : (i < 2)%N -> at_ (Common.set (Common.set out 0 (at_ l 0)) 1 (g_add G (at_ l 0) (g_mul G (at_ l 1) b1))) i =
       if i == 0%N then at_ l 0 else g_add G (at_ l 0) (g_mul G (at_ l 1) b1).
      by move=> Hi; rewrite at_set ?set_size ?So // at_set ?So //; case: i Hi => [|[|i]].
    eexists; split; [exact: erefl|by rewrite !set_size| |].
      by apply: (vokP F G phi Pr) => i; rewrite !set_size So => Hi; rewrite R //; case: ifP.
    move=> i Hi; rewrite [LHS]cfE R // /poly_of poly_def !big_ord_recr big_ord0 /= add0r hornerD !hornerZ hornerXn hornerXn expr0 mulr1 expr1.
    rewrite /Additive.point big_ord_recr big_ord0 /= add0r expn0 divn1; case: i Hi => [|[|i]] //= _; first by rewrite mulr0 addr0.
    by rewrite A2 M2 Eb.
  case: R => -> [Vb Eb Vib Eib b0] [Sp Vp Rp] [Sg Vg Rg] Ri.
  set h := (2 ^ m.+1)%N in Sg Rg.
  have h0 : (0 < h)%N by rewrite expn_gt0.
  have Eh : (2 ^ m.+2 = 2 * h)%N by rewrite /h expnS.
  rewrite add_fft_layer; cbv zeta; rewrite (_ : (m.+2 - 1)%coq_nat = m.+1) // !pow2E -/h; rewrite Eh in Sp Rp So Sl *.
  have [|mem [-> Sm Rm]] := vcopy_ok (vnew junk (2 * h)) l (2 * h) 0 0; first by rewrite vnew_size addn0.
  rewrite vnew_size in Sm.
  have Em i : (i < 2 * h)%N -> at_ mem i = at_ l i by move=> Hi; rewrite Rm !add0n subn0 Hi.
  have Vm : vok mem by apply: (vokP F G phi Pr) => i; rewrite Sm => Hi; rewrite Em.
  have [mem2 [-> Sm2 Vm2 Rm2]] : exists mem2, [/\ (if (1 <? bm)%num then hadamard_mul G mem pw else Some mem) = Some mem2,
      size mem2 = (2 * h)%N, vok mem2 & forall i, (i < 2 * h)%N -> cf mem2 i = cf l i * b m.+1 ^+ i].
    case Eb1: (1 <? bm)%num.
      have [||//|mem2 [-> S2 V2 R2]] := hadamard_ok F G phi Pr mem pw; [by rewrite Sm Sp|by []|].
      exists mem2; split=> //; first by rewrite S2.
      by move=> i Hi; rewrite R2 ?Sm // Rp // !cfE Em.
    exists mem; split=> // i Hi; rewrite -Eb (one_of bm) ?Eb // expr1n mulr1 !cfE Em //.
  have [|||//|l' [g0 [g1 [-> [Sg0 Sg1] [Vg0 Vg1] EP]]]] := taylor_t2_ok F G phi Pr ch2 m.+1 mem2 (vnew junk h) (vnew junk h); rewrite ?vnew_size // -/h.
  rewrite -/h !vnew_size in Sg0 Sg1 EP.
  have [||//|u [-> Su Vu Ru]] := IH (nextb F b m.+1) inner (vnew junk h) g0 Ri; rewrite ?vnew_size //.
  have [||//|v [-> Sv Vv Rv]] := IH (nextb F b m.+1) inner (vnew junk h) g1 Ri; rewrite ?vnew_size //.
  rewrite -/h in Su Sv Ru Rv.
  have [|o1 [-> So1 Ro1]] := vcopy_ok out v h h 0; first by rewrite So; lia.
  have [||//|v1 [-> Sv1 Vv1 Rv1]] := hadamard_ok F G phi Pr v gs; rewrite ?Sv //.
  have [||//|v2 [-> Sv2 Vv2 Rv2]] := vadd_ok F G phi Pr v1 u; rewrite ?Sv1 ?Sv ?Su //.
  rewrite Sv1 Sv in Sv2 Rv2; rewrite Sv in Rv1.
  have [|o2 [-> So2 Ro2]] := vcopy_ok o1 v2 h 0 0; first by rewrite So1 So; lia.
  have Q i : (i < h)%N -> at_ o2 i = at_ v2 i /\ at_ o2 (h + i) = at_ v i.
    move=> Hi; rewrite !Ro2 !Ro1 !add0n Hi /= subn0; split=> //.
    have -> : (h + i < h)%N = false by lia.
    have -> : (h <= h + i < h + h)%N by lia.
    by congr at_; lia.
  have H2 i : (i < 2 * h)%N -> (i < h)%N \/ exists2 j, (j < h)%N & i = (h + j)%N.
    by move=> Hi; case: (ltnP i h) => hi; [left|right; exists (i - h)%N; lia].
  have Vo2 : vok o2.
    apply: (vokP F G phi Pr) => i; rewrite So2 So1 So => /H2 [Hi|[j Hj ->]]; first by case: (Q i Hi) => ->.
    by case: (Q j Hj) => _ ->.
  have [||//|o3 [-> So3 Vo3 Ro3]] := vadd_at_ok F G phi Pr o2 v2 h; rewrite ?So2 ?So1 ?So ?Sv2 //; first by lia.
  rewrite So2 So1 So Sv2 in So3 Ro3.
  have W i : (i < h)%N -> let x := point (fun j => b j / b m.+1) m.+1 i in
     cf v2 i = (pof (2 * h) l).[b m.+1 * x] /\ cf v i + cf v2 i = (pof (2 * h) l).[b m.+1 * (x + 1)].
    move=> Hi x; have [_ _ E3] := split_point m.+1 b i b0 Hi; rewrite -/x in E3.
    rewrite -!(pof_scale (2 * h) l mem2 (b m.+1)) // EP !pairp_eval succ_sq -E3 -Ru // -Rv //.
    rewrite Rv2 // Rv1 // Rg // -/x; split; first by rewrite addrC mulrC.
    by rewrite mulrDl mul1r [_ * cf v i]mulrC addrC [_ + cf u i]addrC -!addrA.
  exists o3; split=> // i Hi; rewrite Ro3 //; case: (H2 i Hi) => [hi|[j hj ->]].
    have -> : (h <= i < h + h)%N = false by lia.
    have [E1 _ _] := split_point m.+1 b i b0 hi; have [W1 _] := W i hi; have [Q1 _] := Q i hi.
    by rewrite cfE Q1 -cfE W1 E1.
  have -> : (h <= h + j < h + h)%N by lia.
  have [_ E2 _] := split_point m.+1 b j b0 hj; have [_ W2] := W j hj; have [_ Q2] := Q j hj.
  by rewrite [cf o2 _]cfE Q2 -cfE addKn W2 E2.
Qed.

Lemma at_firstn h l i : (i < h)%N -> at_ (List.firstn h l) i = at_ l i.
Proof. by rewrite !atE; elim: h l i => [|h IH] [|x l] [|i] //= Hi; exact: IH. Qed.

Lemma add_ifft_layer m bm ibm powers gs inner output input : add_ifft G junk (Layer m bm ibm powers gs inner) output input =
  let m_k := Nat.pow 2 (m - 1)%coq_nat in
  let output := List.repeat 0%num (length output) in
  let w0 := List.firstn (slice_len m_k 0 (length input)) input in
  match vcopy (vnew junk m_k) input m_k 0 m_k with
  | None => None
  | Some v =>
      match vadd G v w0 with
      | None => None
      | Some v =>
          match hadamard_mul G v gs with
          | None => None
          | Some u =>
              match vadd G u w0 with
              | None => None
              | Some u =>
                  match add_ifft G junk inner (vnew junk m_k) u, add_ifft G junk inner (vnew junk m_k) v with
                  | Some g0, Some g1 =>
                      match inv_taylor_expand_t2 G output g0 g1 with
                      | None => None
                      | Some output => Some (if (1 <? bm)%num then mul_beta G output ibm else output)
                      end
                  | _, _ => None
                  end
              end
          end
      end
  end.
Proof. by []. Qed.

Theorem ifft_ok m b a out l : rep m b a -> size out = (2 ^ m.+1)%N -> size l = (2 ^ m.+1)%N -> vok l ->
  exists out', [/\ add_ifft G junk a out l = Some out', size out' = (2 ^ m.+1)%N, vok out' &
    forall i, (i < 2 ^ m.+1)%N -> (pof (2 ^ m.+1) out').[point b m.+1 i] = cf l i].
Proof.
  elim: m b a out l => [|m IH] b [b1 ib1|mm bm ibm pw gs inner] out l // R So Sl V.
    case: R => Vb Eb Vib Eib b0; rewrite expn1 in So Sl *.
    rewrite /add_ifft -![length _]/(size _) So Sl [andb _ _]/= /check.
    have [A1 A2] := gp_add _ _ _ Pr _ _ (V 0%N) (V 1%N); have [M1 M2] := gp_mul _ _ _ Pr _ _ Vib A1.
    set c := g_mul _ _ _ in M1 M2 *.
    have R i : (i < 2)%N -> at_ (Common.set (Common.set out 0 (at_ l 0)) 1 c) i = if i == 0%N then at_ l 0 else c.
      by move=> Hi; rewrite at_set ?set_size ?So // at_set ?So //; case: i Hi => [|[|i]].
    eexists; split; [exact: erefl|by rewrite !set_size| |].
      by apply: (vokP F G phi Pr) => i; rewrite !set_size So => Hi; rewrite R //; case: ifP.
    move=> i Hi; rewrite /poly_of poly_def !big_ord_recr big_ord0 /= add0r hornerD !hornerZ hornerXn hornerXn expr0 mulr1 expr1.
    rewrite !cfE !R // /= /Additive.point big_ord_recr big_ord0 /= add0r expn0 divn1; case: i Hi => [|[|i]] //= _; first by rewrite mulr0 addr0.
    by rewrite M2 A2 Eib mulrAC mulVf // mul1r addrA ch2 add0r.
  case: R => -> [Vb Eb Vib Eib b0] [Sp Vp Rp] [Sg Vg Rg] Ri.
  set h := (2 ^ m.+1)%N in Sg Rg.
  have h0 : (0 < h)%N by rewrite expn_gt0.
  have Eh : (2 ^ m.+2 = 2 * h)%N by rewrite /h expnS.
  rewrite add_ifft_layer; cbv zeta; rewrite (_ : (m.+2 - 1)%coq_nat = m.+1) // !pow2E -/h; rewrite Eh in Sp Rp So Sl *.
  rewrite -![length _]/(size _) So Sl (_ : slice_len h 0 (2 * h) = h); last by rewrite slice_low //; lia.
  set w0 := List.firstn h l.
  have Sw : size w0 = h by change (length w0 = h); rewrite List.firstn_length -[length l]/(size l) Sl; lia.
  have Rw i : (i < h)%N -> at_ w0 i = at_ l i by exact: at_firstn.
  have Vw : vok w0 by apply: (vokP F G phi Pr) => i; rewrite Sw => Hi; rewrite Rw.
  have [|v0 [-> Sv0 Rv0]] := vcopy_ok (vnew junk h) l h 0 h; first by rewrite vnew_size addn0.
  rewrite vnew_size in Sv0.
  have {}Rv0 i : (i < h)%N -> at_ v0 i = at_ l (h + i) by move=> Hi; rewrite Rv0 add0n subn0 Hi.
  have Vv0 : vok v0 by apply: (vokP F G phi Pr) => i; rewrite Sv0 => Hi; rewrite Rv0.
  have [||//|v [-> Sv Vv Rv]] := vadd_ok F G phi Pr v0 w0; rewrite ?Sv0 //.
  rewrite Sv0 in Sv Rv.
  have [||//|u0 [-> Su0 Vu0 Ru0]] := hadamard_ok F G phi Pr v gs; rewrite ?Sv //.
  rewrite Sv in Su0 Ru0.
  have [||//|u [-> Su Vu Ru]] := vadd_ok F G phi Pr u0 w0; rewrite ?Su0 //.
  rewrite Su0 in Su Ru.
  have [||//|g0 [-> Sg0 Vg0 Rg0]] := IH (nextb F b m.+1) inner (vnew junk h) u Ri; rewrite ?vnew_size //.
  have [||//|g1 [-> Sg1 Vg1 Rg1]] := IH (nextb F b m.+1) inner (vnew junk h) v Ri; rewrite ?vnew_size //.
  have [|||//|o [-> So1 Vo EP]] := inv_taylor_t2_ok F G phi Pr m.+1 (List.repeat 0%num (2 * h)) g0 g1; rewrite ?size_rep ?Sg0 ?Sg1 //.
  rewrite size_rep -/h in So1 EP.
  have [o2 [-> So2 Vo2 Ro2]] : exists o2, [/\ Some (if (1 <? bm)%num then mul_beta G o ibm else o) = Some o2,
      size o2 = (2 * h)%N, vok o2 & forall x, (pof (2 * h) o2).[b m.+1 * x] = (pof (2 * h) o).[x]].
    case Eb1: (1 <? bm)%num.
      have [S2 V2 R2] := mul_beta_ok F G phi Pr o ibm Vo Vib.
      eexists; split; [exact: erefl|by rewrite S2|by []|] => x.
      by rewrite (pof_scale _ o _ (b m.+1)^-1) ?mulKf // => i _; rewrite R2 Eib.
    by exists o; split=> // x; rewrite -Eb (one_of bm) ?Eb // mul1r.
  have W i : (i < h)%N -> let x := point (fun j => b j / b m.+1) m.+1 i in
     (pof (2 * h) o2).[b m.+1 * x] = cf l i /\ (pof (2 * h) o2).[b m.+1 * (x + 1)] = cf l (h + i).
    move=> Hi x; have [_ _ E3] := split_point m.+1 b i b0 Hi; rewrite -/x in E3.
    rewrite !Ro2 EP !pairp_eval succ_sq -E3 Rg0 // Rg1 // Ru // Ru0 // Rg // -/x.
    have -> : cf w0 i = cf l i by rewrite !cfE Rw.
    have E : cf v i * x + cf l i + x * cf v i = cf l i by rewrite mulrC addrAC ch2 add0r.
    split=> //; rewrite mulrDl mul1r addrA E Rv //.
    have -> : cf w0 i = cf l i by rewrite !cfE Rw.
    by rewrite addrCA ch2 addr0 !cfE Rv0.
  exists o2; split=> // i Hi; case: (ltnP i h) => hi.
    have [E1 _ _] := split_point m.+1 b i b0 hi; have [W1 _] := W i hi.
    by rewrite E1 W1.
  have hj : (i - h < h)%N by lia.
  have [_ E2 _] := split_point m.+1 b _ b0 hj; have [_ W2] := W _ hj.
  by rewrite subnKC // in E2 W2; rewrite E2 W2.
Qed.

(** ** Both ways *)
Theorem points_unique m b (p q : {poly F}) : independent F b m -> (size p <= 2 ^ m)%N -> (size q <= 2 ^ m)%N ->
  (forall i, (i < 2 ^ m)%N -> p.[point b m i] = q.[point b m i]) -> p = q.
Proof.
  move=> I Sp Sq H; apply/eqP; rewrite -subr_eq0; apply/eqP.
  apply: (@roots_geq_poly_eq0 _ _ [seq point b m i | i <- iota 0 (2 ^ m)]).
  - by apply/allP => x /mapP [i]; rewrite mem_iota add0n => Hi ->; rewrite rootE hornerD hornerN H // subrr.
  - rewrite map_inj_in_uniq ?iota_uniq // => i j; rewrite !mem_iota !add0n => Hi Hj.
    exact: (indep_inj F ch2).
  rewrite size_map size_iota; apply: leq_trans (size_add _ _) _; rewrite size_opp geq_max; by apply/andP.
Qed.
Lemma pof_inj n l l' : size l = n -> size l' = n -> vok l -> vok l' -> pof n l = pof n l' -> l = l'.
Proof.
  move=> Sl Sl' V V' /polyP H; apply: (List.nth_ext _ _ 0%num 0%num).
    by rewrite -![length _]/(size _) Sl Sl'.
  move=> i; rewrite -[length _]/(size _) Sl -![List.nth _ _ _]/(at_ _ _) => /ltP Hi.
  by apply: (gp_inj _ _ _ Pr) => //; have := H i; rewrite !coef_poly Hi.
Qed.
Lemma cf_inj n l l' : size l = n -> size l' = n -> vok l -> vok l' -> (forall i, (i < n)%N -> cf l i = cf l' i) -> l = l'.
Proof.
  move=> Sl Sl' V V' H; apply: (pof_inj n) => //; apply/polyP => i; rewrite !coef_poly; case: ifP => // Hi; exact: H.
Qed.

Theorem roundtrip m b a out out2 l : rep m b a -> independent F b m.+1 -> size out = (2 ^ m.+1)%N -> size out2 = (2 ^ m.+1)%N ->
  size l = (2 ^ m.+1)%N -> vok l ->
  (exists o, add_fft G junk a out l = Some o /\ add_ifft G junk a out2 o = Some l) /\
  (exists o, add_ifft G junk a out l = Some o /\ add_fft G junk a out2 o = Some l).
Proof.
  move=> R I So So2 Sl V; split.
    have [o [E1 S1 V1 P1]] := fft_ok m b a out l R So Sl V; exists o; split=> //.
    have [o2 [-> S2 V2 P2]] := ifft_ok m b a out2 o R So2 S1 V1; congr Some.
    apply: (pof_inj (2 ^ m.+1)) => //; apply: (points_unique m.+1 b) => //; try exact: size_poly.
    by move=> i Hi; rewrite P2 // P1.
  have [o [E1 S1 V1 P1]] := ifft_ok m b a out l R So Sl V; exists o; split=> //.
  have [o2 [-> S2 V2 P2]] := fft_ok m b a out2 o R So2 S1 V1; congr Some.
  by apply: (cf_inj (2 ^ m.+1)) => // i Hi; rewrite P2 // P1.
Qed.
End Trans.
