(** The Good-Thomas transform. *)
Set Warnings "-notation-overridden,-ambiguous-paths".
From Coq Require Import NArith Arith.
From Coq Require List.
From Verif.Model Require Import Common Arith Ring Views Matrix MixedFft.
From Verif.Proof Require Import ListP MatrixL.
From mathcomp Require Import all_ssreflect ssralg poly.
From mathcomp Require Import zify.
From Verif.Spec Require Import Dft Mixed.
From Verif.Proof Require Import Pres MatrixI DftInv MixedL MixedF MixedC.
Import GRing.Theory.
Local Open Scope ring_scope.

(** ** Inverses modulo a number *)
Lemma inverse_mod_spec nb md : (1 < md)%N -> coprime nb md ->
  (inverse_mod nb md < md)%N /\ ((inverse_mod nb md * nb) %% md = 1)%N.
Proof.
  move=> m1 co; rewrite /inverse_mod.
  have [x Hx E] : exists2 x, (0 < x < md)%N & ((x * nb) %% md = 1)%N.
    have nb0 : (0 < nb)%N by case: (nb) co => //; rewrite /coprime gcd0n; lia.
    case: (egcdnP md nb0) => u v Huv Hl; move: (co); rewrite /coprime => /eqP e1; rewrite e1 in Huv.
    have U1 : ((u * nb) %% md = 1)%N by rewrite Huv modnMDl modn_small.
    exists (u %% md)%N; last by rewrite modnMml.
    rewrite ltn_mod (ltnW m1) andbT lt0n; apply/eqP => e; by move: U1; rewrite -modnMml e mul0n mod0n.
  case Ef: (List.find _ _) => [y|].
    have [Hin /Nat.eqb_spec e] := List.find_some _ _ Ef; move: e; rewrite modE; last by lia.
    by move/List.in_seq: Hin => Hin e; split=> //; lia.
  have Hin : List.In x (List.seq 1 (md - 1)%coq_nat) by apply/List.in_seq; lia.
  have := List.find_none _ _ Ef x Hin; rewrite modE; last by lia.
  by rewrite -[Nat.mul x nb]/(x * nb)%N E.
Qed.

(** ** Indices *)
Section Crt.
Variables (n1 n2 : nat).
Hypothesis n11 : (1 < n1)%N.
Hypothesis n21 : (1 < n2)%N.
Hypothesis co : coprime n1 n2.
Notation n := (n1 * n2)%N.
Let c := (n2 * inverse_mod n2 n1)%N.
Let d := (n1 * inverse_mod n1 n2)%N.
Let n0 : (0 < n)%N. Proof. by nia. Qed.

Lemma c1 : (c = 1 %[mod n1])%N.
Proof. by rewrite /c mulnC; have [_ ->] := inverse_mod_spec n2 n1 n11 ltac:(by rewrite coprime_sym); rewrite modn_small. Qed.
Lemma d2 : (d = 1 %[mod n2])%N.
Proof. by rewrite /d mulnC; have [_ ->] := inverse_mod_spec n1 n2 n21 co; rewrite modn_small. Qed.

Definition mi (i1 i2 : nat) : nat := ((n2 * i1) %% n + n1 * i2) %% n.
Definition mo (k2 k1 : nat) : nat := ((d * k2) %% n + c * k1) %% n.
Lemma mi_lt i1 i2 : (mi i1 i2 < n)%N. Proof. by rewrite /mi ltn_mod. Qed.
Lemma mo_lt i1 i2 : (mo i1 i2 < n)%N. Proof. by rewrite /mo ltn_mod. Qed.

Lemma mi_inj i1 i2 j1 j2 : (i1 < n1)%N -> (i2 < n2)%N -> (j1 < n1)%N -> (j2 < n2)%N -> mi i1 i2 = mi j1 j2 -> i1 = j1 /\ i2 = j2.
Proof.
  move=> H1 H2 K1 K2; rewrite /mi !modnDml => e; split.
    have : (n2 * i1 = n2 * j1 %[mod n1])%N.
      have := congr1 (modn^~ n1) e; rewrite /= !(modn_dvdm _ (dvdn_mulr n2 (dvdnn n1))).
      by rewrite !(addnC (n2 * _)%N) !(mulnC n1) !modnMDl.
    move=> e1; have := congr1 (fun t => (inverse_mod n2 n1 * t) %% n1)%N e1; rewrite /= !modnMmr !mulnA.
    have [_ I] := inverse_mod_spec n2 n1 n11 ltac:(by rewrite coprime_sym).
    by rewrite -!(modnMml (_ * n2)%N) I !mul1n !modn_small.
  have : (n1 * i2 = n1 * j2 %[mod n2])%N.
    have := congr1 (modn^~ n2) e; rewrite /= !(modn_dvdm _ (dvdn_mull n1 (dvdnn n2))).
    by rewrite !(mulnC n2) !modnMDl.
  move=> e1; have := congr1 (fun t => (inverse_mod n1 n2 * t) %% n2)%N e1; rewrite /= !modnMmr !mulnA.
  have [_ I] := inverse_mod_spec n1 n2 n21 co.
  by rewrite -!(modnMml (_ * n1)%N) I !mul1n !modn_small.
Qed.

Lemma mo_mod1 k2 k1 : (mo k2 k1 = k1 %[mod n1])%N.
Proof.
  rewrite /mo modnDml (modn_dvdm _ (dvdn_mulr n2 (dvdnn n1))) {1}/d.
  by rewrite mulnAC -mulnA (mulnC n1) modnMDl -modnMml c1 modnMml mul1n.
Qed.
Lemma mo_mod2 k2 k1 : (mo k2 k1 = k2 %[mod n2])%N.
Proof.
  rewrite /mo modnDml (modn_dvdm _ (dvdn_mull n1 (dvdnn n2))) addnC {1}/c.
  by rewrite mulnAC -mulnA (mulnC n2) modnMDl -modnMml d2 modnMml mul1n.
Qed.
Lemma mo_inj k2 k1 l2 l1 : (k2 < n2)%N -> (k1 < n1)%N -> (l2 < n2)%N -> (l1 < n1)%N -> mo k2 k1 = mo l2 l1 -> k2 = l2 /\ k1 = l1.
Proof.
  move=> H2 H1 K2 K1 e; split.
    by have := mo_mod2 k2 k1; rewrite e mo_mod2 !modn_small.
  by have := mo_mod1 k2 k1; rewrite e mo_mod1 !modn_small.
Qed.
Lemma mo_onto k : (k < n)%N -> mo (k %% n2) (k %% n1) = k.
Proof.
  move=> Hk; have : (mo (k %% n2) (k %% n1) == k %[mod n])%N by rewrite chinese_remainder // mo_mod1 mo_mod2 !modn_mod !eqxx.
  by rewrite (modn_small Hk) (modn_small (mo_lt _ _)) => /eqP.
Qed.

Lemma mi_mod1 i1 i2 : (mi i1 i2 = n2 * i1 %[mod n1])%N.
Proof. by rewrite /mi modnDml (modn_dvdm _ (dvdn_mulr n2 (dvdnn n1))) addnC (mulnC n1 i2) modnMDl. Qed.
Lemma mi_mod2 i1 i2 : (mi i1 i2 = n1 * i2 %[mod n2])%N.
Proof. by rewrite /mi modnDml (modn_dvdm _ (dvdn_mull n1 (dvdnn n2))) (mulnC n2 i1) modnMDl. Qed.
Lemma mo_mi i1 i2 k1 k2 : (mo k2 k1 * mi i1 i2 = n1 * (k2 * i2) + n2 * (k1 * i1) %[mod n])%N.
Proof.
  apply/eqP; rewrite chinese_remainder //; apply/andP; split; apply/eqP.
    by rewrite -modnMm mo_mod1 mi_mod1 modnMm (mulnC n1) modnMDl mulnCA.
  by rewrite -modnMm mo_mod2 mi_mod2 modnMm addnC (mulnC n2) modnMDl mulnCA.
Qed.

Variables (F : fieldType) (r : F).
Hypothesis rn : r ^+ n = 1.
Lemma sum_mi (f : nat -> F) : \sum_(i < n) f i = \sum_(i1 < n1) \sum_(i2 < n2) f (mi i1 i2).
Proof.
  rewrite pair_bigA /=.
  pose h (p : 'I_n1 * 'I_n2) : 'I_n := Ordinal (mi_lt p.1 p.2).
  have hi : injective h.
    move=> [i1 i2] [j1 j2] /(congr1 val) /= /(mi_inj _ _ _ _ (ltn_ord i1) (ltn_ord i2) (ltn_ord j1) (ltn_ord j2)) [/val_inj -> /val_inj ->] //.
  have hb : bijective h by apply: inj_card_bij => //; rewrite card_prod !card_ord.
  by rewrite (reindex h) //=; exact: onW_bij.
Qed.
Lemma dft_crt (x : nat -> F) k2 k1 : dft F r n x (mo k2 k1) =
  dft F (r ^+ n2) n1 (fun i1 => dft F (r ^+ n1) n2 (fun i2 => x (mi i1 i2)) k2) k1.
Proof.
  rewrite /dft (sum_mi (fun j => x j * r ^+ (mo k2 k1 * j))); apply: eq_bigr => i1 _; rewrite big_distrl /=; apply: eq_bigr => i2 _.
  rewrite -!exprM -!mulrA -exprD; congr (_ * _).
  by rewrite -(expr_mod _ rn) mo_mi expr_mod.
Qed.
End Crt.

Lemma int_fits n1 n2 z q : (0 < n1)%N -> (z < n1 * n2)%N -> (q <= n2 * (n1 - 1) * (n1 - 1))%N -> (z + q < n1 * n2 * n1)%N.
Proof.
  case: n1 => // k _; rewrite subn1 /= => Hz Hq; have -> : (k.+1 * n2 * k.+1 = n2 * k * k + n2 * k + k.+1 * n2)%N by lia.
  by lia.
Qed.

Section Node.
Variables (w : N) (F : fieldType) (G : gfops) (phi : N -> F).
Hypothesis Pr : gf_pres F G phi.
Notation ok := (gvalid G).
Notation tspec := (tspec w F G phi).

Lemma gnode_tspec n1 n2 g outer inner inv privI (r : F) : (1 < n1)%N -> (1 < n2)%N -> coprime n1 n2 ->
  (N.of_nat (n1 * n2) * N.of_nat n1 < 2 ^ 31)%num -> (N.of_nat (n1 * n2) * N.of_nat n2 <= 2 ^ w)%num ->
  r ^+ (n1 * n2) = 1 ->
  tspec (small_fft w G outer inv) n1 pred0 (r ^+ n2) -> tspec (ct_fft w G inner inv) n2 privI (r ^+ n1) ->
  (forall a, privI a -> ~~ (g <= a < g + n1 * n2)%N) ->
  tspec (gt_fft w G (GNode (n1 * n2) n1 n2 n2 n1 (n2 * inverse_mod n2 n1) (n1 * inverse_mod n1 n2) outer g inner) inv)
     (n1 * n2) (priv n1 n2 g privI) r.
Proof.
  move=> n11 n21 co i31 tw rn Ho Hi gp m output input ao ai Wo Wi Pre; have [Eo _] := Wo; have [Ei _] := Wi.
  have n10 : (0 < n1)%N by lia.
  have n20 : (0 < n2)%N by lia.
  have n0 : (0 < n1 * n2)%N by rewrite muln_gt0 n10.
  have nw : (N.of_nat (n1 * n2) <= 2 ^ w)%num by nia.
  have [B [D Pb]] := Pre.
  have n1n : (n1 <= n1 * n2)%N by rewrite leq_pmulr.
  have n2n : (n2 <= n1 * n2)%N by rewrite leq_pmull.
  have [Ic _] := inverse_mod_spec n2 n1 n11 ltac:(by rewrite coprime_sym).
  have [Id _] := inverse_mod_spec n1 n2 n21 co.
  rewrite /gt_fft !retargetE ?Ei ?Eo ?(proj1 (win_plain w g (n1 * n2)%N)) //.
  rewrite (ofold_ext _ _ _ (fun m t => ct_fft w G inner inv m (Views.View (mkHdr g (n1 * n2) n2) (new_plain g (n1 * n2)) t n1 (n1 * n2))
     (Views.View (mkHdr g (n1 * n2) n2) input ((n2 * t) %% (n1 * n2)) n1 (n1 * n2)))); last first.
    move=> s t /List.in_seq Ht; rewrite /int_map.
    have -> : Nat.modulo (N.to_nat (Common.wrap w (N.of_nat (Nat.mul n2 t)))) (n1 * n2)%N = ((n2 * t) %% (n1 * n2))%N.
      by rewrite modE //; congr (_ %% _)%N; rewrite /Common.wrap N.mod_small -[Nat.mul n2 t]/(n2 * t)%N; nia.
    have := ltn_pmod (n2 * t) n0 => L.
    case: N.ltb_spec => // H; exfalso; move: H; rewrite /get_n [h_n _]/=; nia.
  have [t Ht|t i _ _|m1 [-> [S1 F1 V1]]] := inner_stage w F G phi n1 n2 g privI (r ^+ n1) (ct_fft w G inner inv) n10 n20 nw Hi gp m ao ai Pre
     (fun t => Views.View (mkHdr g (n1 * n2) n2) input ((n2 * t) %% (n1 * n2)) n1 (n1 * n2)) (mi n1 n2).
  - apply: source_ext; first by apply: (source_view w (size m) g (n1 * n2)%N n2 input _ _ _ n1 Wi n0 nw).
    by move=> i Hi'.
  - exact: mi_lt.
  have gsz : (g + n1 * n2 <= size m)%N.
    have : (g + (n1 * n2).-1 < size m)%N; last by lia.
    by apply: Pb; rewrite /priv; apply/orP; right; lia.
  have Vg i : (i < n1 * n2)%N -> ok (rd m1 (g + i)%N).
    move=> Hi'; have -> : i = (i %% n1 + n1 * (i %/ n1))%N by rewrite {1}(divn_eq i n1) addnC mulnC.
    by apply: (proj1 (V1 _ _ _ _)); rewrite ?ltn_mod // ltn_divLR // mulnC.
  rewrite (ofold_ext _ _ _ (fun m t => small_fft w G outer inv m
     (Views.View (mkHdr g (n1 * n2) n1) output ((n1 * inverse_mod n1 n2 * t) %% (n1 * n2)) (n2 * inverse_mod n2 n1) (n1 * n2))
     (Views.View (mkHdr g (n1 * n2) n1) (new_plain g (n1 * n2)) (t * n1) 1 (n1 * n2)))); last first.
    move=> s t /List.in_seq Ht; rewrite /int_map.
    have Lt : (n1 * inverse_mod n1 n2 * t <= n1 * (n2 - 1) * (n2 - 1))%N.
      by apply: leq_mul; [apply: leq_mul|]; lia.
    have -> : Nat.modulo (N.to_nat (Common.wrap w (N.of_nat (n1 * inverse_mod n1 n2) * N.of_nat t))) (n1 * n2)%N = ((n1 * inverse_mod n1 n2 * t) %% (n1 * n2))%N.
      rewrite modE //; congr (_ %% _)%N; rewrite /Common.wrap N.mod_small; first by lia.
      have -> : (N.of_nat (n1 * inverse_mod n1 n2) * N.of_nat t = N.of_nat (n1 * inverse_mod n1 n2 * t))%num by lia.
      move: (n1 * inverse_mod n1 n2 * t)%N Lt => z Lt; have : (z < n1 * n2 * n2)%N by nia.
      by lia.
    have := ltn_pmod (n1 * inverse_mod n1 n2 * t)%N n0 => L.
    case: N.ltb_spec => // H; exfalso; move: H; rewrite /get_n [h_n _]/=.
    have Lc : (n2 * inverse_mod n2 n1 * (n1 - 1) <= n2 * (n1 - 1) * (n1 - 1))%N by apply: leq_mul => //; apply: leq_mul; lia.
    move: ((n1 * inverse_mod n1 n2 * t) %% (n1 * n2))%N L => z L.
    move: (n2 * inverse_mod n2 n1)%N Lc => y Lc.
    have L1 := int_fits _ _ _ _ n10 L Lc; clear - L1 i31.
    have -> : (N.of_nat z + N.of_nat y * N.of_nat (n1 - 1)%coq_nat = N.of_nat (z + y * (n1 - 1)))%num by lia.
    have : (N.of_nat (z + y * (n1 - 1)) < N.of_nat (n1 * n2) * N.of_nat n1)%num by lia.
    by lia.
  have [||t Ht|t i _ _|t i s j Ht Hi' Hs Hj|m3 [E3 [S3 F3 V3]]] :=
     outer_stage w F G phi n1 n2 g outer privI (r ^+ n2) inv n10 n20 nw Ho m ao ai Pre
     (fun t => Views.View (mkHdr g (n1 * n2) n1) output ((n1 * inverse_mod n1 n2 * t) %% (n1 * n2)) (n2 * inverse_mod n2 n1) (n1 * n2))
     (mo n1 n2) m1.
  - by [].
  - exact: Vg.
  - apply: win_ext; first by apply: (win_view w g (n1 * n2)%N n1 output _ _ _ _ Wo n0 nw).
    by move=> i Hi'.
  - exact: mo_lt.
  - exact: mo_inj.
  exists m3; split; first exact: E3.
  split=> //.
    by move=> a pa Ha; rewrite F3 //; exact: F1.
  move=> k Hk.
  have K2 : (k %% n2 < n2)%N by rewrite ltn_mod.
  have K1 : (k %% n1 < n1)%N by rewrite ltn_mod.
  have [o e] := V3 _ _ K2 K1; rewrite mo_onto // in o e; split=> //; rewrite e -[in RHS](mo_onto n1 n2 n11 n21 co k Hk) dft_crt //.
  apply: dft_ext => i Hi'; have [_ ->] := V1 i _ Hi' K2; by [].
Qed.

Definition gt_ok c n p (r : F) := forall inv : bool, tspec (gt_fft w G c inv) n p (if inv then r^-1 else r).

Lemma new_gt_spec n1 fs heap n wr r : fits n1 -> List.Forall fits fs -> (n1 * List.fold_right muln 1%N fs)%N = n ->
  coprime n1 (List.fold_right muln 1%N fs) -> (fs <> nil -> is_power_of_2 (N.of_nat (List.fold_right muln 1%N fs)) = false) ->
  (N.of_nat n * N.of_nat n1 < 2 ^ 31)%num -> (N.of_nat n * N.of_nat (List.fold_right muln 1%N fs) <= 2 ^ w)%num ->
  (N.of_nat n < g_card G)%num -> ok wr -> phi wr = r -> n.-primitive_root r ->
  exists c h, new_gt G (n1 :: fs)%SEQ heap n wr = Some (c, h) /\ (heap <= h)%N /\ gt_ok c n (area heap h) r.
Proof.
  move=> [n11 n131] Ff En co p2' i31 tw nq Vw Ew rp /=.
  have n0 := prim_order_gt0 rp.
  case: Nat.eqb_spec => [|_]; first by lia.
  set n2 := List.fold_right _ _ _ in En co p2' tw *.
  have n20 : (0 < n2)%N by move: n0; rewrite -En muln_gt0 => /andP [].
  have -> : Nat.div n n1 = n2 by rewrite -En -[(n1 * n2)%N]/(Nat.mul n1 n2) Nat.mul_comm Nat.div_mul //; lia.
  have [n1n n2n] : (n1 <= n)%N /\ (n2 <= n)%N by rewrite -En; split; [rewrite leq_pmulr|rewrite leq_pmull //; lia].
  have nw : (N.of_nat n2 <= 2 ^ w)%num by nia.
  have [V1 E1] := gp_exp _ _ _ Pr wr (N.of_nat n2) Vw ltac:(lia).
  have [V2 E2] := gp_exp _ _ _ Pr wr (N.of_nat n1) Vw ltac:(lia).
  rewrite !Nnat.Nat2N.id Ew in E1 E2.
  have p1 : n1.-primitive_root (r ^+ n2) by apply: prim_pow => //; rewrite En.
  have p2 : n2.-primitive_root (r ^+ n1) by apply: prim_pow; [lia|rewrite mulnC En].
  have [outer [-> So]] := new_outer_spec w F G phi Pr n1 _ _ n11 n131 ltac:(lia) V1 E1 p1.
  case: Nat.ltb_spec => H2.
    have fs0 : fs <> nil by move=> e; move: H2; rewrite /n2 e /=; lia.
    rewrite p2' //.
    have [|inner [h [-> [hh Ci]]]] := new_ct_spec w F G phi Pr fs heap n2 (g_exp G wr (N.of_nat n1)) (r ^+ n1) fs0 Ff erefl nw _ V2 E2 p2; first by lia.
    do 2 eexists; split; first by []; split; first by rewrite -[(h + n)%coq_nat]/(h + n)%N; lia.
    rewrite -En => inv.
    apply: (@tspec_priv _ _ _ _ _ _ (priv n1 n2 h (area heap h))).
      by move=> a; rewrite /priv /area -[(h + (n1 * n2)%N)%coq_nat]/(h + n1 * n2)%N; apply/idP/idP; lia.
    apply: gnode_tspec => //; [lia|by rewrite En|by rewrite En| | | |].
    - by case: inv; rewrite En ?exprVn (prim_expr_order rp) ?invr1.
    - by have := So inv; case: (inv); rewrite ?exprVn.
    - by have := Ci inv; case: (inv); rewrite ?exprVn.
    - by move=> a; rewrite /area; lia.
  have e1 : n2 = 1%N by lia.
  do 2 eexists; split; first by []; split=> // inv; have := So inv; rewrite e1 expr1 -En e1 muln1 => S'.
  by apply: tspec_priv S' => a; rewrite /area /=; lia.
Qed.
End Node.
