(** Construction, transform and inverse transform. *)
Set Warnings "-notation-overridden,-ambiguous-paths".
From Coq Require Import NArith Arith.
From Coq Require List.
From Verif.Model Require Import Common Arith Ring Views Additive.
From Verif.Proof Require Import ListP MatrixL.
From mathcomp Require Import all_ssreflect ssralg poly.
From mathcomp Require Import zify.
From Verif.Spec Require Import Mixed Additive.
From Verif.Proof Require Import Pres MixedL AddL AddT AddI AddG AddF.
Import GRing.Theory.
Local Open Scope ring_scope.

Section Trans.
Variables (F : fieldType) (G : gfops) (phi : N -> F) (junk : N).
Hypothesis Pr : gf_pres F G phi.
Hypothesis ch2 : forall u : F, u + u = 0.
Hypothesis AX : forall a b, gvalid G a -> gvalid G b -> g_add G a b = N.lxor a b.
Notation ok := (gvalid G).
Notation cf := (cf F phi).
Notation vok := (vok G).
Notation point := (point F).
Notation pof := (poly_of F phi).

Definition nextb (b : nat -> F) m : nat -> F := fun j => (b j / b m) ^+ 2 + b j / b m.
(** An object built for the basis [b] of [m.+1] elements. *)
Fixpoint rep (m : nat) (b : nat -> F) (a : Verif.Model.Additive.additive) : Prop :=
  match m, a with
  | 0%N, Line b1 ib1 => [/\ ok b1, phi b1 = b 0%N, ok ib1, phi ib1 = (b 0%N)^-1 & b 0%N != 0]
  | m1.+1, Layer mm bm ibm powers gs inner =>
      [/\ mm = m.+1, [/\ ok bm, phi bm = b m, ok ibm, phi ibm = (b m)^-1 & b m != 0],
          [/\ size powers = (2 ^ m.+1)%N, vok powers & forall i, (i < 2 ^ m.+1)%N -> cf powers i = b m ^+ i],
          [/\ size gs = (2 ^ m)%N, vok gs & forall i, (i < 2 ^ m)%N -> cf gs i = point (fun j => b j / b m) m i]
        & rep m1 (nextb b m) inner]
  | _, _ => False
  end.

Lemma rep_ext m b b' a : (forall j, (j <= m)%N -> b j = b' j) -> rep m b a -> rep m b' a.
Proof.
  elim: m b b' a => [|m IH] b b' [b1 ib1|mm bm ibm pw gs inner] //= H.
    by rewrite -!H.
  rewrite -!(H m.+1) // => -[-> R1 R2 [S V R3] R4]; split=> //.
    split=> // i Hi; rewrite R3 //; apply: point_ext => j Hj; rewrite H //; lia.
  by apply: IH R4 => j Hj; rewrite /nextb !H //; lia.
Qed.

Lemma powers_ok bm n : ok bm -> (2 <= n)%N ->
  [/\ size (compute_beta_m_powers G junk bm n) = n, vok (compute_beta_m_powers G junk bm n) &
      forall i, (i < n)%N -> cf (compute_beta_m_powers G junk bm n) i = phi bm ^+ i].
Proof.
  move=> Vb n2; rewrite /compute_beta_m_powers; set l0 := Common.set _ 1 _; set f := (X in List.fold_left X).
  have Sv : size (vnew junk n) = n by rewrite /vnew; elim: (n) => //= k ->.
  have S0 : size l0 = n by rewrite !set_size.
  suff H k : (k <= n - 2)%N -> let s := List.fold_left f (List.seq 2 k) (l0, bm) in
     [/\ size s.1 = n, ok s.2, phi s.2 = phi bm ^+ k.+1 & forall i, (i < k.+2)%N -> ok (at_ s.1 i) /\ cf s.1 i = phi bm ^+ i].
    have [S1 _ _ R1] := H (n - 2)%N (leqnn _); split=> //.
      by apply: (vokP F G phi Pr) => i; rewrite S1 => Hi; case: (R1 i) => //; lia.
    by move=> i Hi; case: (R1 i) => //; lia.
  elim: k => [|k IH] Hk.
    split=> // i Hi; rewrite cfE /l0 at_set ?set_size ?Sv // at_set ?Sv; last by lia.
    case: i Hi => [|[|i]] // _ /=; first by rewrite (gp_1 _ _ _ Pr); split=> //; exact: (ok1 _ _ _ Pr).
  have {IH} := IH (ltnW Hk); rewrite List.seq_S List.fold_left_app; case: (List.fold_left _ _ _) => l1 c /= [S1 Vc Ec R1].
  have [M1 M2] := gp_mul _ _ _ Pr _ _ Vc Vb.
  have Ec' : phi (g_mul G c bm) = phi bm ^+ k.+2 by rewrite M2 Ec -exprSr.
  split=> //; first by rewrite set_size.
  move=> i Hi; rewrite cfE at_set ?S1; last by lia.
  case: eqP => [<-|ne]; first by [].
  by apply: R1; lia.
Qed.

Lemma at_map (f : nat -> N) n i : (i < n)%N -> at_ (List.map f (List.seq 0 n)) i = f i.
Proof.
  move=> Hi; rewrite /at_ /get (List.nth_indep _ _ (f 0%N)); last by rewrite List.map_length List.seq_length; apply/ltP.
  by rewrite List.map_nth List.seq_nth //; apply/ltP.
Qed.

Lemma new_additiveS m betas : new_additive G junk m.+2 betas =
  let gs := List.map (fun i => gamma_of G (at_ betas m.+1) (g_inv G (at_ betas m.+1)) (at_ betas i)) (List.seq 0 m.+1) in
  match compute_subspace G gs (vnew junk (Nat.pow 2 m.+1)), new_additive G junk m.+1 (List.map (delta_of G) gs) with
  | Some s, Some inner => Some (Layer m.+2 (at_ betas m.+1) (g_inv G (at_ betas m.+1)) (compute_beta_m_powers G junk (at_ betas m.+1) (Nat.pow 2 m.+2)) s inner)
  | _, _ => None
  end.
Proof. by []. Qed.

Theorem construct m betas : vok betas -> independent F (cf betas) m.+1 -> (2 ^ N.of_nat m.+1 <= g_card G)%num ->
  exists a, new_additive G junk m.+1 betas = Some a /\ rep m (cf betas) a.
Proof.
  elim: m betas => [|m IH] betas V I Hc.
    have b0 := indep_top F ch2 _ _ I; eexists; split; first exact: erefl.
    have nz : at_ betas 0 <> 0%num by move=> e; move: b0; rewrite cfE e (gp_0 _ _ _ Pr) eqxx.
    by have [Vi Ei] := gp_inv _ _ _ Pr _ (V 0%N) nz; split.
  have Hc2 : (2 < g_card G)%num by apply: N.lt_le_trans Hc; apply: (N.lt_le_trans _ (2 ^ 2)) => //; apply: N.pow_le_mono_r; lia.
  have b0 := indep_top F ch2 _ _ I.
  have nz : at_ betas m.+1 <> 0%num by move=> e; move: b0; rewrite cfE e (gp_0 _ _ _ Pr) eqxx.
  have [Vi Ei] := gp_inv _ _ _ Pr _ (V m.+1) nz.
  pose gam i := gamma_of G (at_ betas m.+1) (g_inv G (at_ betas m.+1)) (at_ betas i).
  have Hg i : ok (gam i) /\ phi (gam i) = cf betas i / cf betas m.+1.
    rewrite /gam /gamma_of; case: N.ltb_spec => h.
      by have [M1 M2] := gp_mul _ _ _ Pr _ _ Vi (V i); split=> //; rewrite M2 Ei mulrC.
    have E1 : at_ betas m.+1 = 1%num by lia.
    by split=> //; rewrite [cf betas m.+1]cfE E1 (gp_1 _ _ _ Pr) divr1.
  pose gs := List.map gam (List.seq 0 m.+1).
  have Sgs : size gs = m.+1 by change (length gs = m.+1); rewrite /gs List.map_length List.seq_length.
  have Vgs : vok gs by apply: (vokP F G phi Pr) => i; rewrite Sgs => Hi; rewrite at_map //; case: (Hg i).
  have Hd i : (i < m.+1)%N -> ok (delta_of G (at_ gs i)) /\ phi (delta_of G (at_ gs i)) = nextb (cf betas) m.+1 i.
    move=> Hi; rewrite at_map // /delta_of; have [g1 g2] := Hg i.
    have [e1 e2] := gp_exp _ _ _ Pr _ 2 g1 Hc2; have [a1 a2] := gp_add _ _ _ Pr _ _ e1 g1.
    by split=> //; rewrite a2 e2 g2.
  have Sd : size (List.map (delta_of G) gs) = m.+1 by change (length (List.map (delta_of G) gs) = m.+1); rewrite List.map_length.
  have Ad i : (i < m.+1)%N -> at_ (List.map (delta_of G) gs) i = delta_of G (at_ gs i).
    move=> Hi; rewrite /at_ /get (List.nth_indep _ _ (delta_of G 0)) ?List.map_nth //.
    by rewrite List.map_length -[length _]/(size gs) Sgs; apply/ltP.
  have Hc1 : (2 ^ N.of_nat m.+1 <= g_card G)%num.
    by apply: N.le_trans Hc; apply: N.pow_le_mono_r; lia.
  have [||s [E1 S1 V1 R1]] := compute_subspace_ok F G phi Pr ch2 AX gs Vgs _ (vnew junk (2 ^ m.+1)).
  - by rewrite Sgs.
  - by rewrite Sgs /vnew; elim: (2 ^ m.+1)%N => //= k ->.
  have [||//|a [E2 R2]] := IH (List.map (delta_of G) gs).
  - by apply: (vokP F G phi Pr) => i; rewrite Sd => Hi; rewrite Ad //; case: (Hd i Hi).
  - move=> i Hi; rewrite (point_ext F _ (nextb (cf betas) m.+1)); last by move=> j Hj; rewrite cfE Ad //; case: (Hd j Hj).
    exact: indep_next.
  exists (Layer m.+2 (at_ betas m.+1) (g_inv G (at_ betas m.+1)) (compute_beta_m_powers G junk (at_ betas m.+1) (2 ^ m.+2)) s a).
  have [|P1 P2 P3] := powers_ok (at_ betas m.+1) (2 ^ m.+2) (V m.+1).
    by rewrite !expnS; have := expn_gt0 2 m; lia.
  split.
    by rewrite new_additiveS; cbv zeta; rewrite -[List.map (fun _ => _) _]/gs !pow2E E1 E2.
  split; [by []|by split|by split| |].
    rewrite Sgs in S1 R1; split=> // i Hi; rewrite R1 //; apply: point_ext => j Hj.
    by rewrite cfE at_map //; case: (Hg j).
  by apply: rep_ext R2 => j Hj; rewrite cfE Ad //; case: (Hd j Hj).
Qed.
End Trans.
