(** The transforms over a field, with the root that the field gives. *)
Set Warnings "-notation-overridden,-ambiguous-paths".
From Coq Require Import NArith Arith.
From Coq Require List.
From Verif.Model Require Import Common Arith Ring Views Matrix MixedFft.
From Verif.Spec Require Import Primes.
From Verif.Proof Require Import ListP MatrixL ArithP PrimeP FactorU.
From mathcomp Require Import all_ssreflect ssralg poly.
From mathcomp Require Import zify.
From Verif.Spec Require Import Dft Mixed.
From Verif.Proof Require Import Pres MatrixI DftInv RootP MixedL MixedF MixedC MixedG.
Import GRing.Theory.
Local Open Scope ring_scope.

Section Fermat.
Variables (F : fieldType) (G : gfops) (phi : N -> F).
Hypothesis Pr : gf_pres F G phi.
Notation ok := (gvalid G).
Notation q := (g_card G).

(** The product by [a] permutes the non-zero elements. *)
Lemma pres_fermat a : ok a -> a <> 0%num -> phi a ^+ N.to_nat (q - 1) = 1.
Proof.
  move=> Va a0; pose s := [seq phi (N.of_nat i) | i <- iota 1 (N.to_nat (q - 1))].
  have Vs i : i \in iota 1 (N.to_nat (q - 1)) -> ok (N.of_nat i) /\ N.of_nat i <> 0%num by rewrite mem_iota /gvalid => H; split; lia.
  have us : uniq s.
    rewrite map_inj_in_uniq ?iota_uniq // => i j /Vs [Vi _] /Vs [Vj _] /(gp_inj _ _ _ Pr _ _ Vi Vj); lia.
  have n0 b : ok b -> b <> 0%num -> phi b != 0.
    move=> Vb b0; apply/eqP => e; apply: b0; apply: (gp_inj _ _ _ Pr) => //; last by rewrite e (gp_0 _ _ _ Pr).
    by have := gp_card _ _ _ Pr; rewrite /gvalid; lia.
  have ms b : ok b -> b <> 0%num -> phi b \in s.
    by move=> Vb b0; apply/mapP; exists (N.to_nat b); [rewrite mem_iota; move: Vb; rewrite /gvalid; lia|rewrite Nnat.N2Nat.id].
  pose s' := [seq phi a * x | x <- s].
  have us' : uniq s' by rewrite map_inj_uniq //; exact: mulfI (n0 a Va a0).
  have sub : {subset s' <= s}.
    move=> x /mapP [y /mapP [i Hi ->] ->]; have [Vi i0] := Vs i Hi; have [V E] := gp_mul _ _ _ Pr _ _ Va Vi; rewrite -E.
    apply: ms => // e; have := n0 a Va a0; have := n0 _ Vi i0; move: E; rewrite e (gp_0 _ _ _ Pr) => /esym/eqP.
    by rewrite mulf_eq0 => /orP [] ->.
  have [_ eqm] := uniq_min_size us' sub (eq_leq (esym (size_map _ _))).
  have P : perm_eq s' s by apply: uniq_perm.
  have : \prod_(x <- s') x = \prod_(x <- s) x by apply: perm_big.
  rewrite big_map /= big_split /= big_const_seq count_predT size_map size_iota iter_mulr_1 => e.
  have p0 : \prod_(x <- s) x != 0 :> F.
    rewrite prodf_seq_neq0; apply/allP => x /mapP [i Hi ->] /=; have [Vi i0] := Vs i Hi; exact: n0.
  by apply: (mulIf p0); rewrite mul1r.
Qed.
End Fermat.

Lemma prod_nat l : List.fold_right muln 1%N (List.map N.to_nat l) = N.to_nat (list_prod l).
Proof. by elim: l => //= x l ->; rewrite /list_prod /= Nnat.N2Nat.inj_mul. Qed.
Lemma in_list_prod l x : List.In x l -> N.divide x (list_prod l).
Proof.
  elim: l => //= y l IH [->|/IH H]; first exact: N.divide_factor_l.
  exact: N.divide_mul_r.
Qed.

Section Top.
Variables (F : fieldType) (G : gfops) (phi : N -> F).
Hypothesis Pr : gf_pres F G phi.
Variable hw : N.
Hypothesis hw0 : (0 < hw)%num.
Notation w := (2 * hw)%num.
Hypothesis hq : (g_card G <= 2 ^ w)%num.
Variable root : N.
Hypothesis Hroot : find_primitive_root w G = Some root.
Variable n : nat.
Hypothesis n1 : (1 < n)%N.
Hypothesis nq : N.divide (N.of_nat n) (g_card G - 1).
Notation ok := (gvalid G).
Notation wr := (get_nth_root G root (N.of_nat n)).

Lemma top_root : ok wr /\ n.-primitive_root (phi wr).
Proof.
  have [r [E Vr r0 Pr0]] := find_primitive_root_spec F G phi Pr (pres_fermat F G phi Pr) hw hw0 hq.
  move: E; rewrite Hroot => -[e]; subst r.
  have [|V P] := get_nth_root_spec F G phi Pr (pres_fermat F G phi Pr) hw hw0 hq root (N.of_nat n) Vr Pr0; first by lia.
  by split=> //; move: P; rewrite (proj1 (N.divide_gcd_iff' _ _) nq) Nnat.Nat2N.id.
Qed.
Lemma top_le : (N.of_nat n < g_card G)%num.
Proof. by have := N.divide_pos_le _ _ _ nq; have := gp_card _ _ _ Pr; lia. Qed.

Notation tspec := (tspec w F G phi).
Notation ispec := (ispec w F G phi).
Variable p : N.
Notation inv_n := (get_inv_n_mod_p G p (N.of_nat n)).
Hypothesis Vinv : ok inv_n.
Hypothesis Einv : if (1 <? inv_n)%num then phi inv_n = n%:R^-1 else n%:R = 1 :> F.

Theorem naive_top : (N.of_nat (n - 1) * N.of_nat (n - 1) < 2 ^ 31)%num -> exists s, new_naive G n wr = Some s /\
  [/\ tspec (small_fft w G s false) n pred0 (phi wr), tspec (small_fft w G s true) n pred0 (phi wr)^-1 &
      ispec (small_ifft w G s inv_n) n pred0 (phi wr)].
Proof.
  move=> i31; have [V P] := top_root; have n0 : (0 < n)%N by lia.
  have [s [-> S]] := new_naive_spec w F G phi Pr n wr (phi wr) n0 i31 (N.lt_le_incl _ _ top_le) V erefl (prim_expr_order P).
  exists s; split=> //; split; [exact: (S false)|exact: (S true)|].
  exact: (inverse_ispec w F G phi Pr (small_fft w G s true) n pred0 (phi wr) inv_n n0 P (S true) Vinv Einv).
Qed.

Theorem ct_top heap : (forall f, primeN f -> N.divide f (N.of_nat n) -> ((f - 1) * (f - 1) < 2 ^ 31)%num) ->
  exists c h, new_cooley_tukey w G p root 0 heap n = Some (c, inv_n, h) /\ (heap <= h)%N /\
  [/\ tspec (ct_fft w G c false) n (area heap h) (phi wr), tspec (ct_fft w G c true) n (area heap h) (phi wr)^-1 &
      ispec (ct_ifft w G c inv_n) n (area heap h) (phi wr)].
Proof.
  move=> Hf; have [V P] := top_root; have L := top_le; have Lw := N.lt_le_trans _ _ _ L hq.
  have n0 : (0 < n)%N by lia.
  have [l [E [Pl [El _]]]] := get_prime_factors_spec hw hw0 (N.of_nat n) ltac:(lia) Lw.
  rewrite /new_cooley_tukey E [List.skipn 0 _]/=.
  have [|||c [h [-> [hh C]]]] := new_ct_spec w F G phi Pr (List.map N.to_nat l) heap n wr (phi wr) _ _ _ (N.lt_le_incl _ _ Lw) L V erefl P.
  - by case: (l) El => //=; rewrite /list_prod /=; lia.
  - apply/List.Forall_map/List.Forall_forall => x Hx; have Px := proj1 (List.Forall_forall _ _) Pl x Hx.
    by have := Hf x Px; rewrite -El => /(_ (in_list_prod _ _ Hx)); case: Px => ? _; split; lia.
  - by rewrite prod_nat El Nnat.Nat2N.id.
  exists c, h; split=> //; split=> //; split; [exact: (C false)|exact: (C true)|].
  exact: (inverse_ispec w F G phi Pr (ct_fft w G c true) n _ (phi wr) inv_n n0 P (C true) Vinv Einv).
Qed.

Theorem gt_top heap a e l : factorisation (N.of_nat n) ((a, e) :: l)%SEQ ->
  (forall b f, List.In (b, f) ((a, e) :: l)%SEQ -> ((b ^ f - 1) * (b ^ f - 1) < 2 ^ 31)%num) ->
  (N.of_nat n * a ^ e < 2 ^ 31)%num -> (N.of_nat n * (N.of_nat n / a ^ e) <= 2 ^ w)%num ->
  exists c h, new_good_thomas w G p root 0 heap n = Some (c, inv_n, h) /\ (heap <= h)%N /\
  [/\ tspec (gt_fft w G c false) n (area heap h) (phi wr), tspec (gt_fft w G c true) n (area heap h) (phi wr)^-1 &
      ispec (gt_ifft w G c inv_n) n (area heap h) (phi wr)].
Proof.
  move=> Fa Hf i31 tw; have [V P] := top_root; have L := top_le; have Lw := N.lt_le_trans _ _ _ L hq.
  have n0 : (0 < n)%N by lia.
  have [Ft [En [Pa [e0 _]]]] := fact_tail _ _ _ _ Fa.
  rewrite /new_good_thomas (coprime_factors_of hw hw0 _ _ Fa Lw) [List.map _ _]/= [List.map N.to_nat _]/= [List.skipn 0 _]/=.
  have Ep : List.fold_right muln 1%N (List.map N.to_nat (List.map (fun pe : N * N => (pe.1 ^ pe.2)%num) l)) = N.to_nat (prod_powers l).
    by rewrite prod_nat; congr N.to_nat; elim: (l) => //= x l' IH; rewrite /list_prod /= -/(list_prod _) IH.
  have fb pe : List.In pe ((a, e) :: l)%SEQ -> fits (N.to_nat (pe.1 ^ pe.2)).
    move=> Hin; have B := proj1 (List.Forall_forall _ _) (powers_big _ _ Fa) pe Hin; case: pe Hin B => b f Hin /= B.
    by have := Hf b f Hin; split; lia.
  have a0 : (a ^ e <> 0)%num by apply: N.pow_nonzero; case: Pa; lia.
  have Ed : (N.of_nat n / a ^ e = prod_powers l)%num by rewrite En N.mul_comm N.div_mul.
  have [|||||||c [h [-> [hh C]]]] := new_gt_spec w F G phi Pr (N.to_nat (a ^ e)%num) (List.map N.to_nat (List.map (fun pe : N * N => (pe.1 ^ pe.2)%num) l)) heap n wr (phi wr) _ _ _ _ _ _ _ L V erefl P.
  - by apply: (fb (a, e)); left.
  - by apply/List.Forall_map/List.Forall_map/List.Forall_forall => x Hx; apply: fb; right.
  - by rewrite Ep -multE -Nnat.N2Nat.inj_mul -En Nnat.Nat2N.id.
  - rewrite Ep; have := head_coprime _ _ _ _ Fa => H.
    rewrite /coprime; apply/eqP; set d := gcdn _ _.
    have : N.divide (N.of_nat d) 1.
      by rewrite -H; apply: N.gcd_greatest; apply/N_divide_dvdn; rewrite Nnat.Nat2N.id ?dvdn_gcdl ?dvdn_gcdr.
    by move/N.divide_1_r; lia.
  - by move=> l0; rewrite Ep Nnat.N2Nat.id; apply: (tail_not_pow2 _ _ _ _ Fa) => e'; apply: l0; rewrite e'.
  - by rewrite Nnat.N2Nat.id.
  - by rewrite Ep Nnat.N2Nat.id -Ed.
  exists c, h; split=> //; split=> //; split; [exact: (C false)|exact: (C true)|].
  exact: (inverse_ispec w F G phi Pr (gt_fft w G c true) n _ (phi wr) inv_n n0 P (C true) Vinv Einv).
Qed.
End Top.
