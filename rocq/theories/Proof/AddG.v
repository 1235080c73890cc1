(** The enumeration of a subspace along a Gray sequence. *)
Set Warnings "-notation-overridden,-ambiguous-paths".
From Coq Require Import NArith Arith.
From Coq Require List.
From Verif.Model Require Import Common Arith Ring Views Additive.
From Verif.Proof Require Import ListP MatrixL BitRev.
From mathcomp Require Import all_ssreflect ssralg poly.
From mathcomp Require Import zify.
From Verif.Spec Require Import Mixed Additive.
From Verif.Proof Require Import Pres MixedL AddL AddT AddI.
Import GRing.Theory.
Local Open Scope ring_scope.

Lemma nthE (l : list N) d i : List.nth i l d = nth d l i.
Proof. by elim: l i => [|x l IH] [|i] //=. Qed.
Lemma lastE (l : list N) d : List.last l d = last d l.
Proof. by elim: l d => [|x [|y l] IH] d //; rewrite [LHS]IH. Qed.
Lemma atE l i : at_ l i = nth 0%num l i. Proof. exact: nthE. Qed.

Lemma bitE x j : odd (N.to_nat x %/ 2 ^ j) = N.testbit x (N.of_nat j).
Proof.
  elim: j x => [|j IH] x.
    rewrite divn1 N.bit0_odd; have := N.div2_odd x; case: (N.odd x) => E.
      by have -> : N.to_nat x = (N.to_nat (N.div2 x)).*2.+1; [rewrite {1}E [N.b2n _]/= -muln2; lia|rewrite /= odd_double].
    by have -> : N.to_nat x = (N.to_nat (N.div2 x)).*2; [rewrite {1}E [N.b2n _]/= -muln2; lia|rewrite odd_double].
  rewrite expnS divnMA (_ : (N.to_nat x %/ 2)%N = N.to_nat (N.div2 x)).
    by rewrite IH N.div2_spec N.shiftr_spec'; congr N.testbit; lia.
  by rewrite N.div2_div; lia.
Qed.

Section Point.
Variables (F : fieldType) (b : nat -> F) (dim : nat).
Hypothesis ch2 : forall u : F, u + u = 0.
Definition pt (x : N) : F := point F b dim (N.to_nat x).
Lemma ptE x : pt x = \sum_(j < dim) (if N.testbit x (N.of_nat j) then b j else 0).
Proof. by apply: eq_bigr => j _; rewrite bitE. Qed.
Lemma pt_xor x y : pt (N.lxor x y) = pt x + pt y.
Proof.
  rewrite !ptE -big_split; apply: eq_bigr => j _ /=; rewrite N.lxor_spec.
  by do 2!case: (N.testbit _ _); rewrite /= ?ch2 ?addr0 ?add0r.
Qed.
Lemma pt_pow d : (d < dim)%N -> pt (2 ^ N.of_nat d) = b d.
Proof.
  clear ch2.
  move=> H; rewrite ptE (bigD1 (Ordinal H)) //= N.pow2_bits_true big1 ?addr0 // => j Hj.
  rewrite N.pow2_bits_false //; move/eqP: Hj => Hj e; apply: Hj; apply: val_inj => /=; lia.
Qed.
Lemma pt_0 : pt 0 = 0. Proof. by rewrite ptE big1 // => j _; rewrite N.bits_0. Qed.
End Point.

(** The sequence. *)
Fixpoint gray (i : nat) : seq N :=
  if i is j.+1 then gray j ++ [seq N.lxor x (2 ^ N.of_nat j) | x <- rev (gray j)] else [:: 0%num].
Lemma gray_size i : size (gray i) = (2 ^ i)%N.
Proof. by elim: i => //= i IH; rewrite size_cat size_map size_rev IH expnS; lia. Qed.

Lemma xor_high a i : (a < 2 ^ i)%num -> N.lxor a (2 ^ i) = (a + 2 ^ i)%num.
Proof.
  move=> H; rewrite -N.add_nocarry_lxor //; apply: N.bits_inj_0 => n; rewrite N.land_spec.
  case: (N.eq_dec n i) => [->|ne].
    by rewrite -(N.mod_small a (2 ^ i)) // N.mod_pow2_bits_high //; exact: N.le_refl.
  by rewrite N.pow2_bits_false ?andbF // => e; apply: ne.
Qed.
Lemma gray_bound i x : x \in gray i -> (x < 2 ^ N.of_nat i)%num.
Proof.
  elim: i x => [|i IH] x; first by rewrite inE => /eqP ->.
  have E : (2 ^ N.of_nat i.+1 = 2 * 2 ^ N.of_nat i)%num by rewrite -N.pow_succ_r'; congr (_ ^ _)%num; lia.
  rewrite /= mem_cat => /orP [/IH|/mapP [y]]; first by lia.
  by rewrite mem_rev => /IH Hy ->; rewrite xor_high //; lia.
Qed.
Lemma gray_mem i x : (x < 2 ^ N.of_nat i)%num -> x \in gray i.
Proof.
  elim: i x => [|i IH] x H; first by rewrite inE; apply/eqP; move: H => /=; lia.
  have E : (2 ^ N.of_nat i.+1 = 2 * 2 ^ N.of_nat i)%num by rewrite -N.pow_succ_r'; congr (_ ^ _)%num; lia.
  rewrite /= mem_cat; case: (N.lt_ge_cases x (2 ^ N.of_nat i)) => h; first by rewrite IH.
  apply/orP; right; apply/mapP; exists (x - 2 ^ N.of_nat i)%num.
    by rewrite mem_rev; apply: IH; lia.
  by rewrite xor_high; lia.
Qed.

Definition chain (dim : nat) (s : seq N) : Prop :=
  forall k, (k.+1 < size s)%N -> exists2 d, (d < dim)%N & N.lxor (nth 0%num s k) (nth 0%num s k.+1) = (2 ^ N.of_nat d)%num.
Lemma chain_gray dim i : (i <= dim)%N -> chain dim (gray i).
Proof.
  elim: i => [|i IH] Hi k //=; have {}IH := IH (ltnW Hi).
  rewrite size_cat size_map size_rev gray_size => Hk; rewrite !nth_cat gray_size.
  case: (ltnP k.+1 (2 ^ i)) => h.
    have -> : (k < 2 ^ i)%N by lia.
    by apply: IH; rewrite gray_size.
  rewrite !(nth_map 0%num) ?size_rev ?gray_size; try lia.
  rewrite !nth_rev ?gray_size; try lia.
  case: (ltnP k (2 ^ i)) => h'.
    exists i => //; have -> : (2 ^ i - (k.+1 - 2 ^ i).+1)%N = k by lia.
    by rewrite -N.lxor_assoc N.lxor_nilpotent N.lxor_0_l.
  have [|d Hd E] := IH (2 ^ i - (k.+1 - 2 ^ i).+1)%N; first by rewrite gray_size; lia.
  exists d => //; rewrite -E.
  have -> : (2 ^ i - (k - 2 ^ i).+1)%N = (2 ^ i - (k.+1 - 2 ^ i).+1).+1 by lia.
  set a := nth _ _ _; set c := nth _ _ _; set p := (_ ^ _)%num.
  rewrite N.lxor_assoc (N.lxor_comm p) N.lxor_assoc N.lxor_nilpotent N.lxor_0_r; exact: N.lxor_comm.
Qed.

Lemma fold_rev {A} (f : A -> nat -> A) k a : List.fold_left f (List.rev (List.seq 0 k.+1)) a = List.fold_left f (List.rev (List.seq 0 k)) (f a k).
Proof. by rewrite List.seq_S List.rev_app_distr. Qed.

Section Subspace.
Variables (F : fieldType) (G : gfops) (phi : N -> F).
Hypothesis Pr : gf_pres F G phi.
Hypothesis ch2 : forall u : F, u + u = 0.
Hypothesis AX : forall a b, gvalid G a -> gvalid G b -> g_add G a b = N.lxor a b.
Notation ok := (gvalid G).
Notation cf := (cf F phi).
Notation vok := (vok G).

Variables (basis : list N).
Let dim := size basis.
Hypothesis Vb : vok basis.
Hypothesis Hc : (2 ^ N.of_nat dim <= g_card G)%num.
Let P := pt F (cf basis) dim.

Definition state := (seq N * N * seq N)%type.
Definition inv (s : state) : Prop := let '(ids, val, sub) := s in
  [/\ (0 < size ids)%N, (forall x, x \in ids -> (x < 2 ^ N.of_nat dim)%num), ok val /\ phi val = P (last 0%num ids),
      size sub = (2 ^ dim)%N &
      forall x, x \in ids -> ok (at_ sub (N.to_nat x)) /\ phi (at_ sub (N.to_nat x)) = P x].

Definition sub_step (i : nat) (o : option state) (j : nat) : option state :=
  match o with
  | None => None
  | Some (ids, val, subspace) =>
      let id := g_add G (at_ ids j) (exp2 (N.of_nat i)) in
      match log2 (g_add G id (List.last ids 0%num)) with
      | None => None
      | Some diff =>
          let val := g_add G val (at_ basis (N.to_nat diff)) in
          Some ((ids ++ [:: id])%list, val, Common.set subspace (N.to_nat id) val)
      end
  end.

Lemma sub_step_ok i j ids val sub d : inv (ids, val, sub) -> (i < dim)%N -> (j < size ids)%N -> (nth 0%num ids j < 2 ^ N.of_nat i)%num ->
  (d < dim)%N -> N.lxor (last 0%num ids) (N.lxor (nth 0%num ids j) (2 ^ N.of_nat i)) = (2 ^ N.of_nat d)%num ->
  exists val' sub', sub_step i (Some (ids, val, sub)) j = Some (ids ++ [:: N.lxor (nth 0%num ids j) (2 ^ N.of_nat i)], val', sub') /\
    inv (ids ++ [:: N.lxor (nth 0%num ids j) (2 ^ N.of_nat i)], val', sub').
Proof.
  move=> [I0 Ib [Iv Ip] Is If] Hi Hj Hb Hd E; rewrite /sub_step.
  set id := N.lxor (nth _ _ _) _ in E *.
  have p2 k : (k < dim)%N -> (2 * 2 ^ N.of_nat k <= 2 ^ N.of_nat dim)%num.
    by move=> h; rewrite -N.pow_succ_r'; apply: N.pow_le_mono_r; lia.
  have Hid : (id < 2 ^ N.of_nat dim)%num by rewrite /id xor_high //; have := p2 i Hi; lia.
  have -> : exp2 (N.of_nat i) = (2 ^ N.of_nat i)%num by rewrite /exp2 N.shiftl_1_l.
  have Ok x : (x < 2 ^ N.of_nat dim)%num -> ok x by rewrite /gvalid; lia.
  have -> : g_add G (at_ ids j) (2 ^ N.of_nat i) = id.
    rewrite atE AX //; last by apply: Ok; have := p2 i Hi; lia.
    by apply: Ok; apply: Ib; apply: mem_nth.
  rewrite lastE.
  have Il : last 0%num ids \in ids by case: (ids) I0 => //= x s _; exact: mem_last.
  rewrite AX; [|exact: Ok|by apply: Ok; apply: Ib].
  rewrite N.lxor_comm E log2_correct; last by apply: N.pow_nonzero.
  rewrite N.log2_pow2 ?Nnat.Nat2N.id; last by lia.
  have [A1 A2] := gp_add _ _ _ Pr _ _ Iv (Vb d).
  have A3 : phi (g_add G val (at_ basis d)) = P id.
    rewrite A2 Ip -[phi (at_ basis d)]/(cf basis d) -(pt_pow F (cf basis) dim d Hd) -E -/P.
    by rewrite /P -pt_xor // -N.lxor_assoc N.lxor_nilpotent N.lxor_0_l.
  have Hs : (N.to_nat id < size sub)%N.
    rewrite Is; apply/ltP; rewrite -pow2E -(Nnat.Nat2N.id (Nat.pow 2 dim)) Nnat.Nat2N.inj_pow.
    by rewrite [N.of_nat 2]/=; lia.
  eexists; eexists; split; first exact: erefl; split.
  - by rewrite size_cat addn1.
  - by move=> x; rewrite mem_cat inE => /orP [/Ib|/eqP ->].
  - by rewrite last_cat.
  - by rewrite set_size.
  move=> x; rewrite mem_cat inE; case: (N.eq_dec x id) => [->|ne] h.
    by rewrite at_set // eqxx.
  rewrite at_set //; case: eqP => [e|_]; first by case: ne; lia.
  by apply: If; case/orP: h => // /eqP.
Qed.

Lemma inner_ok i k : (i < dim)%N -> (k <= 2 ^ i)%N -> forall acc val sub,
  chain dim (gray i ++ acc ++ [seq N.lxor x (2 ^ N.of_nat i) | x <- rev (take k (gray i))]) ->
  inv (gray i ++ acc, val, sub) ->
  exists val' sub', List.fold_left (sub_step i) (List.rev (List.seq 0 k)) (Some (gray i ++ acc, val, sub)) =
      Some (gray i ++ acc ++ [seq N.lxor x (2 ^ N.of_nat i) | x <- rev (take k (gray i))], val', sub') /\
    inv (gray i ++ acc ++ [seq N.lxor x (2 ^ N.of_nat i) | x <- rev (take k (gray i))], val', sub').
Proof.
  move=> Hi; elim: k => [|k IH] Hk acc val sub C I.
    by exists val, sub; rewrite take0 /= cats0.
  have St : take k.+1 (gray i) = rcons (take k (gray i)) (nth 0%num (gray i) k) by rewrite (take_nth 0%num) // gray_size.
  rewrite St rev_rcons map_cons in C *.
  set id := N.lxor _ _ in C *; set tl := [seq _ | _ <- _] in C *.
  have Nk : nth 0%num (gray i ++ acc) k = nth 0%num (gray i) k by rewrite nth_cat gray_size Hk.
  have [|d Hd E] := C (size (gray i ++ acc)).-1.
    by rewrite !size_cat /= gray_size; have := expn_gt0 2 i; lia.
  have S0 : (0 < size (gray i ++ acc))%N by rewrite size_cat gray_size; have := expn_gt0 2 i; lia.
  have Ea : nth 0%num ((gray i ++ acc) ++ id :: tl) (size (gray i ++ acc)).-1 = last 0%num (gray i ++ acc).
    by rewrite nth_cat prednK // leqnn nth_last.
  have Eb : nth 0%num ((gray i ++ acc) ++ id :: tl) (size (gray i ++ acc)) = id by rewrite nth_cat ltnn subnn.
  rewrite prednK // catA Ea Eb in E.
  rewrite fold_rev.
  have [||//||v1 [s1 [E1 I1]]] := sub_step_ok i k (gray i ++ acc) val sub d I Hi; rewrite ?Nk.
  - by rewrite size_cat gray_size; lia.
  - by apply: gray_bound; apply: mem_nth; rewrite gray_size.
  - exact: E.
  rewrite Nk -/id in E1 I1; rewrite E1 -catA; rewrite -catA in I1.
  have [||v2 [s2 [E2 I2]]] := IH _ (acc ++ [:: id]) v1 s1 _ I1; first by lia.
    by rewrite -catA.
  by exists v2, s2; rewrite E2 -catA; split=> //; rewrite -catA in I2.
Qed.

Theorem compute_subspace_ok sub : size sub = (2 ^ dim)%N ->
  exists s, [/\ compute_subspace G basis sub = Some s, size s = (2 ^ dim)%N, vok s &
    forall i, (i < 2 ^ dim)%N -> cf s i = point F (cf basis) dim i].
Proof.
  move=> Ss; rewrite /compute_subspace -![length _]/(size _) -/dim Ss pow2E Nat.eqb_refl /check.
  pose f (o : option state) (i : nat) := match o with
    | None => None | Some (ids, val, subspace) => List.fold_left (sub_step i) (List.rev (List.seq 0 (Nat.pow 2 i))) (Some (ids, val, subspace)) end.
  pose st0 : option state := Some ([:: 0%num], 0%num, Common.set sub 0 0%num).
  rewrite -[List.fold_left _ _ _]/(List.fold_left f (List.seq 0 dim) st0).
  suff [v [s [-> [_ _ _ S' R]]]] : exists v s, List.fold_left f (List.seq 0 dim) st0 = Some (gray dim, v, s) /\ inv (gray dim, v, s).
    exists s; split=> //.
      apply: (vokP F G phi Pr) => i; rewrite S' => Hi; have [] := R (N.of_nat i); last by rewrite Nnat.Nat2N.id.
      by apply: gray_mem; have := Nnat.Nat2N.inj_pow 2 dim; rewrite pow2E [N.of_nat 2]/=; lia.
    move=> i Hi; have [|_] := R (N.of_nat i); last by rewrite Nnat.Nat2N.id => H; rewrite /Additive.cf -[List.nth _ _ _]/(at_ s i) H /P /pt Nnat.Nat2N.id.
    by apply: gray_mem; have := Nnat.Nat2N.inj_pow 2 dim; rewrite pow2E [N.of_nat 2]/=; lia.
  suff H k : (k <= dim)%N -> exists v s, List.fold_left f (List.seq 0 k) st0 = Some (gray k, v, s) /\ inv (gray k, v, s) by exact: H.
  elim: k => [|k IH] Hk.
    exists 0%num, (Common.set sub 0 0%num); split=> //; split=> //.
    - by move=> x; rewrite inE => /eqP ->; have := N.pow_nonzero 2 (N.of_nat dim); lia.
    - by split; [exact: (ok0 _ _ _ Pr)|rewrite (gp_0 _ _ _ Pr) /P pt_0].
    - by rewrite set_size.
    move=> x; rewrite inE => /eqP ->; rewrite at_set ?Ss ?expn_gt0 //=.
    by split; [exact: (ok0 _ _ _ Pr)|rewrite (gp_0 _ _ _ Pr) /P pt_0].
  have [v [s [E I]]] := IH (ltnW Hk).
  rewrite List.seq_S List.fold_left_app E [List.fold_left f _ _]/= pow2E.
  have := inner_ok k (2 ^ k) Hk (leqnn _) [::] v s; rewrite cats0 take_oversize ?gray_size // cat0s.
  by apply=> //; apply: (chain_gray dim k.+1).
Qed.
End Subspace.
