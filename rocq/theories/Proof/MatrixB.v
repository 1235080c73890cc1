(** The matrices of vec_matrix.h over the fields of gf_bin_ext.h and of gf_prime.h. *)
Set Warnings "-notation-overridden,-ambiguous-paths".
From Coq Require Import NArith Arith.
From Coq Require List.
From Verif.Model Require Import Common Arith Ring Gf2n Matrix.
From Verif.Proof Require Import ListP MatrixL.
From mathcomp Require Import all_ssreflect fingroup perm ssralg finalg poly matrix mxalgebra.
From mathcomp Require Import zify.
From Verif.Spec Require Import Primes Gf2n Matrix.
From Verif.Proof Require Import BitsP QuotF Rabin Gf2nA Gf2nI FinF RootP Pres Gf2nP Gf2nQ Gf2nF Gf2nC FieldP MatrixI MatrixC MatrixK.
Import GRing.Theory.
Local Open Scope ring_scope.

(** The elements, the division and the characteristic. *)
Lemma bin_all junk w n X : supported w n -> new_bin_ext junk w n = Some X -> exists (F : finFieldType) (h : N -> F),
  [/\ gf_pres F (bin_ops X) h, g_card (bin_ops X) = (2 ^ n)%num,
      (forall a b, gvalid (bin_ops X) a -> gvalid (bin_ops X) b -> b <> 0%num ->
        gvalid (bin_ops X) (odef (x_div X a b)) /\ h (odef (x_div X a b)) = h a / h b),
      (forall u : F, - u = u) &
      (forall a b, gvalid (bin_ops X) a -> gvalid (bin_ops X) b -> g_add (bin_ops X) a b = N.lxor a b)].
Proof.
  move=> sup EX; pose nd := supported_dims w n sup; have n0 := dims_pos n nd; have sm := size_modulus n nd.
  have [Y [E [_ [_ [chk [c1 [_ [_ [M [D V]]]]]]]]]] := new_spec junk w n sup; move: E; rewrite EX => -[?]; subst Y.
  have cq : g_card (bin_ops X) = (2 ^ n)%num by rewrite /= c1; have := two_q n _ n0 sm; lia.
  exists (qf_finFieldType (g _ (irr_modulus n nd))), (Gf2nF.phi (modulus n) (irr_modulus n nd)); split=> //.
  - exact: (bin_pres n (modulus n) n0 sm _ X chk M V c1).
  - by move=> a b; rewrite /gvalid cq => Ha Hb b0; have [r [-> [Hr Er]]] := D a b Ha Hb b0.
  - exact: Gf2nF.phi_opp.
  - by move=> a b; rewrite /gvalid cq => Ha Hb; rewrite /= (add_spec n X chk).
Qed.

Lemma mat_ok_mvd (G : gfops) r c M : mat_ok (g_card G) r c M -> mvd G r c M.
Proof.
  move=> [Hr [Hc [Hl Hv]]]; split=> // i j Hi Hj; rewrite /mget Hc /get.
  by move/List.Forall_forall: Hv; apply; apply: List.nth_In; move: Hl Hi Hj; rewrite -![(_ * _)%coq_nat]/(_ * _)%N; nia.
Qed.
Lemma mvd_mat_ok (G : gfops) r c M : mvd G r c M -> mat_ok (g_card G) r c M.
Proof.
  move=> [[Hr [Hc Hl]] Hv]; split=> //; split=> //; split=> //; apply/List.Forall_forall => a /(List.In_nth _ _ 0%num) [p [Hp <-]].
  case: (posnP c) => [c0|c0]; first by move: Hp; rewrite Hl c0; lia.
  have := Hv (p %/ c)%N (p %% c)%N; rewrite /mget Hc /get -[(_ + _)%coq_nat]/((p %/ c) * c + p %% c)%N -divn_eq; apply; last by rewrite ltn_mod.
  by rewrite ltn_divLR //; apply/ltP; move: Hp; rewrite Hl.
Qed.
Lemma cells_mx (F : fieldType) (h : N -> F) n M : Matrix.m_cols M = n -> cells F h n M = mx F h n M.
Proof. by move=> Hc; apply/matrixP => i j; rewrite !mxE /en /mget Hc. Qed.

Lemma prime_div w p : primeN p -> (2 * p <= 2 ^ w)%num -> forall a b, gvalid (prime_ops w p) a -> gvalid (prime_ops w p) b -> b <> 0%num ->
  gvalid (prime_ops w p) (ring_div w p a b) /\ FieldP.phi p (ring_div w p a b) = FieldP.phi p a / FieldP.phi p b.
Proof.
  move=> Hp Hw a b Ha Hb b0; have Pr := FieldP.prime_pres w p Hp Hw.
  have [o E] := gp_inv _ _ _ Pr b Hb b0; have [o' E'] := gp_mul _ _ _ Pr a _ Ha o.
  by split; first exact: o'; rewrite -E.
Qed.

(** Encoding any matrix code: the list of all the fragments. *)
Section Encode.
Variables (F : fieldType) (G : gfops) (h : N -> F).
Hypothesis Pr : gf_pres F G h.
Variables (k m : nat) (mat : Matrix.matrix).
Hypothesis k0 : (0 < k)%N.
Hypothesis Hmat : mvd G m k mat.

Lemma valid_ok d : length d = k -> List.Forall (fun a => (a < g_card G)%num) d -> valid_data G k d.
Proof. by move=> L /List.Forall_forall Hv; split=> // j Hj; apply: Hv; apply: List.nth_In; rewrite L; apply/ltP. Qed.

Lemma encode_spec d out : length d = k -> List.Forall (fun a => (a < g_card G)%num) d -> length out = m ->
  exists p, rs_encode G mat out d = Some p /\ length p = m /\ List.Forall (fun a => (a < g_card G)%num) p /\
    forall id, (id < k + m)%N -> List.nth id (List.app d p) 0%num = frag G k mat d id.
Proof.
  move=> L Hv Lo; have Vd := valid_ok d L Hv; case: (Hmat) => W _.
  rewrite /rs_encode (mmul_spec G m k mat out d W ltac:(by apply/ltP) L Lo).
  eexists; split; first by []; rewrite List.map_length List.seq_length; split=> //; split.
    apply/List.Forall_forall => a /List.in_map_iff [i [<- /List.in_seq Hi]].
    by case: (row_val_F _ _ _ Pr _ _ _ d i Hmat ltac:(lia) k0 (proj2 Vd)).
  move=> id Hid; rewrite /frag; case: Nat.ltb_spec => H; first by rewrite List.app_nth1 ?L.
  rewrite List.app_nth2 ?L; last by apply/leP; lia.
  rewrite (List.nth_indep _ 0%num (row_val G k mat d 0)); last by rewrite List.map_length List.seq_length; lia.
  by rewrite List.map_nth List.seq_nth; last lia.
Qed.

Lemma used_frag d p data par : (forall id, (id < k + m)%N -> List.nth id (List.app d p) 0%num = frag G k mat d id) ->
  List.map (fun id => List.nth id (List.app d p) 0%num) (used_ids k m data par) = List.map (frag G k mat d) (used_ids k m data par).
Proof.
  clear k0 Hmat; move=> H; apply: List.map_ext_in => id /used_valid Hid; apply: H; lia.
Qed.
Lemma used_enough data par : (k <= present k data + present m par)%N -> length (used_ids k m data par) = k.
Proof.
  clear k0 Hmat; rewrite /used_ids /present List.app_length List.map_length List.firstn_length.
  have := filter_len _ data (List.seq 0 k); rewrite List.seq_length; lia.
Qed.
Lemma used_few data par : (present k data + present m par < k)%N -> (length (used_ids k m data par) < k)%N.
Proof.
  clear k0 Hmat; rewrite /used_ids /present List.app_length List.map_length List.firstn_length; lia.
Qed.
End Encode.
