(** Property C32: the fields of 2^n elements of gf_bin_ext.h.  Numbers are read as the polynomials of their bits, and the
    operations compared with those of polynomials over the field of two elements, modulo [field_poly n]. *)
Set Warnings "-notation-overridden,-ambiguous-paths".
From Coq Require Import NArith ZArith.
From Coq Require List.
From Verif.Model Require Import Common Arith Ring Gf2n.
From mathcomp Require Import all_ssreflect ssralg finalg poly polydiv zmodp.
From mathcomp Require Import zify.
From Verif.Spec Require Import Gf2n.
From Verif.Proof Require Import BitsP QuotF Rabin Gf2nA Gf2nI FinF RootP Pres Gf2nP Gf2nQ Gf2nF Gf2nC.
Import GRing.Theory.
Local Open Scope ring_scope.

(** The moduli are irreducible, and the numbers below 2^n are the polynomials of degree below n. *)
Theorem C32_moduli w n : supported w n -> irreducible_poly (field_poly n) /\ size (field_poly n) = (N.to_nat n).+1.
Proof. by move=> /supported_dims H; split; [apply: irr_field_poly|apply: size_field_poly]. Qed.

Theorem C32_elements n : (forall a b, bits_poly a = bits_poly b -> a = b) /\
  (forall a, (a < 2 ^ n)%num <-> (size (bits_poly a) <= N.to_nat n)%N) /\
  (forall p : {poly 'F_2}, (size p <= N.to_nat n)%N -> exists a, (a < 2 ^ n)%num /\ bits_poly a = p).
Proof.
  split; first exact: P_inj.
  split=> [a|p Hp]; first by have := P_size a (N.to_nat n); rewrite N2Nat.id.
  by have [a H] := P_surj _ _ Hp; exists a; rewrite N2Nat.id in H.
Qed.

Theorem C32_construct junk w n : supported w n -> exists X, new_bin_ext junk w n = Some X /\ x_n X = n /\ x_w X = w.
Proof. by move=> s; have [X [E [H1 [H2 _]]]] := new_spec junk w n s; exists X. Qed.

Section Ops.
Variables (junk w n : N) (X : bin_ext).
Hypothesis sup : supported w n.
Hypothesis EX : new_bin_ext junk w n = Some X.
Let nd := supported_dims w n sup.
Let sm := size_modulus n nd.
Let n0 := dims_pos n nd.
Notation q := (2 ^ n)%num.
Notation ph := (phi (modulus n) (irr_modulus n nd)).

Let X_spec : (forall a, x_check X a = (a <? q)%num) /\ x_card_minus_one X = (q - 1)%num /\ (q - 1 <= x_card X)%num /\ (1 < x_card X)%num /\
  (forall a b, (a < q)%num -> (b < q)%num -> exists r, x_mul X a b = Some r /\ (r < q)%num /\ ph r = ph a * ph b) /\
  (forall a b, (a < q)%num -> (b < q)%num -> b <> 0%num -> exists r, x_div X a b = Some r /\ (r < q)%num /\ ph r = ph a / ph b) /\
  (forall a, (a < q)%num -> a <> 0%num -> exists r, x_inv X a = Some r /\ (r < q)%num /\ ph r = (ph a)^-1).
Proof.
  have [Y [E H]] := new_spec junk w n sup; move: E; rewrite EX => -[?]; subst Y; by case: H => _ [_].
Qed.
Let toP (p : {poly 'F_2}) r : (r < q)%num -> ph r = pi (g _ (irr_modulus n nd)) p -> bits_poly r = p %% field_poly n.
Proof.
  move=> Hr E; have [_ ->] : isv (N.to_nat n) (P (modulus n)) p r by apply/(isv_phi n (modulus n) sm (irr_modulus n nd)).
  by rewrite P_modulus.
Qed.
Let small a : (a < q)%num -> bits_poly a %% field_poly n = bits_poly a.
Proof. by move=> Ha; apply/esym/toP. Qed.
Let M := let: conj _ (conj _ (conj _ (conj _ (conj M _)))) := X_spec in M.
Let D := let: conj _ (conj _ (conj _ (conj _ (conj _ (conj D _))))) := X_spec in D.
Let V := let: conj _ (conj _ (conj _ (conj _ (conj _ (conj _ V))))) := X_spec in V.
Let chkX := let: conj c _ := X_spec in c.
Let c1X := let: conj _ (conj c _) := X_spec in c.

Theorem C32_add a b : (a < q)%num -> (b < q)%num ->
  exists r, x_add X a b = Some r /\ x_sub X a b = Some r /\ (r < q)%num /\ bits_poly r = bits_poly a + bits_poly b.
Proof.
  move=> Ha Hb; exists (N.lxor a b); rewrite /x_sub (add_spec n X chkX) // P_xor; do 3 split=> //.
  exact: (xor_lt n (modulus n) sm a b Ha Hb).
Qed.

Theorem C32_mul a b : (a < q)%num -> (b < q)%num ->
  exists r, x_mul X a b = Some r /\ (r < q)%num /\ bits_poly r = (bits_poly a * bits_poly b) %% field_poly n.
Proof.
  move=> Ha Hb; have [r [E [Hr Er]]] := M a b Ha Hb; exists r; split=> //; split=> //.
  by apply: toP => //; rewrite Er rmorphM.
Qed.

Theorem C32_div a b : (a < q)%num -> (b < q)%num -> b <> 0%num ->
  exists r, x_div X a b = Some r /\ (r < q)%num /\ (bits_poly r * bits_poly b) %% field_poly n = bits_poly a.
Proof.
  move=> Ha Hb b0; have [r [E [Hr Er]]] := D a b Ha Hb b0; exists r; split=> //; split=> //.
  apply/esym/toP => //; rewrite rmorphM /= -[pi _ (bits_poly r)]/(ph r) Er mulfVK //.
  exact: (phi_neq0 n _ n0 sm).
Qed.

Theorem C32_inv a : (a < q)%num -> a <> 0%num ->
  exists r, x_inv X a = Some r /\ (r < q)%num /\ (bits_poly r * bits_poly a) %% field_poly n = 1.
Proof.
  move=> Ha a0; have [r [E [Hr Er]]] := V a Ha a0; exists r; split=> //; split=> //.
  rewrite -[RHS]P1; apply/esym/toP; first exact: (two_q n _ n0 sm).
  by rewrite phi_1 rmorphM /= -[pi _ (bits_poly r)]/(ph r) Er mulVf // (phi_neq0 n _ n0 sm).
Qed.

Theorem C32_exp a e : (a < q)%num -> (e < q)%num ->
  exists r, x_exp X a e = Some r /\ (r < q)%num /\ bits_poly r = (bits_poly a ^+ N.to_nat e) %% field_poly n.
Proof.
  move=> Ha He; have [r [E [Hr Er]]] := exp_spec n (modulus n) n0 sm _ X chkX M V c1X a e Ha He; exists r; split=> //; split=> //.
  by apply: toP => //; rewrite Er rmorphX.
Qed.

(** The least exponent, or none when there is none. *)
Theorem C32_log a b : (a < q)%num -> (b < q)%num ->
  exists o, x_logarithm X a b = Some o /\
    match o with
    | Some r => (bits_poly a ^+ N.to_nat r) %% field_poly n = bits_poly b /\
                (forall i, (i < N.to_nat r)%N -> (bits_poly a ^+ i) %% field_poly n <> bits_poly b)
    | None => forall i : nat, (bits_poly a ^+ i) %% field_poly n <> bits_poly b
    end.
Proof.
  have [_ [_ [Xcard [Xc2 _]]]] := X_spec.
  have fromP (i : nat) a' b' : (bits_poly a' ^+ i) %% field_poly n = bits_poly b' -> ph a' ^+ i = ph b'.
    by move=> E; rewrite /phi -E -P_modulus // pi_mod rmorphX.
  move=> Ha Hb; have [o [E H]] := logarithm_spec n (modulus n) n0 sm _ X chkX M V c1X Xcard a b Ha Hb Xc2.
  exists o; split=> //; case: o H {E} => [r [H1 H2]|H].
  - split; last by move=> i /H2 Hi /fromP.
    by apply/esym/toP => //; rewrite -H1 rmorphX.
  - by move=> i /fromP /(H i).
Qed.

(** The operations used by the other classes present a field; the generator found by [find_primitive_root] generates. *)
Theorem C32_field : exists (F : finFieldType) (h : N -> F), #|F| = N.to_nat q /\ gf_pres F (bin_ops X) h /\ g_card (bin_ops X) = q /\
  (forall a, (a < q)%num -> a <> 0%num -> h a ^+ N.to_nat (q - 1) = 1).
Proof.
  exists (qf_finFieldType (g _ (irr_modulus n nd))), ph; split; first exact: (card_q n (modulus n) n0 sm).
  split; first exact: (bin_pres n (modulus n) n0 sm _ X chkX M V c1X).
  split; first by rewrite /= c1X; have := two_q n _ n0 sm; lia.
  exact: (fermat_phi n (modulus n) n0 sm).
Qed.

Theorem C32_primitive_root : exists r, find_primitive_root w (bin_ops X) = Some r /\ (r < q)%num /\
  forall a, (a < q)%num -> a <> 0%num -> exists i : nat, (bits_poly r ^+ i) %% field_poly n = bits_poly a.
Proof.
  have Pr := bin_pres n (modulus n) n0 sm _ X chkX M V c1X.
  have cq : g_card (bin_ops X) = q by rewrite /= c1X; have := two_q n _ n0 sm; lia.
  have [hw [Ew hw0]] : exists hw, (w = 2 * hw /\ 0 < hw)%num.
    by exists (w / 2)%num; case: sup => Hw _; do ! (case: Hw => [<-|Hw]; first by []); case: Hw.
  have nw := proj1 (proj2 (proj2 sup)).
  have fm a : gvalid (bin_ops X) a -> a <> 0%num -> ph a ^+ N.to_nat (g_card (bin_ops X) - 1) = 1.
    by rewrite /gvalid cq; apply: (fermat_phi n (modulus n) n0 sm).
  have hq : (g_card (bin_ops X) <= 2 ^ (2 * hw))%num by rewrite cq -Ew; apply: N.pow_le_mono_r.
  have [r [E Hr r0 Hp]] := find_primitive_root_spec _ _ _ Pr fm hw hw0 hq; rewrite -Ew in E.
  exists r; split=> //; split; first by rewrite /gvalid cq in Hr.
  move=> a Ha a0; have Ea : ph a ^+ N.to_nat (g_card (bin_ops X) - 1) = 1 by apply: fm => //; rewrite /gvalid cq.
  have [i Ei] := prim_rootP Hp Ea; exists i; apply/esym/toP => //; by rewrite Ei rmorphX.
Qed.

(** What happens outside of the domain: division by zero returns the largest number of the type for the fields with
    tables, and leaves the array of masks for the others. *)
Theorem C32_div_zero a : (a < q)%num -> a <> 0%num ->
  (n <= 16 -> x_div X a 0 = Some (2 ^ w - 1))%num /\ (16 < n -> x_div X a 0 = None)%num /\
  (n <= 16 -> x_inv X 0 = Some (2 ^ w - 1))%num /\ (16 < n -> x_inv X 0 = None)%num.
Proof.
  have [Y [E [En [Ew _]]]] := new_spec junk w n sup; move: E; rewrite EX => -[?]; subst Y.
  have q2 := two_q n _ n0 sm.
  have c0 : x_check X 0 = true by rewrite chkX; apply/N.ltb_spec0; lia.
  have one : x_check X 1 = true by rewrite chkX; apply/N.ltb_spec0; lia.
  move=> Ha a0; have ca : x_check X a = true by rewrite chkX; apply/N.ltb_spec0.
  have nodeg mask d : deg_of mask 0 d = None.
    elim: d => [|d IH]; cbn [deg_of]; case: (List.nth_error _ _) => // v; rewrite N.land_0_r //=.
  rewrite /x_inv /x_div c0 ca one /= En /div_log Ew /inv_ext_gcd nodeg.
  have -> : (a =? 0)%num = false by apply/N.eqb_spec.
  by case: N.leb_spec => H; do ! split=> //; lia.
Qed.
End Ops.

(** The tables need one more bit than the elements: with 8-bit elements in an 8-bit type products are wrong. *)
Theorem C32_restricted_refuted : exists X a b, new_bin_ext 0 8 8 = Some X /\ x_check X a = true /\ x_check X b = true /\
  x_mul X a b = Some 1%num /\ bits_poly 1 <> (bits_poly a * bits_poly b) %% field_poly 8.
Proof.
  case E: (new_bin_ext 0 8 8) => [X|]; last by vm_compute in E.
  exists X, 2%num, 2%num; have H : match new_bin_ext 0 8 8 with Some Y => x_check Y 2 && (odef (x_mul Y 2 2) =? 1)%num && (if x_mul Y 2 2 is Some _ then true else false) | None => false end by vm_compute.
  rewrite E in H; case/andP: H => /andP [H0 /N.eqb_spec H1] H2.
  split; first exact: erefl.
  split; first exact: H0.
  split; first exact: H0.
  split.
    by move: H1 H2; clear; case: (x_mul X 2 2) => //= v ->.
  clear.
  have s2 : size (bits_poly 2 * bits_poly 2) = 3%N.
    by rewrite (P_pow 1) -exprD size_polyXn.
  rewrite modp_small; last by rewrite s2 size_field_poly //=; tauto.
  by move=> /(congr1 (fun p : {poly 'F_2} => size p)) /eqP; rewrite s2 P1 size_poly1.
Qed.

(** Cases: all the sizes of the tests (test/gf_test.cpp), and products in the field of 256 elements. *)
Example C32_supported : List.Forall (fun wn => supported (fst wn) (snd wn))
  [:: (32, 4); (32, 8); (32, 16); (32, 32); (64, 8); (64, 16); (64, 32); (64, 64); (128, 64); (128, 128); (16, 8); (8, 4)]%num.
Proof. by do ! (apply: List.Forall_cons; first by rewrite /supported /=; lia); apply: List.Forall_nil. Qed.

Example C32_case : match new_bin_ext 0 16 8 with
  | Some X => x_mul X 0x53 0xca = Some 0x8f%num /\ x_inv X 0x53 = Some 0x8c%num /\ x_div X 0x8f 0xca = Some 0x53%num /\
              x_exp X 2 8 = Some 0x1d%num
  | None => False end.
Proof. by vm_compute. Qed.

Print Assumptions C32_moduli.
Print Assumptions C32_elements.
Print Assumptions C32_construct.
Print Assumptions C32_add.
Print Assumptions C32_mul.
Print Assumptions C32_div.
Print Assumptions C32_inv.
Print Assumptions C32_exp.
Print Assumptions C32_log.
Print Assumptions C32_field.
Print Assumptions C32_primitive_root.
Print Assumptions C32_div_zero.
Print Assumptions C32_restricted_refuted.
