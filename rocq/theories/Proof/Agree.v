(** Objects of one code, built separately, have fields with the same operations; what they encode. *)
Set Warnings "-notation-overridden,-ambiguous-paths".
From Coq Require Import NArith Arith.
From Coq Require List.
From Verif.Model Require Import Common Arith Ring Gf2n FftCodes.
From Verif.Proof Require Import ListP AgreeN.
From mathcomp Require Import all_ssreflect fingroup perm ssralg finalg poly.
From mathcomp Require Import zify.
From Verif.Spec Require Import Primes Gf2n.
From Verif.Proof Require Import BitsP QuotF Rabin Gf2nA Gf2nI FinF RootP Pres Gf2nP Gf2nQ Gf2nF Gf2nC FieldP FftC.
Import GRing.Theory.
Local Open Scope ring_scope.

Lemma agree_pres (F : fieldType) G G' (phi : N -> F) : gf_pres F G phi -> gf_pres F G' phi -> g_card G = g_card G' -> agree G G'.
Proof.
  move=> P P' C; have V a : gvalid G a <-> gvalid G' a by rewrite /gvalid C.
  split=> //; first exact: (gp_card _ _ _ P).
  - move=> a b Ha Hb; have [V1 E1] := gp_add _ _ _ P a b Ha Hb; have [V2 E2] := gp_add _ _ _ P' a b (proj1 (V a) Ha) (proj1 (V b) Hb).
    by split=> //; apply: (gp_inj _ _ _ P) => //; [exact/V|rewrite E1 E2].
  - move=> a b Ha Hb; have [V1 E1] := gp_mul _ _ _ P a b Ha Hb; have [V2 E2] := gp_mul _ _ _ P' a b (proj1 (V a) Ha) (proj1 (V b) Hb).
    by split=> //; apply: (gp_inj _ _ _ P) => //; [exact/V|rewrite E1 E2].
  - move=> a e Ha He; have [V1 E1] := gp_exp _ _ _ P a e Ha He.
    have He' : (e < g_card G')%num by rewrite -C.
    have [V2 E2] := gp_exp _ _ _ P' a e (proj1 (V a) Ha) He'.
    by split=> //; apply: (gp_inj _ _ _ P) => //; [exact/V|rewrite E1 E2].
Qed.

(** Binary fields: one reading for two objects. *)
Lemma in_unique (n : N) (l : list N) : List.NoDup l -> forall p q : List.In n l, p = q.
Proof.
  elim=> [|a {}l Ha _ IH] p; first by case: p.
  move=> q; case: p => [e|p]; case: q => [e'|q].
  - by congr or_introl; apply: (Eqdep_dec.UIP_dec N.eq_dec).
  - by case: Ha; rewrite e.
  - by case: Ha; rewrite e'.
  - by rewrite (IH p q).
Qed.
Lemma dims_nodup : List.NoDup dims.
Proof. by rewrite /dims; repeat constructor; rewrite /=; lia. Qed.

Definition div_ok (F : fieldType) (h : N -> F) (X : bin_ext) : Prop := forall a b,
  gvalid (bin_ops X) a -> gvalid (bin_ops X) b -> b <> 0%num ->
  gvalid (bin_ops X) (odef (x_div X a b)) /\ h (odef (x_div X a b)) = h a / h b.
Definition xor_ok (X : bin_ext) : Prop := forall a b,
  gvalid (bin_ops X) a -> gvalid (bin_ops X) b -> g_add (bin_ops X) a b = N.lxor a b.
Lemma bin_two junk junk' w w' n X X' : supported w n -> supported w' n -> new_bin_ext junk w n = Some X -> new_bin_ext junk' w' n = Some X' ->
  exists (F : finFieldType) (h : N -> F),
  [/\ gf_pres F (bin_ops X) h, gf_pres F (bin_ops X') h, g_card (bin_ops X) = (2 ^ n)%num & g_card (bin_ops X') = (2 ^ n)%num] /\
  [/\ div_ok F h X, div_ok F h X', forall u : F, - u = u, xor_ok X & xor_ok X'].
Proof.
  move=> sup sup' EX EX'; pose nd := supported_dims w n sup; have n0 := dims_pos n nd; have sm := size_modulus n nd.
  have [Y [E [_ [_ [chk [c1 [_ [_ [M [D V]]]]]]]]]] := new_spec junk w n sup; move: E; rewrite EX => -[?]; subst Y.
  have Pi : supported_dims w' n sup' = nd by exact: (in_unique _ _ dims_nodup).
  have [Y [E [_ [_ [chk' [c1' [_ [_ [M' [D' V']]]]]]]]]] := new_spec junk' w' n sup'; move: E; rewrite EX' => -[?]; subst Y.
  rewrite Pi in M' D' V'.
  have cq : g_card (bin_ops X) = (2 ^ n)%num by rewrite /= c1; have := two_q n _ n0 sm; lia.
  have cq' : g_card (bin_ops X') = (2 ^ n)%num by rewrite /= c1'; have := two_q n _ n0 sm; lia.
  exists (qf_finFieldType (g _ (irr_modulus n nd))), (Gf2nF.phi (modulus n) (irr_modulus n nd)); split.
    by split=> //; [exact: (bin_pres n (modulus n) n0 sm _ X chk M V c1)|exact: (bin_pres n (modulus n) n0 sm _ X' chk' M' V' c1')].
  split.
  - by move=> a b; rewrite /gvalid cq => Ha Hb b0; have [r [-> [Hr Er]]] := D a b Ha Hb b0.
  - by move=> a b; rewrite /gvalid cq' => Ha Hb b0; have [r [-> [Hr Er]]] := D' a b Ha Hb b0.
  - exact: Gf2nF.phi_opp.
  - by move=> a b; rewrite /gvalid cq => Ha Hb; rewrite /= (add_spec n X chk).
  - by move=> a b; rewrite /gvalid cq' => Ha Hb; rewrite /= (add_spec n X' chk').
Qed.

Lemma bin_agree junk junk' w w' n X X' : supported w n -> supported w' n -> new_bin_ext junk w n = Some X -> new_bin_ext junk' w' n = Some X' ->
  agree (bin_ops X) (bin_ops X').
Proof. by move=> s s' E E'; have [F [h [[P P' C C'] _]]] := bin_two _ _ _ _ _ _ _ s s' E E'; apply: (agree_pres F _ _ h P P'); rewrite C C'. Qed.

Lemma prime_agree w w' p : primeN p -> (2 * p <= 2 ^ w)%num -> (2 * p <= 2 ^ w')%num -> agree (prime_ops w p) (prime_ops w' p).
Proof. by move=> Pp H H'; apply: (agree_pres _ _ _ _ (prime_pres w p Pp H) (prime_pres w' p Pp H')). Qed.

(** The values of a polynomial. *)
Section Horner.
Variables (F : fieldType) (G : gfops) (phi : N -> F).
Hypothesis P : gf_pres F G phi.
Lemma horner_phi words x : els G words -> gvalid G x ->
  gvalid G (horner_n G words x) /\
  forall m, (size words <= m)%N -> phi (horner_n G words x) = (\poly_(j < m) phi (List.nth j words 0%num)).[phi x].
Proof.
  move=> Vw Vx; elim: words Vw => [|a l IH] Vw.
    split=> [|m _]; first by have := gp_card _ _ _ P; rewrite /gvalid /=; lia.
    rewrite /= (gp_0 _ _ _ P); have -> : \poly_(j < m) phi (List.nth j [::] 0%num) = 0; last by rewrite horner0.
    by apply/polyP => j; rewrite coef_poly coef0; case: ifP => // _; case: j => [|j] /=; exact: (gp_0 _ _ _ P).
  have [|V E] := IH; first by move=> i; exact: (Vw i.+1).
  have [V1 E1] := gp_mul _ _ _ P _ _ V Vx; have [V2 E2] := gp_add _ _ _ P a _ (Vw 0%N) V1.
  split; first exact: V2.
  case=> // m Hm; rewrite [horner_n _ _ _]/= E2 E1 (E m) //.
  have -> : \poly_(j < m.+1) phi (List.nth j (a :: l) 0%num) = (phi a)%:P + (\poly_(j < m) phi (List.nth j l 0%num)) * 'X.
    by apply/polyP => j; rewrite coef_poly coefD coefC coefMX coef_poly; case: j => [|j] /=; rewrite ?addr0 ?add0r.
  by rewrite hornerD hornerC hornerMX.
Qed.
End Horner.

(** ** Codes with transforms *)
Section Code.
Variables (F : fieldType) (phi : N -> F) (c : fcode) (r r2 : F).
Hypothesis ok : fcode_ok F phi c r r2.
Let P : gf_pres F (f_G c) phi := fk_P _ _ _ _ _ ok.

(** The codeword: the values at the points. *)
Theorem f_transform_n pv out words : size words = f_k c -> els (f_G c) words -> size out = f_n c ->
  f_transform c pv out words = Some (List.map (fun i => horner_n (f_G c) words (List.nth i (f_rpow c) 0%num)) (List.seq 0 (f_n c))).
Proof.
  move=> Sw Vw So.
  pose Q : {poly F} := \poly_(j < f_k c) phi (List.nth j words 0%num).
  have sQ : (size Q <= f_k c)%N by exact: size_poly.
  have Qj j : (j < f_k c)%N -> phi (List.nth j words 0%num) = Q`_j by move=> Hj; rewrite coef_poly Hj.
  have [o [E [S V O]]] := f_transform_ok F phi c r r2 ok pv out words Q sQ So Sw Vw Qj.
  rewrite E; congr Some; apply: (List.nth_ext _ _ 0%num 0%num); first by rewrite List.map_length List.seq_length.
  move=> i; rewrite -[length _]/(size _) S => /ltP Hi; rewrite nth_map_seq; last exact/ltP.
  have [Vr Er] := fk_rpow _ _ _ _ _ ok i Hi; have [Vh Eh] := horner_phi F _ phi P words _ Vw Vr.
  by apply: (gp_inj _ _ _ P) => //; rewrite O // (Eh (f_k c)) ?Sw // Er.
Qed.
End Code.

(** Two objects with the same points. *)
Theorem f_transform_same (F F' : fieldType) phi phi' c c' r r2 r' r2' pv out pv' out' words :
  fcode_ok F phi c r r2 -> fcode_ok F' phi' c' r' r2' -> agree (f_G c) (f_G c') -> f_k c = f_k c' -> f_n c = f_n c' -> f_rpow c = f_rpow c' ->
  size words = f_k c -> els (f_G c) words -> size out = f_n c -> size out' = f_n c ->
  exists o, [/\ f_transform c pv out words = Some o, f_transform c' pv' out' words = Some o & size o = f_n c].
Proof.
  move=> ok ok' A Ek En Er Sw Vw So So'.
  have Vw' : els (f_G c') words by move=> i; rewrite /gvalid -(ag_card _ _ A); exact: Vw.
  rewrite (f_transform_n _ _ _ _ _ ok) // (f_transform_n _ _ _ _ _ ok') ?Sw ?So' // -En -Er.
  eexists; split; first reflexivity; last by rewrite -[size _]/(length _) List.map_length List.seq_length.
  congr Some; apply: List.map_ext_in => i /List.in_seq Hi; symmetry; apply: (proj1 (horner_agree _ _ _ _ A _ _)).
    by apply/List.Forall_forall => a /(List.In_nth _ _ 0%num) [j [_ <-]]; exact: Vw.
  by apply: (proj1 (fk_rpow _ _ _ _ _ ok i _)); lia.
Qed.
