(** The modelled polynomial operations compute the operations on {poly F}. *)
Set Warnings "-notation-overridden,-ambiguous-paths".
From Coq Require Import NArith ZArith.
From Coq Require List.
From mathcomp Require Import all_ssreflect ssralg poly.
From mathcomp Require Import zify.
From Verif.Model Require Import Common Arith Ring Fft2n Radix2 Poly.
From Verif.Proof Require Import ListP PolyL Pres Radix2P.
Import GRing.Theory.
Local Open Scope ring_scope.
Notation lnth := List.nth.

Section PolyOps.
Variables (F : fieldType) (G : gfops) (phi : N -> F).
Hypothesis P : gf_pres F G phi.

(** The buffer holds the coefficients of [A]. *)
Definition pol (q : poly) (A : {poly F}) : Prop :=
  forall i, gvalid G (lnth i (p_buf q) 0%num) /\ phi (lnth i (p_buf q) 0%num) = A`_i.

Let V0 := gvalid0 F G phi P.

Lemma phi_eq0 a : gvalid G a -> (phi a == 0) = (a =? 0)%num.
Proof.
move=> Va; apply/eqP/N.eqb_spec => [E|->]; last exact: (gp_0 _ _ _ P).
by apply: (gp_inj _ _ _ P) => //; rewrite (gp_0 _ _ _ P).
Qed.

Lemma pol_set q A e c : pol q A -> (e < List.length (p_buf q))%N -> gvalid G c ->
  exists q', [/\ poly_set G q e c = Some q', List.length (p_buf q') = List.length (p_buf q),
   p_deg q' = (if (p_deg q <? Z.of_nat e)%Z && (phi c != 0) then Z.of_nat e else p_deg q)
   & forall B : {poly F}, (forall i, B`_i = if i == e then phi c else A`_i) -> pol q' B].
Proof.
move=> Hq He Vc; rewrite /poly_set.
have -> : Nat.ltb e (List.length (p_buf q)) && (c <? g_card G)%num.
  by apply/andP; split; [apply/Nat.ltb_spec0; lia|apply/N.ltb_spec0].
eexists; split; first reflexivity.
- by rewrite /= set_length.
- rewrite /= phi_eq0 //; congr (if _ && _ then _ else _).
  by apply/N.ltb_spec0/negP => [H /N.eqb_spec|H]; [lia|case: (N.eqb_spec c 0) H => //; lia].
- move=> B HB i; rewrite HB /=; case: eqP => [->|ne]; first by rewrite nth_set_eq //; lia.
  by rewrite nth_set_neq.
Qed.

Lemma pol_one n : (0 < n)%N -> exists q, [/\ poly_set G (poly_zero n) 0 1%num = Some q, pol q 1,
  p_deg q = 0%Z & List.length (p_buf q) = n].
Proof.
move=> n0.
have H0 : pol (poly_zero n) 0.
  by move=> i; rewrite /= List.nth_repeat coef0 (gp_0 _ _ _ P).
have V1 : gvalid G 1%num by have := gp_card _ _ _ P; rewrite /gvalid.
have L0 : (0 < List.length (p_buf (poly_zero n)))%N by rewrite /= List.repeat_length.
have [q [E L D B]] := pol_set _ _ 0%N 1%num H0 L0 V1.
exists q; split => //.
- by apply: B => i; rewrite coef1 coef0 (gp_1 _ _ _ P); case: (i == 0%N).
- by rewrite D (gp_1 _ _ _ P) oner_neq0.
- by rewrite L /= List.repeat_length.
Qed.

Lemma mulXc_spec q (A : {poly F}) d c : pol q A -> p_deg q = Z.of_nat d -> size A = d.+1 ->
  (d.+1 < List.length (p_buf q))%N -> gvalid G c ->
  exists q', [/\ poly_mul_to_x_plus_coef G q c = Some q', pol q' (A * ('X + (phi c)%:P)),
    p_deg q' = Z.of_nat d.+1 & List.length (p_buf q') = List.length (p_buf q)].
Proof.
move=> Hq Hd sA Hl Vc; rewrite /poly_mul_to_x_plus_coef Hd.
have -> : (Z.of_nat d <? 0)%Z || ~~ (c <? g_card G)%num = false.
  by apply/negP => /orP [/Z.ltb_spec0|/negP []]; [lia|apply/N.ltb_spec0].
rewrite Nat2Z.id.
set val := get _ _ d.
set b := List.fold_left _ _ _.
set b' := set b _ _.
have Lb : List.length b = List.length (p_buf q) by rewrite /b desc_length.
have Eb i : lnth i b 0%num = if Nat.leb 1 i && Nat.ltb i (1 + d) then
    g_add G (lnth (i - 1) (p_buf q) 0%num) (g_mul G (lnth i (p_buf q) 0%num) c) else lnth i (p_buf q) 0%num.
  rewrite /b (desc_spec _ 0%num); [by []|lia|].
  by move=> b1 b2 j Hj _ H; rewrite /get !H //; lia.
have [Vv Ev] := Hq d.
have Hpol : pol (mkPoly b' (Z.of_nat d)) (A * ('X + (phi c)%:P) - (phi val) *: 'X^d.+1).
  move=> i; rewrite /=.
    have Hs : (0 < List.length b)%coq_nat by lia.
    have [V_ E_] := Hq i.
    have [M1 M2] := gp_mul _ _ _ P _ _ V_ Vc.
    rewrite coefB coefZ coefXn mulrDr coefD coefMX coefMC.
    case: i V_ E_ M1 M2 => [|i] V_ E_ M1 M2.
      rewrite /b' nth_set_eq // mulr0 subr0 add0r /get Eb /=.
      by rewrite -E_.
    rewrite /b' nth_set_neq; last lia.
    rewrite Eb.
    have [W_ X_] := Hq i.
    have [S1 S2] := gp_add _ _ _ P _ _ W_ M1.
    have -> : (i.+1 - 1)%N = i by lia.
    case: (Nat.ltb_spec i.+1 (1 + d)) => Hi /=.
      rewrite S2 X_ M2 E_; split => //.
      have -> : (i.+1 == d.+1) = false by lia.
      by rewrite mulr0 subr0.
    split=> //; rewrite E_ /=.
    case: (ltngtP i d) => Hi2; first lia.
      have -> : (i.+1 == d.+1) = false by lia.
      by rewrite mulr0 subr0 !nth_default ?sA ?mul0r ?addr0 //; lia.
    rewrite Hi2 eqxx mulr1 /val Ev [A`_d.+1]nth_default ?sA // mul0r addr0 subrr //.
have Hl' : (d.+1 < List.length (p_buf (mkPoly b' (Z.of_nat d))))%N by rewrite /= /b' set_length Lb.
have [q' [E L D B]] := pol_set _ _ d.+1 val Hpol Hl' Vv.
have -> : (d + 1)%coq_nat = d.+1 by lia.
exists q'; split; rewrite ?E //.
+ apply: B => i; rewrite coefB coefZ coefXn; case: eqP => [->|_]; last by rewrite mulr0 subr0.
  rewrite mulrDr coefD coefMX coefMC /= [A`_d.+1]nth_default ?sA // mul0r addr0.
  by rewrite /val -Ev.
+ rewrite D /=.
  have -> : phi val != 0 by rewrite /val Ev -[d]/(d.+1.-1) -sA lead_coef_eq0 -size_poly_eq0 sA.
  by case: Z.ltb_spec => //; lia.
+ by rewrite L /= /b' set_length.
Qed.

Lemma deriv_spec q (A : {poly F}) d p : pol q A -> p_deg q = Z.of_nat d -> size A = d.+1 ->
  (d < List.length (p_buf q))%N -> (0 < p <= g_card G)%num ->
  (forall i, phi (N.of_nat i mod p)%num = i%:R) ->
  exists q', [/\ poly_derivative G p q = Some q', pol q' (deriv A),
    p_deg q' = (Z.of_nat d - 1)%Z & List.length (p_buf q') = List.length (p_buf q)].
Proof.
move=> Hq Hd sA Hl [p0 pc] Hp; rewrite /poly_derivative Hd.
case: Z.ltb_spec; first lia. move=> _.
rewrite Nat2Z.id; eexists; split; first reflexivity; rewrite //=; last first.
  by rewrite set_length (shift_length _ 0%num (fun i v => g_mul G (N.of_nat i mod p)%num v)).
set b := List.fold_left _ _ _.
have Lb : List.length b = List.length (p_buf q).
  by rewrite /b (shift_length _ 0%num (fun i v => g_mul G (N.of_nat i mod p)%num v)).
have Eb i : lnth i b 0%num = if Nat.leb 1 (i + 1) && Nat.ltb (i + 1) (1 + d) then
    g_mul G (N.of_nat (i + 1) mod p)%num (lnth (i + 1) (p_buf q) 0%num) else lnth i (p_buf q) 0%num.
  by rewrite /b (shift_spec _ 0%num (fun i v => g_mul G (N.of_nat i mod p)%num v)) //; lia.
move=> i /=; rewrite coef_deriv.
case: (Nat.eqb_spec i d) => [->|ne].
  rewrite nth_set_eq; last lia.
  by rewrite nth_default ?sA // mul0rn (gp_0 _ _ _ P).
rewrite nth_set_neq // Eb.
case: (Nat.ltb_spec (i + 1) (1 + d)) => Hi.
  have -> : Nat.leb 1 (i + 1) = true by rewrite Nat.leb_le; lia.
  have Vi : gvalid G (N.of_nat (i + 1) mod p)%num.
    by rewrite /gvalid; have := N.mod_lt (N.of_nat (i + 1)) p ltac:(lia); lia.
  have [V_ E_] := Hq (i + 1)%N.
  have [M1 M2] := gp_mul _ _ _ P _ _ Vi V_.
  by split=> //; rewrite M2 Hp E_ mulrC mulr_natr addn1.
rewrite andbF; have [V_ E_] := Hq i; split=> //.
by rewrite E_ !nth_default ?sA ?mul0rn //; lia.
Qed.

(** Evaluation. *)
Lemma eval_loop_spec b (A : {poly F}) x i res : (forall j, gvalid G (lnth j b 0%num) /\ phi (lnth j b 0%num) = A`_j) ->
  gvalid G x -> gvalid G res ->
  gvalid G (poly_eval_loop G b x i res) /\
  phi (poly_eval_loop G b x i res) = phi res * phi x ^+ i + \sum_(j < i) A`_j * phi x ^+ j.
Proof.
move=> Hb Vx; elim: i res => [|i IH] res Vr; first by rewrite /= big_ord0 addr0 mulr1.
rewrite /=; have [M1 M2] := gp_mul _ _ _ P _ _ Vr Vx.
have [V_ E_] := Hb i.
have [S1 S2] := gp_add _ _ _ P _ _ M1 V_.
have [I1 I2] := IH _ S1; split=> //.
rewrite I2 S2 M2 E_ big_ord_recr /= exprS mulrDl mulrA -!addrA; congr (_ + _).
by rewrite addrC.
Qed.

Lemma eval_spec q (A : {poly F}) d x : pol q A -> p_deg q = Z.of_nat d -> (size A <= d.+1)%N -> gvalid G x ->
  exists v, [/\ poly_eval G q x = Some v, gvalid G v & phi v = A.[phi x]].
Proof.
move=> Hq Hd sA Vx; rewrite /poly_eval Hd; case: Z.ltb_spec; first lia. move=> _.
rewrite Nat2Z.id; eexists; split; first reflexivity;
  have [V_ E_] := Hq d; have [I1 I2] := eval_loop_spec (p_buf q) A x d _ Hq Vx V_ => //.
rewrite I2 E_ addrC (horner_coef_wide _ sA) big_ord_recr //.
Qed.

(** Truncated product. *)
Lemma mul_coef_sum degree (a b : list N) (A B : {poly F}) deg :
  (forall j, gvalid G (lnth j a 0%num) /\ phi (lnth j a 0%num) = A`_j) ->
  (forall j, gvalid G (lnth j b 0%num) /\ phi (lnth j b 0%num) = B`_j) ->
  (size A <= Z.to_nat (degree + 1))%N ->
  gvalid G (poly_mul_coef G degree a b deg) /\ phi (poly_mul_coef G degree a b deg) = (A * B)`_deg.
Proof.
move=> Ha Hb sA; rewrite /poly_mul_coef coefM.
set m := Nat.min _ _.
have H t val acc : gvalid G val -> (t <= m)%N -> phi val = acc ->
   let f := (fun val i => if (0 <? get 0 a i)%num && (0 <? get 0 b (deg - i))%num then
                            g_add G val (g_mul G (get 0 a i) (get 0 b (deg - i))) else val)%num in
   gvalid G (List.fold_left f (List.seq 0 t) val) /\
   phi (List.fold_left f (List.seq 0 t) val) = acc + \sum_(j < t) A`_j * B`_(deg - j).
  move=> Vv; elim: t => [|t IH] Ht Ev f; first by rewrite big_ord0 addr0.
  rewrite List.seq_S List.fold_left_app.
  have [I1 I2] := IH ltac:(lia) Ev; rewrite -/f in I1 I2.
  have [Va Ea] := Ha t; have [Vb Eb] := Hb (deg - t)%coq_nat.
  have [M1 M2] := gp_mul _ _ _ P _ _ Va Vb.
  have [S1 S2] := gp_add _ _ _ P _ _ I1 M1.
  rewrite big_ord_recr addrA -I2 /= {1 3}/f.
  have -> : (deg - t)%N = (deg - t)%coq_nat by [].
  rewrite -Ea -Eb.
  case: ifP => C; first by rewrite S2 M2 -?[get _ _ _]/(lnth _ _ _).
  split=> //; rewrite -{1}[phi _]addr0; congr (_ + _).
  move: C; rewrite /get; case: (N.ltb_spec 0 (lnth t a 0%num)) => Ca /=.
    by case: (N.ltb_spec 0 (lnth (deg - t)%coq_nat b 0%num)) => // Cb _; rewrite (_ : lnth (deg - t)%coq_nat b 0 = 0)%num ?(gp_0 _ _ _ P) ?mulr0 //; lia.
  by move=> _; rewrite (_ : lnth t a 0 = 0)%num ?(gp_0 _ _ _ P) ?mul0r //; lia.
have [I1 I2] := H m 0%num 0 V0 (leqnn m) (gp_0 _ _ _ P); split => //.
rewrite I2 add0r.
have Hm : (m <= deg.+1)%N by rewrite /m; lia.
rewrite (big_ord_widen _ (fun j => A`_j * B`_(deg - j)) Hm) [in RHS](bigID (fun i : 'I_deg.+1 => (i < m)%N)) /=.
rewrite [X in _ = _ + X]big1 ?addr0 // => i Hi.
rewrite [A`_i]nth_default ?mul0r //; have := ltn_ord i; move: Hi sA; rewrite /m; clear; move: (nat_of_ord i) (size A) (Z.to_nat _) => a1 a2 a3; lia.
Qed.

Lemma polymul_spec q b (A B : {poly F}) deg_out : pol q A -> pol b B ->
  (size A <= Z.to_nat (p_deg q + 1))%N -> (deg_out < List.length (p_buf q))%N -> (deg_out < List.length (p_buf b))%N ->
  exists q', [/\ poly_mul G q b deg_out = Some q', p_deg q' = p_deg q, List.length (p_buf q') = List.length (p_buf q),
     (forall i, (i <= deg_out)%N -> gvalid G (lnth i (p_buf q') 0%num) /\ phi (lnth i (p_buf q') 0%num) = (A * B)`_i)
   & (forall i, (deg_out < i)%N -> lnth i (p_buf q') 0%num = lnth i (p_buf q) 0%num)].
Proof.
move=> Hq Hb sA Hl1 Hl2; rewrite /poly_mul.
have -> : Nat.ltb deg_out (List.length (p_buf q)) && Nat.ltb deg_out (List.length (p_buf b)).
  by apply/andP; split; apply/Nat.ltb_spec0; lia.
have Hf (b1 b2 : list N) i : (0 <= i < 0 + deg_out.+1)%coq_nat -> List.length b1 = List.length b2 ->
   (forall j, (j <= i)%coq_nat -> lnth j b1 0%num = lnth j b2 0%num) ->
   poly_mul_coef G (p_deg q) b1 (p_buf b) i = poly_mul_coef G (p_deg q) b2 (p_buf b) i.
  move=> Hi _ E; rewrite /poly_mul_coef; apply: fold_left_ext_in => v j /List.in_seq Hj.
  by rewrite /get !E //; lia.
eexists; split; [reflexivity|cbn [p_buf p_deg]..].
- by [].
- by rewrite desc_length.
- move=> i Hi; rewrite (desc_spec _ 0%num); [|clear -Hl1; lia|by move=> b1 b2 j Hj Hl Hb12; apply: Hf => //; lia].
  have -> : Nat.leb 0 i && Nat.ltb i (0 + deg_out.+1) by apply/andP; split=> //; apply/Nat.ltb_spec0; lia.
  exact: mul_coef_sum.
- move=> i Hi; rewrite (desc_spec _ 0%num); [|clear -Hl1; lia|by move=> b1 b2 j Hj Hl Hb12; apply: Hf => //; lia].
  by have -> : Nat.ltb i (0 + deg_out.+1) = false by apply/Nat.ltb_spec0; lia.
Qed.

End PolyOps.
