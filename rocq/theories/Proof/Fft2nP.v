(** The modelled radix-2 transforms compute the discrete Fourier transform. *)
Set Warnings "-notation-overridden,-ambiguous-paths".
From Coq Require Import NArith Arith Lia.
From Coq Require List.
From mathcomp Require Import all_ssreflect ssralg zify.
From Verif.Model Require Import Common Arith Ring Fft2n.
From Verif.Spec Require Import Dft.
From Verif.Proof Require Import ListP Fft2nL BitRev Ceil2P DftAlg Pres.
Import GRing.Theory.

Lemma powE a b : Nat.pow a b = (a ^ b)%N.
Proof. by elim: b => [|b IH] //; rewrite expnS -IH. Qed.

Lemma brevN_brev l x : N.to_nat (brevN l x) = brev l (N.to_nat x).
Proof.
elim: l x => [|l IH] x //=; rewrite N2Nat.inj_add IH N2Nat.inj_mul N2Nat.inj_pow Nat2N.id powE.
rewrite N2Nat.inj_div N2Nat.inj_mod; congr (_ * _ + brev _ _)%N.
- by symmetry; apply: (Nat.mod_unique _ _ (N.to_nat x)./2); case: (odd _) (odd_double_half (N.to_nat x)); lia.
- by symmetry; apply: (Nat.div_unique _ _ _ (odd (N.to_nat x))); case: (odd _) (odd_double_half (N.to_nat x)); lia.
Qed.

Lemma rev_table L i : (L < 32)%N -> (i < 2 ^ L)%N -> List.nth i (init_bitrev (2 ^ L)) 0 = brev L i.
Proof.
move=> HL Hi; have [_ H] := init_bitrev_spec L ltac:(lia).
by rewrite -!powE in Hi *; rewrite H; [rewrite brevN_brev Nat2N.id | lia].
Qed.

Section Gen.
Context {C T : Type} (S : symops C T) (dC : C).
Notation z := (s_zero S).

(** ** Loops over the layers *)
Lemma ltb_pow t L : Nat.ltb (2 ^ t) (2 ^ L) = (t < L)%N.
Proof.
have -> : (t < L)%N = (2 ^ t < 2 ^ L)%N by rewrite ltn_exp2l.
by case: Nat.ltb_spec; lia.
Qed.

Lemma ct_layer_length n W m v : (0 < m)%coq_nat -> Nat.divide (2 * m)%coq_nat n ->
  List.length v = n -> List.length (ct_layer S dC n W m v) = n.
Proof. by move=> Hm [q Hq] Hl; have [] := ct_layer_block S dC n W m q v Hm Hq Hl. Qed.

Lemma ct_layers_step f n W m v : (m < n)%coq_nat ->
  ct_layers S dC f.+1 n W m v = ct_layers S dC f n W (2 * m)%coq_nat (ct_layer S dC n W m v).
Proof. by move=> H; rewrite [LHS]/=; case: Nat.ltb_spec => //; lia. Qed.

Lemma two_layers_all L W : forall k t v f f', (t + k <= L)%N -> (L <= t + k + 1)%N ->
   (k <= f)%N -> (L - t <= f')%N -> List.length v = (2 ^ L)%N ->
  (let '(m, v') := two_layers S dC f (2 ^ L) W (2 ^ t) v in
   if Nat.ltb m (2 ^ L) then
     List.fold_left (fun v j => butterfly_ct_step S (2 ^ L) (get dC W j) j m (2 ^ L) v) (List.seq 0 m) v'
   else v') = ct_layers S dC f' (2 ^ L) W (2 ^ t) v.
Proof.
move=> k; elim: {k}(k.+1) {-2}k (ltnSn k) => // b IH k Hkb t v f f' H1 H2 Hf Hf' Hl.
have Half : forall L', Nat.div (2 ^ L'.+1) 2 = (2 ^ L')%N.
  by move=> L'; rewrite expnS mulnC; apply: Nat.div_mul.
have X : forall f v, two_layers S dC f (2 ^ L) W (2 ^ L) v = (2 ^ L, v)%N.
  case=> [|f0] v0 //; rewrite /two_layers -/two_layers; case: Nat.ltb_spec => // H; exfalso.
  by have := Nat.div_le_upper_bound (2 ^ L) 2 (2 ^ L); lia.
have X1 : forall f v L', L = L'.+1 -> two_layers S dC f (2 ^ L) W (2 ^ L') v = (2 ^ L', v)%N.
  move=> [|f0] v0 L' E //; rewrite /two_layers -/two_layers E Half; case: Nat.ltb_spec => //; lia.
have [E|E] : (t = L \/ t < L)%N by lia.
  by rewrite E X ltb_pow ltnn; case: f' {Hf'} => [|f'] //=; rewrite ltb_pow ltnn.
have [E2|E2] : (t.+1 = L \/ t.+1 < L)%N by lia.
  rewrite (X1 _ _ t) ?E2 // ltb_pow E.
  rewrite last_layer_eq; last by rewrite -E2 expnS; lia.
  case: f' Hf' => [|f'] Hf'; first lia.
  rewrite ct_layers_step; last by apply/ltP; rewrite ltn_exp2l.
  have -> : (2 * 2 ^ t)%coq_nat = (2 ^ L)%N by rewrite -E2 expnS; lia.
  by case: f' {Hf'} => [|f'] //=; rewrite ltb_pow ltnn.
case: f Hf => [|f] Hf; first lia.
rewrite /two_layers -/two_layers.
have [L' EL] : exists L', L = L'.+1 by exists L.-1; lia.
have -> : Nat.ltb (2 ^ t) (Nat.div (2 ^ L) 2) = true.
  by rewrite EL Half ltb_pow; lia.
have D4 : (2 ^ L = 2 ^ (L - t.+2) * (4 * 2 ^ t))%N.
  have -> : (4 = 2 ^ 2)%N by [].
  by rewrite -!expnD; congr expn; lia.
rewrite two_layers_eq //; last 2 first.
- by have := expn_gt0 2 t; lia.
- by exists (2 ^ (L - t.+2))%N; rewrite {1}D4.
case: f' Hf' => [|[|f']] Hf'; try lia.
have P1 : (2 * 2 ^ t)%coq_nat = (2 ^ t.+1)%N by rewrite expnS.
have P2 : (2 * 2 ^ t.+1)%coq_nat = (2 ^ t.+2)%N by rewrite [RHS]expnS.
rewrite ct_layers_step; last by apply/ltP; rewrite ltn_exp2l.
rewrite P1 ct_layers_step; last by apply/ltP; rewrite ltn_exp2l.
rewrite P2.
have -> : (4 * 2 ^ t)%coq_nat = (2 ^ t.+2)%N by rewrite !expnS; lia.
have Dd : forall e, (e < L)%N -> Nat.divide (2 * 2 ^ e)%coq_nat (2 ^ L).
  move=> e He; exists (2 ^ (L - e.+1))%N.
  have -> : (2 * 2 ^ e)%coq_nat = (2 ^ e.+1)%N by rewrite expnS.
  by rewrite !multE -expnD; congr expn; lia.
apply: (IH (k - 2)%N); try lia.
have Pz : forall e, (0 < 2 ^ e)%coq_nat by move=> e; have := expn_gt0 2 e; lia.
apply: ct_layer_length => //; first by apply: Dd; lia.
by apply: ct_layer_length => //; apply: Dd; lia.
Qed.

End Gen.

Local Open Scope ring_scope.

Section Correct.
Context {F : fieldType} {C T : Type} (S : symops C T) (dC : C).
Context (vC : C -> Prop) (hC : C -> F) (vT : T -> Prop) (hT : T -> F).
Hypothesis P : sym_pres F C T S vC hC vT hT.
Notation z := (s_zero S).
Notation lnth := List.nth.

(** [W] holds the powers of [w]. *)
Definition is_powers (n : nat) (w : F) (W : seq.seq C) : Prop :=
  forall i, (i < n)%N -> vC (lnth i W dC) /\ hC (lnth i W dC) = w ^+ i.

(** All entries of [v] are valid and [v] reads as the function [f]. *)
Definition reads (n : nat) (v : seq.seq T) (f : nat -> F) : Prop :=
  List.length v = n /\ forall i, (i < n)%N -> vT (lnth i v z) /\ hT (lnth i v z) = f i.

Variables (L : nat) (w : F).
Hypothesis wL : w ^+ (2 ^ L) = 1.
Hypothesis wm : (0 < L)%N -> w ^+ (2 ^ L.-1) = -1.

Definition ct_inv (x : nat -> F) (t : nat) (v : seq.seq T) : Prop :=
  List.length v = (2 ^ L)%N /\
  forall b s, (b < 2 ^ (L - t))%N -> (s < 2 ^ t)%N ->
    vT (lnth (b * 2 ^ t + s)%N v z) /\ hT (lnth (b * 2 ^ t + s)%N v z) = sdft F x w L t (brev (L - t) b) s.

Lemma pow_lt_split t s q : (s < 2 ^ t)%N -> (t < L)%N -> q = (2 ^ (L - t.+1))%N -> (s * q < 2 ^ L)%N.
Proof.
move=> Hs Ht ->; have := expn_gt0 2 (L - t.+1); have := expn_gt0 2 t => /= P1 P2.
have -> : (2 ^ L = 2 * 2 ^ t * 2 ^ (L - t.+1))%N by rewrite -expnS -expnD; congr expn; lia.
move: (2 ^ (L - t.+1))%N (2 ^ t)%N Hs P1 P2 => a b; nia.
Qed.

Lemma ct_inv_step x W t v : is_powers (2 ^ L) w W -> (t < L)%N ->
  ct_inv x t v -> ct_inv x t.+1 (ct_layer S dC (2 ^ L) W (2 ^ t) v).
Proof.
move=> HW Ht [Hl Hv].
set q := (2 ^ (L - t.+1))%N.
have En : (2 ^ L)%N = (q * (2 * 2 ^ t)%coq_nat)%coq_nat.
  by rewrite !multE /q -expnS -expnD; congr expn; lia.
have m0 : (0 < 2 ^ t)%coq_nat by have := expn_gt0 2 t; lia.
have [Hl' Hb] := ct_layer_block S dC (2 ^ L) W (2 ^ t) q v m0 En Hl.
split=> // b s Hb1 Hs1.
have E1 : (2 ^ t.+1 = 2 * 2 ^ t)%N by rewrite expnS.
have Elt : (2 ^ (L - t) = 2 * q)%N by rewrite /q -expnS; congr expn; lia.
have LtS : (L - t = (L - t.+1).+1)%N by lia.
have Key : forall s, (s < 2 ^ t)%N ->
  [/\ vT (lnth (b * 2 ^ t.+1 + s)%N v z), vT (lnth (b * 2 ^ t.+1 + 2 ^ t + s)%N v z) /\
      vC (lnth (s * q)%N W dC),
      hT (lnth (b * 2 ^ t.+1 + s)%N v z) = sdft F x w L t (brev (L - t.+1) b) s,
      hT (lnth (b * 2 ^ t.+1 + 2 ^ t + s)%N v z) = sdft F x w L t (brev (L - t.+1) b + q)%N s
    & hC (lnth (s * q)%N W dC) = w ^+ (q * s)].
  move=> s0 Hs0.
  have [V1 R1] := Hv b.*2 s0 ltac:(rewrite Elt -/q in Hb1 *; lia) Hs0.
  have [V2 R2] := Hv b.*2.+1 s0 ltac:(rewrite Elt -/q in Hb1 *; lia) Hs0.
  have Hq : (s0 * q < 2 ^ L)%N by apply: (pow_lt_split t).
  have [V3 R3] := HW _ Hq.
  have Ex1 : (b * 2 ^ t.+1 + s0 = b.*2 * 2 ^ t + s0)%N by rewrite E1; lia.
  have Ex2 : (b * 2 ^ t.+1 + 2 ^ t + s0 = b.*2.+1 * 2 ^ t + s0)%N by rewrite E1; lia.
  rewrite Ex1 Ex2; split=> //.
  - by rewrite R1 LtS brev_double.
  - by rewrite R2 LtS brev_doubleS.
  - by rewrite R3 mulnC.
have Ecoq : forall s0, (b * (2 * 2 ^ t)%coq_nat + s0)%coq_nat = (b * 2 ^ t.+1 + s0)%N by move=> s0; rewrite E1.
have [Hs|Hs] : (s < 2 ^ t \/ 2 ^ t <= s)%N by lia.
- have [V1 [V2 V3] R1 R2 R3] := Key s Hs.
  have [] := Hb b s ltac:(lia) ltac:(lia).
  have -> : ((b * (2 * 2 ^ t)%coq_nat + 2 ^ t)%coq_nat + s)%coq_nat = (b * 2 ^ t.+1 + 2 ^ t + s)%N by rewrite E1.
  rewrite Ecoq => -> _.
  have [[V5 R5] _] := sp_ct _ _ _ _ _ _ _ _ P _ _ _ V3 V1 V2.
  by split=> //; rewrite R5 R1 R2 R3 sdft_split.
- have Hs' : (s - 2 ^ t < 2 ^ t)%N by move: Hs1; rewrite E1; lia.
  have [V1 [V2 V3] R1 R2 R3] := Key _ Hs'.
  have := Hb b (s - 2 ^ t)%N ltac:(lia) ltac:(lia) => -[_].
  have Es : (b * 2 ^ t.+1 + 2 ^ t + (s - 2 ^ t) = b * 2 ^ t.+1 + s)%N by lia.
  have -> : ((b * (2 * 2 ^ t)%coq_nat + 2 ^ t)%coq_nat + (s - 2 ^ t)%N)%coq_nat = (b * 2 ^ t.+1 + s)%N by rewrite E1; lia.
  rewrite Ecoq => ->; rewrite Es in V2 R2.
  have [_ [V5 R5]] := sp_ct _ _ _ _ _ _ _ _ P _ _ _ V3 V1 V2.
  split=> //; rewrite R5 R1 R2 R3.
  have -> : s = (s - 2 ^ t + 2 ^ t)%N by lia.
  rewrite sdft_low // ?wm //; try lia.
  by rewrite addnK.
Qed.

Lemma ct_layers_inv x W : is_powers (2 ^ L) w W -> forall k t v f, (t + k = L)%N -> (k <= f)%N ->
  ct_inv x t v -> ct_inv x L (ct_layers S dC f (2 ^ L) W (2 ^ t) v).
Proof.
move=> HW; elim=> [|k IH] t v f E Hf Hv.
  have Et : t = L by lia.
  by rewrite Et in Hv *; case: f Hf => [|f] Hf //=; rewrite ltb_pow ltnn.
case: f Hf => [|f] Hf; first lia.
rewrite ct_layers_step; last by apply/ltP; rewrite ltn_exp2l //; lia.
have -> : (2 * 2 ^ t)%coq_nat = (2 ^ t.+1)%N by rewrite expnS.
apply: IH; try lia; apply: ct_inv_step => //; lia.
Qed.

(** The scattered input satisfies the invariant at the size of its groups. *)
Lemma scatter_inv (input out : seq.seq T) D0 e : (L < 32)%N -> (e <= L)%N ->
  Nat.max D0 (List.length input) = (2 ^ e)%N -> List.length out = (2 ^ L)%N ->
  (forall i, (i < List.length input)%N -> vT (lnth i input z)) ->
  ct_inv (fun i => hT (lnth i input z)) (L - e) (fft_scatter S (2 ^ L) D0 (init_bitrev (2 ^ L)) input out).
Proof.
move=> HL He HD Hout Hin.
have Hg : (2 ^ L = 2 ^ (L - e) * 2 ^ e)%N by rewrite -expnD; congr expn; lia.
have [] := scatter_spec C T S (2 ^ L) D0 (init_bitrev (2 ^ L)) input out (brev e) (2 ^ (L - e)) (2 ^ e) => //.
- by have := expn_gt0 2 e; lia.
- move=> i /ltP Hi; split; [by apply/ltP; apply: brev_lt|split; first exact: brevK].
  rewrite rev_table //; last by rewrite Hg; have := expn_gt0 2 (L - e); nia.
  have {1}-> : L = (e + (L - e))%N by lia.
  by rewrite brev_add // mulnC.
move=> Hl Hv; split=> // b s Hb Hs.
have Le : (L - (L - e) = e)%N by lia.
rewrite Le in Hb *.
have := Hv (brev e b) s ltac:(apply/ltP; apply: brev_lt) ltac:(lia).
rewrite brevK //.
have -> : ((2 ^ (L - e) * b)%coq_nat + s)%coq_nat = (b * 2 ^ (L - e) + s)%N by rewrite mulnC.
move=> ->.
have V : vT (lnth (brev e b) input z).
  case: (ltnP (brev e b) (List.length input)) => H; first exact: Hin.
  by rewrite List.nth_overflow; [case: (sp_zero _ _ _ _ _ _ _ _ P)|lia].
split=> //; rewrite sdft_short //; try lia.
- move=> i; rewrite Le => Hi; rewrite List.nth_overflow; last by lia.
  by case: (sp_zero _ _ _ _ _ _ _ _ P).
- by rewrite Le brev_lt.
Qed.

(** Radix2::fft on vectors. *)
Theorem fft_vec_reads (input out W : _) D0 e : (L < 32)%N -> (e <= L)%N ->
  is_powers (2 ^ L) w W ->
  Nat.max D0 (List.length input) = (2 ^ e)%N -> List.length out = (2 ^ L)%N ->
  (forall i, (i < List.length input)%N -> vT (lnth i input z)) ->
  reads (2 ^ L) (fft_vec S dC (2 ^ L) D0 (init_bitrev (2 ^ L)) W out input)
        (dft F w (2 ^ L) (fun i => hT (lnth i input z))).
Proof.
move=> HL He HW HD Hout Hin.
have Hs := scatter_inv input out D0 e HL He HD Hout Hin.
have Gg : group_len (2 ^ L) D0 (List.length input) = (2 ^ (L - e))%N.
  have Hg : (2 ^ L = 2 ^ (L - e) * 2 ^ e)%N by rewrite -expnD; congr expn; lia.
  have Pe := expn_gt0 2 e.
  rewrite /group_len Hg; case: Nat.ltb_spec => H.
    have -> : List.length input = (2 ^ e)%N by lia.
    by apply: Nat.div_mul; lia.
  have -> : D0 = (2 ^ e)%N by lia.
  by apply: Nat.div_mul; lia.
have LL := ltn_expl L (isT : (1 < 2)%N).
have [Hl Hv] := ct_layers_inv _ W HW e (L - e)%N _ (2 ^ L)%N ltac:(lia) ltac:(lia) Hs.
rewrite /fft_vec Gg; split=> // i Hi.
have := Hv 0%N i; rewrite subnn mul0n add0n => /(_ isT Hi) [V R]; split=> //.
by rewrite R sdft_full.
Qed.

(** Radix2::fft on buffers is the same function of its inputs. *)
Lemma fft_buf_vec (input out W : _) D0 e : (e <= L)%N ->
  Nat.max D0 (List.length input) = (2 ^ e)%N ->
  List.length (fft_scatter S (2 ^ L) D0 (init_bitrev (2 ^ L)) input out) = (2 ^ L)%N ->
  fft_buf S dC (2 ^ L) D0 (init_bitrev (2 ^ L)) W out input =
  fft_vec S dC (2 ^ L) D0 (init_bitrev (2 ^ L)) W out input.
Proof.
move=> He HD Hl.
have Gg : group_len (2 ^ L) D0 (List.length input) = (2 ^ (L - e))%N.
  have Hg : (2 ^ L = 2 ^ (L - e) * 2 ^ e)%N by rewrite -expnD; congr expn; lia.
  have Pe := expn_gt0 2 e.
  rewrite /group_len Hg; case: Nat.ltb_spec => H.
    have -> : List.length input = (2 ^ e)%N by lia.
    by apply: Nat.div_mul; lia.
  have -> : D0 = (2 ^ e)%N by lia.
  by apply: Nat.div_mul; lia.
have LL := ltn_expl L (isT : (1 < 2)%N).
rewrite /fft_buf /fft_vec Gg; apply: (two_layers_all S dC L W e); lia.
Qed.

Theorem fft_buf_reads (input out W : _) D0 e : (L < 32)%N -> (e <= L)%N ->
  is_powers (2 ^ L) w W ->
  Nat.max D0 (List.length input) = (2 ^ e)%N -> List.length out = (2 ^ L)%N ->
  (forall i, (i < List.length input)%N -> vT (lnth i input z)) ->
  reads (2 ^ L) (fft_buf S dC (2 ^ L) D0 (init_bitrev (2 ^ L)) W out input)
        (dft F w (2 ^ L) (fun i => hT (lnth i input z))).
Proof.
move=> HL He HW HD Hout Hin.
have [Hl _] := scatter_inv input out D0 e HL He HD Hout Hin.
by rewrite (fft_buf_vec _ _ _ _ e) //; apply: (fft_vec_reads _ _ _ _ e).
Qed.

(** ** Inverse transforms.  [w] is here the root whose powers are in [inv_W]. *)
Definition gs_inv (x : nat -> F) (top t : nat) (v : seq.seq T) : Prop :=
  List.length v = (2 ^ L)%N /\
  forall b s, (b < 2 ^ (L - t))%N -> (s < 2 ^ t)%N -> (s < top)%N ->
    vT (lnth (b * 2 ^ t + s)%N v z) /\ hT (lnth (b * 2 ^ t + s)%N v z) = edft F x w L t (brev (L - t) b) s.

Section Step.
Variables (x : nat -> F) (W : seq.seq C) (t : nat) (v : seq.seq T).
Hypothesis HW : is_powers (2 ^ L) w W.
Hypothesis Ht : (t < L)%N.

(* positions and coefficients of one pair of the layer of half-size 2^t *)
Lemma gs_pair top b s : gs_inv x top t.+1 v -> (b < 2 ^ (L - t.+1))%N -> (s < 2 ^ t)%N -> (s < top)%N ->
  [/\ vT (lnth (b * 2 ^ t.+1 + s)%N v z), vC (lnth (s * 2 ^ (L - t.+1))%N W dC),
      hT (lnth (b * 2 ^ t.+1 + s)%N v z) = edft F x w L t.+1 (brev (L - t.+1) b) s
    & hC (lnth (s * 2 ^ (L - t.+1))%N W dC) = w ^+ (s * 2 ^ (L - t.+1))].
Proof.
move=> [_ Hv] Hb Hs Htop.
have [V1 R1] := Hv b s Hb ltac:(rewrite expnS; lia) Htop.
have [V2 R2] := HW _ (pow_lt_split t s _ Hs Ht erefl).
by split.
Qed.

Lemma gs_sizes : (2 ^ L)%N = (2 ^ (L - t.+1) * (2 * 2 ^ t)%coq_nat)%coq_nat /\ (0 < 2 ^ t)%coq_nat.
Proof.
split; last by have := expn_gt0 2 t; lia.
by rewrite !multE -expnS -expnD; congr expn; lia.
Qed.

Lemma gs_inv_step : gs_inv x (2 ^ L) t.+1 v -> gs_inv x (2 ^ L) t (gs_layer S dC (2 ^ L) W (2 ^ t) v).
Proof.
move=> Hv; have [Hl _] := Hv; have [En m0] := gs_sizes.
have [Hl' Hb] := gs_layer_block S dC (2 ^ L) W (2 ^ t) _ v m0 En Hl.
split=> // b s Hb1 Hs1 Htop.
have LtS : (L - t = (L - t.+1).+1)%N by lia.
have E1 : (2 ^ t.+1 = 2 * 2 ^ t)%N by rewrite expnS.
have Lt1 : (2 ^ t.+1 <= 2 ^ L)%N by rewrite leq_exp2l.
have Hh : (b./2 < 2 ^ (L - t.+1))%N by move: Hb1; rewrite LtS expnS; move: (2 ^ _)%N => p; clear; lia.
have [V1 VC R1 RC] := gs_pair _ b./2 s Hv Hh Hs1 Htop.
have [_ Hv'] := Hv; have [V2 R2] := Hv' b./2 (2 ^ t + s)%N Hh ltac:(lia) ltac:(lia).
have [A B] := Hb b./2 s ltac:(lia) ltac:(lia).
have X1 : (b./2 * (2 * 2 ^ t)%coq_nat + s)%coq_nat = (b./2 * 2 ^ t.+1 + s)%N by rewrite E1.
have X2 : ((b./2 * (2 * 2 ^ t)%coq_nat + 2 ^ t)%coq_nat + s)%coq_nat = (b./2 * 2 ^ t.+1 + (2 ^ t + s))%N.
  by rewrite E1 addnA.
rewrite X1 X2 in A B.
case: (boolP (odd b)) => Hodd.
- have Eb : b = b./2.*2.+1 by lia.
  have X3 : (b * 2 ^ t + s = b./2 * 2 ^ t.+1 + (2 ^ t + s))%N by rewrite E1; lia.
  rewrite X3 B.
  have [_ [V4 R4]] := sp_gs _ _ _ _ _ _ _ _ P _ _ _ VC V1 V2.
  split=> //; rewrite R4 R1 R2 RC.
  rewrite {3}Eb LtS brev_doubleS edft_odd // ?wm //; try lia.
  by rewrite (addnC s).
- have Eb : b = b./2.*2 by lia.
  have X3 : (b * 2 ^ t + s = b./2 * 2 ^ t.+1 + s)%N by rewrite E1; lia.
  rewrite X3 A.
  have [[V3 R3] _] := sp_gs _ _ _ _ _ _ _ _ P _ _ _ VC V1 V2.
  split=> //; rewrite R3 R1 R2.
  by rewrite {3}Eb LtS brev_double [RHS]edft_even // (addnC s).
Qed.

Lemma gs_simple_inv_step top : (top <= 2 ^ t)%N -> (forall i, (top <= i)%N -> x i = 0) ->
  gs_inv x top t.+1 v -> gs_inv x top t (gs_simple_layer S dC (2 ^ L) W (2 ^ t) v).
Proof.
move=> Htt Hx Hv; have [Hl _] := Hv; have [En m0] := gs_sizes.
have [Hl' Hb] := gs_simple_layer_block S dC (2 ^ L) W (2 ^ t) _ v m0 En Hl.
split=> // b s Hb1 Hs1 Htop.
have LtS : (L - t = (L - t.+1).+1)%N by lia.
have E1 : (2 ^ t.+1 = 2 * 2 ^ t)%N by rewrite expnS.
have Hh : (b./2 < 2 ^ (L - t.+1))%N by move: Hb1; rewrite LtS expnS; move: (2 ^ _)%N => p; clear; lia.
have [V1 VC R1 RC] := gs_pair _ b./2 s Hv Hh Hs1 Htop.
have [A B] := Hb b./2 s ltac:(lia) ltac:(lia).
have X1 : (b./2 * (2 * 2 ^ t)%coq_nat + s)%coq_nat = (b./2 * 2 ^ t.+1 + s)%N by rewrite E1.
have X2 : ((b./2 * (2 * 2 ^ t)%coq_nat + 2 ^ t)%coq_nat + s)%coq_nat = (b./2 * 2 ^ t.+1 + (2 ^ t + s))%N.
  by rewrite E1 addnA.
rewrite X1 X2 in A B.
have Z : forall r, edft F x w L t.+1 r (s + 2 ^ t) = 0.
  by move=> r; apply: edft_zero => i Hi; apply: Hx; lia.
case: (boolP (odd b)) => Hodd.
- have Eb : b = b./2.*2.+1 by lia.
  have X3 : (b * 2 ^ t + s = b./2 * 2 ^ t.+1 + (2 ^ t + s))%N by rewrite E1; lia.
  rewrite X3 B.
  have [V4 R4] := sp_gss _ _ _ _ _ _ _ _ P _ _ (lnth (b./2 * 2 ^ t.+1 + (2 ^ t + s))%N v z) VC V1.
  split=> //; rewrite R4 R1 RC.
  rewrite {2}Eb LtS brev_doubleS edft_odd // ?wm //; try lia.
  by rewrite Z subr0.
- have Eb : b = b./2.*2 by lia.
  have X3 : (b * 2 ^ t + s = b./2 * 2 ^ t.+1 + s)%N by rewrite E1; lia.
  rewrite X3 A; split=> //; rewrite R1.
  by rewrite {2}Eb LtS brev_double [RHS]edft_even // Z addr0.
Qed.
End Step.

Lemma half_pow t : Nat.div (2 ^ t.+1) 2 = (2 ^ t)%N.
Proof. by rewrite expnS mulnC; apply: Nat.div_mul. Qed.

(** The loop over [m = 2^(t-1), ..., 1]; [m = 0] for [t = 0]. *)
Lemma gs_layers_inv x W : is_powers (2 ^ L) w W -> forall t v f, (t <= L)%N -> (t <= f)%N ->
  gs_inv x (2 ^ L) t v -> gs_inv x (2 ^ L) 0 (gs_layers S dC f (2 ^ L) W (Nat.div (2 ^ t) 2) v).
Proof.
move=> HW; elim=> [|t IH] v f Ht Hf Hv.
  have -> : Nat.div (2 ^ 0) 2 = 0%N by [].
  by case: f Hf => [|f] Hf.
case: f Hf => [|f] Hf //.
rewrite half_pow /gs_layers -/gs_layers.
have -> : Nat.leb 1 (2 ^ t) = true by apply/Nat.leb_le; have := expn_gt0 2 t; lia.
apply: IH; try lia.
by apply: gs_inv_step.
Qed.

Lemma gs_final x v : (L < 32)%N -> gs_inv x (2 ^ L) 0 v ->
  reads (2 ^ L) (bit_rev_permute z (2 ^ L) (init_bitrev (2 ^ L)) v) (dft F w (2 ^ L) x).
Proof.
move=> HL [Hl Hv].
have [] := permute_spec T z (2 ^ L) (init_bitrev (2 ^ L)) (brev L) v Hl.
  move=> i /ltP Hi; split; first by rewrite rev_table.
  by split; [apply/ltP; apply: brev_lt | apply: brevK].
move=> Hl' Hk; split=> // i Hi; rewrite Hk; last by lia.
have Hb := brev_lt L i.
have := Hv (brev L i) 0%N; rewrite subn0 expn0 muln1 addn0 expn_gt0 => /(_ Hb isT isT) [V R]; split=> //.
by rewrite R brevK // -edft_full.
Qed.

(** Radix2::fft_inv on vectors; the input may be shorter than the transform. *)
Theorem fft_inv_vec_reads (input out W : _) : (L < 32)%N ->
  is_powers (2 ^ L) w W -> List.length out = (2 ^ L)%N ->
  (List.length input <= 2 ^ L)%N ->
  (forall i, (i < List.length input)%N -> vT (lnth i input z)) ->
  reads (2 ^ L) (fft_inv_vec S dC (2 ^ L) (init_bitrev (2 ^ L)) W out input)
        (dft F w (2 ^ L) (fun i => hT (lnth i input z))).
Proof.
move=> HL HW Hout Hlen Hin; rewrite /fft_inv_vec; apply: gs_final => //.
have LL := ltn_expl L (isT : (1 < 2)%N).
apply: (gs_layers_inv _ W HW L _ (2 ^ L)%N) => //; first by lia.
rewrite /copy_vec Hout List.firstn_all2; last by lia.
have Hnth : forall i, lnth i (List.app input (List.repeat z (2 ^ L - List.length input)%coq_nat)) z = lnth i input z.
  move=> i; case: (ltnP i (List.length input)) => H; first by rewrite List.app_nth1 //; lia.
  rewrite List.app_nth2; last by lia.
  rewrite (List.nth_overflow input); last by lia.
  by rewrite List.nth_repeat.
split; first by rewrite List.app_length List.repeat_length; lia.
move=> b s; rewrite subnn expn0 => Hb Hs _.
have -> : b = 0%N by lia.
rewrite mul0n add0n Hnth edft_top; split=> //.
case: (ltnP s (List.length input)) => H; first exact: Hin.
by rewrite List.nth_overflow; [case: (sp_zero _ _ _ _ _ _ _ _ P)|lia].
Qed.

(** Loading of a short input: zeros up to the next power of two, stale values after. *)
Lemma inv_load_spec (input out : seq.seq T) e : List.length out = (2 ^ L)%N ->
  (0 < List.length input)%N -> (List.length input <= 2 ^ e)%N -> (2 ^ e < 2 * List.length input)%N -> (e <= L)%N ->
  List.length (fft_inv_load S (2 ^ L) input out) = (2 ^ L)%N /\
  forall i, (i < 2 ^ e)%N -> lnth i (fft_inv_load S (2 ^ L) input out) z = lnth i input z.
Proof.
move=> Hout H0 He1 He2 HeL; rewrite /fft_inv_load.
have [Hl1 Hk1] := fold_set_fill T z (fun i => get z input i) (List.seq 0 (List.length input)) out.
set v := List.fold_left _ _ out in Hl1 Hk1 *.
have LeL : (2 ^ e <= 2 ^ L)%N by rewrite leq_exp2l.
have R1 : forall i, (i < List.length input)%N -> lnth i v z = lnth i input z.
  move=> i Hi; have [-> //] := Hk1 i; last by lia.
  by apply/List.in_seq; lia.
case: Nat.ltb_spec => Hlt; last first.
  split; first by lia.
  by move=> i Hi; apply: R1; lia.
have [e' [Ec [E1 E2]]] := ceil2_spec (N.of_nat (List.length input)) ltac:(lia).
rewrite Ec.
have Ep : N.to_nat (2 ^ e') = (2 ^ e)%N.
  rewrite N2Nat.inj_pow powE.
  have E1' : (List.length input <= 2 ^ N.to_nat e')%N by rewrite -powE; have := N2Nat.inj_pow 2 e'; lia.
  have E2' : (2 ^ N.to_nat e' < 2 * List.length input)%N by rewrite -powE; have := N2Nat.inj_pow 2 e'; lia.
  congr expn; move: (N.to_nat e') E1' E2' => c E1' E2'.
  have : (2 ^ c < 2 ^ e.+1)%N by rewrite expnS; lia.
  have : (2 ^ e < 2 ^ c.+1)%N by rewrite expnS; lia.
  by rewrite !ltn_exp2l //; lia.
rewrite Ep.
have [Hl2 Hk2] := fold_set_fill T z (fun _ => z) (List.seq (List.length input) (2 ^ e - List.length input)%coq_nat) v.
split; first by rewrite Hl2; lia.
move=> i Hi; have [A B] := Hk2 i.
case: (ltnP i (List.length input)) => H.
  by rewrite B; [apply: R1 | move/List.in_seq; lia].
rewrite A; [|by apply/List.in_seq; lia|by lia].
by rewrite List.nth_overflow //; lia.
Qed.

Lemma gs_simple_loop x W (k e : nat) : is_powers (2 ^ L) w W ->
  (0 < k)%N -> (k <= 2 ^ e)%N -> (2 ^ e < 2 * k)%N -> (forall i, (2 ^ e <= i)%N -> x i = 0) ->
  forall c t v f, (t = e + c)%N -> (t <= L)%N -> (c <= f)%N -> gs_inv x (2 ^ e) t v ->
  exists v', gs_simple_layers S dC f (2 ^ L) k W (Nat.div (2 ^ t) 2) v = (Nat.div (2 ^ e) 2, v') /\
             gs_inv x (2 ^ e) e v'.
Proof.
move=> HW k0 Hk1 Hk2 Hx; elim=> [|c IH] t v f Et Ht Hf Hv.
  have -> : t = e by lia.
  exists v; split; last by move: Hv; rewrite Et addn0.
  case: f Hf => [|f] Hf //; rewrite /gs_simple_layers -/gs_simple_layers.
  case: Nat.leb_spec => // H; exfalso.
  have := Nat.mul_div_le (2 ^ e)%N 2 ltac:(by []).
  move: (Nat.div _ _) H => q; lia.
case: f Hf => [|f] Hf //.
have -> : t = (e + c).+1 by lia.
rewrite half_pow /gs_simple_layers -/gs_simple_layers.
have Le : (2 ^ e <= 2 ^ (e + c))%N by rewrite leq_exp2l //; lia.
have -> : Nat.leb k (2 ^ (e + c)) = true by apply/Nat.leb_le; lia.
apply: IH; try lia.
apply: gs_simple_inv_step => //; try lia.
by move: Hv; rewrite Et addnS.
Qed.

(** Radix2::fft_inv on buffers; what the output held before does not matter. *)
Theorem fft_inv_buf_reads (input out W : _) : (L < 32)%N ->
  is_powers (2 ^ L) w W -> List.length out = (2 ^ L)%N ->
  (0 < List.length input)%N -> (List.length input <= 2 ^ L)%N ->
  (forall i, (i < List.length input)%N -> vT (lnth i input z)) ->
  reads (2 ^ L) (fft_inv_buf S dC (2 ^ L) (init_bitrev (2 ^ L)) W out input)
        (dft F w (2 ^ L) (fun i => hT (lnth i input z))).
Proof.
move=> HL HW Hout H0 Hlen Hin; rewrite /fft_inv_buf.
have LL := ltn_expl L (isT : (1 < 2)%N).
have [Hp _] := permute_spec T z (2 ^ L) (init_bitrev (2 ^ L)) (brev L) out Hout ltac:(
  move=> i /ltP Hi; split; [by rewrite rev_table | by split; [apply/ltP; apply: brev_lt | apply: brevK]]).
set out1 := bit_rev_permute z _ _ out in Hp *.
have VZ : forall i, vT (lnth i input z).
  move=> i; case: (ltnP i (List.length input)) => H; first exact: Hin.
  by rewrite List.nth_overflow; [case: (sp_zero _ _ _ _ _ _ _ _ P)|lia].
have [e [He1 He2 HeL]] : exists e, [/\ (List.length input <= 2 ^ e)%N, (2 ^ e < 2 * List.length input)%N & (e <= L)%N].
  have [e' [_ [E1 E2]]] := ceil2_spec (N.of_nat (List.length input)) ltac:(lia).
  exists (N.to_nat e').
  have X : N.to_nat (2 ^ e') = (2 ^ N.to_nat e')%N by rewrite N2Nat.inj_pow powE.
  split; try (rewrite -X; lia).
  have : (2 ^ N.to_nat e' < 2 ^ L.+1)%N by rewrite expnS -X; lia.
  by rewrite ltn_exp2l.
have [Hl Hv] := inv_load_spec input out1 e Hp H0 He1 He2 HeL.
set v := fft_inv_load S _ input out1 in Hl Hv *.
set x := fun i => hT (lnth i input z).
have Inv : gs_inv x (2 ^ e) L v.
  split=> // b s; rewrite subnn expn0 => Hb _ Hs.
  have -> : b = 0%N by lia.
  by rewrite mul0n add0n Hv // edft_top.
have Hx : forall i, (2 ^ e <= i)%N -> x i = 0.
  move=> i Hi; rewrite /x List.nth_overflow; last by lia.
  by case: (sp_zero _ _ _ _ _ _ _ _ P).
have [v' [-> Hv']] : exists v',
    (if Nat.ltb (List.length input) (2 ^ L) then gs_simple_layers S dC (2 ^ L) (2 ^ L) (List.length input) W (Nat.div (2 ^ L) 2) v
     else (Nat.div (2 ^ L) 2, v)) = (Nat.div (2 ^ e) 2, v') /\ gs_inv x (2 ^ e) e v'.
  case: Nat.ltb_spec => Hlt.
    by apply: (gs_simple_loop x W _ e HW H0 He1 He2 Hx (L - e)); try lia.
  have El : e = L.
    have : (2 ^ L <= 2 ^ e)%N by lia.
    by rewrite leq_exp2l //; lia.
  by exists v; rewrite El in Inv *.
apply: gs_final => //; apply: (gs_layers_inv _ W HW e) => //; first by lia.
have [Hl' Hv''] := Hv'; split=> // b s Hb Hs _; exact: Hv''.
Qed.

End Correct.
