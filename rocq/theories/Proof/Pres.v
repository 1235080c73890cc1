(** What it means for the modelled operations to present a mathematical field. *)
Set Warnings "-notation-overridden,-ambiguous-paths".
From Coq Require Import NArith.
From mathcomp Require Import all_ssreflect ssralg.
From Verif.Model Require Import Common Arith Ring Fft2n.
Import GRing.Theory.
Local Open Scope ring_scope.

(** Symbols of type [T], scaled by coefficients of type [C], read in a field through [hT] and [hC]. *)
Record sym_pres (F : fieldType) (C T : Type) (S : symops C T)
  (vC : C -> Prop) (hC : C -> F) (vT : T -> Prop) (hT : T -> F) : Prop := SymPres {
  sp_zero : vT (s_zero S) /\ hT (s_zero S) = 0;
  sp_ct : forall r a b, vC r -> vT a -> vT b ->
    (vT (fst (s_ct S r a b)) /\ hT (fst (s_ct S r a b)) = hT a + hC r * hT b) /\
    (vT (snd (s_ct S r a b)) /\ hT (snd (s_ct S r a b)) = hT a - hC r * hT b);
  sp_gs : forall r a b, vC r -> vT a -> vT b ->
    (vT (fst (s_gs S r a b)) /\ hT (fst (s_gs S r a b)) = hT a + hT b) /\
    (vT (snd (s_gs S r a b)) /\ hT (snd (s_gs S r a b)) = hC r * (hT a - hT b));
  sp_gss : forall r a b, vC r -> vT a -> vT (s_gss S r a b) /\ hT (s_gss S r a b) = hC r * hT a;
  sp_scale : forall r a b, vC r -> hC r <> -1 -> vT a -> vT (s_scale S r a b) /\ hT (s_scale S r a b) = hC r * hT a;
  sp_neg : forall a, vT a -> vT (s_neg S a) /\ hT (s_neg S a) = - hT a
}.

Definition gvalid (G : gfops) (a : N) : Prop := (a < g_card G)%num.

(** Elements of the modelled field, numbers below [g_card], read in a field through [phi]. *)
Record gf_pres (F : fieldType) (G : gfops) (phi : N -> F) : Prop := GfPres {
  gp_card : (1 < g_card G)%num;
  gp_inj : forall a b, gvalid G a -> gvalid G b -> phi a = phi b -> a = b;
  gp_0 : phi 0%num = 0;
  gp_1 : phi 1%num = 1;
  gp_add : forall a b, gvalid G a -> gvalid G b -> gvalid G (g_add G a b) /\ phi (g_add G a b) = phi a + phi b;
  gp_sub : forall a b, gvalid G a -> gvalid G b -> gvalid G (g_sub G a b) /\ phi (g_sub G a b) = phi a - phi b;
  gp_mul : forall a b, gvalid G a -> gvalid G b -> gvalid G (g_mul G a b) /\ phi (g_mul G a b) = phi a * phi b;
  gp_neg : forall a, gvalid G a -> gvalid G (g_neg G a) /\ phi (g_neg G a) = - phi a;
  gp_inv : forall a, gvalid G a -> a <> 0%num -> gvalid G (g_inv G a) /\ phi (g_inv G a) = (phi a)^-1;
  gp_exp : forall a e, gvalid G a -> (e < g_card G)%num ->
     gvalid G (g_exp G a e) /\ phi (g_exp G a e) = phi a ^+ N.to_nat e
}.
