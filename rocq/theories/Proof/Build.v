(** What the specialised functions of a build must do for the code to be the same as without them. *)
From Coq Require Import List NArith Arith.
From Verif.Model Require Import Common Ring Fft2n Radix2 Props Fnt.
From Verif.Proof Require Import Kern.
Import ListNotations.
Open Scope nat_scope.

(** A packet of [pkt] elements of the field. *)
Definition pok (G : gfops) (pkt : nat) (p : list N) : Prop := length p = pkt /\ Forall (fun a => (a < g_card G)%N) p.

(** Two sets of packet operations that agree on packets of elements of the field. *)
Record sym_agree (G : gfops) (pkt : nat) (S S' : symops N (list N)) : Prop := SymAgree {
  sa_zero : s_zero S = s_zero S';
  sa_ct : forall r a b, (r < g_card G)%N -> pok G pkt a -> pok G pkt b -> s_ct S r a b = s_ct S' r a b;
  sa_gs : forall r a b, (r < g_card G)%N -> pok G pkt a -> pok G pkt b -> s_gs S r a b = s_gs S' r a b;
  sa_gss : forall r a b, (r < g_card G)%N -> pok G pkt a -> s_gss S r a b = s_gss S' r a b;
  sa_scale : forall r a b, (r < g_card G - 1)%N -> pok G pkt a -> s_scale S r a b = s_scale S' r a b;
  sa_neg : forall a, pok G pkt a -> s_neg S a = s_neg S' a
}.

Lemma agree_refl G pkt S : sym_agree G pkt S S.
Proof. now split. Qed.

Record build_ok (c : fnt) : Prop := BuildOk {
  bo_kern : kern_ok (c_K c);
  bo_sym : sym_agree (c_G c) (c_pkt c) (k_sym (c_K c)) (sym_pkt (c_G c) (c_pkt c));
  bo_had : forall n x y, pok (c_G c) n x -> pok (c_G c) n y -> c_had c x y = map2 (g_mul (c_G c)) x y;
  bo_post : forall offset output ps, (forall i, i < c_nout c -> pok (c_G c) (c_pkt c) (nth i output [])) ->
    c_post c (c_nout c) (c_h c) offset output ps = plain_post (c_nout c) (c_h c) offset output ps
}.

(** Builds without SIMD. *)
Lemma plain_build sys ws k m pkt G n r f f2 rpow :
  build_ok (mkFnt sys ws k m pkt G n r f f2 rpow (plain (sym_pkt G pkt)) (map2 (g_mul G)) plain_post).
Proof. split; [apply plain_ok|split|..]; reflexivity. Qed.
