(** Property C32, what fails: elements with tables that fill their type, 8 bits in uint8_t and 16 bits in uint16_t.  The loop that
    makes the tables stays at one element [f] from its first steps on, and [f * f = f]. *)
Set Warnings "-notation-overridden,-ambiguous-paths".
From Coq Require Import NArith ZArith.
From Coq Require List.
From Verif.Model Require Import Common Arith Ring Gf2n.
From Verif.Proof Require Import Gf2nR.
From mathcomp Require Import all_ssreflect ssralg finalg poly polydiv zmodp.
From mathcomp Require Import zify.
From Verif.Spec Require Import Gf2n.
From Verif.Proof Require Import BitsP QuotF Rabin Gf2nA Gf2nI.
From Verif.Thm Require Import Gf2nThm.
Import GRing.Theory.
Local Open Scope ring_scope.

(** No element but 0 and 1 is its own square. *)
Lemma no_idempotent w n f : supported w n -> (1 < f)%num -> (f < 2 ^ n)%num -> bits_poly f <> (bits_poly f * bits_poly f) %% field_poly n.
Proof.
  move=> sup f1 fn E; have [irr sz] := C32_moduli w n sup; have [inj [szE _]] := C32_elements n.
  have Sf : (size (bits_poly f) < size (field_poly n))%N by rewrite sz ltnS; apply/szE.
  have dv : field_poly n %| bits_poly f * (bits_poly f - 1).
    rewrite mulrBr mulr1; apply/modp_eq0P; rewrite modpD modpN -E modp_small // subrr //.
  have f0 : bits_poly f != 0 by apply/eqP; rewrite -P0 => /inj; lia.
  have f2 : bits_poly f - 1 != 0 by rewrite subr_eq0; apply/eqP; rewrite -P1 => /inj; lia.
  have cp : coprimep (field_poly n) (bits_poly f).
    rewrite /coprimep; apply/negPn/negP => H; have := irr.2 _ H (dvdp_gcdl _ _) => /eqp_dvdl E2.
    have := dvdp_gcdr (field_poly n) (bits_poly f); rewrite E2 => /(dvdp_leq f0); by rewrite leqNgt Sf.
  move: dv; rewrite (Gauss_dvdpr _ cp) => /(dvdp_leq f2); rewrite leqNgt => /negP; apply.
  apply: leq_ltn_trans (size_add _ _) _; rewrite size_opp size_poly1 gtn_max Sf /= sz; case: sup => _ [H _]; move: H; cbn; lia.
Qed.

Lemma new_full junk n prim : List.In (n, prim) [:: (8, 0x1d); (16, 0x100b)]%num ->
  new_bin_ext junk n n = match setup_tables junk n (2 ^ n - 1) prim with
    | Some (l, il) => Some (mkBinExt n n (2 ^ n - 1) true (init_mask n n) (get 0%num (init_mask n n) (N.to_nat n - 1)) prim l il [::])
    | None => None end.
Proof.
  move=> H.
  have E1 : primitive_poly n n = Some prim by case: H => [[<- <-]|[[<- <-]|//]].
  have E2 : my_card n n = (2 ^ n - 1)%num by case: H => [[<- _]|[[<- _]|//]].
  have E3 : is_restricted n n = true by case: H => [[<- _]|[[<- _]|//]].
  have E4 : (n <=? 16)%num = true by case: H => [[<- _]|[[<- _]|//]].
  by rewrite /new_bin_ext N.ltb_irrefl E1 E2 E3 E4.
Qed.

Lemma square_of_stuck junk n prim f orbit t0 : List.In (n, prim) [:: (8, 0x1d); (16, 0x100b)]%num ->
  List.In 1%num orbit -> (forall b, List.In b orbit -> List.In (nxt n (2 ^ n - 1) prim b) orbit) ->
  (forall b, List.In b orbit -> (b < 2 ^ n - 1)%num) -> Nat.iter t0 (nxt n (2 ^ n - 1) prim) 1%num = f ->
  nxt n (2 ^ n - 1) prim f = f -> (t0 < 100)%coq_nat -> f <> 0%num -> List.In f orbit ->
  exists X, new_bin_ext junk n n = Some X /\ x_check X f = true /\ x_mul X f f = Some f.
Proof.
  move=> Hn o1 oS ol E0 Ef Ht f0 fo.
  have n8 : (8 <= n <= 16)%num by case: Hn => [[<- _]|[[<- _]|//]].
  have C : (255 <= 2 ^ n - 1 <= 65535)%num by case: Hn => [[<- _]|[[<- _]|//]].
  have c1 : (1 < 2 ^ n - 1)%num by lia.
  have th : (t0 < N.to_nat (2 ^ n - 1 - 1))%coq_nat by lia.
  have [l [il [ES [El Ei]]]] := stuck_tables junk n (2 ^ n - 1) prim orbit f t0 c1 o1 oS ol E0 Ef th.
  rewrite (new_full junk n prim Hn) ES; eexists; split; first exact: erefl.
  have cf : (f <=? 2 ^ n - 1)%num by apply/N.leb_spec0; have := ol _ fo; lia.
  split; first by rewrite /x_check.
  rewrite /x_mul /x_check; cbn [x_restricted x_card x_n]; rewrite cf /=.
  have -> : (n <=? 16)%num by apply/N.leb_spec0; lia.
  rewrite /mul_log; cbn [x_log x_ilog x_w x_card].
  have -> : (f =? 0)%num = false by apply/N.eqb_spec.
  rewrite /= El; set s := Common.wrap n _.
  have -> : s = (2 ^ n - 6)%num.
    rewrite /s /Common.wrap; have -> : (N.of_nat (N.to_nat (2 ^ n - 1 - 1) - 1) + N.of_nat (N.to_nat (2 ^ n - 1 - 1) - 1) = (2 ^ n - 6) + 1 * 2 ^ n)%num by lia.
    by rewrite N.mod_add ?N.mod_small; lia.
  case: N.leb_spec => [|_]; first by lia.
  by apply: Ei; lia.
Qed.

(** The list of the values that the loop goes through. *)
Definition orbit8 : list N := [:: 0x1; 0x1f; 0x23; 0x5b; 0xab; 0x4b; 0x8b; 0xb]%num.
Definition orbit16 : list N :=
  [:: 0x1; 0x1009; 0x3019; 0x7039; 0xf079; 0xf0f9; 0xf1f9; 0xf3f9; 0xf7f9; 0xfff9; 0xeff9; 0xcff9; 0x8ff9; 0xff9]%num.

(** Whatever the new arrays hold, the field with tables that fills its type has a square that is wrong. *)
Theorem C32_full_type_refuted junk n : List.In n [:: 8; 16]%num ->
  exists X f, new_bin_ext junk n n = Some X /\ (f < 2 ^ n)%num /\ x_check X f = true /\ x_mul X f f = Some f /\
    bits_poly f <> (bits_poly f * bits_poly f) %% field_poly n.
Proof.
  case=> [<-|[<-|//]].
  - have [||||||||| X [E [H1 H2]]] := square_of_stuck junk 8 0x1d 0xb orbit8 7.
    + by left.
    + by left.
    + by move=> b Hb; rewrite /orbit8 /= in Hb *; repeat (case: Hb => [<-|Hb]; first by vm_compute; tauto).
    + by move=> b Hb; rewrite /orbit8 /= in Hb; repeat (case: Hb => [<-|Hb] //).
    + by vm_compute.
    + by vm_compute.
    + by lia.
    + by [].
    + by rewrite /=; tauto.
    refine (ex_intro _ X (ex_intro _ 0xb%num (conj E (conj (@Logic.eq_refl comparison Lt) (conj H1 (conj H2 _)))))); clear; apply: (no_idempotent 16); [rewrite /supported /=; lia|exact: erefl|exact: erefl].
  - have [||||||||| X [E [H1 H2]]] := square_of_stuck junk 16 0x100b 0xff9 orbit16 13.
    + by right; left.
    + by left.
    + by move=> b Hb; rewrite /orbit16 /= in Hb *; repeat (case: Hb => [<-|Hb]; first by vm_compute; tauto).
    + by move=> b Hb; rewrite /orbit16 /= in Hb; repeat (case: Hb => [<-|Hb] //).
    + by vm_compute.
    + by vm_compute.
    + by lia.
    + by [].
    + by rewrite /=; tauto.
    refine (ex_intro _ X (ex_intro _ 0xff9%num (conj E (conj (@Logic.eq_refl comparison Lt) (conj H1 (conj H2 _)))))); clear; apply: (no_idempotent 32); [rewrite /supported /=; lia|exact: erefl|exact: erefl].
Qed.

Print Assumptions C32_full_type_refuted.
