(** The additive transform and the Taylor expansions: property C39. *)
Set Warnings "-notation-overridden,-ambiguous-paths".
From Coq Require Import NArith Arith.
From Coq Require List.
From Verif.Model Require Import Common Arith Ring Views Gf2n Additive.
From Verif.Proof Require Import ListP MatrixL PrimeP.
From mathcomp Require Import all_ssreflect ssralg finalg poly.
From mathcomp Require Import zify.
From Verif.Spec Require Import Gf2n Mixed Additive.
From Verif.Proof Require Import Pres MatrixB RootP MixedL MixedT AddL AddT AddI AddG AddF AddX AddY AddB.
Import GRing.Theory.
Local Open Scope ring_scope.

(** A vector of [n] elements of the field. *)
Definition elements (G : gfops) (n : nat) (l : list N) : Prop := size l = n /\ List.Forall (fun x => (x < g_card G)%num) l.

Lemma elements_vok F G phi n l : gf_pres F G phi -> elements G n l -> size l = n /\ vok G l.
Proof.
  move=> Pr [S /List.Forall_forall H]; split=> //; apply: (vokP F G phi Pr) => i Hi; apply: H.
  by apply: List.nth_In; apply/ltP.
Qed.
Lemma vok_elements G n l : size l = n -> vok G l -> elements G n l.
Proof.
  move=> S V; split=> //; apply/List.Forall_forall => x /(List.In_nth _ _ 0%num) [i [_ <-]]; exact: V.
Qed.

Section Theorems.
Variables (junk w : N) (n : nat) (X : bin_ext).
Hypothesis sup : supported w (N.of_nat n).
Hypothesis build : new_bin_ext junk w (N.of_nat n) = Some X.
Notation G := (bin_ops X).

Lemma bin_facts : exists (F : finFieldType) (h : N -> F), [/\ gf_pres F G h, g_card G = (2 ^ N.of_nat n)%num, (forall u : F, u + u = 0) &
  forall a b, gvalid G a -> gvalid G b -> g_add G a b = N.lxor a b].
Proof.
  have [F [h [Pr Hc _ Hn Hx]]] := bin_all junk w (N.of_nat n) X sup build.
  by exists F, h; split=> // u; rewrite -{2}(Hn u) subrr.
Qed.

(** The expansion of a polynomial in powers of [X^t + X], and the way back, for vectors whose length is a multiple of [t]. *)
Theorem C39_taylor_partial : exists (F : finFieldType) (h : N -> F), gf_pres F G h /\
  forall t len l out, (1 < t)%N -> (0 < len)%N -> elements G len l -> (len <= size out < len + t)%N ->
  exists l', [/\ taylor_expand G out l len t = Some l', elements G (size out) l',
    poly_of F h len l = taylor_sum F h t (size out) l' &
    (t %| size out)%N -> forall order back, size back = len -> (len <= order)%N -> inv_taylor_expand G order back l' t = Some l].
Proof.
  have [F [h [Pr Hc ch2 _]]] := bin_facts; exists F, h; split=> // t len l out t1 l0 /(elements_vok F G h len l Pr) [Sl V] So.
  have [|l' [E [S' [V' P]]]] := taylor_expand_ok F G h Pr ch2 t len out l t1 l0 _ So V; first by rewrite Sl.
  exists l'; split=> //; first exact: vok_elements.
    by rewrite P S'.
  move=> td order back Sb Ho.
  have [l2 [E2 E3]] := taylor_roundtrip F G h Pr ch2 len order t l out back t1 l0 Sl So td Sb Ho V.
  by move: E2; rewrite E => -[->].
Qed.

(** The object for any independent basis. *)
Definition additive_right (F : finFieldType) (h : N -> F) (m : nat) (betas : list N) : Prop :=
  exists a, new_additive G junk m betas = Some a /\
    forall out l, size out = (2 ^ m)%N -> elements G (2 ^ m) l ->
     [/\ exists o, [/\ add_fft G junk a out l = Some o, elements G (2 ^ m) o,
           forall i, (i < 2 ^ m)%N -> cf F h o i = (poly_of F h (2 ^ m) l).[point F (cf F h betas) m i] &
           forall out2, size out2 = (2 ^ m)%N -> add_ifft G junk a out2 o = Some l] &
         exists o, [/\ add_ifft G junk a out l = Some o, elements G (2 ^ m) o,
           forall i, (i < 2 ^ m)%N -> (poly_of F h (2 ^ m) o).[point F (cf F h betas) m i] = cf F h l i &
           forall out2, size out2 = (2 ^ m)%N -> add_fft G junk a out2 o = Some l]].

Lemma right_gen (F : finFieldType) (h : N -> F) m betas : gf_pres F G h -> g_card G = (2 ^ N.of_nat n)%num -> (forall u : F, u + u = 0) ->
  (forall a b, gvalid G a -> gvalid G b -> g_add G a b = N.lxor a b) ->
  (0 < m <= n)%N -> vok G betas -> independent F (cf F h betas) m -> additive_right F h m betas.
Proof.
  move=> Pr Hc ch2 AX /andP [m0 mn] V I; case: m m0 mn I => // m _ mn I.
  have [|a [Ea Ra]] := construct F G h junk Pr ch2 AX m betas V I.
    by rewrite Hc; apply: N.pow_le_mono_r; lia.
  exists a; split=> // out l So /(elements_vok F G h _ l Pr) [Sl Vl]; split.
    have [o [E1 S1 V1 P1]] := fft_ok F G h junk Pr ch2 m _ a out l Ra So Sl Vl.
    exists o; split=> //; first exact: vok_elements.
    move=> out2 So2; have [[o' [E1' E2]] _] := roundtrip F G h junk Pr ch2 m _ a out out2 l Ra I So So2 Sl Vl.
    by move: E1'; rewrite E1 => -[->].
  have [o [E1 S1 V1 P1]] := ifft_ok F G h junk Pr ch2 m _ a out l Ra So Sl Vl.
  exists o; split=> //; first exact: vok_elements.
  move=> out2 So2; have [_ [o' [E1' E2]]] := roundtrip F G h junk Pr ch2 m _ a out out2 l Ra I So So2 Sl Vl.
  by move: E1'; rewrite E1 => -[->].
Qed.

Theorem C39_additive : exists (F : finFieldType) (h : N -> F), gf_pres F G h /\
  forall m betas, (0 < m <= n)%N -> elements G m betas -> independent F (cf F h betas) m -> additive_right F h m betas.
Proof.
  have [F [h [Pr Hc ch2 AX]]] := bin_facts; exists F, h; split=> // m betas Hm Hb I.
  have [_ V] := elements_vok F G h m betas Pr Hb.
  exact: (right_gen F h).
Qed.

(** Without [betas]. *)
Theorem C39_default : exists (F : finFieldType) (h : N -> F), gf_pres F G h /\ exists root, find_primitive_root w G = Some root /\
  forall m, (0 < m <= n)%N -> let betas := default_betas G junk root m in
    [/\ elements G m betas, forall j, (j < m)%N -> cf F h betas j = (if j == m.-1 then 1 else h root ^+ j.+1),
        independent F (cf F h betas) m & additive_right F h m betas].
Proof.
  have [F [h [Pr Hc ch2 AX]]] := bin_facts; exists F, h; split; first exact Pr.
  have [hw [Ew hw0]] : exists hw, (w = 2 * hw /\ 0 < hw)%num.
    by clear -sup; exists (w / 2)%num; case: sup => Hw _; do ! (case: Hw => [<-|Hw]; first by []); case: Hw.
  have nw := proj1 (proj2 (proj2 sup)).
  have hq : (g_card G <= 2 ^ (2 * hw))%num by rewrite Hc -Ew; apply: N.pow_le_mono_r.
  have [r [E Hr r0 Hp]] := find_primitive_root_spec F G h Pr (pres_fermat F G h Pr) hw hw0 hq; rewrite -Ew in E.
  exists r; split; first exact E.
  move=> m Hm; have [Sb Vb Ib Rb] := default_ok F G h junk Pr ch2 n Hc r Hr Hp m Hm; split=> //; first exact: vok_elements.
  exact: (right_gen F h).
Qed.
End Theorems.

(** ** What fails *)
(** A vector whose length is not a multiple of [t]. *)
Theorem C39_taylor_refuted : exists X l, new_bin_ext 0 32 4 = Some X /\ supported 32 4 /\ elements (bin_ops X) 4 l /\
  exists l' l2, taylor_expand (bin_ops X) [:: 0; 0; 0; 0]%num l 4 3 = Some l' /\
    inv_taylor_expand (bin_ops X) 4 [:: 0; 0; 0; 0]%num l' 3 = Some l2 /\ l2 <> l.
Proof.
  case E: (new_bin_ext 0 32 4) => [X|]; last by vm_compute in E.
  exists X, [:: 1; 2; 3; 4]%num; have H : match new_bin_ext 0 32 4 with
    | Some X => g_card (bin_ops X) = 16%num /\ taylor_expand (bin_ops X) [:: 0; 0; 0; 0]%num [:: 1; 2; 3; 4]%num 4 3 = Some [:: 1; 6; 3; 4]%num /\
        inv_taylor_expand (bin_ops X) 4 [:: 0; 0; 0; 0]%num [:: 1; 6; 3; 4]%num 3 = Some [:: 6; 3; 4; 0]%num
    | None => False end by clear; vm_compute.
  rewrite E in H; case: H => Hc [H1 H2]; split; first exact erefl.
  split; first by clear; rewrite /supported /=; lia.
  split; first by clear -Hc; rewrite /elements Hc; split=> //; repeat constructor.
  by exists [:: 1; 6; 3; 4]%num, [:: 6; 3; 4; 0]%num; clear -H1 H2; split; [exact: H1|split; [exact: H2|]].
Qed.
(** More points than elements: accepted, and the inverse transform does not invert. *)
Theorem C39_large_refuted : exists X root a l, new_bin_ext 0 32 4 = Some X /\ supported 32 4 /\ elements (bin_ops X) 32 l /\
  find_primitive_root 32 (bin_ops X) = Some root /\ new_additive (bin_ops X) 0 5 (default_betas (bin_ops X) 0 root 5) = Some a /\
  exists o l2, add_fft (bin_ops X) 0 a (List.repeat 0%num 32) l = Some o /\ add_ifft (bin_ops X) 0 a (List.repeat 0%num 32) o = Some l2 /\ l2 <> l.
Proof.
  pose l := List.map (fun i => (N.of_nat i mod 16)%num) (List.seq 1 32).
  have Hl : size l = 32%N /\ List.Forall (fun x => (x < 16)%num) l by rewrite /l /=; split=> //; repeat constructor.
  have H1 : List.nth 1 l 0%num = 2%num by [].
  case E: (new_bin_ext 0 32 4) => [X|]; last by vm_compute in E.
  exists X; have H : match new_bin_ext 0 32 4 with
    | Some X => g_card (bin_ops X) = 16%num /\
      match find_primitive_root 32 (bin_ops X) with Some root =>
      match new_additive (bin_ops X) 0 5 (default_betas (bin_ops X) 0 root 5) with Some a =>
      match add_fft (bin_ops X) 0 a (List.repeat 0%num 32) l with Some o =>
      match add_ifft (bin_ops X) 0 a (List.repeat 0%num 32) o with Some l2 => List.nth 1 l2 0%num = 3%num
      | None => False end | None => False end | None => False end | None => False end
    | None => False end by clear -l; vm_compute.
  rewrite E in H; move: H.
  clearbody l => -[Hc]; case E1: (find_primitive_root _ _) => [root|]; last by clear; case.
  case E2: (new_additive _ _ _ _) => [a|]; last by clear; case.
  case E3: (add_fft _ _ _ _ _) => [o|]; last by clear; case.
  case E4: (add_ifft _ _ _ _ _) => [l2|]; last by clear; case.
  move=> H; exists root, a, l; split; first exact erefl.
  split; first by clear; rewrite /supported /=; lia.
  split; first by clear -Hc Hl; rewrite /elements Hc.
  split; first exact erefl. split; first exact E2.
  exists o, l2; split; first exact E3. split; first exact E4.
  by clear -H H1 => e; move: H1; rewrite -e H.
Qed.

(** ** Cases *)
(** GF(256), dimension 3: the basis 2, 4, 1, a polynomial of degree 7, its values, and the polynomial again. *)
Example C39_case : supported 32 8 /\ match new_bin_ext 0 32 8 with
  | Some X => let G := bin_ops X in
    match find_primitive_root 32 G with Some root =>
    match new_additive G 0 3 (default_betas G 0 root 3) with Some a =>
      default_betas G 0 root 3 = [:: 2; 4; 1]%num /\
      add_fft G 0 a (List.repeat 9%num 8) [:: 1; 2; 3; 4; 5; 6; 7; 8]%num = Some [:: 1; 16; 169; 160; 8; 214; 86; 149]%num /\
      add_ifft G 0 a (List.repeat 9%num 8) [:: 1; 16; 169; 160; 8; 214; 86; 149]%num = Some [:: 1; 2; 3; 4; 5; 6; 7; 8]%num
    | None => False end | None => False end
  | None => False end.
Proof. split; [by rewrite /supported /=; lia|by vm_compute]. Qed.
(** Length 10 in a vector of 12, [t] = 3. *)
Example C39_taylor_case : match new_bin_ext 0 32 8 with
  | Some X => let G := bin_ops X in
    let l := [:: 1; 2; 3; 4; 5; 6; 7; 8; 9; 10]%num in let l' := [:: 1; 2; 8; 0; 12; 12; 7; 2; 9; 10; 0; 0]%num in
    taylor_expand G (List.repeat 77%num 12) l 10 3 = Some l' /\ inv_taylor_expand G 16 (List.repeat 77%num 10) l' 3 = Some l
  | None => False end.
Proof. by vm_compute. Qed.

Print Assumptions C39_taylor_partial.
Print Assumptions C39_additive.
Print Assumptions C39_default.
Print Assumptions C39_taylor_refuted.
Print Assumptions C39_large_refuted.
