(** The transforms of buffers. *)
Set Warnings "-notation-overridden,-ambiguous-paths".
From Coq Require Import NArith Arith.
From Coq Require List.
From Verif.Model Require Import Common Arith Ring Fft2n Radix2 Views Matrix Simd MixedFft.
From Verif.Proof Require Import ListP MatrixL Build PacketsP.
From mathcomp Require Import all_ssreflect ssralg poly.
From mathcomp Require Import zify.
From Verif.Spec Require Import Dft Mixed.
From Verif.Spec Require Packets.
From Verif.Proof Require Import Pres Radix2P MatrixI DftInv MixedL MixedF MixedC.
Import GRing.Theory.
Local Open Scope ring_scope.

Section Bufs.
Variables (F : fieldType) (G : gfops) (phi : N -> F).
Hypothesis Pr : gf_pres F G phi.
Notation ok := (gvalid G).
Notation bspec := (bspec F G phi).
Notation el := (el F phi).
Notation packets := (packets G).

Lemma packets_nth pkt n l j : packets pkt n l -> (j < n)%N -> pvalid G pkt (List.nth j l nil).
Proof. by move=> [L A] /ltP Hj; apply: (proj1 (List.Forall_forall _ _) A); apply: List.nth_In; rewrite L. Qed.

Lemma naive_bspec pkt n W r : mvd G n n W -> (forall i j, (i < n)%N -> (j < n)%N -> en F phi W i j = r ^+ (i * j)) ->
  bspec (naive_bufs G pkt W n) pkt n r.
Proof.
  move=> [_ Mv] HM inp Pi.
  pose row i m := List.fold_left (fun buf j => map2 (fun b x => g_add G b (g_mul G (mget W i j) x)) buf (List.nth j inp nil)) (List.seq 0 m) (List.repeat 0%num pkt).
  have R i m : (i < n)%N -> (m <= n)%N -> pvalid G pkt (row i m) /\ forall t, (t < pkt)%N -> plane F phi t (row i m) = \sum_(c < m) el inp t c * r ^+ (i * c).
    move=> Hi; elim: m => [|m IH] Hm.
      split; first by split; [rewrite List.repeat_length|apply/List.Forall_forall => x Hx; rewrite (List.repeat_spec _ _ _ Hx); exact: (MatrixI.ok0 _ _ _ Pr)].
      by move=> t Ht; rewrite big_ord0 /plane List.nth_repeat (gp_0 _ _ _ Pr).
    have [V E] := IH ltac:(lia); rewrite /row List.seq_S List.fold_left_app /= -/(row i m).
    have Vj := packets_nth pkt n inp m Pi Hm; have Vw := Mv i m Hi Hm.
    have step t : (t < pkt)%N -> pvalid G pkt (map2 (fun b x => g_add G b (g_mul G (mget W i m) x)) (row i m) (List.nth m inp nil)) /\
       plane F phi t (map2 (fun b x => g_add G b (g_mul G (mget W i m) x)) (row i m) (List.nth m inp nil)) =
       plane F phi t (row i m) + phi (mget W i m) * plane F phi t (List.nth m inp nil).
      move=> Ht; apply: (map2_pvalid F G phi _ (fun a b => a + phi (mget W i m) * b) pkt t) => // a b Va Vb.
      have [V1 E1] := gp_mul _ _ _ Pr _ _ Vw Vb; have [V2 E2] := gp_add _ _ _ Pr _ _ Va V1.
      by rewrite E2 E1.
    split; last by move=> t Ht; have [_ ->] := step t Ht; rewrite E // big_ord_recr /= mulrC -[phi (mget _ _ _)]/(en F phi W i m) HM.
    case: (posnP pkt) => [e|p0]; last by case: (step 0%N p0).
    have -> : row i m = nil by move: (proj1 V); rewrite e; case: (row i m).
    by rewrite e; split; last constructor.
  have Hl i : (i < n)%N -> List.nth i (naive_bufs G pkt W n inp) nil = row i n.
    move=> Hi; rewrite /naive_bufs -/row; under List.map_ext => j do rewrite -/(row j n).
    rewrite (List.nth_indep _ nil (row 0%N n)) ?List.map_length ?List.seq_length //; last exact/ltP.
    by rewrite (List.map_nth (fun i => row i n)) List.seq_nth //; exact/ltP.
  split; last first.
    by move=> t i Ht Hi; rewrite /Mixed.el Hl //; have [_ E] := R i n Hi (leqnn n); exact: E.
  split; first by rewrite /naive_bufs List.map_length List.seq_length.
  apply/List.Forall_forall => x /List.in_map_iff [i [<- /List.in_seq Hi]].
  by have [V _] := R i n ltac:(lia) (leqnn n).
Qed.

(** Without SIMD. *)
Definition size2_plain (inp : list (list N)) : list (list N) :=
  [:: map2 (g_add G) (List.nth 1 inp nil) (List.nth 0 inp nil); map2 (g_sub G) (List.nth 0 inp nil) (List.nth 1 inp nil)].
Lemma size2_bspec pkt : bspec size2_plain pkt 2 (-1).
Proof.
  move=> inp Pi; have V0 := packets_nth pkt 2 inp 0%N Pi isT; have V1 := packets_nth pkt 2 inp 1%N Pi isT.
  have A t : (t < pkt)%N -> pvalid G pkt (map2 (g_add G) (List.nth 1 inp nil) (List.nth 0 inp nil)) /\
     plane F phi t (map2 (g_add G) (List.nth 1 inp nil) (List.nth 0 inp nil)) = el inp t 1 + el inp t 0.
    by move=> Ht; apply: (map2_pvalid F G phi (g_add G) +%R) => // a b; exact: (gp_add _ _ _ Pr).
  have B t : (t < pkt)%N -> pvalid G pkt (map2 (g_sub G) (List.nth 0 inp nil) (List.nth 1 inp nil)) /\
     plane F phi t (map2 (g_sub G) (List.nth 0 inp nil) (List.nth 1 inp nil)) = el inp t 0 - el inp t 1.
    by move=> Ht; apply: (map2_pvalid F G phi (g_sub G) (fun a b => a - b)) => // a b; exact: (gp_sub _ _ _ Pr).
  have E0 : pkt = 0%N -> List.nth 0 inp nil = nil /\ List.nth 1 inp nil = nil.
    move=> e; move: V0 V1; rewrite e => -[+ _] [+ _]; by case: (List.nth 0 inp nil) => //; case: (List.nth 1 inp nil).
  split.
    split=> //; case: (posnP pkt) => [e|p0].
      by rewrite /size2_plain; have [-> ->] := E0 e; rewrite e; repeat constructor.
    by constructor; [case: (A 0%N p0)|constructor; [case: (B 0%N p0)|constructor]].
  move=> t [|[|//]] Ht _.
    have [_ E] := A t Ht; rewrite -[LHS]/(plane F phi t (map2 (g_add G) (List.nth 1 inp nil) (List.nth 0 inp nil))) E /dft.
    by rewrite !big_ord_recl big_ord0 /= !mul0n !expr0 !mulr1 addr0 addrC.
  have [_ E] := B t Ht; rewrite -[LHS]/(plane F phi t (map2 (g_sub G) (List.nth 0 inp nil) (List.nth 1 inp nil))) E /dft.
  by rewrite !big_ord_recl big_ord0 /= muln0 expr0 mulr1 mul1n expr1 mulrN1 addr0.
Qed.

Lemma scale_bufs pkt n c l : (0 < pkt)%N -> ok c -> phi (g_card G - 1)%num = -1 -> packets pkt n l ->
  packets pkt n (mul_vec_to_vecp (sym_pkt G pkt) (g_card G - 1)%num (List.repeat c n) l l) /\
  forall t i, (t < pkt)%N -> (i < n)%N -> el (mul_vec_to_vecp (sym_pkt G pkt) (g_card G - 1)%num (List.repeat c n) l l) t i = phi c * el l t i.
Proof.
  move=> p0 Vc Eh Pl; have [L _] := Pl; have Vh : ok (g_card G - 1)%num by have := gp_card _ _ _ Pr; rewrite /gvalid; lia.
  have X t : (t < pkt)%N -> length (mul_vec_to_vecp (sym_pkt G pkt) (g_card G - 1)%num (List.repeat c n) l l) = n /\
    forall i, (i < n)%N -> pvalid G pkt (List.nth i (mul_vec_to_vecp (sym_pkt G pkt) (g_card G - 1)%num (List.repeat c n) l l) (List.repeat 0%num pkt)) /\
      plane F phi t (List.nth i (mul_vec_to_vecp (sym_pkt G pkt) (g_card G - 1)%num (List.repeat c n) l l) (List.repeat 0%num pkt)) = phi c * el l t i.
    move=> Ht; have := mul_vec_spec F G phi Pr (list N) (sym_pkt G pkt) (pvalid G pkt) (plane F phi t) (sym_pkt_pres F G phi Pr pkt t Ht)
      (g_card G - 1)%num (List.repeat c n) l l n (el l t) Vh Eh.
    rewrite List.repeat_length L => /(_ _ (leqnn _) (leqnn _)) [].
    - by move=> i Hi; rewrite (List.nth_indep _ 0%num c) ?List.nth_repeat ?List.repeat_length; [split=> //; move: Vc; rewrite /gvalid; lia|exact/ltP].
    - move=> i Hi; rewrite (List.nth_indep _ _ nil); last by rewrite L; exact/ltP.
      by split=> //; exact: packets_nth Hi.
    move=> -> [H _]; split=> // i Hi; have [V E] := H i Hi; split=> //; rewrite E; congr (_ * _).
    by rewrite (List.nth_indep _ 0%num c) ?List.nth_repeat ?List.repeat_length //; exact/ltP.
  have D i t : (i < n)%N -> (t < pkt)%N -> List.nth i (mul_vec_to_vecp (sym_pkt G pkt) (g_card G - 1)%num (List.repeat c n) l l) (List.repeat 0%num pkt) =
     List.nth i (mul_vec_to_vecp (sym_pkt G pkt) (g_card G - 1)%num (List.repeat c n) l l) nil.
    by move=> Hi Ht; apply: List.nth_indep; have [-> _] := X t Ht; exact/ltP.
  have [Ln V0] := X 0%N p0; split; last first.
    by move=> t i Ht Hi; have [_ H] := X t Ht; have [_ <-] := H i Hi; rewrite /Mixed.el /plane (D i t Hi Ht).
  split=> //; apply/List.Forall_forall => x /(List.In_nth _ _ nil) [i [Hi <-]]; rewrite Ln in Hi.
  by move/ltP: Hi => Hi; have [V _] := V0 i Hi; rewrite (D i 0%N Hi p0) in V.
Qed.

(** The builds that fit. *)
Lemma fits_simd nh w rc : Packets.build_fits nh w rc G ->
  nh = 0%N \/ simd_size w = None \/ exists e, [/\ simd_size w = Some e, rc = vcard e & G = prime_ops w rc].
Proof.
  move=> [_ [->|[H|[[-> [-> ->]]|[-> [-> ->]]]]]]; [by left|right; left|right; right; exists 2%N|right; right; exists 4%N] => //.
  by rewrite /simd_size; case: N.eqb_spec H => [-> []|_]; [left|case: N.eqb_spec => [-> []|//]; right; left].
Qed.
Section Fits.
Variables (nh : nat) (w rc : N).
Hypothesis Hn : (nh <= 2)%N.
Hypothesis fit : nh = 0%N \/ simd_size w = None \/ exists e, [/\ simd_size w = Some e, rc = vcard e & G = prime_ops w rc].
Let fit' : nh = 0%N \/ simd_size w = None \/ exists e, simd_size w = Some e /\ rc = vcard e /\ G = prime_ops w rc.
Proof. by case: fit => [|[|[e [E1 E2 E3]]]]; auto; right; right; exists e. Qed.
Let Hn' : Peano.le nh 2. Proof. exact/leP. Qed.

Lemma packets_pok pkt n l : packets pkt n l -> List.Forall (pok G pkt) l.
Proof. by case. Qed.
Lemma size2_fits pkt inp : packets pkt 2 inp -> size2_bufs w G nh rc pkt inp = size2_plain inp.
Proof.
  move=> Pi; have V0 := packets_nth pkt 2 inp 0%N Pi isT; have V1 := packets_nth pkt 2 inp 1%N Pi isT.
  rewrite /size2_bufs /size2_plain (buf_add_ok nh w rc G Hn' fit' pkt) // (buf_sub_ok nh w rc G Hn' fit' pkt) //.
  by case: V1.
Qed.
Lemma vecp_fits pkt n c l : packets pkt n l -> vecp_mul nh w rc G (List.repeat c n) l l pkt =
  Some (mul_vec_to_vecp (sym_pkt G pkt) (g_card G - 1)%num (List.repeat c n) l l).
Proof.
  move=> Pl; have [L A] := Pl; apply: (vecp_mul_ok nh w rc G Hn' fit' pkt); rewrite ?List.repeat_length ?L //.
  by apply: List.Forall_impl A => p [].
Qed.

Lemma inverse_ibspec run pkt n r c : (0 < pkt)%N -> n.-primitive_root r -> bspec run pkt n r^-1 ->
  ok c -> phi c = n%:R^-1 -> phi (g_card G - 1)%num = -1 ->
  ibspec F G phi (fun inp => vecp_mul nh w rc G (List.repeat c n) (run inp) (run inp) pkt) pkt n r.
Proof.
  move=> p0 rp B Vc Ec Eh inp x Pi Hx; have [Po Eo] := B inp Pi; have [P' E'] := scale_bufs pkt n c (run inp) p0 Vc Eh Po.
  eexists; split; [by apply: (vecp_fits pkt n)|exact: P'|] => t i Ht Hi; rewrite E' // Eo // Ec.
  have -> : dft F r^-1 n (el inp t) i = n%:R * x t i.
    by rewrite -(dft_inverse F r n (x t) i rp Hi); apply: dft_ext => j Hj; exact: Hx.
  by rewrite mulKf //; exact: (prim_natr F r n rp).
Qed.
End Fits.
End Bufs.
