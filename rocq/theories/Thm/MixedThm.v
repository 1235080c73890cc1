(** The transforms of any length: properties C37 and C38. *)
Set Warnings "-notation-overridden,-ambiguous-paths".
From Coq Require Import NArith Arith.
From Coq Require List.
From Verif.Model Require Import Common Arith Ring Fft2n Radix2 Views Gf2n Matrix MixedFft.
From Verif.Proof Require Import ListP MatrixL ArithP PrimeP ViewsP FactorU.
From Verif.Proof Require FntInst.
From mathcomp Require Import all_ssreflect ssralg finalg poly zmodp.
From mathcomp Require Import zify.
From Verif.Spec Require Import Primes Gf2n Dft Mixed Packets.
From Verif.Proof Require Import Pres FieldP MatrixI MatrixB DftInv RootP MixedL MixedF MixedC MixedG MixedT MixedB.
Import GRing.Theory.
Local Open Scope ring_scope.

(** ** What the objects built for the length [n] do, with the root that the field gives *)
Section Claims.
Variables (w : N) (F : fieldType) (G : gfops) (h : N -> F) (p : N) (n : nat).

(** A transform, its inverse without the division, and the inverse. *)
Definition transforms (fft : bool -> memory -> vect -> vect -> option memory) (ifft : memory -> vect -> vect -> option memory) priv (r : F) : Prop :=
  [/\ tspec w F G h (fft false) n priv r, tspec w F G h (fft true) n priv r^-1 & ispec w F G h ifft n priv r].
(** The field gives a root of order [n]. *)
Definition with_root (P : N -> N -> Prop) : Prop :=
  exists root, find_primitive_root w G = Some root /\
    let wr := get_nth_root G root (N.of_nat n) in n.-primitive_root (h wr) /\ P root wr.
Notation inv_n := (get_inv_n_mod_p G p (N.of_nat n)).
Definition naive_right : Prop := with_root (fun root wr => exists s, new_naive G n wr = Some s /\
  transforms (small_fft w G s) (small_ifft w G s inv_n) pred0 (h wr)).
Definition naive_bufs_right (nh : nat) (rc : N) (pkt : nat) (inverse : bool) : Prop := with_root (fun root wr => exists s, new_naive G n wr = Some s /\
  bspec F G h (small_bufs w G nh rc s false pkt n) pkt n (h wr) /\ bspec F G h (small_bufs w G nh rc s true pkt n) pkt n (h wr)^-1 /\
  (inverse -> ibspec F G h (small_ibufs w G nh rc s inv_n pkt n) pkt n (h wr))).
Definition ct_right (heap : nat) : Prop := with_root (fun root wr => exists c k,
  new_cooley_tukey w G p root 0 heap n = Some (c, inv_n, k) /\ (heap <= k)%N /\
  transforms (ct_fft w G c) (ct_ifft w G c inv_n) (area heap k) (h wr)).
Definition gt_right (heap : nat) : Prop := with_root (fun root wr => exists c k,
  new_good_thomas w G p root 0 heap n = Some (c, inv_n, k) /\ (heap <= k)%N /\
  transforms (gt_fft w G c) (gt_ifft w G c inv_n) (area heap k) (h wr)).
End Claims.

(** ** The fields *)
Section Generic.
Variables (F : fieldType) (G : gfops) (phi : N -> F).
Hypothesis Pr : gf_pres F G phi.
Variable hw : N.
Hypothesis hw0 : (0 < hw)%num.
Notation w := (2 * hw)%num.
Hypothesis hq : (g_card G <= 2 ^ w)%num.
Variable n : nat.
Hypothesis n1 : (1 < n)%N.
Hypothesis nq : N.divide (N.of_nat n) (g_card G - 1).
Variable p : N.
Notation inv_n := (get_inv_n_mod_p G p (N.of_nat n)).
Hypothesis Vinv : gvalid G inv_n.
Hypothesis Einv : if (1 <? inv_n)%num then phi inv_n = n%:R^-1 else n%:R = 1 :> F.

Lemma root_ex : exists root, find_primitive_root w G = Some root.
Proof. by have [r [E _ _ _]] := find_primitive_root_spec F G phi Pr (pres_fermat F G phi Pr) hw hw0 hq; exists r. Qed.

Lemma naive_right_gen : (N.of_nat (n - 1) * N.of_nat (n - 1) < 2 ^ 31)%num -> naive_right w F G phi p n.
Proof.
  move=> i31; have [root E] := root_ex; have [V P] := top_root F G phi Pr hw hw0 hq root E n n1 nq.
  exists root; split=> //; split=> //.
  exact: (naive_top F G phi Pr hw hw0 hq root E n n1 nq p Vinv Einv i31).
Qed.
Lemma ct_right_gen heap : (forall f, primeN f -> N.divide f (N.of_nat n) -> ((f - 1) * (f - 1) < 2 ^ 31)%num) ->
  ct_right w F G phi p n heap.
Proof.
  move=> i31; have [root E] := root_ex; have [V P] := top_root F G phi Pr hw hw0 hq root E n n1 nq.
  exists root; split=> //; split=> //.
  exact: (ct_top F G phi Pr hw hw0 hq root E n n1 nq p Vinv Einv heap i31).
Qed.
Lemma gt_right_gen heap a e l : factorisation (N.of_nat n) ((a, e) :: l)%SEQ ->
  (forall b f, List.In (b, f) ((a, e) :: l)%SEQ -> ((b ^ f - 1) * (b ^ f - 1) < 2 ^ 31)%num) ->
  (N.of_nat n * a ^ e < 2 ^ 31)%num -> (N.of_nat n * (N.of_nat n / a ^ e) <= 2 ^ w)%num -> gt_right w F G phi p n heap.
Proof.
  move=> H1 H2 H3 H4; have [root E] := root_ex; have [V P] := top_root F G phi Pr hw hw0 hq root E n n1 nq.
  exists root; split=> //; split=> //.
  exact: (gt_top F G phi Pr hw hw0 hq root E n n1 nq p Vinv Einv heap a e l H1 H2 H3 H4).
Qed.
Lemma naive_bufs_right_gen nh rc pkt (inverse : bool) : (N.of_nat (n - 1) * N.of_nat (n - 1) < 2 ^ 31)%num -> (0 < pkt)%N ->
  (inverse -> [/\ phi inv_n = n%:R^-1, phi (g_card G - 1)%num = -1 & build_fits nh w rc G]) -> naive_bufs_right w F G phi p n nh rc pkt inverse.
Proof.
  move=> i31 p0 Hi; have [root E] := root_ex; have [V P] := top_root F G phi Pr hw hw0 hq root E n n1 nq.
  have n0 : (0 < n)%N by lia.
  exists root; split=> //; split=> //; set wr := get_nth_root _ _ _ in V P *.
  have L : (N.of_nat n <= g_card G)%num by have := N.divide_pos_le _ _ _ nq; have := gp_card _ _ _ Pr; lia.
  have r0 := unity_n0 F (phi wr) n (prim_expr_order P) n0.
  have [Vi Ei] := inv_ok F G phi Pr wr V r0.
  have ri : (phi wr)^-1 ^+ n = 1 by rewrite exprVn (prim_expr_order P) invr1.
  have [W [EW [MW XW]]] := compute_W_mat F G phi Pr n wr (phi wr) n0 i31 L V erefl (prim_expr_order P).
  have [U [EU [MU XU]]] := compute_W_mat F G phi Pr n (g_inv G wr) (phi wr)^-1 n0 i31 L Vi Ei ri.
  exists (Naive W U); rewrite /new_naive EW EU; split=> //.
  have B := naive_bspec F G phi Pr pkt n U (phi wr)^-1 MU XU.
  split; first exact: (naive_bspec F G phi Pr pkt n W (phi wr) MW XW).
  split=> // /Hi [Hc Hm Hf].
  exact: (inverse_ibspec F G phi Pr nh w rc (proj1 Hf) (fits_simd G nh w rc Hf) (naive_bufs G pkt U n) pkt n (phi wr) inv_n p0 P B Vinv Hc Hm).
Qed.
End Generic.

Section Prime.
Variables (hw p : N) (n : nat).
Hypothesis hw0 : (0 < hw)%num.
Hypothesis pp : primeN p.
Notation w := (2 * hw)%num.
Hypothesis pw : (2 * p <= 2 ^ w)%num.
Hypothesis n1 : (1 < n)%N.
Hypothesis nq : N.divide (N.of_nat n) (p - 1).
Notation G := (prime_ops w p).
Notation Fp := (FieldP.Fpp p).
Notation h := (FieldP.phi p).

Lemma prime_inv : [/\ gvalid G (get_inv_n_mod_p G p (N.of_nat n)), h (get_inv_n_mod_p G p (N.of_nat n)) = n%:R^-1,
  h (g_card G - 1)%num = -1 & if (1 <? get_inv_n_mod_p G p (N.of_nat n))%num then h (get_inv_n_mod_p G p (N.of_nat n)) = n%:R^-1 else n%:R = 1 :> Fp].
Proof.
  have Pr := FieldP.prime_pres w p pp pw; have [p2 _] := pp.
  have L : (N.of_nat n < p)%num by have := N.divide_pos_le _ _ _ nq; lia.
  have [|V E] := gp_inv _ _ _ Pr (N.of_nat n) L; first by lia.
  have En : h (N.of_nat n) = n%:R by rewrite /FieldP.phi Nnat.Nat2N.id.
  have -> : get_inv_n_mod_p G p (N.of_nat n) = g_inv G (N.of_nat n) by apply: N.mod_small; exact: V.
  rewrite En in E; have N0 : n%:R != 0 :> Fp by rewrite -En; apply: FieldP.phi_neq0 => //; lia.
  split=> //.
    apply/eqP; rewrite -subr_eq0 opprK; apply/eqP; rewrite -[1](FieldP.phi_1 p) -(FieldP.phi_add p).
    by rewrite -[RHS](FieldP.phi_p p pp); congr (h _); change (g_card G) with p; lia.
  case: N.ltb_spec => // Hle.
  have [e|e] : g_inv G (N.of_nat n) = 0%num \/ g_inv G (N.of_nat n) = 1%num by lia.
    by move: E N0; rewrite e (gp_0 _ _ _ Pr) => /esym/eqP; rewrite invr_eq0 => ->.
  by move: E; rewrite e (gp_1 _ _ _ Pr) => /esym/eqP; rewrite invr_eq1 => /eqP.
Qed.
Lemma prime_hq : (g_card G <= 2 ^ w)%num.
Proof. by change (g_card G) with p; lia. Qed.

(** ** C37, prime fields.  The lengths 1 and those whose matrices are too large are missing: [C37_length_one_refuted],
    [C37_naive_refuted], [C37_cooley_tukey_refuted]. *)

Theorem C37_naive_prime_partial : (N.of_nat (n - 1) * N.of_nat (n - 1) < 2 ^ 31)%num -> naive_right w Fp G h p n.
Proof.
  have [V E H1 H2] := prime_inv.
  exact: (naive_right_gen Fp G h (FieldP.prime_pres w p pp pw) hw hw0 prime_hq n n1 nq p V H2).
Qed.
Theorem C37_naive_buffers_prime_partial nh pkt : build_fits nh w p G -> (N.of_nat (n - 1) * N.of_nat (n - 1) < 2 ^ 31)%num -> (0 < pkt)%N ->
  naive_bufs_right w Fp G h p n nh p pkt true.
Proof.
  move=> Hf H0 p0; have [V E H1 H2] := prime_inv.
  by apply: (naive_bufs_right_gen Fp G h (FieldP.prime_pres w p pp pw) hw hw0 prime_hq n n1 nq p V nh p pkt true H0 p0).
Qed.
Theorem C37_cooley_tukey_prime_partial heap :
  (forall f, primeN f -> N.divide f (N.of_nat n) -> ((f - 1) * (f - 1) < 2 ^ 31)%num) -> ct_right w Fp G h p n heap.
Proof.
  have [V E H1 H2] := prime_inv.
  exact: (ct_right_gen Fp G h (FieldP.prime_pres w p pp pw) hw hw0 prime_hq n n1 nq p V H2).
Qed.
(** ** C38, prime fields.  Missing: the lengths for which an index overflows, see [C38_refuted]. *)

Theorem C38_prime_partial heap a e l : factorisation (N.of_nat n) ((a, e) :: l)%SEQ ->
  (forall b f, List.In (b, f) ((a, e) :: l)%SEQ -> ((b ^ f - 1) * (b ^ f - 1) < 2 ^ 31)%num) ->
  (N.of_nat n * a ^ e < 2 ^ 31)%num -> (N.of_nat n * (N.of_nat n / a ^ e) <= 2 ^ w)%num -> gt_right w Fp G h p n heap.
Proof.
  have [V E H1 H2] := prime_inv.
  exact: (gt_right_gen Fp G h (FieldP.prime_pres w p pp pw) hw hw0 prime_hq n n1 nq p V H2).
Qed.
End Prime.

Section Binary.
Variables (junk w d : N) (X : bin_ext) (n : nat).
Hypothesis sup : supported w d.
Hypothesis EX : new_bin_ext junk w d = Some X.
Hypothesis n1 : (1 < n)%N.
Hypothesis nq : N.divide (N.of_nat n) (2 ^ d - 1).
Notation G := (bin_ops X).

Lemma bin_inv : exists (F : finFieldType) (h : N -> F) hw,
  [/\ gf_pres F G h, w = (2 * hw)%num, (0 < hw)%num, (g_card G <= 2 ^ w)%num & N.divide (N.of_nat n) (g_card G - 1)] /\
  gvalid G (get_inv_n_mod_p G 2 (N.of_nat n)) /\
  (if (1 <? get_inv_n_mod_p G 2 (N.of_nat n))%num then h (get_inv_n_mod_p G 2 (N.of_nat n)) = n%:R^-1 else n%:R = 1 :> F).
Proof.
  have [F [h [Pr C _ ch _]]] := bin_all junk w d X sup EX.
  have [Hw [Hd [dw _]]] := sup.
  have d0 : (0 < d)%num by move: Hd => /=; lia.
  exists F, h, (w / 2)%num; rewrite C; split.
    split=> //; first by move: Hw => /=; clear => H; repeat case: H => [<-|H] //.
      by move: Hw => /=; clear => H; repeat case: H => [<-|H] //.
    by apply: N.pow_le_mono_r; lia.
  have M : (get_inv_n_mod_p G 2 (N.of_nat n) < 2)%num by apply: N.mod_lt.
  split.
    by rewrite /gvalid C; apply: (N.lt_le_trans _ _ _ M); rewrite -{1}[2%num]N.pow_1_r; apply: N.pow_le_mono_r; lia.
  case: N.ltb_spec => [H|_]; first by exfalso; move: M H; clear; lia.
  have odd : (odd n).
    case Eo: (odd n) => //; exfalso; have := odd_double_half n; rewrite Eo add0n => e.
    have : N.divide 2 (2 ^ d - 1) by apply: (N.divide_trans _ (N.of_nat n)) => //; exists (N.of_nat n./2); rewrite -{1}e -muln2; lia.
    case=> c; have -> : d = N.succ (d - 1) by lia.
    by rewrite N.pow_succ_r'; have := N.pow_nonzero 2 (d - 1); lia.
  have two : 2%:R = 0 :> F by apply/eqP; rewrite (natrD _ 1 1) addr_eq0 ch.
  by rewrite -[n]odd_double_half odd natrD -mul2n natrM two mul0r addr0.
Qed.

(** ** C37, fields of [2 ^ d] elements.  Missing: as for the prime fields, and the inverse transform of buffers, see
    [C37_naive_buffers_refuted]. *)

Theorem C37_naive_bin_partial : (N.of_nat (n - 1) * N.of_nat (n - 1) < 2 ^ 31)%num ->
  exists (F : finFieldType) (h : N -> F), gf_pres F G h /\ naive_right w F G h 2 n.
Proof.
  move=> H; have [F [h [hw [[Pr Ew hw0 hq nq'] [V E]]]]] := bin_inv; exists F, h; split=> //; rewrite Ew in hq *.
  exact: (naive_right_gen F G h Pr hw hw0 hq n n1 nq' 2 V E).
Qed.
Theorem C37_naive_buffers_bin_partial nh rc pkt : (N.of_nat (n - 1) * N.of_nat (n - 1) < 2 ^ 31)%num -> (0 < pkt)%N ->
  exists (F : finFieldType) (h : N -> F), gf_pres F G h /\ naive_bufs_right w F G h 2 n nh rc pkt false.
Proof.
  move=> H p0; have [F [h [hw [[Pr Ew hw0 hq nq'] [V E]]]]] := bin_inv; exists F, h; split=> //; rewrite Ew in hq *.
  by apply: (naive_bufs_right_gen F G h Pr hw hw0 hq n n1 nq' 2 V nh rc pkt false H p0).
Qed.
Theorem C37_cooley_tukey_bin_partial heap :
  (forall f, primeN f -> N.divide f (N.of_nat n) -> ((f - 1) * (f - 1) < 2 ^ 31)%num) ->
  exists (F : finFieldType) (h : N -> F), gf_pres F G h /\ ct_right w F G h 2 n heap.
Proof.
  move=> H; have [F [h [hw [[Pr Ew hw0 hq nq'] [V E]]]]] := bin_inv; exists F, h; split=> //; rewrite Ew in hq *.
  exact: (ct_right_gen F G h Pr hw hw0 hq n n1 nq' 2 V E).
Qed.
(** ** C38, fields of [2 ^ d] elements *)

Theorem C38_bin_partial heap a e l : factorisation (N.of_nat n) ((a, e) :: l)%SEQ ->
  (forall b f, List.In (b, f) ((a, e) :: l)%SEQ -> ((b ^ f - 1) * (b ^ f - 1) < 2 ^ 31)%num) ->
  (N.of_nat n * a ^ e < 2 ^ 31)%num -> (N.of_nat n * (N.of_nat n / a ^ e) <= 2 ^ w)%num ->
  exists (F : finFieldType) (h : N -> F), gf_pres F G h /\ gt_right w F G h 2 n heap.
Proof.
  move=> H1 H2 H3 H4; have [F [h [hw [[Pr Ew hw0 hq nq'] [V E]]]]] := bin_inv; exists F, h; split=> //; rewrite Ew in hq H4 *.
  exact: (gt_right_gen F G h Pr hw hw0 hq n n1 nq' 2 V E heap a e l).
Qed.
End Binary.

(** ** C37: Size2, for odd primes *)
Section Size2.
Variables (hw p : N).
Hypothesis hw0 : (0 < hw)%num.
Notation w := (2 * hw)%num.
Hypothesis pp : primeN p.
Hypothesis podd : (2 < p)%num.
Hypothesis pw : (2 * p <= 2 ^ w)%num.
Notation G := (prime_ops w p).
Notation Fp := (FieldP.Fpp p).
Notation h := (FieldP.phi p).
Notation inv2 := (get_inv_n_mod_p G p 2).

Lemma prime_odd : N.divide (N.of_nat 2) (p - 1).
Proof.
  have [_ Hp] := pp; have [E|E] := N.Even_or_Odd p.
    case: E => c E; exfalso; have D : N.divide 2 p by (exists c; lia).
    have := Hp 2%num D; lia.
  by case: E => c E; exists c; lia.
Qed.
Lemma prim_m1 : 2.-primitive_root (-1 : Fp).
Proof.
  have N1 : (-1 : Fp) != 1.
    have [_ _ <- _] := prime_inv hw p 2 hw0 pp pw isT prime_odd; rewrite -[X in _ != X](FieldP.phi_1 p).
    apply/eqP => /FieldP.phi_inj; change (g_card G) with p; move=> /(_ pp); lia.
  apply/andP; split=> //; apply/forallP => -[[|[|//]] Hi]; rewrite unity_rootE /=; first by rewrite expr1 (negbTE N1).
  by rewrite sqrrN expr1n eqxx.
Qed.
Theorem C37_size2 : transforms w Fp G h 2 (small_fft w G Size2) (small_ifft w G Size2 inv2) pred0 (-1) /\
  forall nh pkt, build_fits nh w p G -> (0 < pkt)%N -> [/\ bspec Fp G h (small_bufs w G nh p Size2 false pkt 2) pkt 2 (-1),
    bspec Fp G h (small_bufs w G nh p Size2 true pkt 2) pkt 2 (-1)^-1 & ibspec Fp G h (small_ibufs w G nh p Size2 inv2 pkt 2) pkt 2 (-1)].
Proof.
  have Pr := FieldP.prime_pres w p pp pw.
  have [V E1 H1 H2] := prime_inv hw p 2 hw0 pp pw isT prime_odd; have P := prim_m1.
  have N1 : (-1 : Fp)^-1 = -1 by rewrite invrN invr1.
  have B inv : tspec w Fp G h (small_fft w G Size2 inv) 2 pred0 (-1) by exact: (size2_tspec w Fp G h Pr).
  split.
    split; [exact: B|rewrite N1; exact: B|].
    by apply: (inverse_ispec w Fp G h Pr (small_fft w G Size2 true) 2 pred0 (-1) inv2 isT P _ V H2); rewrite N1; exact: B.
  move=> nh pkt Hf p0; have S0 := size2_bspec Fp G h Pr pkt.
  have S : bspec Fp G h (size2_bufs w G nh p pkt) pkt 2 (-1).
    by move=> inp Pi; rewrite (size2_fits G nh w p (proj1 Hf) (fits_simd G nh w p Hf)) //; exact: S0.
  split; rewrite ?N1 //.
  rewrite /small_ibufs; have -> : (1 <? inv2)%num.
    case: N.ltb_spec H2 => // _ /eqP; rewrite -subr_eq0 -[2%:R]/(1 + 1) addrK => /eqP.
    by move/eqP; rewrite oner_eq0.
  by apply: (inverse_ibspec Fp G h Pr nh w p (proj1 Hf) (fits_simd G nh w p Hf) (size2_bufs w G nh p pkt) pkt 2 (-1) inv2 p0 P _ V E1 H1); rewrite N1.
Qed.
End Size2.

(** ** C37: Single, whose input is zero but for its first element (fft_single.h:40-45) *)
Lemma dft_single (F : fieldType) (r : F) n x i : (0 < n)%N -> (forall j, (0 < j < n)%N -> x j = 0) -> dft F r n x i = x 0%N.
Proof.
  move=> n0 Hx; rewrite /dft (bigD1 (Ordinal n0)) //= muln0 expr0 mulr1 big1 ?addr0 // => j j0.
  by rewrite Hx ?mul0r //; rewrite ltn_ord andbT lt0n.
Qed.
Lemma nthN (m : memory) a : List.nth a m 0%num = nth 0%num m a.
Proof. by elim: m a => [|x m IH] [|a] /=. Qed.
Lemma rd_fill m g n x : (g + n <= size m)%N -> exists m', fill_cells m g n x = Some m' /\ size m' = size m /\
  forall a, (a < size m)%N -> rd m' a = if (g <= a < g + n)%N then x else rd m a.
Proof.
  move=> H; have [|m' [E [L B]]] := fill_spec' n x m g; first by move: H; rewrite -[size m]/(length m); lia.
  exists m'; split=> //; split=> // a Ha; have := B a; rewrite peekE; last by rewrite -[size m']/(length m') L.
  case: Nat.leb_spec => [h1|h1]; case: Nat.ltb_spec => [h2|h2] /=.
  - by move=> [->]; have -> : (g <= a < g + n)%N by lia.
  - by rewrite peekE // => -[->]; have -> : (g <= a < g + n)%N = false by lia.
  - by rewrite peekE // => -[->]; have -> : (g <= a < g + n)%N = false by lia.
  - by rewrite peekE // => -[->]; have -> : (g <= a < g + n)%N = false by lia.
Qed.

Theorem C37_single w (F : fieldType) (G : gfops) (phi : N -> F) n r m g inp ai : gf_pres F G phi -> (0 < n)%N ->
  source w (size m) inp n ai -> tpre G m n pred0 (addn g) ai ->
  ((forall j, (0 < j < n)%N -> rd m (ai j) = 0%num) ->
   exists m', single_fft w m (new_plain g n) inp = Some m' /\ tout F G phi m m' n pred0 (addn g) (dft F r n (fun j => phi (rd m (ai j))))) /\
  (forall x, (forall j, (0 < j < n)%N -> x j = 0) -> (forall j, (j < n)%N -> phi (rd m (ai j)) = dft F r n x j) ->
   exists m', single_ifft w m (new_plain g n) inp = Some m' /\ tout F G phi m m' n pred0 (addn g) x).
Proof.
  move=> Pr n0 [Ln Wi] [B [D _]].
  have [_ _ _ V0] := B 0%N n0.
  have Hg : (g + n <= size m)%N by have [] := B (n - 1)%N; [lia|move=> H *; lia].
  have E0 := Wi m 0%N erefl n0.
  split.
    move=> Hz; rewrite /single_fft E0 /vfill /new_plain /get_mem /get_n /=.
    have [m' [-> [S' R]]] := rd_fill m g n (rd m (ai 0%N)) Hg; exists m'; split=> //; split=> //.
      move=> a _ Ha; case Ea: (a < size m)%N; last by rewrite /rd !nthN !nth_default ?S' //; lia.
      rewrite R //; case: ifP => // H; by case: (Ha (a - g)%N); lia.
    move=> i Hi; have [Oi _ _ _] := B i Hi; rewrite R //; have -> : (g <= g + i < g + n)%N by lia.
    split=> //; rewrite (dft_single F r n (fun j => phi (rd m (ai j)))) // => j Hj.
    by rewrite (Hz j Hj) (gp_0 _ _ _ Pr).
  move=> x Hx Hd; rewrite /single_ifft /vfill /new_plain /get_mem {1}/get_n [h_mem _]/= [h_n _]/=.
  have [m' [-> [S' R]]] := rd_fill m g n 0%num Hg.
  rewrite (Wi m' 0%N S' n0).
  have -> : rd m' (ai 0%N) = rd m (ai 0%N).
    case Ea: (ai 0%N < size m)%N; last by rewrite /rd !nthN !nth_default ?S' //; lia.
    rewrite R //; case: ifP => // H; have [_] := D (ai 0%N - g)%N 0%N ltac:(lia) n0; by lia.
  have -> : vset w m' (Plain (mkHdr g n n)) 0 (rd m (ai 0%N)) = poke m' g (rd m (ai 0%N)).
    by rewrite /vset /get_n /=; case: Nat.ltb_spec => H; [congr poke; lia|lia].
  rewrite poke_in; last by move: S'; rewrite -[size m']/(length m') -[size m]/(length m); move: Hg; rewrite -[size m]/(length m); lia.
  eexists; split; first reflexivity.
  have Sg : (g < size m')%N by rewrite S'; lia.
  split; first by rewrite set_size.
    move=> a _ Ha; rewrite rd_set //; case: eqP => [e|_]; first by case: (Ha 0%N n0); rewrite addn0.
    case Ea: (a < size m)%N; last by rewrite /rd !nthN !nth_default ?S' //; lia.
    rewrite R //; case: ifP => // H; by case: (Ha (a - g)%N); lia.
  move=> i Hi; rewrite rd_set //; case: eqP => [e|Hne].
    have -> : i = 0%N by lia.
    by split=> //; rewrite Hd // dft_single.
  have [Oi _ _ _] := B i Hi; rewrite R //; have -> : (g <= g + i < g + n)%N by lia.
  split; first by have := gp_card _ _ _ Pr; lia.
  by rewrite (gp_0 _ _ _ Pr) Hx //; lia.
Qed.

(** ** Where C37 and C38 fail *)

(** The product of the indices of the last cell of the matrix overflows. *)
Lemma naive_large G n wr : (46342 <= N.of_nat n)%num -> new_naive G n wr = None.
Proof.
  move=> H; rewrite /new_naive /compute_W; case: N.ltb_spec => // L; exfalso.
  have : (46341 * 46341 <= N.of_nat (n - 1) * N.of_nat (n - 1))%num by apply: N.mul_le_mono; lia.
  by lia.
Qed.
Theorem C37_naive_refuted : exists (p : N) n, primeN p /\ N.divide (N.of_nat n) (p - 1) /\ (1 < n)%N /\
  forall wr, new_naive (prime_ops 64 p) n wr = None.
Proof.
  exists 65537%num, (N.to_nat 65536); rewrite Nnat.N2Nat.id; split; first exact: FntInst.prime65537.
  split; first by exists 1%num. split; first by lia.
  by move=> wr; apply: naive_large; rewrite Nnat.N2Nat.id.
Qed.


Lemma ct_large hw n G p root heap : (0 < hw)%num -> (N.of_nat n < 2 ^ (2 * hw))%num -> primeN (N.of_nat n) ->
  (46342 <= N.of_nat n)%num -> new_cooley_tukey (2 * hw) G p root 0 heap n = None.
Proof.
  move=> hw0 L Pn B; rewrite /new_cooley_tukey.
  have Fa : factorisation (N.of_nat n) [:: (N.of_nat n, 1%num)].
    split; first by repeat constructor. 
    by split; [apply: List.Forall_cons; [by split|exact: List.Forall_nil]|rewrite -[LHS]/(N.of_nat n ^ 1 * 1)%num N.pow_1_r N.mul_1_r].
  rewrite (prime_factors_of hw hw0 _ _ Fa L) /= Nnat.Nat2N.id.
  case: Nat.eqb_spec => // _; case: Nat.eqb_spec => [e|_]; first by subst n.
  by rewrite naive_large.
Qed.
Lemma gt_large hw n G p root heap a e : (0 < hw)%num -> (N.of_nat n < 2 ^ (2 * hw))%num -> factorisation (N.of_nat n) [:: (a, e)] ->
  (46342 <= N.of_nat n)%num -> new_good_thomas (2 * hw) G p root 0 heap n = None.
Proof.
  move=> hw0 L Fa B; have [_ [_ En]] := Fa; rewrite /prod_powers /= N.mul_1_r in En.
  rewrite /new_good_thomas (coprime_factors_of hw hw0 _ _ Fa L) /= En Nnat.Nat2N.id.
  case: Nat.eqb_spec => // _; case: Nat.eqb_spec => [e'|_]; first by subst n.
  by rewrite naive_large.
Qed.
Theorem C37_cooley_tukey_refuted : exists n, N.divide (N.of_nat n) (2 ^ 32 - 1) /\ (1 < n)%N /\
  forall G p root heap, new_cooley_tukey 64 G p root 0 heap n = None.
Proof.
  have [n En] : exists n, N.of_nat n = 65537%num by exists (N.to_nat 65537); rewrite Nnat.N2Nat.id.
  exists n; split; first by rewrite En; exists 65535%num.
  split=> [|G p root heap]; first by lia.
  by apply: (ct_large 32); rewrite ?En //; exact: FntInst.prime65537.
Qed.
Theorem C38_refuted : exists (p : N) n, primeN p /\ N.divide (N.of_nat n) (p - 1) /\ (1 < n)%N /\
  forall root heap, new_good_thomas 64 (prime_ops 64 p) p root 0 heap n = None.
Proof.
  have [n En] : exists n, N.of_nat n = 65536%num by exists (N.to_nat 65536); rewrite Nnat.N2Nat.id.
  exists 65537%num, n; split; first exact: FntInst.prime65537.
  split; first by rewrite En; exists 1%num. split=> [|root heap]; first by lia.
  apply: (gt_large 32 n _ _ _ _ 2 16); rewrite ?En //.
  split; [repeat constructor|split; [apply: List.Forall_cons; [split=> //|exact: List.Forall_nil]|by []]].
  by apply/primeN_prime.
Qed.
(** The group has a root of order 1, but 1 has no prime factor and the first one is read. *)
Theorem C37_length_one_refuted : forall hw G p root heap, (0 < hw)%num -> new_cooley_tukey (2 * hw) G p root 0 heap 1 = None.
Proof.
  move=> hw G p root heap hw0; rewrite /new_cooley_tukey.
  have Fa : factorisation 1 [::] by repeat split; constructor.
  by rewrite (prime_factors_of hw hw0 _ _ Fa) //; apply: N.pow_gt_1; lia.
Qed.
(** The code RsGfpFft passes the length in the place of the index of the first factor (fec_rs_gfp_fft.h:137-138): no
    length has that many factors. *)
Theorem C37_index_refuted : forall hw G p root heap n, (0 < hw)%num -> (1 < n)%N -> (N.of_nat n < 2 ^ (2 * hw))%num ->
  new_cooley_tukey (2 * hw) G p root n heap n = None.
Proof.
  move=> hw G p root heap n hw0 n1 L; rewrite /new_cooley_tukey.
  have [l [-> [Pl [El _]]]] := get_prime_factors_spec hw hw0 (N.of_nat n) ltac:(lia) L.
  have B : (2 ^ length l <= N.to_nat (list_prod l))%N.
    elim: (l) Pl => [//|x l' IH] Pl; have [x2 _] := List.Forall_inv Pl.
    have := IH (List.Forall_inv_tail Pl); rewrite /list_prod /= -/(list_prod l') expnS Nnat.N2Nat.inj_mul => B.
    by apply: leq_mul => //; lia.
  rewrite El Nnat.Nat2N.id in B; have := ltn_expl (length l) (isT : (1 < 2)%N) => B'.
  by rewrite List.skipn_all2 // List.map_length; apply/leP; lia.
Qed.
(** GF(16), length 3: the inverse of 3 is 14, and 14 modulo the characteristic is 0. *)
Theorem C37_naive_buffers_refuted : exists X root s, new_bin_ext 0 32 4 = Some X /\ supported 32 4 /\
  find_primitive_root 32 (bin_ops X) = Some root /\ new_naive (bin_ops X) 3 (get_nth_root (bin_ops X) root 3) = Some s /\
  let l := [:: [:: 1; 2]; [:: 3; 4]; [:: 5; 6]]%num in
  small_ibufs 32 (bin_ops X) 0 16 s (get_inv_n_mod_p (bin_ops X) 2 3) 2 3 (small_bufs 32 (bin_ops X) 0 16 s false 2 3 l) = Some (List.repeat [:: 0; 0]%num 3).
Proof.
  case E: (new_bin_ext 0 32 4) => [X|]; last by vm_compute in E.
  exists X; have H : match new_bin_ext 0 32 4 with Some X =>
    match find_primitive_root 32 (bin_ops X) with Some root => match new_naive (bin_ops X) 3 (get_nth_root (bin_ops X) root 3) with
    | Some s => small_ibufs 32 (bin_ops X) 0 16 s (get_inv_n_mod_p (bin_ops X) 2 3) 2 3
        (small_bufs 32 (bin_ops X) 0 16 s false 2 3 [:: [:: 1; 2]; [:: 3; 4]; [:: 5; 6]]%num) = Some (List.repeat [:: 0; 0]%num 3)
    | None => False end | None => False end | None => False end by vm_compute.
  rewrite E in H; move: H; case E1: (find_primitive_root _ _) => [root|]; last by clear; case.
  case E2: (new_naive _ _ _) => [s|]; last by clear; case.
  move=> H.
  exists root, s; split; first exact erefl. split; last by split; [exact erefl|split; [exact E2|exact H]].
  by clear; rewrite /supported /=; lia.
Qed.
(** Over buffers CooleyTukey and GoodThomas leave the output as it is. *)
Theorem C37_cooley_tukey_buffers_refuted (F : fieldType) (G : gfops) (phi : N -> F) (r : F) : gf_pres F G phi ->
  exists output input, packets G 1 2 output /\ packets G 1 2 input /\ el F phi (base_bufs output input) 0 0 <> dft F r 2 (el F phi input 0) 0.
Proof.
  move=> Pr; have c := gp_card _ _ _ Pr.
  exists [:: [:: 0]; [:: 0]]%num, [:: [:: 1]; [:: 0]]%num.
  split; first by split=> //; repeat constructor; lia.
  split; first by split=> //; repeat constructor; lia.
  rewrite /dft !big_ord_recl big_ord0 /base_bufs /el /= !(gp_0 _ _ _ Pr) (gp_1 _ _ _ Pr) mul0r expr0 mulr1 !addr0 => /eqP.
  by rewrite eq_sym oner_eq0.
Qed.

(** ** Cases *)
Definition six : memory := ([:: 3; 1; 4; 1; 5; 9] ++ List.repeat 7 30)%num.
Definition out2 (o : option memory) (a k : nat) : list N := match o with Some m => List.firstn k (List.skipn a m) | None => nil end.
(** Length 6 modulo 31, with the root 26: the two algorithms, one after the other, and back; input and output are plain
    vectors, the working memory starts at 18. *)
Example C37_case : primeN 31 /\ N.divide 6 30 /\
  let G := prime_ops 32 31 in
  match new_cooley_tukey 32 G 31 3 0 18 6, new_good_thomas 32 G 31 3 0 18 6 with
  | Some (c, i, k), Some (g, j, k') =>
      let m := ct_fft 32 G c false six (new_plain 6 6) (new_plain 0 6) in
      let m' := gt_fft 32 G g false six (new_plain 6 6) (new_plain 0 6) in
      find_primitive_root 32 G = Some 3%num /\ get_nth_root G 3 6 = 26%num /\ k = 24%N /\ k' = 24%N /\
      out2 m 6 6 = [:: 23; 21; 2; 1; 18; 15]%num /\ out2 m' 6 6 = [:: 23; 21; 2; 1; 18; 15]%num /\
      out2 (ct_ifft 32 G c i (odflt nil m) (new_plain 12 6) (new_plain 6 6)) 12 6 = [:: 3; 1; 4; 1; 5; 9]%num /\
      out2 (gt_ifft 32 G g j (odflt nil m') (new_plain 12 6) (new_plain 6 6)) 12 6 = [:: 3; 1; 4; 1; 5; 9]%num
  | _, _ => False
  end.
Proof.
  split; first by apply/primeN_prime.
  by split; [exists 5%num|vm_compute].
Qed.
(** Length 15 over GF(16), factors 3 and 5. *)
Example C38_case : supported 32 4 /\ N.divide 15 (2 ^ 4 - 1) /\ factorisation 15 [:: (3, 1); (5, 1)]%num /\
  match new_bin_ext 0 32 4 with Some X =>
  let G := bin_ops X in
  match find_primitive_root 32 G with Some root =>
  match new_good_thomas 32 G 2 root 0 45 15 with
  | Some (g, j, k) =>
      let m := gt_fft 32 G g false ([:: 1; 2; 3; 4; 5; 6; 7; 8; 9; 10; 11; 12; 13; 14; 15] ++ List.repeat 7 60)%num (new_plain 15 15) (new_plain 0 15) in
      k = 60%N /\ out2 m 15 15 = [:: 0; 2; 14; 11; 3; 7; 5; 9; 14; 14; 2; 13; 12; 8; 5]%num /\
      out2 (gt_ifft 32 G g j (odflt nil m) (new_plain 30 15) (new_plain 15 15)) 30 15 =
        [:: 1; 2; 3; 4; 5; 6; 7; 8; 9; 10; 11; 12; 13; 14; 15]%num
  | None => False
  end | None => False end | None => False end.
Proof.
  split; first by rewrite /supported /=; lia.
  split; first by exists 1%num.
  split; last by vm_compute.
  split; first by repeat constructor.
  by split=> //; apply: List.Forall_cons; [split=> //; exact/primeN_prime|apply: List.Forall_cons; [split=> //; exact/primeN_prime|exact: List.Forall_nil]].
Qed.

Print Assumptions C37_naive_prime_partial.
Print Assumptions C37_naive_buffers_prime_partial.
Print Assumptions C37_cooley_tukey_prime_partial.
Print Assumptions C37_naive_bin_partial.
Print Assumptions C37_naive_buffers_bin_partial.
Print Assumptions C37_cooley_tukey_bin_partial.
Print Assumptions C37_size2.
Print Assumptions C37_single.
Print Assumptions C37_naive_refuted.
Print Assumptions C37_cooley_tukey_refuted.
Print Assumptions C37_length_one_refuted.
Print Assumptions C37_index_refuted.
Print Assumptions C37_naive_buffers_refuted.
Print Assumptions C37_cooley_tukey_buffers_refuted.
Print Assumptions C38_prime_partial.
Print Assumptions C38_bin_partial.
Print Assumptions C38_refuted.
