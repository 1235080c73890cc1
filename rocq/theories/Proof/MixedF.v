(** The two layers of the Cooley-Tukey and Good-Thomas transforms. *)
Set Warnings "-notation-overridden,-ambiguous-paths".
From Coq Require Import NArith Arith.
From Coq Require List.
From Verif.Model Require Import Common Arith Ring Views Matrix MixedFft.
From Verif.Proof Require Import ListP MatrixL.
From mathcomp Require Import all_ssreflect ssralg.
From mathcomp Require Import zify.
From Verif.Spec Require Import Dft Mixed.
From Verif.Proof Require Import Pres MatrixI DftInv MixedL.
Import GRing.Theory.
Local Open Scope ring_scope.

(** ** Indices and sums *)
Lemma loc_lt n1 n2 i k : (i < n1)%N -> (k < n2)%N -> (i + n1 * k < n1 * n2)%N. Proof. by nia. Qed.
Lemma loc_inj n1 i k j l : (i < n1)%N -> (j < n1)%N -> (i + n1 * k = j + n1 * l)%N -> i = j /\ k = l.
Proof.
  move=> Hi Hj e; have n0 : (0 < n1)%N by lia.
  have := congr1 (modn^~ n1) e; rewrite /= ![(n1 * _)%N]mulnC !(addnC _ (_ * n1)%N) !modnMDl !modn_small // => ij.
  by subst j; split=> //; nia.
Qed.

Lemma sum_split (R : ringType) n1 n2 (f : nat -> R) : \sum_(i < n1 * n2) f i = \sum_(i1 < n1) \sum_(i2 < n2) f (i1 + n1 * i2)%N.
Proof.
  rewrite exchange_big /=; elim: n2 => [|n2 IH]; first by rewrite muln0 !big_ord0.
  by rewrite mulnSr big_split_ord /= IH big_ord_recr /=; congr (_ + _); apply: eq_bigr => i _; rewrite addnC.
Qed.

Section DftSplit.
Variables (F : fieldType) (r : F) (n1 n2 : nat).
Hypothesis rn : r ^+ (n1 * n2) = 1.
Lemma dft_split (x : nat -> F) k1 k2 : dft F r (n1 * n2) x (k2 + n2 * k1) =
  dft F (r ^+ n2) n1 (fun i1 => dft F (r ^+ n1) n2 (fun i2 => x (i1 + n1 * i2)%N) k2 * r ^+ (i1 * k2)) k1.
Proof.
  rewrite /dft (sum_split F n1 n2 (fun j => x j * r ^+ ((k2 + n2 * k1) * j))); apply: eq_bigr => i1 _; rewrite !big_distrl /=; apply: eq_bigr => i2 _.
  rewrite -!exprM -!mulrA -!exprD; congr (_ * _).
  have -> : ((k2 + n2 * k1) * (i1 + n1 * i2) = (n1 * n2) * (k1 * i2) + (n1 * (k2 * i2) + (i1 * k2 + n2 * (k1 * i1))))%N by nia.
  by rewrite exprD exprM rn expr1n mul1r.
Qed.
End DftSplit.

Section Node.
Variables (w : N) (F : fieldType) (G : gfops) (phi : N -> F).
Hypothesis Pr : gf_pres F G phi.
Notation ok := (gvalid G).
Notation win := (win w).
Notation tspec := (tspec w F G phi).

(** ** Twiddle factors *)
Lemma twiddle_spec m g n1 n2 wr r : (0 < n1)%N -> (0 < n2)%N -> (g + n1 * n2 <= size m)%N -> ok wr -> phi wr = r ->
  (forall i, (i < n1 * n2)%N -> ok (rd m (g + i)%N)) ->
  exists m', mul_twiddle_factors w G m (new_plain g (n1 * n2)%N) n1 n2 wr = Some m' /\
    [/\ size m' = size m, (forall a, ~~ (g <= a < g + n1 * n2)%N -> rd m' a = rd m a) &
      (forall i k, (i < n1)%N -> (k < n2)%N -> ok (rd m' (g + (i + n1 * k))%N) /\
         phi (rd m' (g + (i + n1 * k))%N) = phi (rd m (g + (i + n1 * k))%N) * r ^+ (i * k))].
Proof.
  move=> n10 n20 gm Vw Ew Vm; have [_ Wg] := win_plain w g (n1 * n2)%N; rewrite /mul_twiddle_factors.
  move: (new_plain g (n1 * n2)%N) Wg => gv Wg.
  pose R (c : nat -> nat -> bool) m' := [/\ size m' = size m, (forall a, ~~ (g <= a < g + n1 * n2)%N -> rd m' a = rd m a) &
      (forall i k, (i < n1)%N -> (k < n2)%N -> ok (rd m' (g + (i + n1 * k))%N) /\
         phi (rd m' (g + (i + n1 * k))%N) = phi (rd m (g + (i + n1 * k))%N) * (if c i k then r ^+ (i * k) else 1))].
  pose P t (s : memory * N) := R (fun i _ => (i < t)%N) s.1 /\ ok s.2 /\ phi s.2 = r ^+ t.-1.
  have Rext c d m' : R c m' -> (forall i k, (i < n1)%N -> (k < n2)%N -> c i k = d i k \/ r ^+ (i * k) = 1) -> R d m'.
    move=> [S1 F1 V1] cd; split=> // i k Hi Hk; case: (V1 i k Hi Hk) => o ->; split=> //; congr (_ * _).
    by case: (cd i k Hi Hk) => ->; case: ifP => //; case: ifP.
  set f := (X in ofold X _ _).
  have [||[m' b] [E [Rm _]]] := @ofold_inv _ f P (n1 - 1)%N 1%N (m, 1%num).
  - split; last by split; [exact: (gp_card _ _ _ Pr)|rewrite (gp_1 _ _ _ Pr) expr0].
    split=> // i k Hi Hk; split; first by apply: Vm; exact: loc_lt.
    by case: ifP => [/ltnSE|_]; rewrite ?leqn0 ?mulr1 // => /eqP ->; rewrite mul0n expr0 mulr1.
  - move=> t [m1 b] /andP [t1 tn] [Rm1 [/= Vb Eb]]; rewrite /f; cbv beta iota zeta.
    have [Vb' Eb'] := gp_mul _ _ _ Pr _ _ Vb Vw; rewrite Eb Ew -exprSr prednK // in Eb'.
    move: (g_mul G b wr) Vb' Eb' => b' Vb' Eb'.
    pose Q k (s : memory * N) := R (fun i j => (i < t)%N || (i == t) && (j < k)%N) s.1 /\ ok s.2 /\ phi s.2 = r ^+ (t * k).
    set f2 := (X in ofold X _ _).
    have [||[m2 c] [-> [Rm2 _]]] := @ofold_inv _ f2 Q (n2 - 1)%N 1%N (m1, b').
    + split; last by split=> //=; rewrite muln1.
      apply: Rext Rm1 _ => i k Hi Hk; case: (ltngtP i t) => //= [||->]; [by left..|].
      by case: k {Hk} => [|k]; [right; rewrite muln0|left].
    + move=> k [m2 c] /andP [k1 kn] [/= [S2 F2 V2] [Vc Ec]]; rewrite /f2; cbv beta iota zeta.
      have Ht : (t < n1)%N by lia.
      have Hk : (k < n2)%N by lia.
      have L := loc_lt n1 n2 t k Ht Hk.
      rewrite -[Nat.add t (Nat.mul n1 k)]/(t + n1 * k)%N.
      rewrite (proj1 (Wg m2 _ 0%num L)) peekE; last by rewrite S2; lia.
      rewrite (proj2 (Wg m2 _ _ L)) pokeE; last by rewrite S2; lia.
      have [o2 e2] := V2 t k Ht Hk; have [o3 e3] := gp_mul _ _ _ Pr _ _ o2 Vc; have [o4 e4] := gp_mul _ _ _ Pr _ _ Vc Vb'.
      eexists; split; first by []; split=> /=; last by split=> //; rewrite e4 Ec Eb' -exprD mulnSr.
      have szl : (g + (t + n1 * k) < size m2)%N by lia.
      split; first by rewrite set_size.
        by move=> a Ha; rewrite rd_set //; case: eqP => [e|_]; [move: Ha; rewrite -e; lia|exact: F2].
      move=> i j Hi Hj; rewrite rd_set //; case: eqP => [/addnI /(loc_inj _ _ _ _ _ Ht Hi) [<- <-]|ne].
        by rewrite e3 e2 ltnn eqxx /= ltnn ltnS leqnn mulr1 Ec.
      case: (V2 i j Hi Hj) => o e; split=> //; rewrite e; congr (_ * _).
      case: (i =P t) => //= eit; rewrite [(j < k.+1)%N]ltnS [(j <= k)%N]leq_eqVlt; case: (j =P k) => //= ejk.
      by case: ne; rewrite eit ejk.
    eexists; split; first by []; split; last by split.
    apply: Rext Rm2 _ => i k Hi Hk; left.
    have -> : (1 + (n2 - 1) = n2)%N by lia.
    by rewrite Hk andbT ltnS [in RHS]leq_eqVlt orbC.
  rewrite E /=; exists m'; split=> //.
  have [|S1 F1 V1] := Rext _ (fun _ _ => true) _ Rm; last by split.
  by move=> i k Hi Hk; left; lia.
Qed.

Lemma retargetE g len left u n : (left <= get_n u)%N -> retarget g len left u n = Some (Views.View (mkHdr g len n) u 0 1 (get_n u)).
Proof. by move=> H; rewrite /retarget /=; case: Nat.leb_spec => H' /=; [case: Nat.leb_spec => H'' //|]; lia. Qed.

(** Both layers for a mapping [al] of the inputs and [be] of the outputs. *)
Section Layers.
Variables (n1 n2 g : nat) (outer : small) (privI : pred nat) (r1 r2 : F) (run : memory -> vect -> vect -> option memory) (inv : bool).
Hypothesis n10 : (0 < n1)%N.
Hypothesis n20 : (0 < n2)%N.
Notation n := (n1 * n2)%N.
Hypothesis nw : (N.of_nat n <= 2 ^ w)%num.
Hypothesis Ho : tspec (small_fft w G outer inv) n1 pred0 r1.
Hypothesis Hi : tspec run n2 privI r2.
Hypothesis gp : forall a, privI a -> ~~ (g <= a < g + n)%N.
Definition priv : pred nat := fun a => privI a || (g <= a < g + n)%N.
Variables (m : memory) (output input : vect) (ao ai : nat -> nat).
Hypothesis Wo : win output n ao.
Hypothesis Wi : source w (size m) input n ai.
Hypothesis Pre : tpre G m n priv ao ai.

Let n0 : (0 < n)%N. Proof. by rewrite muln_gt0 n10. Qed.
Let gsz : (g + n <= size m)%N.
Proof.
  case: Pre => _ [_ /(_ (g + n.-1)%N)]; rewrite /priv; move=> H; have : (g + n.-1 < size m)%N; last by lia.
  by apply: H; apply/orP; right; lia.
Qed.

Lemma inner_stage (X : nat -> vect) (al : nat -> nat -> nat) :
  (forall t, (t < n1)%N -> source w (size m) (X t) n2 (fun i => ai (al t i))) -> (forall t i, (t < n1)%N -> (i < n2)%N -> (al t i < n)%N) ->
  exists m', ofold (fun m t => run m (Views.View (mkHdr g n n2) (new_plain g n) t n1 n) (X t)) (List.seq 0 n1) m = Some m' /\
    [/\ size m' = size m, (forall a, ~~ priv a -> rd m' a = rd m a) &
      (forall t i, (t < n1)%N -> (i < n2)%N -> ok (rd m' (g + (t + n1 * i))%N) /\
         phi (rd m' (g + (t + n1 * i))%N) = dft F r2 n2 (fun j => phi (rd m (ai (al t j)))) i)].
Proof.
  move=> WX Hal; have [B [D Pb]] := Pre.
  have [||||m' [E [S' F' V']]] := stage w F G phi run n2 privI r2 n1 (fun t => Views.View (mkHdr g n n2) (new_plain g n) t n1 n) X
    (fun t i => (g + (t + n1 * i))%N) (fun t i => ai (al t i)) m Hi.
  - move=> t Ht; split; last exact: WX.
    apply: win_ext; first by apply: (win_view w g n n2 (new_plain g n) n _ t n1 (win_plain w g n) n0 nw).
    by move=> i Hi' /=; rewrite modn_small // loc_lt.
  - move=> t i Ht Hi'; have := loc_lt n1 n2 t i Ht Hi'; have [_ _ pa ?] := B _ (Hal t i Ht Hi') => Hl; split=> //; first by lia.
      by apply/negP => /gp; lia.
    by move: pa; rewrite negb_or => /andP [].
  - move=> t i s j Ht Hi' Hs Hj; split; first by move=> /addnI /(loc_inj _ _ _ _ _ Ht Hs).
    have := loc_lt n1 n2 t i Ht Hi'; have [_ _ pa _] := B _ (Hal s j Hs Hj) => Hl e; move: pa; rewrite -e /priv; lia.
  - by move=> a pa; apply: Pb; rewrite /priv pa.
  exists m'; split=> //; split=> // a; rewrite negb_or => /andP [pa ga]; apply: F' => // t i Ht Hi' e.
  by have := loc_lt n1 n2 t i Ht Hi'; move: ga; rewrite -e; lia.
Qed.

Lemma outer_stage (X : nat -> vect) (be : nat -> nat -> nat) m1 : size m1 = size m ->
  (forall i, (i < n)%N -> ok (rd m1 (g + i)%N)) ->
  (forall t, (t < n2)%N -> win (X t) n1 (fun i => ao (be t i))) ->
  (forall t i, (t < n2)%N -> (i < n1)%N -> (be t i < n)%N) ->
  (forall t i s j, (t < n2)%N -> (i < n1)%N -> (s < n2)%N -> (j < n1)%N -> be t i = be s j -> t = s /\ i = j) ->
  exists m', ofold (fun m t => small_fft w G outer inv m (X t) (Views.View (mkHdr g n n1) (new_plain g n) (t * n1) 1 n)) (List.seq 0 n2) m1 = Some m' /\
    [/\ size m' = size m, (forall a, (forall i, (i < n)%N -> ao i <> a) -> rd m' a = rd m1 a) &
      (forall t i, (t < n2)%N -> (i < n1)%N -> ok (rd m' (ao (be t i))) /\
         phi (rd m' (ao (be t i))) = dft F r1 n1 (fun j => phi (rd m1 (g + (j + n1 * t))%N)) i)].
Proof.
  move=> S1 V1 WX Hbe Ibe; have [B [D Pb]] := Pre.
  have [||||m' [E [S' F' V']]] := stage w F G phi (small_fft w G outer inv) n1 pred0 r1 n2 X
    (fun t => Views.View (mkHdr g n n1) (new_plain g n) (t * n1) 1 n)
    (fun t i => ao (be t i)) (fun t i => (g + (i + n1 * t))%N) m1 Ho.
  - move=> t Ht; split; first exact: WX.
    apply: source_ext; first (apply: (source_view w (size m1) g n n1 (new_plain g n) n _ (t * n1)%N 1%N _ n0 nw);
      by apply: win_source (win_plain w g n) _ => i Hi'; rewrite S1; lia).
    move=> i Hi' /=; by rewrite mul1n (addnC (t * n1)%N) (mulnC t) modn_small // loc_lt.
  - move=> t i Ht Hi'; have Hl := loc_lt n1 n2 i t Hi' Ht; have [? _ _ _] := B _ (Hbe t i Ht Hi'); split=> //; first by rewrite S1.
    exact: V1.
  - move=> t i s j Ht Hi' Hs Hj; split.
      move=> e; apply: Ibe => //; by case: (D _ _ (Hbe t i Ht Hi') (Hbe s j Hs Hj)) => H _; apply: H.
    have Hl := loc_lt n1 n2 j s Hj Hs; have [_ pa _ _] := B _ (Hbe t i Ht Hi') => e; move: pa; rewrite e /priv; lia.
  - by [].
  exists m'; split=> //; split; first by rewrite S'.
    by move=> a Ha; apply: F' => // t i Ht Hi'; apply: Ha; exact: Hbe.
  by move=> t i Ht Hi'; exact: V'.
Qed.
End Layers.

(** ** Cooley-Tukey *)
Lemma node_tspec n1 n2 g outer inner inv wr inv_w privI (r : F) : (0 < n1)%N -> (0 < n2)%N -> (N.of_nat (n1 * n2) <= 2 ^ w)%num ->
  r ^+ (n1 * n2) = 1 -> ok (if inv then inv_w else wr) -> phi (if inv then inv_w else wr) = r ->
  tspec (small_fft w G outer inv) n1 pred0 (r ^+ n2) -> tspec (ct_fft w G inner inv) n2 privI (r ^+ n1) ->
  (forall a, privI a -> ~~ (g <= a < g + n1 * n2)%N) ->
  tspec (ct_fft w G (Node (n1 * n2) n1 n2 wr inv_w outer g inner) inv) (n1 * n2) (priv n1 n2 g privI) r.
Proof.
  move=> n10 n20 nw rn Vw Ew Ho Hi gp m output input ao ai Wo Wi Pre; have [Eo _] := Wo; have [Ei _] := Wi.
  have n0 : (0 < n1 * n2)%N by rewrite muln_gt0 n10.
  have [B [D Pb]] := Pre.
  have n1n : (n1 <= n1 * n2)%N by rewrite leq_pmulr.
  have n2n : (n2 <= n1 * n2)%N by rewrite leq_pmull.
  rewrite [ct_fft _ _ _ _ _ _ _]/(ct_fft _ _ _ _ _ _ _) /=.
  rewrite !retargetE ?Ei ?Eo ?(proj1 (win_plain w g (n1 * n2)%N)) //=.
  have [t Ht|t i|m1 [-> [S1 F1 V1]]] := inner_stage n1 n2 g privI (r ^+ n1) (ct_fft w G inner inv) n10 n20 nw Hi gp m ao ai Pre
     (fun t => Views.View (mkHdr g (n1 * n2) n2) input t n1 (n1 * n2)) (fun t i => (t + n1 * i)%N).
  - apply: source_ext; first by apply: (source_view w (size m) g (n1 * n2)%N n2 input _ _ t n1 Wi n0 nw).
    by move=> i Hi' /=; rewrite modn_small // loc_lt.
  - exact: loc_lt.
  have gsz : (g + n1 * n2 <= size m)%N.
    have : (g + (n1 * n2).-1 < size m)%N; last by lia.
    by apply: Pb; rewrite /priv; apply/orP; right; lia.
  have Vg i : (i < n1 * n2)%N -> ok (rd m1 (g + i)%N).
    move=> Hi'; have -> : i = (i %% n1 + n1 * (i %/ n1))%N by rewrite {1}(divn_eq i n1) addnC mulnC.
    by apply: (proj1 (V1 _ _ _ _)); rewrite ?ltn_mod // ltn_divLR // mulnC.
  have [|m2 [-> [S2 F2 V2]]] := twiddle_spec m1 g n1 n2 _ r n10 n20 _ Vw Ew Vg; first by rewrite S1.
  have Vg2 i : (i < n1 * n2)%N -> ok (rd m2 (g + i)%N).
    move=> Hi'; have -> : i = (i %% n1 + n1 * (i %/ n1))%N by rewrite {1}(divn_eq i n1) addnC mulnC.
    by apply: (proj1 (V2 _ _ _ _)); rewrite ?ltn_mod // ltn_divLR // mulnC.
  have [||t Ht|t i Ht Hi'|t i s j Ht Hi' Hs Hj /(loc_inj _ _ _ _ _ Ht Hs) //|m3 [E3 [S3 F3 V3]]] :=
     outer_stage n1 n2 g outer privI (r ^+ n2) inv n10 n20 nw Ho m ao ai Pre
     (fun t => Views.View (mkHdr g (n1 * n2) n1) output t n2 (n1 * n2)) (fun t i => (t + n2 * i)%N) m2.
  - by rewrite S2.
  - exact: Vg2.
  - apply: win_ext; first by apply: (win_view w g (n1 * n2)%N n1 output _ _ t n2 Wo n0 nw).
    by move=> i Hi' /=; rewrite modn_small // (mulnC n1) loc_lt.
  - by rewrite (mulnC n1) loc_lt.
  exists m3; split; first exact: E3.
  split=> //.
    move=> a pa Ha; rewrite F3 // F2; first exact: F1.
    by move: pa; rewrite /priv negb_or => /andP [].
  move=> k Hk.
  have Ek : k = (k %% n2 + n2 * (k %/ n2))%N by rewrite {1}(divn_eq k n2) addnC mulnC.
  have K2 : (k %% n2 < n2)%N by rewrite ltn_mod.
  have K1 : (k %/ n2 < n1)%N by rewrite ltn_divLR.
  have [o e] := V3 _ _ K2 K1; rewrite -Ek in o e; split=> //; rewrite e [in RHS]Ek dft_split //.
  apply: dft_ext => i Hi'; have [_ ->] := V2 i _ Hi' K2; have [_ ->] := V1 i _ Hi' K2; by [].
Qed.
End Node.
