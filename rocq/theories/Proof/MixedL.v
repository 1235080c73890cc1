(** Windows of the memory, loops that may fail, and the stages of the mixed-radix transforms. *)
Set Warnings "-notation-overridden,-ambiguous-paths".
From Coq Require Import NArith Arith.
From Coq Require List.
From Verif.Model Require Import Common Arith Ring Views Matrix MixedFft.
From Verif.Proof Require Import ListP MatrixL.
From mathcomp Require Import all_ssreflect ssralg.
From mathcomp Require Import zify.
From Verif.Spec Require Import Dft Mixed.
From Verif.Proof Require Import Pres MatrixI DftInv.
Import GRing.Theory.
Local Open Scope ring_scope.
Notation wrap := Common.wrap.

(** ** Loops *)
Lemma ofold_inv A (f : A -> nat -> option A) (P : nat -> A -> Prop) n : forall a s, P a s ->
  (forall i s, (a <= i < a + n)%N -> P i s -> exists s', f s i = Some s' /\ P i.+1 s') ->
  exists s', ofold f (List.seq a n) s = Some s' /\ P (a + n)%N s'.
Proof.
  elim: n => [|n IH] a s Ps H /=; first by exists s; rewrite addn0.
  have [s1 [-> P1]] := H a s ltac:(lia) Ps.
  have [|s2 [E P2]] := IH a.+1 s1 P1; first by move=> i s' Hi; apply: H; lia.
  by exists s2; rewrite addnS.
Qed.
Lemma ofold_ext A B (f g : A -> B -> option A) l : (forall s x, List.In x l -> f s x = g s x) -> forall s, ofold f l s = ofold g l s.
Proof.
  elim: l => //= x l IH H s; rewrite H; last by left.
  by case: (g s x) => // s'; apply: IH => ? ? ?; apply: H; right.
Qed.

Lemma modE a K : (0 < K)%N -> Nat.modulo a K = (a %% K)%N.
Proof.
  move=> K0; symmetry; apply: (Nat.mod_unique a K (a %/ K)); first by apply/ltP; rewrite ltn_mod.
  by rewrite {1}(divn_eq a K) mulnC.
Qed.

(** ** Cells *)
Lemma set_size (m : memory) a x : size (Common.set m a x) = size m.
Proof. by elim: m a => [|y m IH] [|a] //=; rewrite IH. Qed.
Lemma rd_set (m : memory) a b x : (a < size m)%N -> rd (Common.set m a x) b = if a == b then x else rd m b.
Proof. by rewrite /rd; elim: m a b => [|y m IH] [|a] [|b] //= H; rewrite IH //. Qed.
Lemma peekE (m : memory) a : (a < size m)%N -> peek m a = Some (rd m a).
Proof. by rewrite /peek /rd; elim: m a => [|y m IH] [|a] //= H; rewrite IH. Qed.
Lemma pokeE (m : memory) a x : (a < size m)%N -> poke m a x = Some (Common.set m a x).
Proof. by rewrite /poke => H; case: Nat.ltb_spec => // H'; move: H' H; rewrite -[length m]/(size m); lia. Qed.

Section Win.
Variable w : N.
Notation win := (Mixed.win w).
Lemma win_plain g n : win (new_plain g n) n (fun i => (g + i)%N).
Proof. by split=> // m i x Hi /=; rewrite /get_n /= (_ : (i <? n)%coq_nat = true) //; apply/Nat.ltb_spec0/ltP. Qed.
Lemma win_ext v n a b : win v n a -> (forall i, (i < n)%N -> a i = b i) -> win v n b.
Proof. by move=> [E H] ab; split=> // m i x Hi; rewrite -ab //; apply: H. Qed.
Lemma win_view g len n u K a off st : win u K a -> (0 < K)%N -> (N.of_nat K <= 2 ^ w)%num ->
  win (Views.View (mkHdr g len n) u off st K) n (fun i => a ((off + st * i) %% K)%N).
Proof.
  move=> [E H] K0 Kw; split=> // m i x Hi /=.
  rewrite /get_n /= (_ : (i <? n)%coq_nat = true); last by apply/Nat.ltb_spec0/ltP.
  case: Nat.eqb_spec => [|_]; first by lia.
  have -> : N.to_nat (wrap w (N.of_nat (Nat.modulo (off + st * i)%coq_nat K))) = ((off + st * i) %% K)%N.
    have L := ltn_pmod (off + st * i) K0.
    have e : Nat.modulo (off + st * i)%coq_nat K = ((off + st * i) %% K)%N by exact: modE.
    by rewrite e /Common.wrap N.mod_small; lia.
  by apply: H; rewrite ltn_mod.
Qed.
(** Sources. *)
Notation source := (Mixed.source w).
Lemma win_source sz v n a : win v n a -> (forall i, (i < n)%N -> (a i < sz)%N) -> source sz v n a.
Proof. by move=> [E H] B; split=> // m i S Hi; rewrite (proj1 (H m i 0%num Hi)) peekE // S; exact: B. Qed.
Lemma source_ext sz v n a b : source sz v n a -> (forall i, (i < n)%N -> a i = b i) -> source sz v n b.
Proof. by move=> [E H] ab; split=> // m i S Hi; rewrite -ab //; apply: H. Qed.
Lemma source_view sz g len n u K a off st : source sz u K a -> (0 < K)%N -> (N.of_nat K <= 2 ^ w)%num ->
  source sz (Views.View (mkHdr g len n) u off st K) n (fun i => a ((off + st * i) %% K)%N).
Proof.
  move=> [E H] K0 Kw; split=> // m i S Hi /=.
  rewrite /get_n /= (_ : (i <? n)%coq_nat = true); last by apply/Nat.ltb_spec0/ltP.
  case: Nat.eqb_spec => [|_]; first by lia.
  have -> : N.to_nat (wrap w (N.of_nat (Nat.modulo (off + st * i)%coq_nat K))) = ((off + st * i) %% K)%N.
    have L := ltn_pmod (off + st * i) K0.
    have e : Nat.modulo (off + st * i)%coq_nat K = ((off + st * i) %% K)%N by exact: modE.
    by rewrite e /Common.wrap N.mod_small; lia.
  by apply: H; rewrite // ltn_mod.
Qed.
(** A ZeroExtended: zeros after the elements of the vector. *)
Lemma source_zero_ext sz u k a n : source sz u k a ->
  source sz (new_zero_ext u n) n (fun i => if (i < k)%N then a i else sz).
Proof.
  move=> [E H]; split=> // m i S Hi; rewrite /new_zero_ext [vget _ _ _ _]/= /get_n [h_n _]/= -/(get_n u) E.
  rewrite (_ : (i <? n)%coq_nat = true); last by apply/Nat.ltb_spec0/ltP.
  case: (ltnP i k) => Hk; first by rewrite (_ : (i <? k)%coq_nat = true); [exact: H|apply/Nat.ltb_spec0/ltP].
  rewrite (_ : (i <? k)%coq_nat = false); last by apply/Nat.ltb_spec0/ltP; rewrite -leqNgt.
  by rewrite /rd List.nth_overflow // -[length _]/(size _) S.
Qed.
End Win.

Section Transforms.
Variables (w : N) (F : fieldType) (G : gfops) (phi : N -> F).
Hypothesis Pr : gf_pres F G phi.
Notation ok := (gvalid G).
Notation win := (win w).

Notation tpre := (tpre G).
Notation tspec := (tspec w F G phi).

(** ** Size2 *)
Lemma size2_tspec : tspec (size2_fft w G) 2 pred0 (-1).
Proof.
  move=> m out inp ao ai [_ Wo] [_ Wi] [B [D _]]; rewrite /size2_fft.
  have [a0 _ _ k0] := B 0%N isT; have [a1 _ _ k1] := B 1%N isT.
  rewrite (Wi m 0%N erefl isT) (Wi m 1%N erefl isT).
  rewrite (proj2 (Wo _ 0%N _ isT)) pokeE // (proj2 (Wo _ 1%N _ isT)) pokeE ?set_size //; eexists; split; first by [].
  have [oA eA] := gp_add _ _ _ Pr _ _ k0 k1; have [oS eS] := gp_sub _ _ _ Pr _ _ k0 k1.
  split; first by rewrite !set_size.
    move=> a _ H; rewrite !rd_set ?set_size //; case: eqP => [e|_]; first by case: (H 1%N isT e).
    by case: eqP => // e; case: (H 0%N isT e).
  case=> [|[|//]] _; rewrite !rd_set ?set_size // ?eqxx.
    case: eqP => [e|_]; first by have := proj1 (D 1%N 0%N isT isT) e.
    by split=> //; rewrite eA /dft !big_ord_recl big_ord0 /= !mul0n !expr0 !mulr1 addr0.
  by split=> //; rewrite eS /dft !big_ord_recl big_ord0 /= muln0 expr0 mulr1 mul1n expr1 mulrN1 addr0.
Qed.

(** ** Product by a matrix *)
Lemma vmul_tspec (M : Matrix.matrix) n r : mvd G n n M -> (0 < n)%N ->
  (forall i j, (i < n)%N -> (j < n)%N -> en F phi M i j = r ^+ (i * j)) -> tspec (vmul w G M) n pred0 r.
Proof.
  move=> [[Er [Ec _]] Mv] n0 HM m out inp ao ai [Eo Wo] [Ei Wi] [B [D _]]; rewrite /vmul Er Ec Eo Ei !Nat.eqb_refl; cbn [andb].
  pose P i m' := [/\ size m' = size m, (forall a, (forall i, (i < n)%N -> ao i <> a) -> rd m' a = rd m a) &
     (forall k, (k < i)%N -> ok (rd m' (ao k)) /\ phi (rd m' (ao k)) = dft F r n (fun j => phi (rd m (ai j))) k)].
  set f := (X in ofold X _ _).
  have [|i m1 /andP [_ Hi] [S1 F1 V1]|m' [E [S' F' V']]] := @ofold_inv _ f P n 0%N m; [by split| |].
    rewrite /f; set f2 := (X in ofold X _ _); pose Q j m' := [/\ size m' = size m, (forall a, ao i <> a -> rd m' a = rd m1 a) &
       (0 < j)%N -> ok (rd m' (ao i)) /\ phi (rd m' (ao i)) = \sum_(c < j) phi (rd m (ai c)) * r ^+ (i * c)].
    have [|j m2 /andP [_ Hj] [S2 F2 V2]|m' [E [S' F' V']]] := @ofold_inv _ f2 Q n 0%N m1; [by split| |].
      rewrite /f2.
      have [oj _ _ kj] := B j Hj; have [oi _ _ _] := B i Hi.
      rewrite (Wi m2 j S2 Hj).
      have Rj : rd m2 (ai j) = rd m (ai j).
        rewrite F2; last by case: (D i j Hi Hj).
        by apply: F1 => k Hk; case: (D k j Hk Hj).
      rewrite Rj; have [oX eX] := gp_mul _ _ _ Pr _ _ (Mv i j Hi Hj) kj.
      case: (Nat.eqb_spec 0 j) => [e|ne].
        rewrite (proj2 (Wo m2 i _ Hi)) pokeE ?S2 //; eexists; split; first by [].
        split; first by rewrite set_size.
          by move=> a Ha; rewrite rd_set ?S2 //; case: eqP => // _; exact: F2.
        move=> _; rewrite rd_set ?S2 // eqxx; split=> //; rewrite eX -[phi (mget M _ _)]/(en F phi M i j) HM //.
        by rewrite -e big_ord_recl big_ord0 addr0 /= mulrC.
      rewrite (proj1 (Wo m2 i 0%num Hi)) peekE ?S2 // (proj2 (Wo m2 i _ Hi)) pokeE ?S2 //; eexists; split; first by [].
      have [k2 e2] := V2 ltac:(lia); have [oA eA] := gp_add _ _ _ Pr _ _ k2 oX.
      split; first by rewrite set_size.
        by move=> a Ha; rewrite rd_set ?S2 //; case: eqP => // _; exact: F2.
      move=> _; rewrite rd_set ?S2 // eqxx; split=> //; rewrite eA e2 big_ord_recr /=; congr (_ + _).
      by rewrite eX -[phi (mget M _ _)]/(en F phi M i j) HM // mulrC.
    rewrite add0n in S' F' V' *; exists m'; split; first exact: E.
    split=> //.
      by move=> a Ha; rewrite F'; [apply: F1|apply: Ha].
    move=> k Hk; case: (ltngtP k i) => [lt|gt|->]; [|by lia|].
      rewrite F'; first exact: V1.
      by case: (D i k Hi ltac:(lia)) => H _ /H; lia.
    by have := V' n0; rewrite /dft.
  exists m'; split; first exact: E.
  by split=> // a _; exact: F'.
Qed.

(** ** A transform on each of several windows *)
Lemma stage run nn priv r cnt (V U : nat -> vect) (ao ai : nat -> nat -> nat) m : tspec run nn priv r ->
  (forall t, (t < cnt)%N -> win (V t) nn (ao t) /\ source w (size m) (U t) nn (ai t)) ->
  (forall t i, (t < cnt)%N -> (i < nn)%N -> [/\ (ao t i < size m)%N, ~~ priv (ao t i), ~~ priv (ai t i) & ok (rd m (ai t i))]) ->
  (forall t i s j, (t < cnt)%N -> (i < nn)%N -> (s < cnt)%N -> (j < nn)%N -> (ao t i = ao s j -> t = s /\ i = j) /\ ao t i <> ai s j) ->
  (forall a, priv a -> (a < size m)%N) ->
  exists m', ofold (fun m t => run m (V t) (U t)) (List.seq 0 cnt) m = Some m' /\
    [/\ size m' = size m,
        (forall a, ~~ priv a -> (forall t i, (t < cnt)%N -> (i < nn)%N -> ao t i <> a) -> rd m' a = rd m a) &
        (forall t i, (t < cnt)%N -> (i < nn)%N -> ok (rd m' (ao t i)) /\
           phi (rd m' (ao t i)) = dft F r nn (fun j => phi (rd m (ai t j))) i)].
Proof.
  move=> T W B D Pb.
  pose P c m' := [/\ size m' = size m,
        (forall a, ~~ priv a -> (forall t i, (t < c)%N -> (i < nn)%N -> ao t i <> a) -> rd m' a = rd m a) &
        (forall t i, (t < c)%N -> (i < nn)%N -> ok (rd m' (ao t i)) /\
           phi (rd m' (ao t i)) = dft F r nn (fun j => phi (rd m (ai t j))) i)].
  have [|c m1 /andP [_ Hc] [S1 F1 V1]|m' [E H]] := @ofold_inv _ (fun m t => run m (V t) (U t)) P cnt 0%N m; [by split| |by exists m'].
  rewrite add0n in Hc; have [Wo Wi] := W c Hc.
  have Ri j : (j < nn)%N -> rd m1 (ai c j) = rd m (ai c j).
    move=> Hj; have [_ _ pj _] := B c j Hc Hj; apply: F1 => // t i Ht Hi.
    by case: (D t i c j ltac:(lia) Hi Hc Hj).
  have [|m2 [E2 [S2 F2 V2]]] := T m1 (V c) (U c) (ao c) (ai c) Wo ltac:(by rewrite S1).
    split; first by move=> i Hi; have [? ? ? ?] := B c i Hc Hi; split; rewrite ?S1 ?Ri.
    split; last by move=> a; rewrite S1; exact: Pb.
    move=> i j Hi Hj; case: (D c i c j Hc Hi Hc Hj) => H1 H2; split=> //; by case/H1.
  exists m2; split=> //; split; first by rewrite S2.
    move=> a pa Ha; rewrite F2 // ?F1 // => [t i Ht Hi|i Hi]; apply: Ha => //; lia.
  move=> t i Ht Hi; case: (ltngtP t c) => [lt|gt|e]; last 1 first.
  - subst t; case: (V2 i Hi) => k2 ->; split=> //; apply: dft_ext => j Hj; by rewrite Ri.
  - have [_ pi _ _] := B t i ltac:(lia) Hi; rewrite F2 //; first exact: V1.
    by move=> j Hj e; case: (proj1 (D c j t i Hc Hj ltac:(lia) Hi) e) => e' _; lia.
  - by lia.
Qed.
End Transforms.
