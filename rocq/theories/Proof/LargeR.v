(** Inverse transform, convolution and products with fft::Large (Model/Large.v). *)
Set Warnings "-notation-overridden,-ambiguous-paths".
From Coq Require Import NArith ZArith.
From Coq Require List.
From mathcomp Require Import all_ssreflect ssralg zmodp.
From mathcomp Require Import zify.
From Verif.Model Require Import Common Arith Ring Large.
From Verif.Spec Require Import Modular Conv.
From Verif.Proof Require Import ArithP ListP LargeB LargeP LargeF.
Import GRing.Theory.
Local Open Scope ring_scope.

Local Arguments exp2n : simpl never.
Local Arguments N.to_nat : simpl never.

Lemma modE a K : (0 < K)%N -> Nat.modulo a K = (a %% K)%N.
Proof.
move=> K0; symmetry; apply: (Nat.mod_unique a K (a %/ K)); first by apply/ltP; rewrite ltn_mod.
by rewrite {1}(divn_eq a K) mulnC.
Qed.

Section Inv.
Variables (tw m : N) (l : nat) (w u u' : N).
Hypothesis m1 : (1 < m)%num.
Hypothesis mw : (m < 2 ^ tw)%num.
Hypothesis mo : N.odd m = true.
Hypothesis l0 : (0 < l)%N.
Hypothesis lw : (N.of_nat l < tw)%num.
Hypothesis wm : (w < m)%num.
Hypothesis wh : (w ^ (2 ^ N.of_nat (l - 1)) mod m = m - 1)%num.

Notation n := (2 ^ l)%N.
Notation L := (large_new tw m l w u u').
Notation zphi := (zphi m).

Lemma exp2n_nat : N.to_nat (exp2n l) = n.
Proof. by rewrite exp2nE pow2n. Qed.

Lemma zwh : zphi w ^+ (2 ^ l.-1) = -1.
Proof.
have -> : (2 ^ l.-1)%N = N.to_nat (2 ^ N.of_nat (l - 1)) by rewrite pow2n subn1.
rewrite -zphi_pow -(zphi_mod m m1) wh; apply: (addIr 1); rewrite addNr.
have -> : 1 = zphi 1 by [].
by rewrite -zphi_add N.sub_add ?zphi_m //; lia.
Qed.

Let zw1 : zphi w ^+ n = 1 := wn1 _ _ _ l0 zwh.

Lemma gcd_of_inv a b : ((a * b) mod m = 1)%num -> N.gcd a m = 1%num.
Proof.
move=> E; have D1 := N.gcd_divide_l a m; have D2 := N.gcd_divide_r a m.
have D : N.divide (N.gcd a m) 1.
  rewrite -E N.mod_eq; last by lia.
  apply: N.divide_sub_r; first exact: N.divide_mul_l.
  by apply: N.divide_mul_l.
exact: N.divide_1_r D.
Qed.

Lemma unit_w : N.gcd w m = 1%num.
Proof.
apply: (gcd_of_inv _ (w ^ N.of_nat n.-1)).
apply: (zphi_inj m m1); [by apply: N.mod_upper_bound; lia|lia|].
rewrite (zphi_mod m m1) zphi_mul zphi_pow Nat2N.id -exprS prednK ?expn_gt0 //.
Qed.

Notation wi := (inv_bezout tw m w).
Lemma wiE : (wi < m)%num /\ zphi wi = zphi w ^+ n.-1.
Proof.
have [H1 H2] := zinv m m1 tw mw w unit_w; split=> //.
have E : zphi w * zphi wi = 1 by rewrite -zphi_mul -(zphi_mod m m1) H2.
have n0 : (0 < n)%N by rewrite expn_gt0.
by rewrite -[zphi wi]mul1r -zw1 -{1}(prednK n0) exprSr -mulrA E mulr1.
Qed.

Lemma unit_n : N.gcd (N.of_nat n) m = 1%num.
Proof.
rewrite -pow2n N2Nat.id N.gcd_comm.
have -> : N.gcd m (2 ^ N.of_nat l) = 1%num.
  have D := N.gcd_divide_r m (2 ^ N.of_nat l); have D' := N.gcd_divide_l m (2 ^ N.of_nat l).
  have C : N.gcd m 2 = 1%num.
    have G := N.gcd_divide_r m 2; have G' := N.gcd_divide_l m 2.
    have : (N.gcd m 2 <= 2)%num by apply: N.divide_pos_le.
    have : N.gcd m 2 <> 2%num.
      move=> E; rewrite E in G'; case: G' => q Eq.
      by move: mo; rewrite Eq N.odd_mul /= andbF.
    have : N.gcd m 2 <> 0%num by move/N.gcd_eq_0_r.
    lia.
  elim: (l) => [|k IH]; first by rewrite N.pow_0_r N.gcd_1_r.
  rewrite Nat2N.inj_succ N.pow_succ_r'.
  have G := N.gcd_divide_r m (2 * 2 ^ N.of_nat k); have G' := N.gcd_divide_l m (2 * 2 ^ N.of_nat k).
  set g := N.gcd _ _ in G G' *.
  have Cg : N.gcd g 2 = 1%num.
    apply: N.divide_1_r; rewrite -C; apply: N.gcd_greatest; last exact: N.gcd_divide_r.
    by apply: N.divide_trans (N.gcd_divide_l _ _) G'.
  have G2 : N.divide g (2 ^ N.of_nat k) by apply: N.gauss G Cg.
  by apply: N.divide_1_r; rewrite -IH; apply: N.gcd_greatest.
by [].
Qed.

Notation ni := (lg_inv_n L).
Lemma niE : (ni < m)%num /\ (n%:R * zphi ni = 1 :> Zm m).
Proof.
rewrite /= /get_inv_n_mod_p /= exp2n_nat.
have [H1 H2] := zinv m m1 tw mw _ unit_n; split; first by apply: N.mod_upper_bound; lia.
have -> : n%:R = zphi (N.of_nat n) by rewrite /LargeP.zphi Nat2N.id.
by rewrite (zphi_mod m m1) -zphi_mul -(zphi_mod m m1) H2.
Qed.

Section Vec.
Variable x : list N.
Hypothesis xw : forall i, (lnth i x 0 < 2 ^ tw)%num.

Lemma fft_nth j : (j < n)%N -> lnth j (large_fft tw m L x) 0%num = dft_mod m w n x j.
Proof.
move=> Hj; rewrite /large_fft.
have -> : lg_W L = List.app (compute_omegas (prime_ops tw m) n w) (List.cons u List.nil) by rewrite /= exp2n_nat.
by apply: (run_nth tw m l) => //=; rewrite ?exp2n_nat //; lia.
Qed.
Lemma fft_inv_nth j : (j < n)%N -> lnth j (large_fft_inv tw m L x) 0%num = dft_mod m wi n x j.
Proof.
have [H1 H2] := wiE.
move=> Hj; rewrite /large_fft_inv.
have -> : lg_invW L = List.app (compute_omegas (prime_ops tw m) n wi) (List.cons u' List.nil) by rewrite /= exp2n_nat.
apply: (run_nth tw m l) => //=; rewrite ?exp2n_nat //; try lia.
by rewrite H2 -exprM mulnC exprM zw1 expr1n.
Qed.
Lemma fft_length : length (large_fft tw m L x) = n.
Proof. by rewrite /large_fft /large_run List.map_length List.seq_length /= exp2n_nat. Qed.
Lemma ifft_length : length (large_ifft tw m L x) = n.
Proof.
rewrite /large_ifft /large_fft_inv /large_run; case: (N.ltb _ _);
by rewrite !List.map_length List.seq_length /= exp2n_nat.
Qed.

Lemma ifft_nth j : (j < n)%N -> (lnth j (large_ifft tw m L x) 0 < m)%num /\
  zphi (lnth j (large_ifft tw m L x) 0%num) = zphi ni * zphi (dft_mod m wi n x j).
Proof.
move=> Hj; have [N1 N2] := niE.
have D : (dft_mod m wi n x j < m)%num by apply: N.mod_upper_bound; lia.
rewrite /large_ifft; case: N.ltb_spec => H.
  rewrite (List.nth_indep _ _ (ring_mul tw m 0 ni)); last first.
    rewrite /large_fft_inv /large_run !List.map_length List.seq_length /= exp2n_nat; exact/ltP.
  rewrite (List.map_nth (fun v => ring_mul tw m v ni)) fft_inv_nth // zmul //.
  by split; [apply: N.mod_upper_bound; lia|rewrite (zphi_mod m m1) zphi_mul mulrC].
rewrite fft_inv_nth //; split=> //.
have -> : ni = 1%num; last by rewrite {1}/LargeP.zphi mul1r.
have : ni <> 0%num; last by lia.
move=> E; move: N2; rewrite E {1}/LargeP.zphi mulr0 => /esym/eqP; by rewrite oner_eq0.
Qed.
End Vec.

Lemma round_nth x i : (forall i, (lnth i x 0 < 2 ^ tw)%num) -> (i < n)%N ->
  lnth i (large_ifft tw m L (large_fft tw m L x)) 0%num = (lnth i x 0 mod m)%num.
Proof.
move=> xw Hi; have [N1 N2] := niE.
have fw : forall j, (lnth j (large_fft tw m L x) 0 < 2 ^ tw)%num.
  move=> j; case: (ltnP j n) => Hj.
    by rewrite fft_nth //; have := N.mod_upper_bound (sumN (fun i => lnth i x 0 * w ^ N.of_nat (i * j))%num n) m ltac:(lia); rewrite /dft_mod; lia.
  by rewrite List.nth_overflow; [lia|rewrite fft_length; apply/leP].
have [B E] := ifft_nth _ fw i Hi.
apply: (zphi_inj m m1) => //; first by apply: N.mod_upper_bound; lia.
rewrite E (zphi_mod m m1) (zphi_dft m m1) (proj2 wiE) /rdft.
rewrite (eq_bigr (fun j : 'I_n => rdft (Zm m) (zphi w) (fun i => zphi (lnth i x 0%num)) n j * (zphi w ^+ n.-1) ^+ (j * i))).
  by rewrite (inv_dft _ _ _ l0 zwh _ _ Hi) mulrA (mulrC (zphi ni)) N2 mul1r.
by move=> j _; rewrite fft_nth // zphi_dft.
Qed.

Lemma conv_nth x y i : (forall i, (lnth i x 0 < 2 ^ tw)%num) -> (forall i, (lnth i y 0 < 2 ^ tw)%num) -> (i < n)%N ->
  lnth i (large_ifft tw m L (List.map (fun ab => ring_mul tw m ab.1 ab.2)
            (List.combine (large_fft tw m L x) (large_fft tw m L y)))) 0%num = cyclic_conv m n x y i.
Proof.
move=> xw yw Hi; have [N1 N2] := niE.
set z := List.map _ _.
have zE j : (j < n)%N -> lnth j z 0%num = ((dft_mod m w n x j * dft_mod m w n y j) mod m)%num.
  move=> Hj; rewrite /z (List.nth_indep _ _ ((fun ab : N * N => ring_mul tw m ab.1 ab.2) (0, 0)%num)); last first.
    by rewrite List.map_length List.combine_length !fft_length Nat.min_id; apply/ltP.
  rewrite List.map_nth List.combine_nth ?fft_length // !fft_nth //.
  by apply: zmul => //; apply: N.mod_upper_bound; lia.
have fw : forall j, (lnth j z 0 < 2 ^ tw)%num.
  move=> j; case: (ltnP j n) => Hj.
    rewrite zE //; have := N.mod_upper_bound (dft_mod m w n x j * dft_mod m w n y j) m ltac:(lia); lia.
  by rewrite List.nth_overflow; [lia|rewrite /z List.map_length List.combine_length !fft_length Nat.min_id; apply/leP].
have [B E] := ifft_nth _ fw i Hi.
apply: (zphi_inj m m1) => //; first by apply: N.mod_upper_bound; lia.
rewrite E /cyclic_conv [RHS](zphi_mod m m1) (zphi_dft m m1) (proj2 wiE) /rdft.
rewrite (eq_bigr (fun j : 'I_n => (rdft (Zm m) (zphi w) (fun i => zphi (lnth i x 0%num)) n j
  * rdft (Zm m) (zphi w) (fun i => zphi (lnth i y 0%num)) n j) * (zphi w ^+ n.-1) ^+ (j * i))).
  rewrite (inv_conv _ _ _ l0 zwh _ _ _ Hi) (mulrA (zphi ni)) (mulrC (zphi ni)) N2 mul1r zphi_sum.
  apply: eq_bigr => s _; rewrite zphi_mul; congr (_ * zphi (lnth _ _ _)).
  by rewrite modE // expn_gt0.
by move=> j _; rewrite zE // (zphi_mod m m1) zphi_mul !zphi_dft.
Qed.
End Inv.

(** ** The same on lists, with the powers of the standard library *)
Lemma pow_nat k : (2 ^ k)%N = Nat.pow 2 k.
Proof. by elim: k => [//|k IH]; rewrite expnS IH. Qed.

Lemma nth_bound (x : list N) B : (0 < B)%num -> List.Forall (fun v => v < B)%num x -> forall i, (lnth i x 0 < B)%num.
Proof.
move=> HB H i; case: (ltnP i (length x)) => G; last by rewrite List.nth_overflow //; apply/leP.
by rewrite ->List.Forall_forall in H; apply: H; apply: List.nth_In; apply/ltP.
Qed.

Section Lists.
Variables (tw m : N) (l : nat) (w u u' : N).
Hypothesis m1 : (1 < m)%num.
Hypothesis mw : (m < 2 ^ tw)%num.
Hypothesis l0 : (0 < l)%N.
Hypothesis lw : (N.of_nat l < tw)%num.
Hypothesis wm : (w < m)%num.
Notation L := (large_new tw m l w u u').
Notation n := (Nat.pow 2 l).

Lemma fft_list x : (w ^ (2 ^ N.of_nat l) mod m = 1)%num -> List.Forall (fun v => v < 2 ^ tw)%num x ->
  large_fft tw m L x = List.map (dft_mod m w n x) (List.seq 0 n).
Proof.
move=> w1 Xw; have xw := nth_bound x (2 ^ tw)%num ltac:(lia) Xw.
apply: (list_ext _ 0%num).
  by rewrite List.map_length List.seq_length /large_fft /large_run List.map_length List.seq_length /= exp2n_nat pow_nat.
move=> j; rewrite /large_fft {1}/large_run List.map_length List.seq_length /= exp2n_nat => /ltP Hj.
rewrite nth_map_seq; last by rewrite -pow_nat; apply/ltP.
rewrite -pow_nat; apply: (run_nth tw m l) => //=; rewrite ?exp2n_nat //; try lia.
by rewrite -pow2n -zphi_pow -(zphi_mod m m1) w1.
Qed.

Hypothesis mo : N.odd m = true.
Hypothesis wh : (w ^ (2 ^ N.of_nat (l - 1)) mod m = m - 1)%num.

Lemma round_list x : length x = n -> List.Forall (fun v => v < 2 ^ tw)%num x ->
  large_ifft tw m L (large_fft tw m L x) = List.map (fun v => v mod m)%num x.
Proof.
move=> Lx Xw; have xw := nth_bound x (2 ^ tw)%num ltac:(lia) Xw.
have E := ifft_length tw m l w u u' (large_fft tw m L x).
apply: (list_ext _ 0%num); first by rewrite List.map_length Lx -pow_nat; apply: E.
move=> j Hj; rewrite round_nth //; last by move: Hj; rewrite E; move/ltP.
by rewrite -(List.map_nth (fun v => v mod m)%num) N.mod_0_l //; lia.
Qed.

Lemma conv_list x y : List.Forall (fun v => v < 2 ^ tw)%num x -> List.Forall (fun v => v < 2 ^ tw)%num y ->
  large_ifft tw m L (List.map (fun ab => ring_mul tw m (fst ab) (snd ab))
    (List.combine (large_fft tw m L x) (large_fft tw m L y))) = List.map (cyclic_conv m n x y) (List.seq 0 n).
Proof.
move=> Xw Yw; have xw := nth_bound x (2 ^ tw)%num ltac:(lia) Xw; have yw := nth_bound y (2 ^ tw)%num ltac:(lia) Yw.
set z := List.map _ (List.combine _ _).
have E := ifft_length tw m l w u u' z.
apply: (list_ext _ 0%num); first by rewrite List.map_length List.seq_length -pow_nat; apply: E.
move=> j Hj; have Hj' : (j < 2 ^ l)%N by move: Hj; rewrite E; move/ltP.
rewrite nth_map_seq; last by rewrite -pow_nat; apply/ltP.
by rewrite -pow_nat; apply: conv_nth.
Qed.
End Lists.
