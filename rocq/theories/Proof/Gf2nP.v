(** The operations of gf_bin_ext.h compute modulo the field polynomial. *)
Set Warnings "-notation-overridden,-ambiguous-paths".
From Coq Require Import NArith ZArith.
From Coq Require List.
From Verif.Model Require Import Common Arith Ring Gf2n.
From Verif.Proof Require Import Gf2nT ListP.
From mathcomp Require Import all_ssreflect ssralg poly polydiv zmodp.
From mathcomp Require Import zify.
From Verif.Spec Require Import Gf2n.
From Verif.Proof Require Import BitsP QuotF Rabin Gf2nA Gf2nI FinF RootP.
Import GRing.Theory.
Local Open Scope ring_scope.
Notation wrap := Common.wrap.
Global Opaque split_table split_tables.

Lemma wrap_lt w x : (x < 2 ^ w)%num -> wrap w x = x.
Proof. exact: N.mod_small. Qed.
Lemma land_pow2 a i : (N.land a (2 ^ i) =? 0)%num = ~~ N.testbit a i.
Proof.
  apply/N.eqb_spec/negP.
  - by move=> E B; have := N.land_spec a (2 ^ i) i; rewrite E N.bits_0 B N.pow2_bits_true.
  - move=> B; apply: N.bits_inj => j; rewrite N.land_spec N.bits_0; case: (N.eq_dec i j) => [<-|ne].
      by move/negP: B => /negbTE ->.
    by rewrite N.pow2_bits_false // andbF.
Qed.

Section S.
Variables (w n : N) (m prim : N).
Notation k := (N.to_nat n).
Hypothesis n0 : (0 < n)%num.
Hypothesis nw : (n <= w)%num.
Hypothesis sm : size (P m) = k.+1.
Notation isv := (isv k (P m)).
Notation q := (2 ^ n)%num.

Lemma kn : N.of_nat k = n. Proof. exact: N2Nat.id. Qed.
Lemma isvP p v : isv p v <-> (v < q)%num /\ P v = p %% P m.
Proof. by rewrite /isv /Gf2nA.isv kn. Qed.
Lemma isv_lt p v : isv p v -> (v < q)%num. Proof. by case/isvP. Qed.
Lemma q_pos : (0 < q)%num. Proof. by have := N.pow_nonzero 2 n; lia. Qed.
Lemma q_le_w : (q <= 2 ^ w)%num. Proof. by apply: N.pow_le_mono_r. Qed.

Lemma isv_lin p r v u s : isv p v -> isv r u -> s = p + r -> isv s (N.lxor v u).
Proof. by move=> Hv Hu ->; apply: isv_xor. Qed.

(** ** Multiplication by two *)
Lemma two_xt a : m = N.lxor (2 ^ n) prim -> (a < q)%num -> mul_by_two w (2 ^ (n - 1)) prim a = xt n m a.
Proof.
  move=> Em Ha; rewrite /mul_by_two /xt.
  have En : n = N.succ (n - 1) by lia.
  have B : N.testbit (a * 2) n = N.testbit a (n - 1).
    by rewrite {1}En N.mul_comm N.testbit_even_succ //; lia.
  have -> : (0 <? N.land a (2 ^ (n - 1)))%num = N.testbit a (n - 1).
    have := land_pow2 a (n - 1); case: (N.testbit _ _); case: N.eqb_spec => //; case: N.ltb_spec => //; lia.
  rewrite B; case Ba: (N.testbit a (n - 1)).
  - rewrite Em -N.lxor_assoc; congr N.lxor.
    have q2 : (2 ^ n = 2 ^ (n - 1) * 2)%num by rewrite {1}En N.pow_succ_r'; lia.
    have E : (N.lxor a (2 ^ (n - 1)) * 2 = N.lxor (a * 2) (2 ^ n))%num.
      have sh x : (x * 2 = N.shiftl x 1)%num by rewrite N.shiftl_mul_pow2.
      by rewrite q2 !sh N.shiftl_lxor.
    rewrite E wrap_lt //; apply: N.lt_le_trans q_le_w.
    rewrite -kn; apply/P_size; rewrite P_xor; apply/leq_sizeP => i; rewrite leq_eqVlt => /orP [/eqP <-|Hi].
      by rewrite coefD !coefP !kn B Ba N.pow2_bits_true; apply/val_inj.
    rewrite coefD !coefP N.pow2_bits_false; last by lia.
    by rewrite N.bits_above_log2 ?addr0 //; case: (N.eq_dec a 0) => [->|a0]; [rewrite /= ; lia|];
       apply/N.log2_lt_pow2; [lia|]; apply: (N.lt_le_trans _ (2 ^ N.succ n)); [rewrite N.pow_succ_r'; lia|];
       apply: N.pow_le_mono_r; lia.
  - rewrite wrap_lt //; apply: N.lt_le_trans q_le_w; rewrite {1}En N.pow_succ_r' (N.mul_comm 2).
    suff : (a < 2 ^ (n - 1))%num by lia.
    case: (N.eq_dec a 0) => [->|a0]; first by have := N.pow_nonzero 2 (n - 1); lia.
    apply/N.log2_lt_pow2; first lia. 
    case: (N.lt_ge_cases (N.log2 a) (n - 1)) => // Hl; exfalso.
    have L2 : (N.log2 a < n)%num by apply/N.log2_lt_pow2 => //; lia.
    by have := N.bit_log2 a a0; rewrite (_ : N.log2 a = n - 1)%num ?Ba //; lia.
Qed.

Hypothesis Em : m = N.lxor (2 ^ n) prim.
Notation two := (mul_by_two w (2 ^ (n - 1)) prim).

Lemma two_spec p a : isv p a -> isv ('X * p) (two a).
Proof. by move=> H; have := xt_spec k m sm p a H; rewrite kn two_xt //; exact: isv_lt H. Qed.
Lemma shift_spec p a j : isv p a -> isv ('X^j * p) (shift_left two a j).
Proof.
  elim: j p a => [|j IH] p a H /=; first by rewrite expr0 mul1r.
  by rewrite exprSr -mulrA; apply: IH; apply: two_spec.
Qed.

(** ** Split tables *)
Lemma P_nat_odd i : Nat.odd i = true -> le 2 i -> P (N.of_nat i) = P (N.of_nat (Nat.sub i 1)) + 1.
Proof.
  move=> Ho Hi; rewrite -P1 -P_xor; congr P; move/Nat.odd_spec: Ho => [c Hc].
  have -> : N.of_nat (Nat.sub i 1) = (2 * N.of_nat c)%num by lia.
  have -> : N.of_nat i = (2 * N.of_nat c + 1)%num by lia.
  by case: (N.of_nat c).
Qed.
Lemma P_nat_even i : Nat.odd i = false -> P (N.of_nat i) = 'X * P (N.of_nat (Nat.div i 2)).
Proof.
  move=> Ho; rewrite -P_double; congr P.
  have /Nat.even_spec [c Hc] : Nat.even i = true by have := Nat.negb_odd i; rewrite Ho => <-.
  have -> : Nat.div i 2 = c by rewrite Hc Nat.mul_comm Nat.div_mul //; lia.
  lia.
Qed.

Lemma split_table_spec junk base B i j : isv B base -> (i < 256)%N -> (j < 256)%N ->
  isv (P (N.of_nat i) * P (N.of_nat j) * B) (get2 (split_table junk two base) i j).
Proof.
  move=> HB Hi Hj.
  pose ok i j v := isv (P (N.of_nat i) * P (N.of_nat j) * B) v.
  apply: (proj2 (table_spec two base ok _ _ _ _ _ _ junk)); try lia.
  - by move=> c; rewrite /ok P0 mulr0 !mul0r; split; apply: isv_0.
  - by rewrite /ok P1 !mul1r.
  - move=> c x Ho Hc; rewrite /ok P1 !mulr1 => H; apply: isv_lin H HB _.
    by rewrite P_nat_odd // mulrDl mul1r.
  - by move=> c x Ho Hc; rewrite /ok P1 !mulr1 => H; rewrite P_nat_even // -mulrA; apply: two_spec.
  - move=> a c x y Ho Hc; rewrite /ok P1 !mulr1 => Hy Hx; apply: isv_lin Hy Hx _.
    by rewrite (P_nat_odd c) // mulrDr mulr1 mulrDl.
  - move=> a c x Ho Hc; rewrite /ok => H; rewrite (P_nat_even c) // mulrCA -!mulrA; apply: two_spec.
    by rewrite mulrA.
Qed.

Lemma P_split a j : P a = P (a mod 2 ^ j)%num + 'X^(N.to_nat j) * P (N.shiftr a j).
Proof.
  apply/polyP => i; rewrite coefD coefXnM !coefP; case: ltnP => H.
  - by rewrite addr0 N.mod_pow2_bits_low //; lia.
  - rewrite N.mod_pow2_bits_high ?add0r; last by lia.
    by rewrite N.shiftr_spec'; congr (bit (N.testbit _ _)); lia.
Qed.

Variable X : bin_ext.
Hypothesis Xn : x_n X = n.

Section Split.
Variable junk : N.
Hypothesis Xs : x_split X = split_tables junk two 1 (N.to_nat (n / 4 - 1)).
Hypothesis n8 : exists g, n = (8 * g)%num /\ (2 <= g)%num.

Lemma split_at_spec t a b : (t < N.to_nat (n / 4 - 1))%N -> exists v, split_at X t a b = Some v /\
  isv (P (a mod 256) * P (b mod 256) * 'X^(8 * t)) v.
Proof.
  move=> Ht; rewrite /split_at Xs tables_nth; last by lia.
  have Ha : (N.to_nat (a mod 256) < 256)%N by have := N.mod_lt a 256; lia.
  have Hb : (N.to_nat (b mod 256) < 256)%N by have := N.mod_lt b 256; lia.
  set base := shift_left _ _ _.
  have one : isv 1 1%num.
    rewrite -P1; apply: isv_self => //; rewrite kn; have := N.pow_le_mono_r 2 1 n; lia.
  have HB : isv 'X^(8 * t) base by have := shift_spec _ _ (8 * t)%N one; rewrite mulr1.
  pose ok i j v := isv (P (N.of_nat i) * P (N.of_nat j) * 'X^(8 * t)) v.
  have W : wf (split_table junk two base).
    have T := table_spec two base (fun _ _ _ => True) (fun _ => conj I I) I (fun _ _ _ _ _ => I) (fun _ _ _ _ _ => I)
       (fun _ _ _ _ _ _ _ _ => I) (fun _ _ _ _ _ _ => I) junk.
    by case: T.
  have [row [-> ->]] := get2_nth_error _ (N.to_nat (a mod 256)) (N.to_nat (b mod 256)) W ltac:(lia) ltac:(lia).
  have T := split_table_spec junk base _ _ _ HB Ha Hb; rewrite !N2Nat.id in T.
  move: (get2 _ _ _) T => v T; exists v; split; [exact: erefl|exact: T].
Qed.

Lemma mul_split_spec a b : (a < q)%num -> (b < q)%num -> exists c, mul_split X a b = Some c /\ isv (P a * P b) c.
Proof.
  move=> Ha Hb; rewrite /mul_split Xn; case: n8 => g [En Hg]; have -> : (n / 8 = g)%num by rewrite En N.mul_comm N.div_mul.
  have Et : (n / 4 - 1 = 2 * g - 1)%num.
    by rewrite En (_ : 8 * g = (2 * g) * 4)%num ?N.div_mul //; lia.
  set G := N.to_nat g.
  pose lo (x : N) (i : nat) := (x mod 2 ^ N.of_nat (8 * i))%num.
  have loS x i : P (lo x i.+1) = P (lo x i) + 'X^(8 * i) * P (N.shiftr x (N.of_nat (8 * i)) mod 256)%num.
    rewrite /lo (P_split _ (N.of_nat (8 * i))) Nat2N.id; congr (_ + _ * _).
    - congr P; rewrite (_ : N.of_nat (8 * i.+1) = N.of_nat (8 * i) + 8)%num; last by lia.
      rewrite N.pow_add_r; apply: N.bits_inj => j; case: (N.lt_ge_cases j (N.of_nat (8 * i))) => H.
        by rewrite !N.mod_pow2_bits_low // -N.pow_add_r N.mod_pow2_bits_low //; lia.
      by rewrite !N.mod_pow2_bits_high.
    - congr P; apply: N.bits_inj => j; rewrite N.shiftr_spec' -[256%num]/(2 ^ 8)%num.
      case: (N.lt_ge_cases j 8) => H.
        by rewrite !N.mod_pow2_bits_low ?N.shiftr_spec' //; lia.
      by rewrite !N.mod_pow2_bits_high //; lia.
  have inner i (x : N) p0 s0 : (i < G)%N -> isv p0 s0 -> forall c, (c <= G)%N ->
    exists v, List.fold_left (fun s j => let '(product, tb) := s in
           (match product, split_at X (i + j)%coq_nat x tb with
            | Some p, Some q => Some (N.lxor p q) | _, _ => None end, N.shiftr tb 8)) (List.seq 0 c) (Some s0, b) =
       (Some v, N.shiftr b (N.of_nat (8 * c))) /\ isv (p0 + P (x mod 256) * P (lo b c) * 'X^(8 * i)) v.
    move=> Hi H0; elim=> [|c IH] Hc.
      by exists s0; rewrite muln0 N.shiftr_0_r /lo muln0 N.mod_1_r P0 mulr0 mul0r addr0.
    have [v [E Hv]] := IH ltac:(lia).
    rewrite List.seq_S List.fold_left_app E; cbn [List.fold_left Nat.add fst].
    have [u [-> Hu]] := split_at_spec (i + c)%coq_nat x (N.shiftr b (N.of_nat (8 * c))) ltac:(lia).
    exists (N.lxor v u); rewrite N.shiftr_shiftr (_ : N.of_nat (8 * c) + 8 = N.of_nat (8 * c.+1))%num; last by lia.
    split=> //; apply: isv_lin Hv Hu _; rewrite loS mulrDr mulrDl addrA; congr (_ + _).
    by rewrite plusE mulnDr exprD [in RHS](mulrC 'X^(8 * i)) -!mulrA; congr (_ * _); rewrite mulrCA.
  have outer c : (c <= G)%N -> exists v, List.fold_left (fun s i =>
      let '(product, a) := s in
      (fst (List.fold_left (fun s j =>
           let '(product, tb) := s in
           (match product, split_at X (i + j)%coq_nat a tb with
            | Some p, Some q => Some (N.lxor p q) | _, _ => None end, N.shiftr tb 8)) (List.seq 0 G) (product, b)),
       N.shiftr a 8)) (List.seq 0 c) (Some 0%num, a) = (Some v, N.shiftr a (N.of_nat (8 * c))) /\ isv (P (lo a c) * P b) v.
    elim: c => [|c IH] Hc.
      by exists 0%num; rewrite muln0 N.shiftr_0_r /lo muln0 N.mod_1_r P0 mul0r; split=> //; apply: isv_0.
    have [v [E Hv]] := IH ltac:(lia).
    rewrite List.seq_S List.fold_left_app E; cbn [List.fold_left Nat.add fst].
    have [u [-> Hu]] := inner c (N.shiftr a (N.of_nat (8 * c))) _ _ ltac:(lia) Hv G (leqnn _).
    exists u; cbn [fst]; rewrite N.shiftr_shiftr (_ : N.of_nat (8 * c) + 8 = N.of_nat (8 * c.+1))%num; last by lia.
    split=> //; have -> : P (lo a c.+1) * P b = P (lo a c) * P b + P (N.shiftr a (N.of_nat (8 * c)) mod 256) * P (lo b G) * 'X^(8 * c).
      rewrite loS (_ : lo b G = b); first by rewrite mulrDl -[in LHS]mulrA [in LHS](mulrC 'X^_).
      rewrite /lo N.mod_small // (_ : N.of_nat (8 * G) = n) //; rewrite /G; lia.
    by [].
  have [v [E Hv]] := outer G (leqnn _).
  exists v; rewrite E; split=> //; move: Hv; rewrite /lo N.mod_small //.
  rewrite (_ : N.of_nat (8 * G) = n) //; rewrite /G; lia.
Qed.
End Split.
End S.
