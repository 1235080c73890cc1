(** Arithmetic of bit polynomials modulo a polynomial, and irreducibility by computation. *)
Set Warnings "-notation-overridden,-ambiguous-paths".
From Coq Require Import NArith.
From mathcomp Require Import all_ssreflect ssralg poly polydiv zmodp.
From mathcomp Require Import zify.
From Verif.Spec Require Import Gf2n.
From Verif.Proof Require Import BitsP QuotF Rabin.
Import GRing.Theory.
Local Open Scope ring_scope.

Section Mod.
Variables (n : nat) (f : {poly 'F_2}).
Hypothesis sf : size f = n.+1.

(** [v] holds [p] modulo [f]. *)
Definition isv (p : {poly 'F_2}) (v : N) : Prop := (v < 2 ^ N.of_nat n)%num /\ P v = p %% f.

Lemma f_neq0 : f != 0. Proof. by rewrite -size_poly_eq0 sf. Qed.
Lemma isv_xor p q u v : isv p u -> isv q v -> isv (p + q) (N.lxor u v).
Proof.
  move=> [Hu Eu] [Hv Ev]; split; last by rewrite P_xor Eu Ev modpD.
  apply/P_size; rewrite P_xor (leq_trans (size_add _ _)) // geq_max; apply/andP; split; exact/P_size.
Qed.
Lemma isv_self a : (a < 2 ^ N.of_nat n)%num -> isv (P a) a.
Proof. by move=> Ha; split=> //; rewrite modp_small // sf ltnS; apply/P_size. Qed.
Lemma isv_0 : isv 0 0%num.
Proof. by split; [have := N.pow_nonzero 2 (N.of_nat n); lia|rewrite P0 mod0p]. Qed.
Lemma isv_eq p q v : p %% f = q %% f -> isv p v -> isv q v.
Proof. by move=> E [H1 H2]; split=> //; rewrite H2. Qed.
Lemma isv_uniq p u v : isv p u -> isv p v -> u = v.
Proof. by move=> [_ E1] [_ E2]; apply: P_inj; rewrite E1 E2. Qed.
(** A representative of small degree. *)
Lemma isv_small p v : (v < 2 ^ N.of_nat n)%num -> P v = p \/ P v = p + f -> isv p v.
Proof.
  move=> Hv E; have S : P v %% f = P v by rewrite modp_small // sf ltnS; apply/P_size.
  split=> //; rewrite -S; case: E => -> //; by rewrite modpD modpp addr0.
Qed.
Lemma isv_X p v b : isv p v -> (b < 2 ^ N.of_nat n)%num -> P b = 'X * P v \/ P b = 'X * P v + f -> isv ('X * p) b.
Proof.
  by move=> [Hv Ev] Hb E; apply: isv_eq (isv_small _ _ Hb E); rewrite Ev modp_mul.
Qed.
End Mod.

(** ** Computations on numbers *)
Definition xt (n f a : N) : N := let b := (a * 2)%num in if N.testbit b n then N.lxor b f else b.
Fixpoint pmm_pos (n f : N) (a : positive) (b : N) : N :=
  match a with
  | xH => b
  | xO a' => xt n f (pmm_pos n f a' b)
  | xI a' => N.lxor (xt n f (pmm_pos n f a' b)) b
  end.
Definition pmm (n f a b : N) : N := match a with N0 => 0%num | Npos p => pmm_pos n f p b end.
Fixpoint frob (n f : N) (k : nat) (a : N) : N := if k is k'.+1 then frob n f k' (pmm n f a a) else a.
Fixpoint ppow (n f a : N) (e : positive) : N :=
  match e with
  | xH => a
  | xO e' => let t := ppow n f a e' in pmm n f t t
  | xI e' => let t := ppow n f a e' in pmm n f (pmm n f t t) a
  end.

Section Comp.
Variables (n : nat) (f : N).
Hypothesis sf : size (P f) = n.+1.
Notation nn := (N.of_nat n).
Notation isv := (isv n (P f)).

Lemma xt_spec p a : isv p a -> isv ('X * p) (xt nn f a).
Proof.
  move=> H; have Ha := proj1 H; rewrite /xt.
  have hl : (a * 2 < 2 ^ N.of_nat n.+1)%num by rewrite Nat2N.inj_succ N.pow_succ_r'; lia.
  have hb : (size (P (a * 2)%num) <= n.+1)%N by apply/P_size.
  have lf : (P f)`_n = 1.
    have := lead_coef_eq0 (P f); rewrite lead_coefE sf /= -size_poly_eq0 sf /=.
    by case: ((P f)`_n) => -[|[|//]] E //= _; apply/val_inj.
  apply: (isv_X n (P f) sf p a) => //; case B: (N.testbit _ _).
  - apply/P_size; rewrite P_xor; apply/leq_sizeP => i; rewrite leq_eqVlt => /orP [/eqP <-|Hi].
      by rewrite coefD lf coefP B; apply/val_inj.
    by rewrite coefD !nth_default ?addr0 // ?sf //; apply: leq_trans hb _.
  - apply/P_size; apply/leq_sizeP => i; rewrite leq_eqVlt => /orP [/eqP <-|Hi].
      by rewrite coefP B.
    by rewrite nth_default //; apply: leq_trans hb _.
  - by right; rewrite P_xor P_double.
  - by left; rewrite P_double.
Qed.

Lemma P_xO a : P (N.pos (xO a)) = 'X * P (N.pos a).
Proof. by rewrite -P_double; congr P; lia. Qed.
Lemma P_xI a : P (N.pos (xI a)) = 'X * P (N.pos a) + 1.
Proof.
  rewrite -P_double -P1 -P_xor; congr P.
  have -> : N.pos a~1 = (2 * N.pos a + 1)%num by lia.
  have -> : (N.pos a * 2 = 2 * N.pos a)%num by lia.
  by [].
Qed.

Lemma pmm_spec a p b : isv p b -> isv (P a * p) (pmm nn f a b).
Proof.
  move=> Hb; case: a => [|a]; first by rewrite P0 mul0r; apply: isv_0.
  elim: a => [a IH|a IH|] /=; last by rewrite P1 mul1r.
  - rewrite P_xI mulrDl mul1r -mulrA; apply: isv_xor => //; exact: xt_spec.
  - rewrite P_xO -mulrA; exact: xt_spec.
Qed.
Lemma pmm_isv a b p q : isv p a -> isv q b -> isv (p * q) (pmm nn f a b).
Proof.
  move=> [Ha Ea] Hb; apply: isv_eq (pmm_spec a q b Hb); rewrite Ea.
  by rewrite mulrC modp_mul mulrC.
Qed.
Lemma frob_spec k p a : isv p a -> isv (p ^+ (2 ^ k)) (frob nn f k a).
Proof.
  elim: k p a => [|k IH] p a H /=; first by rewrite expr1.
  by rewrite expnS exprM; apply: IH; rewrite expr2; apply: pmm_isv.
Qed.
Lemma ppow_spec p a e : isv p a -> isv (p ^+ Pos.to_nat e) (ppow nn f a e).
Proof.
  move=> H; elim: e => [e IH|e IH|] /=; last by rewrite expr1.
  - rewrite (_ : Pos.to_nat e~1 = (Pos.to_nat e * 2).+1)%N ?exprSr ?exprM ?expr2; last by lia.
    by apply: pmm_isv => //; apply: pmm_isv.
  - rewrite (_ : Pos.to_nat e~0 = Pos.to_nat e * 2)%N ?exprM ?expr2; last by lia.
    by apply: pmm_isv.
Qed.

Lemma isv_mod p q v : isv p v -> isv q v -> P f %| p - q.
Proof. by move=> [_ E1] [_ E2]; rewrite /dvdp modpD modpN -E1 -E2 subrr. Qed.

Lemma rabin_comp q j y : prime q -> n = (q ^ j.+1)%N -> (1 < n)%N -> (y < 2 ^ nn)%num ->
  frob nn f n 2 = 2%num -> pmm nn f (N.lxor (frob nn f (q ^ j) 2) 2) y = 1%num -> irreducible_poly (P f).
Proof.
  move=> pq En n1 Hy E1 E2.
  have x2 : (2 < 2 ^ nn)%num.
    by apply: (N.lt_le_trans _ (2 ^ 2)) => //; apply: N.pow_le_mono_r; lia.
  have H2 : isv 'X 2%num.
    by have := isv_self n _ sf _ x2; rewrite (P_pow 1) expr1.
  have one : isv 1 1%num by have := isv_self n _ sf 1%num ltac:(lia); rewrite P1.
  apply: (rabin _ q j pq); first by rewrite sf En.
  - have F := frob_spec n _ _ H2; rewrite E1 in F; rewrite -En; exact: isv_mod F H2.
  - have F := pmm_isv _ _ _ _ (isv_xor _ _ _ _ _ _ (frob_spec (q ^ j) _ _ H2) H2) (isv_self n _ sf y Hy).
    by rewrite E2 in F; exists (P y); rewrite oppP; exact: isv_mod F one.
Qed.
End Comp.
