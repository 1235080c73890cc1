(** Every supported instance of gf_bin_ext.h presents its field. *)
Set Warnings "-notation-overridden,-ambiguous-paths".
From Coq Require Import NArith ZArith.
From Coq Require List.
From Verif.Model Require Import Common Arith Ring Gf2n.
From Verif.Proof Require Import Gf2nT ListP Gf2nL.
From mathcomp Require Import all_ssreflect ssralg poly polydiv zmodp.
From mathcomp Require Import zify.
From Verif.Spec Require Import Gf2n.
From Verif.Proof Require Import BitsP QuotF Rabin Gf2nA Gf2nI FinF RootP Pres Gf2nP Gf2nQ Gf2nF.
Import GRing.Theory.
Local Open Scope ring_scope.
Notation wrap := Common.wrap.

Definition mem_ok (w n : N) : bool :=
  ((w / 8 <? n / 8)%num == false) &&
  (List.forallb (fun i => match List.nth_error (init_mask w n) i with Some v => (v =? 2 ^ N.of_nat i)%num | None => false end)
     (List.seq 0 (N.to_nat n))) &&
  (get 0%num (init_mask w n) (N.to_nat n - 1) =? 2 ^ (n - 1))%num &&
  match primitive_poly w n with
  | Some p => if (n <=? 16)%num then (p =? if n =? 1 then 1 else modulus n)%num && ~~ is_restricted w n
              else (modulus n =? N.lxor (2 ^ n) p)%num
  | None => false
  end &&
  (my_card w n =? if is_restricted w n then 2 ^ n - 1 else 2 ^ n)%num.

Lemma mem_ok_supported w n : supported w n -> mem_ok w n.
Proof.
  case=> Hw [Hn [le lt]].
  case: Hw => [<-|[<-|[<-|[<-|[<-|[]]]]]] in le lt *;
  case: Hn => [<-|[<-|[<-|[<-|[<-|[<-|[<-|[<-|[<-|[]]]]]]]]]] in le lt *;
  first [by vm_compute | exfalso; lia | by have := lt ltac:(lia); lia].
Qed.

Lemma supported_dims w n : supported w n -> List.In n dims.
Proof. by case=> _ [H _]. Qed.
Lemma dims_pos n : List.In n dims -> (0 < n)%num.
Proof. by move=> H; do ! (case: H => [<-|H]; first by []); case: H. Qed.

Section C.
Variables (junk w n : N).
Hypothesis sup : supported w n.
Notation k := (N.to_nat n).
Notation q := (2 ^ n)%num.
Let nd : List.In n dims := supported_dims w n sup.
Let n0 := dims_pos n nd.
Let sm := size_modulus n nd.
Let Im := irr_modulus n nd.
Notation ph := (phi (modulus n) Im).

Lemma nw : (n <= w)%num. Proof. by case: sup => _ [_ []]. Qed.
Lemma nw' : (n <= 16)%num -> (n < w)%num. Proof. by case: sup => _ [_ [_]]. Qed.

Definition gen (i : nat) : N := if (n =? 1)%num then (if i is 0%N then 1%num else 3%num) else iter i (xt n (modulus n)) 1%num.

Lemma gen_spec i : (i < N.to_nat (q - 1))%N -> (gen i < q)%num /\ ph (gen i) = pi (Gf2nF.g _ Im) 'X ^+ i.
Proof.
  have one := one_isv w n (modulus n) n0 nw sm.
  move=> Hi; rewrite -rmorphX; apply/(isv_phi n (modulus n) sm Im); rewrite /gen; case: N.eqb_spec => [n1|nn1].
    have -> : i = 0%N by move: Hi; rewrite n1; case: i.
    by rewrite expr0.
  elim: i Hi => [|i IH] Hi /=; first by rewrite expr0.
  rewrite exprS; have := xt_spec _ _ sm _ _ (IH (ltnW Hi)); by rewrite N2Nat.id.
Qed.

Lemma z_prim : (n <= 16)%num -> (N.to_nat (q - 1)).-primitive_root (pi (Gf2nF.g _ Im) 'X).
Proof.
  move=> n16; case: (N.eq_dec n 1) => [n1|nn1].
    have -> : N.to_nat (q - 1) = 1%N by rewrite n1.
    have E : pi (Gf2nF.g _ Im) 'X = 1.
      apply/eqP; rewrite -subr_eq0 -(rmorph1 (pi_is_rmorphism (Gf2nF.g _ Im))) /= -rmorphB pi_eq0 /=.
      by rewrite P_modulus // n1 /= -[in X in _ %| X](oppP 1) opprK dvdpp.
    apply/andP; split=> //; apply/forallP => i; rewrite unity_rootE E expr1n eqxx ord1 //.
  apply: X_primitive; rewrite /gen_ok /=; move: nd; rewrite /dims /=; lia.
Qed.

Lemma pow_w : (n <= 16)%num -> (2 * q <= 2 ^ w)%num.
Proof. move=> H; rewrite -N.pow_succ_r'; apply: N.pow_le_mono_r => //; have := nw' H; lia. Qed.

Lemma gen_step i : (n <= 16)%num -> (i < N.to_nat (q - 1))%N ->
  (let b' := wrap w (N.shiftl (gen i) 1) in if N.land b' q =? 0 then b' else N.lxor b' (if n =? 1 then 1 else modulus n))%num = gen i.+1.
Proof.
  move=> n16 Hi; have [Hg _] := gen_spec i Hi; have W := pow_w n16.
  have Es : N.shiftl (gen i) 1 = (gen i * 2)%num by rewrite N.shiftl_mul_pow2.
  cbv zeta; rewrite Es wrap_lt; last by lia.
  rewrite land_pow2; case: (N.eqb_spec n 1) => [n1|nn1].
    by move: Hi; rewrite /gen n1; case: i Hg Es.
  rewrite /gen; case: (N.eqb_spec n 1) => // _ /=; rewrite /xt; by case: (N.testbit _ _).
Qed.

Lemma irr_of_table : (n <= 16)%num -> exists l il, setup_tables junk w q (if n =? 1 then 1 else modulus n)%num = Some (l, il) /\
  forall i, (i < N.to_nat (q - 1))%N -> List.nth_error l (N.to_nat (gen i)) = Some (N.of_nat i) /\ List.nth_error il i = Some (gen i).
Proof.
  move=> n16; have [||||l [il [E H]]] := setup_tables_spec junk w q (if n =? 1 then 1 else modulus n)%num gen (two_q n _ n0 sm).
  - by rewrite /gen; case: (n =? 1)%num.
  - by move=> i Hi; apply: (proj1 (gen_spec i _)); lia.
  - by move=> i j Hi Hj; apply: (e_inj n (modulus n) Im _ (z_prim n16) gen gen_spec); lia.
  - by move=> i Hi; apply: gen_step => //; lia.
  - by exists l, il; split=> // i Hi; apply: H; lia.
Qed.

Theorem new_spec : exists X, new_bin_ext junk w n = Some X /\ x_n X = n /\ x_w X = w /\
  (forall a, x_check X a = (a <? q)%num) /\ x_card_minus_one X = (q - 1)%num /\ (q - 1 <= x_card X)%num /\ (1 < x_card X)%num /\
  (forall a b, (a < q)%num -> (b < q)%num -> exists r, x_mul X a b = Some r /\ (r < q)%num /\ ph r = ph a * ph b) /\
  (forall a b, (a < q)%num -> (b < q)%num -> b <> 0%num -> exists r, x_div X a b = Some r /\ (r < q)%num /\ ph r = ph a / ph b) /\
  (forall a, (a < q)%num -> a <> 0%num -> exists r, x_inv X a = Some r /\ (r < q)%num /\ ph r = (ph a)^-1).
Proof.
  have := mem_ok_supported w n sup; rewrite /mem_ok /new_bin_ext.
  case/andP => /andP [/andP [/andP [/eqP -> Hmask] /N.eqb_spec Hfirst] Hprim] /N.eqb_spec Hcard.
  have {}Hmask i : (i < k)%N -> List.nth_error (init_mask w n) i = Some (2 ^ N.of_nat i)%num.
    move=> Hi; have := proj1 (List.forallb_forall _ _) Hmask i ltac:(apply/List.in_seq; lia).
    by case: (List.nth_error _ _) => // v /N.eqb_spec ->.
  case Ep: (primitive_poly w n) Hprim => [p|//]; have q2 := two_q n _ n0 sm.
  case: N.leb_spec => n16.
  - case/andP => /N.eqb_spec Hp /negbTE nr; rewrite nr in Hcard *; rewrite Hcard Hp.
    have [l [il [-> Ht]]] := irr_of_table n16.
    have w1 := nw' n16.
    eexists; split; first exact: erefl.
    set X := mkBinExt _ _ _ _ _ _ _ _ _ _.
    have chkE a : x_check X a = (a <? q)%num by [].
    have chk1 a : (a < q)%num -> x_check X a = true by move=> Ha; rewrite chkE; apply/N.ltb_spec0.
    have n16b : (x_n X <=? 16)%num = true by apply/N.leb_spec0.
    have M := mul_log_spec n (modulus n) n0 sm Im _ (z_prim n16) gen gen_spec X erefl w1 Ht.
    have D := div_log_spec n (modulus n) n0 sm Im _ (z_prim n16) gen gen_spec X erefl w1 Ht.
    do 6 (split; first by rewrite /=; try lia).
    split; [|split].
    + by move=> a b Ha Hb; rewrite /x_mul !chk1 //= n16b; apply: M.
    + by move=> a b Ha Hb b0; rewrite /x_div !chk1 //= n16b; apply: D.
    + move=> a Ha a0; rewrite /x_inv chk1 // n16b /x_div !chk1 //= n16b.
      by have := D 1%num a q2 Ha a0; rewrite phi_1 div1r.
  - move/N.eqb_spec => Em; rewrite Hfirst.
    eexists; split; first exact: erefl.
    set X := mkBinExt _ _ _ _ _ _ _ _ _ _.
    have chkE a : x_check X a = (a <? q)%num.
      rewrite /x_check /= Hcard; case: (is_restricted w n) => //.
      by case: N.leb_spec; case: N.ltb_spec => //; lia.
    have chk1 a : (a < q)%num -> x_check X a = true by move=> Ha; rewrite chkE; apply/N.ltb_spec0.
    have n16b : (x_n X <=? 16)%num = false by apply/N.leb_spec0; rewrite /=; lia.
    have n8 : exists g, n = (8 * g)%num /\ (2 <= g)%num.
      exists (n / 8)%num; move: nd n16; rewrite /dims /=; do ! (case=> [<-|]; first by []); by [].
    have M a b : (a < q)%num -> (b < q)%num -> exists r, x_mul X a b = Some r /\ (r < q)%num /\ ph r = ph a * ph b.
      move=> Ha Hb; rewrite /x_mul !chk1 //= n16b.
      have [r [-> Hr]] := mul_split_spec w n (modulus n) p n0 nw sm Em X erefl junk erefl n8 a b Ha Hb.
      by exists r; split=> //; move/(isv_phi n (modulus n) sm Im): Hr => [H1 H2]; split=> //; rewrite H2 rmorphM.
    have D a : (a < q)%num -> a <> 0%num -> exists r, inv_ext_gcd X a = Some r /\ (r < q)%num /\ ph r = (ph a)^-1.
      move=> Ha a0; rewrite /inv_ext_gcd /=.
      have [d [Ed _]] := deg_of_spec n _ Hmask a (k - 1) a0 ltac:(lia) ltac:(by rewrite (_ : (k - 1).+1 = k); [apply/P_size; rewrite kn|lia]).
      have [r [Er [Hr Pr]]] := inv_gcd_spec w n (modulus n) p n0 nw sm Im _ Hmask Em a a0 Ha d Ed.
      rewrite Ed; exists r; split; first exact: Er.
      split=> //; apply: (mulIf (phi_neq0 n (modulus n) n0 sm Im a Ha a0)).
      rewrite mulVf ?(phi_neq0 n (modulus n) n0 sm Im a Ha a0) //.
      by have E := pi_mod (modulus n) Im (P r * P a); rewrite Pr in E; rewrite /phi -rmorphM /= -E rmorph1.
    do 3 (split; first by []).
    rewrite /x_card_minus_one /= Hcard.
    have q4 : (2 ^ 2 <= q)%num by apply: N.pow_le_mono_r => //; lia.
    split; first by case: (is_restricted w n); lia.
    split; first by case: (is_restricted w n); lia.
    split; first by case: (is_restricted w n); lia.
    split; [|split].
    + exact: M.
    + move=> a b Ha Hb b0; rewrite /x_div !chk1 //= n16b.
      have [r [-> [Hr Pr]]] := D b Hb b0; have [s [-> [Hs Ps]]] := M a r Ha Hr.
      by exists s; rewrite Ps Pr.
    + by move=> a Ha a0; rewrite /x_inv chk1 //= n16b; apply: D.
Qed.
End C.
