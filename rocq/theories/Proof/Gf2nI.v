(** The moduli of gf_bin_ext.h are irreducible; X generates the multiplicative group of the fields with tables. *)
Set Warnings "-notation-overridden,-ambiguous-paths".
From Coq Require Import NArith.
From Coq Require List.
From mathcomp Require Import all_ssreflect ssralg poly polydiv zmodp.
From mathcomp Require Import zify.
From Verif.Spec Require Import Gf2n.
From Verif.Proof Require Import BitsP QuotF Rabin Gf2nA FinF RootP.
Import GRing.Theory.
Local Open Scope ring_scope.

Definition modulus (n : N) : N :=
  match n with
  | 1 => 0x3 | 2 => 0x7 | 3 => 0xb | 4 => 0x13 | 8 => 0x11d | 16 => 0x1100b
  | 32 => 0x10000008d | 64 => 0x1000000000000001b | 128 => 0x100000000000000000000000000000087 | _ => 0
  end%num.

Definition dims := [:: 1; 2; 3; 4; 8; 16; 32; 64; 128]%num.

Lemma P_modulus n : List.In n dims -> P (modulus n) = field_poly n.
Proof.
  pose x i := (2 ^ N.of_nat i)%num.
  have px i : P (x i) = 'X^i by exact: P_pow.
  case=> [<-|]; first by have -> : modulus 1 = N.lxor (x 1%N) (x 0%N) by []; rewrite /field_poly !P_xor !px ?expr0 ?expr1.
  case=> [<-|]; first by have -> : modulus 2 = N.lxor (N.lxor (x 2%N) (x 1%N)) (x 0%N) by []; rewrite /field_poly !P_xor !px ?expr0 ?expr1.
  case=> [<-|]; first by have -> : modulus 3 = N.lxor (N.lxor (x 3%N) (x 1%N)) (x 0%N) by []; rewrite /field_poly !P_xor !px ?expr0 ?expr1.
  case=> [<-|]; first by have -> : modulus 4 = N.lxor (N.lxor (x 4%N) (x 1%N)) (x 0%N) by []; rewrite /field_poly !P_xor !px ?expr0 ?expr1.
  case=> [<-|]; first by have -> : modulus 8 = N.lxor (N.lxor (N.lxor (N.lxor (x 8%N) (x 4%N)) (x 3%N)) (x 2%N)) (x 0%N) by []; rewrite /field_poly !P_xor !px ?expr0 ?expr1.
  case=> [<-|]; first by have -> : modulus 16 = N.lxor (N.lxor (N.lxor (N.lxor (x 16%N) (x 12%N)) (x 3%N)) (x 1%N)) (x 0%N) by []; rewrite /field_poly !P_xor !px ?expr0 ?expr1.
  case=> [<-|]; first by have -> : modulus 32 = N.lxor (N.lxor (N.lxor (N.lxor (x 32%N) (x 7%N)) (x 3%N)) (x 2%N)) (x 0%N) by []; rewrite /field_poly !P_xor !px ?expr0 ?expr1.
  case=> [<-|]; first by have -> : modulus 64 = N.lxor (N.lxor (N.lxor (N.lxor (x 64%N) (x 4%N)) (x 3%N)) (x 1%N)) (x 0%N) by []; rewrite /field_poly !P_xor !px ?expr0 ?expr1.
  case=> [<-|]; first by have -> : modulus 128 = N.lxor (N.lxor (N.lxor (N.lxor (x 128%N) (x 7%N)) (x 2%N)) (x 1%N)) (x 0%N) by []; rewrite /field_poly !P_xor !px ?expr0 ?expr1.
  by [].
Qed.

Lemma size_modulus n : List.In n dims -> size (P (modulus n)) = (N.to_nat n).+1.
Proof.
  move=> H; apply/eqP; rewrite eqn_leq; apply/andP; split.
  - by apply/P_size; do ! (case: H => [<-|H]; first by vm_compute); case: H.
  - rewrite ltnNge; apply/negP => /P_size; rewrite N2Nat.id; do ! (case: H => [<-|H]; first by vm_compute); case: H.
Qed.

Lemma irr_modulus n : List.In n dims -> irreducible_poly (P (modulus n)).
Proof.
  move=> H; have sz := size_modulus n H; move: H sz.
  case=> [<- sz|H].
    split; first by rewrite sz.
    move=> h h1 hf; rewrite -dvdp_size_eqp // eqn_leq dvdp_leq //=; last by rewrite -size_poly_eq0 sz.
    rewrite sz; case: (size h) (size_poly_eq0 h) h1 => [/esym/eqP h0|[|k]] //.
    by move: hf; rewrite h0 dvd0p -size_poly_eq0 sz.
  case: H => [<- sz|H]; first by apply: (rabin_comp _ _ sz 2 0 1); [by []|by []|by []|by vm_compute|by vm_compute|by vm_compute].
  case: H => [<- sz|H]; first by apply: (rabin_comp _ _ sz 3 0 3); [by []|by []|by []|by vm_compute|by vm_compute|by vm_compute].
  case: H => [<- sz|H]; first by apply: (rabin_comp _ _ sz 2 1 1); [by []|by []|by []|by vm_compute|by vm_compute|by vm_compute].
  case: H => [<- sz|H]; first by apply: (rabin_comp _ _ sz 2 2 69); [by []|by []|by []|by vm_compute|by vm_compute|by vm_compute].
  case: H => [<- sz|H]; first by apply: (rabin_comp _ _ sz 2 3 42719); [by []|by []|by []|by vm_compute|by vm_compute|by vm_compute].
  case: H => [<- sz|H]; first by apply: (rabin_comp _ _ sz 2 4 1569457270); [by []|by []|by []|by vm_compute|by vm_compute|by vm_compute].
  case: H => [<- sz|H]; first by apply: (rabin_comp _ _ sz 2 5 6037868468195985863); [by []|by []|by []|by vm_compute|by vm_compute|by vm_compute].
  case: H => [<- sz|H]; first by apply: (rabin_comp _ _ sz 2 6 210407306859290181404817842025723703320); [by []|by []|by []|by vm_compute|by vm_compute|by vm_compute].
  by case: H.
Qed.

Lemma irr_field_poly n : List.In n dims -> irreducible_poly (field_poly n).
Proof. by move=> H; rewrite -P_modulus //; apply: irr_modulus. Qed.
Lemma size_field_poly n : List.In n dims -> size (field_poly n) = (N.to_nat n).+1.
Proof. by move=> H; rewrite -P_modulus // size_modulus. Qed.

(** ** The generator *)
Lemma prime_dvd_prod (r : nat) (l : seq nat) : prime r -> all prime l -> (r %| \prod_(q <- l) q)%N -> r \in l.
Proof.
  move=> rp; elim: l => [|q l IH] /=; first by rewrite big_nil dvdn1 => _ /eqP r1; rewrite r1 in rp.
  case/andP => qp lp; rewrite big_cons Euclid_dvdM // in_cons => /orP [|D].
    by rewrite dvdn_prime2 // => ->.
  by rewrite IH // orbT.
Qed.

Lemma X_primitive_gen n (f : N) (sf : size (P f) = (N.to_nat n).+1) (I : irreducible_poly (P f)) (e : N) (l : seq nat) :
  e = (2 ^ n - 1)%num -> (1 < e)%num -> N.to_nat e = (\prod_(q <- l) q)%N -> all prime l ->
  all (fun q : nat => match (e / N.of_nat q)%num with N0 => false | Npos d => ~~ (ppow n f 2 d =? 1)%num end) l ->
  (N.to_nat e).-primitive_root (pi (Irr _ I) 'X).
Proof.
  move=> Ee e1 El lp Hl; set g := Irr _ I.
  have n2 : (2 <= n)%num by move: Ee e1; case: n {sf El Hl g I} => [|[p|p|]] //; lia.
  have c2 : (2 ^ 2 <= 2 ^ n)%num by apply: N.pow_le_mono_r.
  have two : (2 < 2 ^ N.of_nat (N.to_nat n))%num by rewrite N2Nat.id; lia.
  have H2 : isv (N.to_nat n) (P f) 'X 2%num.
    by have := isv_self _ _ sf _ two; rewrite (P_pow 1) expr1.
  have H1 : isv (N.to_nat n) (P f) 1 1%num.
    by have := isv_self _ _ sf 1%num ltac:(lia); rewrite P1.
  have x0 : pi g 'X != 0.
    rewrite pi_eq0 /=; apply/negP => /dvdp_leq; rewrite polyX_eq0 sf size_polyX => /(_ isT); lia.
  have cq : #|{: qf g}| = (N.to_nat e).+1.
    have pw : N.to_nat (2 ^ n) = (2 ^ N.to_nat n)%N.
      by rewrite N2Nat.inj_pow; elim: (N.to_nat n) => //= k IH; rewrite expnS -IH; lia.
    rewrite card_qf /= sf /= Ee -pw; move: (2 ^ n)%num c2 => c; lia.
  apply: prim_of_divisors; first lia.
  - have E : pi g 'X * pi g 'X ^+ N.to_nat e = pi g 'X by rewrite -exprS -cq; apply: expf_card.
    by apply: (mulfI x0); rewrite mulr1.
  - move=> r rp rd; have rl : r \in l by apply: prime_dvd_prod => //; rewrite -El.
    have := allP Hl _ rl; case D: (e / N.of_nat r)%num => [//|d] /negP N1.
    have r0 := prime_gt0 rp.
    have -> : (N.to_nat e %/ r)%N = Pos.to_nat d.
      rewrite -[r]Nat2N.id -N_div_divn; [by rewrite D|lia|].
      by apply/N_divide_dvdn; rewrite Nat2N.id.
    apply/negP => /eqP E; apply: N1; apply/N.eqb_spec.
    have F := ppow_spec _ _ sf _ _ d H2; rewrite N2Nat.id in F.
    apply: (isv_uniq _ _ _ _ _ F); apply: isv_eq H1.
    have := lift_pi g ('X ^+ Pos.to_nat d); rewrite rmorphX /= E => <-.
    by have := lift_pi g 1; rewrite rmorph1 /= => ->.
Qed.

Definition gen_ok n := List.In n [:: 2; 3; 4; 8; 16]%num.
Lemma gen_dims n : gen_ok n -> List.In n dims.
Proof. rewrite /gen_ok /dims /=; tauto. Qed.

Lemma X_primitive n (H : gen_ok n) (I : irreducible_poly (P (modulus n))) :
  (N.to_nat (2 ^ n - 1)).-primitive_root (pi (Irr _ I) 'X).
Proof.
  have sz := size_modulus n (gen_dims n H); move: H I sz.
  have mulE (a : N) (l : seq nat) : a = foldr (fun q p => (N.of_nat q * p)%num) 1%num l -> N.to_nat a = (\prod_(q <- l) q)%N.
    move=> ->; elim: l => [|q l IH]; first by rewrite big_nil.
    by rewrite big_cons /= N2Nat.inj_mul IH Nat2N.id.
  case=> [<-|[<-|[<-|[<-|[<-|[]]]]]] I sz.
  - refine (X_primitive_gen 2%num _ sz I (2 ^ 2 - 1)%num [:: 3%N] erefl _ _ _ _);
      [by []|by apply: mulE; vm_compute|by vm_compute|by vm_compute].
  - refine (X_primitive_gen 3%num _ sz I (2 ^ 3 - 1)%num [:: 7%N] erefl _ _ _ _);
      [by []|by apply: mulE; vm_compute|by vm_compute|by vm_compute].
  - refine (X_primitive_gen 4%num _ sz I (2 ^ 4 - 1)%num [:: 3%N; 5%N] erefl _ _ _ _);
      [by []|by apply: mulE; vm_compute|by vm_compute|by vm_compute].
  - refine (X_primitive_gen 8%num _ sz I (2 ^ 8 - 1)%num [:: 3%N; 5%N; 17%N] erefl _ _ _ _);
      [by []|by apply: mulE; vm_compute|by vm_compute|by vm_compute].
  - refine (X_primitive_gen 16%num _ sz I (2 ^ 16 - 1)%num [:: 3%N; 5%N; 17%N; 257%N] erefl _ _ _ _);
      [by []|by apply: mulE; vm_compute|by vm_compute|by vm_compute].
Qed.
