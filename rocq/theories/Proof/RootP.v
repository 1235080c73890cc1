(** Primitive roots, orders and n-th roots (gf_ring.h:601-822), for every field presented by the model. *)
Set Warnings "-notation-overridden,-ambiguous-paths".
From Coq Require Import NArith ZArith.
From Coq Require List.
From mathcomp Require Import all_ssreflect fingroup ssralg poly cyclic zmodp finalg.
From mathcomp Require Import zify.
From Verif.Model Require Import Common Arith Ring Fft2n.
From Verif.Spec Require Import Primes.
From Verif.Proof Require Import ArithP EgcdP PrimeP Pres FieldP.
Import GRing.Theory.
Local Open Scope ring_scope.

(** An element with x^n = 1 and x^(n/q) <> 1 for the primes q dividing n has order n. *)
Lemma prim_of_divisors (R : fieldType) (x : R) n : (0 < n)%N -> x ^+ n = 1 ->
  (forall q, prime q -> (q %| n)%N -> x ^+ (n %/ q) != 1) -> n.-primitive_root x.
Proof.
move=> Hn Hx H; have [m Hm Dm] := prim_order_exists Hn Hx.
have m0 := prim_order_gt0 Hm.
case: (ltngtP (n %/ m) 1) => Hq.
- by have := dvdn_leq Hn Dm; move: Hq; rewrite ltnNge divn_gt0 // => /negbTE->.
- have [q qp qd] := pdivP Hq.
  have qn : (q %| n)%N by apply: dvdn_trans qd (dvdn_div Dm) .
  case/eqP: (H q qp qn); apply/eqP; rewrite -(prim_order_dvd Hm).
  have q0 := prime_gt0 qp.
  have [c Hc] := dvdnP qd; have E : n = (c * q * m)%N by rewrite -Hc divnK.
  by rewrite E mulnAC mulnK // dvdn_mull.
- suff -> : n = m by [].
  by rewrite -(divnK Dm) Hq mul1n.
Qed.

Lemma prim_one (R : ringType) : 1.-primitive_root (1 : R).
Proof. by have [m Hm] := prim_order_exists (isT : (0 < 1)%N) (expr1 (1 : R)); rewrite dvdn1 => /eqP <-. Qed.

Lemma N_divide_dvdn a b : N.divide a b <-> (N.to_nat a %| N.to_nat b)%N.
Proof.
split; first by move=> [c ->]; rewrite N2Nat.inj_mul; apply/dvdnP; exists (N.to_nat c); lia.
by move/dvdnP => [c Hc]; exists (N.of_nat c); lia.
Qed.

Lemma N_div_divn a b : b <> 0%num -> N.divide b a -> N.to_nat (a / b) = (N.to_nat a %/ N.to_nat b)%N.
Proof.
by move=> H [c ->]; rewrite N.div_mul // N2Nat.inj_mul multE mulnK //; lia.
Qed.

Section Root.
Variables (F : fieldType) (G : gfops) (phi : N -> F).
Hypothesis P : gf_pres F G phi.
Let q := g_card G.
Let h := (q - 1)%num.
Hypothesis fermat : forall a, gvalid G a -> a <> 0%num -> phi a ^+ N.to_nat h = 1.
Variable hw : N.
Hypothesis hw0 : (0 < hw)%num.
Hypothesis hq : (q <= 2 ^ (2 * hw))%num.

Let q2 : (1 < q)%num.
Proof. exact: (gp_card _ _ _ P). Qed.
Let v0 : gvalid G 0%num.
Proof. by rewrite /gvalid -/q; lia. Qed.
Let v1 : gvalid G 1%num.
Proof. exact: q2. Qed.

Lemma gexp_eq1 a e : gvalid G a -> (e < q)%num -> (g_exp G a e =? 1)%num = (phi a ^+ N.to_nat e == 1).
Proof.
move=> Ha He; have [H1 H2] := gp_exp _ _ _ P a e Ha He.
apply/idP/idP.
  by move/N.eqb_spec => E; rewrite -H2 E (gp_1 _ _ _ P).
by move/eqP => E; apply/N.eqb_spec; apply: (gp_inj _ _ _ P) => //; rewrite H2 E (gp_1 _ _ _ P).
Qed.

Lemma phi_nz a : gvalid G a -> a <> 0%num -> phi a != 0.
Proof. by move=> Ha H0; apply/eqP => E; apply: H0; apply: (gp_inj _ _ _ P) => //; rewrite E (gp_0 _ _ _ P). Qed.

(** Primitive elements exist. *)
Lemma prim_exists : exists a, [/\ gvalid G a, a <> 0%num & (N.to_nat h).-primitive_root (phi a)].
Proof.
pose rs := [seq phi (N.of_nat i) | i <- iota 1 (N.to_nat h)].
have Hv : forall i, i \in iota 1 (N.to_nat h) -> gvalid G (N.of_nat i) /\ N.of_nat i <> 0%num.
  by move=> i; rewrite mem_iota /gvalid -/q /h => Hi; split; lia.
have : has (N.to_nat h).-primitive_root rs.
  apply: has_prim_root; first by rewrite /h; lia.
  - apply/allP => x /mapP[i Hi ->]; have [Va Vb] := Hv i Hi.
    by apply/unity_rootP; apply: fermat.
  - rewrite map_inj_in_uniq ?iota_uniq // => i j Hi Hj E.
    have [Va _] := Hv i Hi; have [Vb _] := Hv j Hj.
    have := gp_inj _ _ _ P _ _ Va Vb E; lia.
  - by rewrite size_map size_iota.
case/hasP => x /mapP[i Hi ->] Hx; have [Va Vb] := Hv i Hi.
by exists (N.of_nat i).
Qed.

(** The test of [is_primitive_root] on the proper divisors of [h] decides primitivity, for elements above 1. *)
Lemma is_primitive_root_spec ps a : (1 < h)%num -> gvalid G a -> (1 < a)%num ->
  (forall p, List.In p ps <-> primeN p /\ N.divide p h) ->
  is_primitive_root G (get_proper_divisors_of h ps) a = true <-> (N.to_nat h).-primitive_root (phi a).
Proof.
move=> h1 Ha H1 Hps; rewrite /is_primitive_root List.forallb_forall.
have hE : (0 < N.to_nat h)%N by lia.
have Hdiv : forall d, List.In d (get_proper_divisors_of h ps) <-> exists p, [/\ primeN p, (p < h)%num & h = (d * p)%num].
  move=> d; rewrite /get_proper_divisors_of List.in_flat_map; split.
  - case=> p [/Hps[Pp Dp]]; case: N.ltb_spec => // Hl [<-|//]; exists p; split=> //.
    have p0 : p <> 0%num by case: Pp; lia.
    by move/(proj2 (N.mod_divide _ _ p0)): Dp => M; rewrite {1}(N.div_mod h p p0) M; lia.
  - case=> p [Pp Hl E]; exists p; split; first by apply/Hps; split=> //; exists d; lia.
    have p0 : p <> 0%num by case: Pp; lia.
    by move/N.ltb_spec0: Hl => ->; left; rewrite E N.div_mul.
split.
- move=> H; apply: prim_of_divisors => //; first by apply: fermat => //; lia.
  move=> r rp rd; pose p := N.of_nat r.
  have Pp : primeN p by apply/primeN_prime; rewrite /p Nat2N.id.
  have Dp : N.divide p h by apply/N_divide_dvdn; rewrite /p Nat2N.id.
  have p0 : p <> 0%num by case: Pp; lia.
  have [d Ed] := Dp.
  have En : (N.to_nat h %/ r)%N = N.to_nat d.
    rewrite -{1}(Nat2N.id r) -/p -N_div_divn //; by rewrite Ed N.div_mul.
  rewrite En; case: (N.ltb_spec p h) => Hl.
  + have Hin : List.In d (get_proper_divisors_of h ps) by apply/Hdiv; exists p.
    have dq : (d < q)%num by move: Ed Hl; rewrite /h; nia.
    by move: (H d Hin); rewrite gexp_eq1.
  + have E1 : d = 1%num by move: Ed Hl h1; nia.
    rewrite E1 expr1; apply/eqP => E.
    have := gp_inj _ _ _ P a 1%num Ha v1; rewrite E (gp_1 _ _ _ P) => /(_ erefl); lia.
- move=> Hp d /Hdiv[p [Pp Hl E]].
  have dh : (d < h)%num by case: Pp => Pp _; move: E Hl; nia.
  rewrite gexp_eq1 //; last by rewrite -/q; move: dh; rewrite /h; lia.
  rewrite -(prim_order_dvd Hp); apply/negP => /dvdn_leq; move: E Hl; lia.
Qed.

Lemma find_root_loop_spec ps : (1 < h)%num ->
  (forall p, List.In p ps <-> primeN p /\ N.divide p h) ->
  forall fuel nb a, (1 < nb)%num -> gvalid G a -> (nb <= a)%num -> (N.to_nat h).-primitive_root (phi a) ->
  (N.to_nat a < fuel + N.to_nat nb)%N ->
  exists r, [/\ find_root_loop fuel G (get_proper_divisors_of h ps) h nb = Some r, gvalid G r, (nb <= r <= a)%num,
      (N.to_nat h).-primitive_root (phi r) & forall b, (nb <= b)%num -> (b < r)%num -> ~ (N.to_nat h).-primitive_root (phi b)].
Proof.
move=> h1 Hps; elim=> [|f IH] nb a H1 Ha Hle Pa Hf; first lia.
rewrite /=; case: N.leb_spec => Hn; last by move: Ha; rewrite /gvalid -/q; move: Hn; rewrite /h; lia.
have Hnb : gvalid G nb by rewrite /gvalid -/q; move: Hn; rewrite /h; lia.
case E: (is_primitive_root _ _ _).
- exists nb; split=> //; first lia; last by move=> b; lia.
  exact/(is_primitive_root_spec ps nb h1 Hnb H1 Hps).
- have Hne : nb <> a.
    by move=> Ea; move: E; rewrite Ea; move/(is_primitive_root_spec ps a h1 Ha ltac:(lia) Hps): Pa => ->.
  have [r [R1 R2 R3 R4 R5]] := IH (nb + 1)%num a ltac:(lia) Ha ltac:(lia) Pa ltac:(lia).
  exists r; split=> //; first lia.
  move=> b B1 B2; case: (N.eq_dec b nb) => [->|Hb]; last by apply: R5; lia.
  by move/(is_primitive_root_spec ps nb h1 Hnb H1 Hps); rewrite E.
Qed.

Theorem find_primitive_root_spec : exists r,
  [/\ find_primitive_root (2 * hw) G = Some r, gvalid G r, r <> 0%num & (N.to_nat h).-primitive_root (phi r)].
Proof.
rewrite /find_primitive_root -/q -/h; case: N.eqb_spec => Eh.
  exists 1%num; split=> //; rewrite Eh (gp_1 _ _ _ P).
  exact: prim_one.
have [fs [E FF]] := factor_prime_spec hw hw0 h ltac:(rewrite /h; lia) ltac:(rewrite /h; lia).
rewrite E.
have h1 : (1 < h)%num by rewrite /h in Eh *; lia.
have Hps : forall p, List.In p (List.map fst fs) <-> primeN p /\ N.divide p h.
  have [l [E1 [_ Hl]]] := factor_distinct_prime_spec hw hw0 h ltac:(rewrite /h; lia) ltac:(rewrite /h; lia).
  by move: E1; rewrite /factor_distinct_prime E /= => -[->].
have [a [Va Na Pa]] := prim_exists.
have a1 : (1 < a)%num.
  case: (N.eq_dec a 1) => [E1|]; last lia.
  move: Pa; rewrite E1 (gp_1 _ _ _ P) => /prim_order_dvd/(_ 1%N); rewrite expr1 eqxx dvdn1 => /eqP; lia.
have [r [R1 R2 R3 R4 R5]] := find_root_loop_spec (List.map fst fs) h1 Hps (N.to_nat h) 2 a ltac:(lia) Va ltac:(lia) Pa
  ltac:(move: Va; rewrite /gvalid -/q /h; lia).
by exists r; split=> //; lia.
Qed.

(** ** n-th roots *)
Theorem get_nth_root_spec r n : gvalid G r -> (N.to_nat h).-primitive_root (phi r) -> n <> 0%num ->
  gvalid G (get_nth_root G r n) /\ (N.to_nat (N.gcd n h)).-primitive_root (phi (get_nth_root G r n)).
Proof.
move=> Vr Pr Hn; rewrite /get_nth_root -/q -/h gcd_spec.
have h0 : h <> 0%num by rewrite /h; lia.
have Dg := N.gcd_divide_r n h; have [c Hc] := Dg.
have g0 : N.gcd n h <> 0%num by move=> E; rewrite E in Hc; lia.
have Ed : (h / N.gcd n h = c)%num by rewrite {1}Hc N.div_mul.
have ch : (c <= h)%num by move: Hc g0; move: (N.gcd n h) => g; clear; nia.
have cq : (c < q)%num by move: ch; rewrite /h; lia.
rewrite Ed; have [E1 E2] := gp_exp _ _ _ P r c Vr cq.
split=> //; rewrite E2.
have E : (N.to_nat (N.gcd n h) = N.to_nat h %/ gcdn (N.to_nat c) (N.to_nat h))%N.
  have Ec : gcdn (N.to_nat c) (N.to_nat h) = N.to_nat c.
    by apply/gcdn_idPl; rewrite Hc N2Nat.inj_mul multE dvdn_mulr.
  rewrite Ec {2}Hc N2Nat.inj_mul multE mulKn //; move: Hc h0; case: (c) => //=; lia.
by rewrite E; apply: exp_prim_root.
Qed.

(** ** Orders *)
Lemma do_step_get_order_spec x : gvalid G x -> x <> 0%num -> forall fuel l H c,
  (N.to_nat (List.fold_right (fun pe acc => snd pe + acc) 0 l)%num < fuel)%N ->
  List.Forall (fun pe => primeN (fst pe) /\ (0 < snd pe)%num) l ->
  H = (prod_powers l * c)%num -> H <> 0%num -> (H <= h)%num -> phi x ^+ N.to_nat H = 1 ->
  (forall p, primeN p -> N.divide p c -> phi x ^+ N.to_nat (H / p) != 1) ->
  exists o, do_step_get_order fuel G x H l = Some o /\ (N.to_nat o).-primitive_root (phi x).
Proof.
move=> Vx X0; elim=> [|f IH] l H c Hf Hl HH H0 Hh Hx Hc; first lia.
case: l Hf Hl HH => [|[p r] l] /= Hf Hl HH.
- exists H; split=> //; apply: prim_of_divisors; [lia|by []|].
  move=> t tp td; pose p := N.of_nat t.
  have Pp : primeN p by apply/primeN_prime; rewrite /p Nat2N.id.
  have Dp : N.divide p H by apply/N_divide_dvdn; rewrite /p Nat2N.id.
  have p0 : p <> 0%num by case: Pp; lia.
  have := Hc p Pp; rewrite N_div_divn // /p Nat2N.id; apply.
  have -> : c = H by rewrite HH; case: (c).
  exact: Dp.
- have [Pp R0] := List.Forall_inv Hl; have Hl' := List.Forall_inv_tail Hl.
  move: Pp R0 => /= Pp R0; have p1 : (1 < p)%num by case: Pp.
  have rE : (p ^ r = p * p ^ (r - 1))%num by rewrite -N.pow_succ_r'; congr N.pow; lia.
  have DH : H = (p * (p ^ (r - 1) * prod_powers l * c))%num.
    by rewrite HH /prod_powers /= rE; ring.
  have Eh : (H / p = p ^ (r - 1) * prod_powers l * c)%num by rewrite DH N.mul_comm N.div_mul //; lia.
  have Dd : H = (p * (H / p))%num by rewrite Eh.
  have Hp0 : (H / p)%num <> 0%num by move=> E; rewrite E in Dd; lia.
  have Hlt : (H / p < H)%num by rewrite {2}Dd; nia.
  rewrite gexp_eq1 //; last by rewrite -/q; move: Hh; rewrite /h; lia.
  case: eqP => E1 /=.
  + (* the quotient still gives 1 *)
    have Hc' : forall t, primeN t -> N.divide t c -> phi x ^+ N.to_nat (H / p / t) != 1.
      move=> t Pt Dt; apply/negP => /eqP E; move: (Hc t Pt Dt).
      have t0 : t <> 0%num by case: Pt; lia.
      have Dt' : N.divide t (H / p) by rewrite Eh; apply: N.divide_mul_r.
      have [u Hu] := Dt'.
      have -> : (H / t = p * (H / p / t))%num.
        by rewrite Hu N.div_mul // {1}Dd Hu N.mul_assoc N.div_mul.
      by rewrite N2Nat.inj_mul multE mulnC exprM E expr1n eqxx.
    case: N.ltb_spec => Hr.
    * apply: (IH ((p, r - 1)%num :: l)%list (H / p)%num c) => //=; try lia.
      by constructor=> //=; split=> //; lia.
    * apply: (IH l (H / p)%num c) => //; try lia.
      by rewrite Eh (_ : r - 1 = 0)%num; [rewrite N.pow_0_r N.mul_1_l|lia].
  + apply: (IH l H (p ^ r * c)%num) => //; try lia.
    move=> t Pt Dt; case: (prime_divides_mul _ _ _ Pt Dt) => Dt'; last exact: Hc.
      have Tp : N.divide t p by apply: prime_divides_pow Pt Dt'.
      case: Pp => _ /(_ _ Tp)[T1|T1]; first by case: Pt; lia.
      by rewrite T1; apply/eqP.
Qed.

Theorem get_order_spec x : gvalid G x -> x <> 0%num ->
  exists o, get_order (2 * hw) G x = Some o /\ (N.to_nat o).-primitive_root (phi x).
Proof.
move=> Vx X0; rewrite /get_order.
have -> : (x =? 0)%num = false by apply/negbTE/negP => /N.eqb_spec.
rewrite orFb; case: N.eqb_spec => X1.
  exists 1%num; split=> //; rewrite X1 (gp_1 _ _ _ P).
  exact: prim_one.
rewrite -/q -/h.
have h0 : h <> 0%num by rewrite /h; lia.
have [fs [E FF]] := factor_prime_spec hw hw0 h h0 ltac:(rewrite /h; lia).
rewrite E.
have Efold : forall l, List.fold_right (fun (pe : N * N) acc => snd pe + acc)%num 0%num (List.rev l) =
              List.fold_right (fun (pe : N * N) acc => snd pe + acc)%num 0%num l.
  move=> l; elim: l => [//|a l IH] /=; rewrite List.fold_right_app /= N.add_0_r.
  have X : forall z l', List.fold_right (fun (pe : N * N) acc => snd pe + acc)%num z l' =
     (List.fold_right (fun (pe : N * N) acc => snd pe + acc)%num 0%num l' + z)%num.
    by move=> z; elim=> [|b l' IH'] /=; [lia|rewrite IH'; lia].
  by rewrite X IH; lia.
have Eprod : forall l, prod_powers (List.rev l) = prod_powers l.
  by elim=> [//|a l IH]; rewrite /= prod_powers_app IH {2}/prod_powers /=; rewrite -/(prod_powers l) N.mul_1_r N.mul_comm.
have [_ [Ffs Pfs]] := FF.
have [||||||o [Eo Ho]] := do_step_get_order_spec x Vx X0 (S (N.to_nat (List.fold_right (fun pe acc => snd pe + acc)%num 0%num fs)))
   (List.rev fs) h 1%num _ _ _ h0.
- by rewrite Efold.
- exact: List.Forall_rev.
- by rewrite Eprod Pfs N.mul_1_r.
- lia.
- exact: fermat.
- move=> p Pp /N.divide_1_r E1; case: Pp; lia.
rewrite Eo; exists o; split=> //; case: N.eqb_spec => // Eo1.
move: Ho; rewrite Eo1 => /prim_expr_order; rewrite expr1 => E1.
by case: X1; apply: (gp_inj _ _ _ P) => //; rewrite E1 (gp_1 _ _ _ P).
Qed.

End Root.
