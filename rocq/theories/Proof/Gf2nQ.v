(** Inversion by the extended Euclidean algorithm (gf_bin_ext.h:538-582) and tables of logarithms (251-266, 405-421, 469-487). *)
Set Warnings "-notation-overridden,-ambiguous-paths".
From Coq Require Import NArith ZArith.
From Coq Require List.
From Verif.Model Require Import Common Arith Ring Gf2n.
From Verif.Proof Require Import Gf2nT ListP.
From mathcomp Require Import all_ssreflect ssralg poly polydiv zmodp.
From mathcomp Require Import zify.
From Verif.Spec Require Import Gf2n.
From Verif.Proof Require Import BitsP QuotF Rabin Gf2nA Gf2nI FinF RootP Gf2nP.
Import GRing.Theory.
Local Open Scope ring_scope.
Notation wrap := Common.wrap.

Lemma lead_F2 (p : {poly 'F_2}) d : size p = d.+1 -> p`_d = 1.
Proof.
  move=> sp; have := lead_coef_eq0 p; rewrite lead_coefE sp /= -size_poly_eq0 sp /=.
  by case: (p`_d) => -[|[|//]] E //= _; apply/val_inj.
Qed.
Lemma size_cancel (p r : {poly 'F_2}) d : size p = d.+1 -> size r = d.+1 -> (size (p + r)%R <= d)%N.
Proof.
  move=> sp sr; apply/leq_sizeP => i; rewrite leq_eqVlt => /orP [/eqP <-|Hi].
    by rewrite coefD !lead_F2 //; apply/val_inj.
  by rewrite coefD !nth_default ?addr0 // ?sp ?sr.
Qed.
Lemma size1_F2 (p : {poly 'F_2}) : size p = 1%N -> p = 1.
Proof.
  move=> sp; have := lead_F2 _ _ sp => c; apply/polyP => -[|i]; rewrite coef1 //= nth_default // sp //.
Qed.
Lemma size_P_log a d : a <> 0%num -> size (P a) = d.+1 <-> N.log2 a = N.of_nat d.
Proof.
  move=> a0; have L : size (P a) = (N.to_nat (N.log2 a)).+1.
    apply/eqP; rewrite eqn_leq; apply/andP; split.
    - by apply/P_size; rewrite Nat2N.inj_succ N2Nat.id; case: (N.log2_spec a); lia.
    - by rewrite ltnNge; apply/negP => /P_size; rewrite N2Nat.id; case: (N.log2_spec a); lia.
  rewrite L; split; lia.
Qed.
Lemma P_eq0 a : P a = 0 -> a = 0%num.
Proof. by rewrite -P0; apply: P_inj. Qed.

Lemma size_Xn_mul (p : {poly 'F_2}) j : p != 0 -> size ('X^j * p) = (j + size p)%N.
Proof. by move=> p0; rewrite size_monicM ?monicXn // size_polyXn. Qed.

Section S.
Variables (w n : N) (m prim : N).
Notation k := (N.to_nat n).
Hypothesis n0 : (0 < n)%num.
Hypothesis nw : (n <= w)%num.
Hypothesis sm : size (P m) = k.+1.
Hypothesis Im : irreducible_poly (P m).
Notation isv := (isv k (P m)).
Notation q := (2 ^ n)%num.

Lemma one_isv : isv 1 1%num.
Proof. by rewrite -P1; apply: isv_self => //; rewrite kn; have := N.pow_le_mono_r 2 1 n; lia. Qed.
Lemma q_nat : (0 < q)%num. Proof. by have := N.pow_nonzero 2 n; lia. Qed.

(** ** Degrees *)
Variable mask : list N.
Hypothesis Hmask : forall i, (i < k)%N -> List.nth_error mask i = Some (2 ^ N.of_nat i)%num.

Lemma deg_of_spec a d : a <> 0%num -> (d < k)%N -> (size (P a) <= d.+1)%N ->
  exists e, deg_of mask a d = Some e /\ size (P a) = e.+1 /\ (e <= d)%N.
Proof.
  move=> a0; elim: d => [|d IH] Hd Hs; cbn [deg_of]; rewrite Hmask // N.land_comm land_pow2.
  - have s1 : size (P a) = 1%N.
      by case: (size (P a)) Hs (size_poly_eq0 (P a)) => [|[]] // _ /esym/eqP/P_eq0.
    exists 0%N; have := coefP a 0; rewrite (lead_F2 _ _ s1); case: (N.testbit _ _) => //.
  - case: ifP => [/negbTE B|/negbFE B]; last first.
    + exists d.+1; split=> //; split=> //; apply/eqP; rewrite eqn_leq Hs /= ltnNge; apply/negP => /leq_sizeP/(_ d.+1 (leqnn _)).
      by rewrite coefP B => /(congr1 val).
    + have [] := IH (ltnW Hd).
        apply/leq_sizeP => i; rewrite leq_eqVlt => /orP [/eqP <-|Hi]; first by rewrite coefP B.
        by rewrite nth_default //; apply: leq_trans Hs _.
      by move=> e [E1 [E2 E3]]; exists e; split=> //; split=> //; apply: leqW.
Qed.

Hypothesis Em : m = N.lxor (2 ^ n) prim.
Notation two := (mul_by_two w (2 ^ (n - 1)) prim).
Notation tsp := (two_spec w n m prim n0 nw sm Em).
Notation ssp := (shift_spec w n m prim n0 nw sm Em).

Lemma isv_exact (p : {poly 'F_2}) v : (size p <= k)%N -> isv p v -> P v = p.
Proof. by move=> sp [_ ->]; rewrite modp_small // sm. Qed.

Variable x : N.
Hypothesis x0 : x <> 0%num.
Hypothesis xq : (x < q)%num.

Definition good (r : N) : Prop := (r < q)%num /\ (P r * P x) %% P m = 1.

Lemma gcd_loop fuel : forall ua ub ga gb da db,
  ub <> 1%num -> size (P ua) = da.+1 -> size (P ub) = db.+1 -> (da < k)%N -> (db < k)%N ->
  (ga < q)%num -> (gb < q)%num -> isv (P ga * P x) ua -> isv (P gb * P x) ub ->
  coprimep (P ua) (P ub) -> (da + db <= fuel)%N ->
  exists r, inv_gcd_loop two mask (k - 1) fuel ua ub ga gb da db = Some r /\ good r.
Proof.
  elim: fuel => [|f IH] ua ub ga gb da db ub1 sa sb dak dbk gaq gbq Ha Hb cop Hf; rewrite /=.
  - case: N.eqb_spec => [E|]; first by exists ga; split=> //; split=> //; case: Ha => _; rewrite E P1 => <-.
    by case; apply: P_inj; rewrite P1; apply: size1_F2; rewrite sa; lia.
  - case: N.eqb_spec => [E|ua1]; first by exists ga; split=> //; split=> //; case: Ha => _; rewrite E P1 => <-.
    have step : forall ua ub ga gb da db, ub <> 1%num -> size (P ua) = da.+1 -> size (P ub) = db.+1 -> (da < k)%N -> (db <= da)%N ->
        (ga < q)%num -> (gb < q)%num -> isv (P ga * P x) ua -> isv (P gb * P x) ub -> coprimep (P ua) (P ub) -> (da + db <= f.+1)%N ->
        exists r, match deg_of mask (N.lxor ua (shift_left two ub (Nat.sub da db))) (k - 1), deg_of mask ub (k - 1) with
           | Some da', Some db' => inv_gcd_loop two mask (k - 1) f (N.lxor ua (shift_left two ub (Nat.sub da db))) ub
                 (N.lxor ga (shift_left two gb (Nat.sub da db))) gb da' db'
           | _, _ => None end = Some r /\ good r.
      move=> {ub1 sa sb dak dbk gaq gbq Ha Hb cop Hf ua1} {}ua {}ub {}ga {}gb {}da {}db ub1 sa sb dak dba gaq gbq Ha Hb cop Hf.
      set j := Nat.sub da db.
      have Vb0 : P ub != 0 by rewrite -size_poly_eq0 sb.
      have sj : size ('X^j * P ub) = da.+1 by rewrite size_Xn_mul // sb /j; lia.
      have Eb : P (shift_left two ub j) = 'X^j * P ub.
        have self : isv (P ub) ub by apply: isv_self => //; rewrite kn; case: Hb; rewrite kn.
        by apply: isv_exact; [rewrite sj|apply: ssp].
      have Eu : P (N.lxor ua (shift_left two ub j)) = P ua + 'X^j * P ub by rewrite P_xor Eb.
      have su : (size (P ua + 'X^j * P ub)%R <= da)%N by apply: size_cancel.
      have u0 : N.lxor ua (shift_left two ub j) <> 0%num.
        move=> E; move: Eu; rewrite E P0 => /esym/eqP; rewrite addr_eq0 oppP => /eqP E'.
        have : P ub %| P ua by rewrite E' dvdp_mull // dvdpp.
        rewrite -[X in X -> _]/(is_true _) => D; move: cop; rewrite coprimep_sym coprimep_def.
        have := dvdp_gcd_idl D; move=> /eqp_size ->; rewrite sb => /eqP [d0]; apply: ub1; apply: P_inj.
        by rewrite P1; apply: size1_F2; rewrite sb d0.
      have Hlt : (k - 1 < k)%N by lia.
      have [da' [-> [sa' _]]] := deg_of_spec _ (k - 1) u0 Hlt ltac:(rewrite Eu; apply: leq_trans su _; lia).
      have [db' [-> [sb' _]]] := deg_of_spec ub (k - 1) (fun E => negP Vb0 (introT eqP (etrans (congr1 P E) P0))) Hlt ltac:(rewrite sb; lia).
      have db_eq : db' = db by move: sb'; rewrite sb => -[].
      rewrite db_eq.
      have gg : isv (P ga + 'X^j * P gb) (N.lxor ga (shift_left two gb j)).
        have sa1 : isv (P ga) ga by apply: isv_self => //; rewrite kn.
        have sb1 : isv (P gb) gb by apply: isv_self => //; rewrite kn.
        by apply: isv_xor => //; apply: ssp.
      have da'l : (da' < da)%N by rewrite -sa' Eu.
      apply: IH => //.
      + lia.
      + lia.
      + by case: gg; rewrite kn.
      + case: gg => _ ->; apply: (isv_eq _ _ (P ga * P x + 'X^j * (P gb * P x))).
          by rewrite mulrA -mulrDl [in RHS]mulrC modp_mul mulrC.
        by apply: isv_xor => //; apply: ssp.
      + rewrite Eu; rewrite coprimep_sym addrC coprimep_addl_mul coprimep_sym //.
      + lia.
    case: (Nat.ltb_spec da db) => Hd.
    + by apply: step => //; [lia|rewrite coprimep_sym|lia].
    + by apply: step => //; lia.
Qed.

Theorem inv_gcd_spec d : deg_of mask x (k - 1) = Some d ->
  exists r, inv_gcd_loop two mask (k - 1) (2 * k + 1) x 0 1 0 d k = Some r /\ good r.
Proof.
  move=> Hd; have k0 : (0 < k)%N by lia.
  have sx : (size (P x) <= k)%N by apply/P_size; rewrite kn.
  have [e [E1 [sd ed]]] := deg_of_spec x (k - 1) x0 ltac:(lia) ltac:(by rewrite (_ : (k - 1).+1 = k) //; lia).
  move: E1; rewrite Hd => -[?]; subst e.
  rewrite (_ : (2 * k + 1)%N = (2 * k).+1); last by lia.
  rewrite /=; case: N.eqb_spec => [E|x1].
    exists 1%num; split=> //; split; first by case: one_isv; rewrite kn.
    by rewrite E P1 mulr1 modp_small // sm size_poly1.
  have -> : Nat.ltb d k = true by apply/Nat.ltb_spec0; lia.
  set j := Nat.sub k d; rewrite !N.lxor_0_l.
  have self : isv (P x) x by apply: isv_self => //; rewrite kn.
  have Hu : isv ('X^j * P x) (shift_left two x j) by apply: ssp.
  have Hg : isv 'X^j (shift_left two 1 j) by have := ssp _ _ j one_isv; rewrite mulr1.
  have Px0 : P x != 0 by apply/eqP => /P_eq0.
  have sj : size ('X^j * P x) = k.+1 by rewrite size_Xn_mul // sd /j; lia.
  have Eu : P (shift_left two x j) = 'X^j * P x + P m.
    case: Hu => _ ->; rewrite -[in LHS](addrK (P m) ('X^j * P x)) oppP modpD modpp addr0 modp_small //.
    by rewrite sm ltnS; apply: size_cancel.
  have cop : coprimep (P m) (P x).
    rewrite coprimep_def; case: (altP (size (gcdp (P m) (P x)) =P 1%N)) => // n1.
    have [_ /(_ _ n1 (dvdp_gcdl _ _)) E] := Im.
    have : P m %| P x by rewrite -(eqp_dvdl _ E) dvdp_gcdr.
    by move/dvdp_leq => /(_ Px0); rewrite sm => H; have := leq_trans H sx; rewrite ltnn.
  have copu : coprimep ('X^j * P x + P m) (P x) by rewrite coprimep_sym coprimep_addl_mul coprimep_sym.
  have sx1 : size (P x) <> 1%N by move=> /size1_F2; rewrite -P1 => /P_inj.
  have u0 : shift_left two x j <> 0%num.
    move=> E; move: copu; rewrite -Eu E P0 coprimep_sym coprimep0 => /eqp_size; rewrite size_poly1; exact: sx1.
  have Hlt : (k - 1 < k)%N by lia.
  have ssu : (size (P (shift_left two x j)) <= k)%N by apply/P_size; case: Hu; rewrite kn.
  have [da [-> [sa la]]] := deg_of_spec _ (k - 1) u0 Hlt ltac:(by rewrite (_ : (k - 1).+1 = k) //; lia).
  rewrite Hd; apply: gcd_loop => //; try lia.
  - by have := isv_lt n m _ _ Hg.
  - by apply: isv_eq Hu; case: Hg => _ ->; rewrite [in RHS]mulrC modp_mul mulrC.
  - by rewrite P1 mul1r.
  - by rewrite Eu.
Qed.
End S.
