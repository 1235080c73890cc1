(** Matrix codes: decoding in general, transformed Vandermonde matrix, Cauchy matrix. *)
Set Warnings "-notation-overridden,-ambiguous-paths".
From Coq Require Import NArith Arith.
From Coq Require List.
From Verif.Model Require Import Common Arith Ring Matrix.
From Verif.Proof Require Import ListP MatrixL.
From mathcomp Require Import all_ssreflect fingroup perm ssralg poly matrix mxalgebra.
From mathcomp Require Import zify.
From Verif.Proof Require Import Pres MatrixI.
Import GRing.Theory.
Local Open Scope ring_scope.

Lemma NoDup_uniq_nat (l : seq nat) : List.NoDup l -> uniq l.
Proof. elim=> //= x s H _ IH; rewrite IH andbT; apply/negP => Hx; apply: H; elim: s Hx {IH} => //= y s IH; rewrite inE => /orP [/eqP ->|/IH]; auto. Qed.
Lemma In_mem (l : seq nat) x : x \in l -> List.In x l.
Proof. by elim: l => //= y s IH; rewrite inE => /orP [/eqP ->|/IH]; auto. Qed.
Lemma mem_In (l : seq nat) x : List.In x l -> x \in l.
Proof. by elim: l => //= y s IH [->|/IH H]; rewrite inE ?eqxx ?H ?orbT. Qed.
Lemma nth_In_ex (l : seq nat) x : x \in l -> exists t, (t < size l)%N /\ List.nth t l 0%N = x.
Proof. by move/In_mem => /(List.In_nth _ _ 0%N) [t [Ht E]]; exists t; split=> //; apply/ltP. Qed.

Section Codes.
Variables (F : fieldType) (G : gfops) (phi : N -> F) (gdiv : N -> N -> N).
Hypothesis Pr : gf_pres F G phi.
Hypothesis Hd : forall a b, gvalid G a -> gvalid G b -> b <> 0%num -> gvalid G (gdiv a b) /\ phi (gdiv a b) = phi a / phi b.
Notation ok := (gvalid G).
Notation en := (en F phi).
Notation mvd := (mvd G).
Implicit Type M : Matrix.matrix.
Notation d_ d i := (List.nth i d 0%num).

(** ** Products *)
Lemma row_val_F R C M v i : mvd R C M -> (i < R)%N -> (0 < C)%N -> (forall j, (j < C)%N -> ok (d_ v j)) ->
  ok (row_val G C M v i) /\ phi (row_val G C M v i) = \sum_(j < C) en M i j * phi (d_ v j).
Proof.
  move=> [_ Hv] Hi HC Hok; rewrite /row_val.
  suff H n : (n < C)%N -> let r := List.fold_left (fun acc j => let x := g_mul G (mget M i j) (get 0%num v j) in
      if (0 =? j)%coq_nat then x else g_add G acc x) (List.seq 0 n.+1) 0%num in
      ok r /\ phi r = \sum_(j < n.+1) en M i j * phi (d_ v j).
    by move: HC H; case: C Hv Hok => // C Hv Hok _ H; apply: H.
  elim: n => [|n IH] Hn; have [omul Emul] := gp_mul _ _ _ Pr _ _ (Hv i _ Hi Hn) (Hok _ Hn).
    by rewrite big_ord_recl big_ord0 addr0.
  have [o1 E1] := IH ltac:(lia); rewrite [List.seq _ _.+2]List.seq_S List.fold_left_app.
  set r := List.fold_left _ _ _ in o1 E1 *; rewrite /=.
  have [oa Ea] := gp_add _ _ _ Pr _ _ o1 omul; split=> //.
  by rewrite Ea E1 Emul [in RHS]big_ord_recr.
Qed.

(** ** Decoding *)
Section Dec.
Variables (k m : nat) (mat : Matrix.matrix).
Hypothesis k0 : (0 < k)%N.
Hypothesis Hmat : mvd m k mat.

(** The fragments of the data [d]. *)
Definition frag (d : list N) (id : nat) : N := if (id <? k)%coq_nat then d_ d id else row_val G k mat d (id - k)%coq_nat.
Definition valid_data (d : list N) : Prop := length d = k /\ forall j, (j < k)%N -> ok (d_ d j).
(** Row of fragment [id] in the whole coding matrix. *)
Definition full (id j : nat) : F := if (id < k)%N then (id == j)%:R else en mat (id - k) j.

Lemma frag_F d id : valid_data d -> (id < k + m)%N -> ok (frag d id) /\ phi (frag d id) = \sum_(j < k) full id j * phi (d_ d j).
Proof.
  move=> [L Hv] Hid; rewrite /frag /full; case: Nat.ltb_spec => H.
    have H' : (id < k)%N by lia.
    rewrite H'; split; first exact: Hv.
    rewrite (bigD1 (Ordinal H')) //= eqxx mul1r big1 ?addr0 // => j jn.
    by rewrite -val_eqE /= in jn; rewrite eq_sym (negbTE jn) mul0r.
  have H' : (id < k)%N = false by lia.
  by rewrite H'; apply: (row_val_F m k mat d _ Hmat) => //; lia.
Qed.

Variables (data par : nat -> bool).
Let ids := used_ids k m data par.
Let nd := length (List.filter data (List.seq 0 k)).

Lemma id_lt t : (t < length ids)%N -> (List.nth t ids 0%N < k + m)%N.
Proof.
  move=> Ht; have X : List.In (List.nth t ids 0%N) ids by apply: List.nth_In; lia.
  by have := used_valid k m data par _ X; lia.
Qed.

Lemma build_F junk D0 : mwf k k D0 -> length ids = k -> nd <> k -> exists D o,
  mvd k k D /\ (forall t j, (t < k)%N -> (j < k)%N -> en D t j = full (List.nth t ids 0%N) j) /\
  decode_build G gdiv junk mat D0 k m data par = Some o /\
  match o with
  | Decode B => mvd k k B /\ mx F phi k D *m mx F phi k B = 1%:M /\ mx F phi k B *m mx F phi k D = 1%:M
  | Thrown => mx F phi k D \notin unitmx
  | _ => False
  end.
Proof.
  move=> W0 Lid Hnd; have [_ [_ H]] := build_spec k m mat (mv_wf _ _ _ _ Hmat) G gdiv junk D0 data par W0.
  have [D [WD [ED HD]]] := H Hnd Lid.
  have full_en t j : (t < k)%N -> (j < k)%N -> ok (mget D t j) /\ en D t j = full (List.nth t ids 0%N) j.
    move=> Ht Hj; rewrite /en HD; [|lia..]; rewrite /full -/ids.
    have Hid := id_lt t ltac:(lia).
    case: Nat.ltb_spec => C1.
      have C1' : (List.nth t ids 0%N < k)%N by lia.
      by rewrite C1' (phi_delta _ _ _ Pr); split=> //; apply: ok_delta Pr _ _.
    have C1' : (List.nth t ids 0%N < k)%N = false by lia.
    by rewrite C1'; split=> //; apply: mv_ok Hmat _ _; lia.
  have VD : mvd k k D by split=> // i j Hi Hj; case: (full_en i j Hi Hj).
  have [[o|] [Eo Ho]] := minv_spec F G phi gdiv Pr Hd k junk D (proj1 WD) VD; rewrite ED Eo.
    by exists D, (Decode o); split=> //; split=> // t j Ht Hj; case: (full_en t j Ht Hj).
  by exists D, Thrown; split=> //; split=> // t j Ht Hj; case: (full_en t j Ht Hj).
Qed.

Lemma dec_sound junk D0 d out B : mwf k k D0 -> valid_data d -> length out = k ->
  decode_build G gdiv junk mat D0 k m data par = Some (Decode B) ->
  rs_decode G B out (List.map (frag d) ids) = Some d.
Proof.
  move=> W0 Vd Lo EB.
  have [H1 [H2 _]] := build_spec k m mat (mv_wf _ _ _ _ Hmat) G gdiv junk D0 data par W0.
  case: (Nat.eq_dec nd k) => Hnd; first by rewrite H1 in EB.
  have Lle := used_len k m data par; rewrite -/ids in Lle.
  case: (Nat.eq_dec (length ids) k) => Lid; last by (have Hlt : (length ids < k)%coq_nat by lia); rewrite (H2 Hnd Hlt) in EB.
  have [D [o [VD [ED [Eo Ho]]]]] := build_F junk D0 W0 Lid Hnd.
  rewrite EB in Eo; case: Eo Ho => <- [VB [_ BD]].
  have [Ld Hv] := Vd.
  rewrite /rs_decode (mmul_spec G k k B out); try (rewrite ?List.map_length; lia); last exact: mv_wf VB.
  set w := List.map (frag d) ids.
  have wE j : (j < k)%N -> d_ w j = frag d (List.nth j ids 0%N).
    move=> Hj; rewrite /w (List.nth_indep _ 0%num (frag d 0%N)); [exact: List.map_nth|rewrite List.map_length; lia].
  have wok j : (j < k)%N -> ok (d_ w j).
    by move=> Hj; rewrite wE //; case: (frag_F d _ Vd (id_lt j ltac:(lia))).
  congr Some; apply: (list_ext _ 0%num); first by rewrite List.map_length List.seq_length.
  move=> i; rewrite List.map_length List.seq_length => Hi; rewrite nth_map_seq //.
  have Hi' : (i < k)%N by lia.
  have [oi Ei] := row_val_F k k B w i VB Hi' k0 wok.
  apply: (gp_inj _ _ _ Pr) => //; first exact: Hv.
  rewrite Ei; have H (j : 'I_k) : (mx F phi k B *m mx F phi k D) (Ordinal Hi') j = (Ordinal Hi' == j)%:R by rewrite BD mxE.
  transitivity (\sum_(j < k) (mx F phi k B *m mx F phi k D) (Ordinal Hi') j * phi (d_ d j)).
    under eq_bigr => j _ do rewrite wE // (proj2 (frag_F d _ Vd (id_lt j _))) ?Lid // big_distrr /=.
    rewrite exchange_big /=; apply: eq_bigr => l _; rewrite mxE big_distrl /=; apply: eq_bigr => j _.
    by rewrite !mxE ED // mulrA.
  rewrite (bigD1 (Ordinal Hi')) //= H eqxx mul1r big1 ?addr0 // => j jn.
  by rewrite H eq_sym (negbTE jn) mul0r.
Qed.

Lemma dec_complete junk D0 : mwf k k D0 -> length ids = k -> nd <> k ->
  (forall v : nat -> F, (forall t, (t < k)%N -> \sum_(j < k) full (List.nth t ids 0%N) j * v j = 0) -> forall j, (j < k)%N -> v j = 0) ->
  exists B, decode_build G gdiv junk mat D0 k m data par = Some (Decode B).
Proof.
  move=> W0 Lid Hnd Ker; have [D [o [VD [ED [Eo Ho]]]]] := build_F junk D0 W0 Lid Hnd.
  suff uD : mx F phi k D \in unitmx by case: o Eo Ho => [|||B] // Eo Ho; [rewrite uD in Ho|exists B].
  rewrite -unitmx_tr -row_free_unit; apply: inj_row_free => v Hv; apply/rowP => j; rewrite mxE.
  pose v' (i : nat) : F := if (insub i : option 'I_k) is Some i' then v ord0 i' else 0.
  have E (i : 'I_k) : v' i = v ord0 i by rewrite /v' valK.
  rewrite [X in v X](ord1 _) -E; apply: Ker => // t Ht; have := congr1 (fun w : 'rV_k => w ord0 (Ordinal Ht)) Hv; rewrite !mxE => Hz; rewrite -[RHS]Hz.
  by apply: eq_bigr => i _; rewrite !mxE E ED // mulrC.
Qed.
Lemma dec_singular junk D0 (v : nat -> F) : mwf k k D0 -> length ids = k -> nd <> k ->
  (forall t, (t < k)%N -> \sum_(j < k) full (List.nth t ids 0%N) j * v j = 0) -> (exists j, (j < k)%N /\ v j <> 0) ->
  decode_build G gdiv junk mat D0 k m data par = Some Thrown.
Proof.
  move=> W0 Lid Hnd Hv [j [Hj vj]]; have [D [o [VD [ED [Eo Ho]]]]] := build_F junk D0 W0 Lid Hnd.
  suff nD : mx F phi k D \notin unitmx by case: o Eo Ho => [|||B] // Eo [_ [_ /mulmx1_unit [_]]]; rewrite (negbTE nD).
  apply/negP => uD; apply: vj.
  pose V := \col_(i < k) v i.
  have HV : mx F phi k D *m V = 0.
    by apply/matrixP => t z; rewrite !mxE -[RHS](Hv t) //; apply: eq_bigr => i _; rewrite !mxE ED.
  have := congr1 (mulmx (invmx (mx F phi k D))) HV; rewrite mulKmx // mulmx0 => /matrixP /(_ (Ordinal Hj) ord0).
  by rewrite !mxE.
Qed.
End Dec.

(** ** The transformed Vandermonde matrix *)
Section Vdm.
Variables (k m : nat).
Hypothesis k0 : (0 < k)%N.
Hypothesis km : (N.of_nat (k + m) <= g_card G)%num.
Notation T := (m + k)%N.
Notation x r := (phi (N.of_nat r)).
Lemma okx r : (r < k + m)%N -> ok (N.of_nat r). Proof. by rewrite /gvalid; move: km; lia. Qed.
Lemma x_inj r s : (r < k + m)%N -> (s < k + m)%N -> x r = x s -> r = s.
Proof. by move=> Hr Hs /(gp_inj _ _ _ Pr _ _ (okx r Hr) (okx s Hs)); lia. Qed.

(** A polynomial of size at most [n] with [n] roots among the points. *)
Lemma poly_zero (p : {poly F}) (l : seq nat) : uniq l -> (forall r, r \in l -> (r < k + m)%N /\ p.[x r] = 0) -> (size p <= size l)%N -> p = 0.
Proof.
  move=> U Hr Hs; apply/eqP; apply: contraTT Hs => pn0; rewrite -ltnNge.
  have := @max_poly_roots _ p [seq x r | r <- l] pn0; rewrite size_map; apply.
    by apply/allP => _ /mapP [r Hr' ->]; rewrite rootE; case: (Hr r Hr') => _ ->.
  by rewrite map_inj_in_uniq // => r s /Hr [r1 _] /Hr [s1 _]; apply: x_inj.
Qed.

Definition vinv (i : nat) (t : Matrix.matrix) (p : nat -> {poly F}) : Prop :=
  mvd T k t /\
  (forall r c, (r < T)%N -> (c < k)%N -> en t r c = (p c).[x r]) /\
  (forall r c, (r < i)%N -> (c < k)%N -> (p c).[x r] = (c == r)%:R) /\
  (forall c, (c < i)%N -> (size (p c) <= i)%N) /\
  (forall c, (i <= c < k)%N -> size (p c) = c.+1).

Lemma vdm_start junk : exists p, vinv 0 (vandermonde G (new_matrix junk T k)) p.
Proof.
  exists (fun c => 'X^c).
  have [W E] := fill_spec T k (new_matrix junk T k) (fun i j => g_exp G (N.of_nat i) (N.of_nat j)) (mwf_new junk T k).
  have K i j (Hi : (i < T)%N) (Hj : (j < k)%N) : ok (g_exp G (N.of_nat i) (N.of_nat j)) /\ phi (g_exp G (N.of_nat i) (N.of_nat j)) = x i ^+ j.
    have [o ->] := gp_exp _ _ _ Pr (N.of_nat i) (N.of_nat j) (okx i ltac:(lia)) ltac:(move: km; lia).
    by rewrite Nat2N.id.
  split; first by split=> // i j Hi Hj; rewrite E; [case: (K i j Hi Hj)|lia|lia].
  split; first by move=> r c Hr Hc; rewrite /MatrixI.en E; [rewrite hornerXn; case: (K r c Hr Hc)|lia|lia].
  by split=> //; split=> // c _; rewrite size_polyXn.
Qed.

Lemma e_ec1 t c : mvd T k t -> (c < k)%N -> mget t c c <> 0%num -> mvd T k (ec_transform1 G t c) /\
  forall i j, (i < T)%N -> (j < k)%N -> en (ec_transform1 G t c) i j = if j == c then (en t c c)^-1 * en t i c else en t i j.
Proof.
  move=> [W Hv] Hc nz; have [W' E] := ec1_spec T k G t c W ltac:(lia).
  have Hc' : (c < T)%N by lia.
  have [oi Ei] := gp_inv _ _ _ Pr _ (Hv c c Hc' Hc) nz.
  have K i (Hi : (i < T)%N) := gp_mul _ _ _ Pr _ _ oi (Hv i c Hi Hc).
  split; first (split=> // i j Hi Hj; rewrite E; [|lia|lia]; case: Nat.eqb_spec => _; [by case: (K i Hi)|exact: Hv]).
  move=> i j Hi Hj; rewrite /MatrixI.en E; [|lia|lia]; case: Nat.eqb_spec => [->|/eqP/negbTE ->] //.
  by rewrite eqxx (proj2 (K i Hi)) Ei.
Qed.
Lemma e_ec2 t s d : mvd T k t -> (s < k)%N -> (d < k)%N -> mvd T k (ec_transform2 G t s d) /\
  forall i j, (i < T)%N -> (j < k)%N -> en (ec_transform2 G t s d) i j = if j == d then en t i d - en t s d * en t i s else en t i j.
Proof.
  move=> [W Hv] Hs Hdd; have [W' E] := ec2_spec T k G t s d W ltac:(lia) ltac:(lia).
  have Hs' : (s < T)%N by lia.
  have K1 i (Hi : (i < T)%N) := gp_mul _ _ _ Pr _ _ (Hv s d Hs' Hdd) (Hv i s Hi Hs).
  have K i (Hi : (i < T)%N) := gp_sub _ _ _ Pr _ _ (Hv i d Hi Hdd) (proj1 (K1 i Hi)).
  split; first (split=> // i j Hi Hj; rewrite E; [|lia|lia]; case: Nat.eqb_spec => _; [by case: (K i Hi)|exact: Hv]).
  move=> i j Hi Hj; rewrite /MatrixI.en E; [|lia|lia]; case: Nat.eqb_spec => [->|/eqP/negbTE ->] //.
  by rewrite eqxx (proj2 (K i Hi)) (proj2 (K1 i Hi)).
Qed.

(** The inner loop: every other column loses its value in row [i]. *)
Lemma ec_cols i cs : forall t p, mvd T k t -> (i < k)%N ->
  (forall r c, (r < T)%N -> (c < k)%N -> en t r c = (p c).[x r]) -> (p i).[x i] = 1 ->
  (forall c, c \in cs -> (c < k)%N) -> uniq cs ->
  let t' := List.fold_left (fun t j => if (i =? j)%coq_nat then t else if (0 =? mget t i j)%num then t else ec_transform2 G t i j) cs t in
  let p' c := if (c \in cs) && (c != i) then p c - (p c).[x i] *: p i else p c in
  mvd T k t' /\ forall r c, (r < T)%N -> (c < k)%N -> en t' r c = (p' c).[x r].
Proof.
  elim: cs => [|a cs IH] t p Ht Hi Et pi Hcs U; first by [].
  move: U => /= /andP [an U]; have ak : (a < k)%N by apply: Hcs; rewrite inE eqxx.
  have iT : (i < T)%N by lia.
  set t1 := if (i =? a)%coq_nat then _ else _.
  pose p1 c := if (c == a) && (c != i) then p c - (p c).[x i] *: p i else p c.
  have [Ht1 Et1] : mvd T k t1 /\ forall r c, (r < T)%N -> (c < k)%N -> en t1 r c = (p1 c).[x r].
    rewrite /t1 /p1; case: Nat.eqb_spec => [ia|ia].
      by split=> // r c Hr Hc; rewrite Et // ia andbN.
    have ia' : (a == i) = false by apply/eqP; congruence.
    case: N.eqb_spec => [z|nz].
      split=> // r c Hr Hc; rewrite Et //; case: eqP => [->|//] /=; rewrite ia' /=.
      by have := Et i a iT ak; rewrite /MatrixI.en -z (gp_0 _ _ _ Pr) => <-; rewrite scale0r subr0.
    have [H1 H2] := e_ec2 t i a Ht Hi ak; split=> // r c Hr Hc; rewrite H2 //; case: eqP => [->|_] /=; last exact: Et.
    by rewrite ia' /= !Et // hornerD hornerN hornerZ.
  have p1i : p1 i = p i by rewrite /p1 eqxx andbF.
  have [|||H1 H2] := IH t1 p1 Ht1 Hi Et1; rewrite ?p1i //; first by move=> c Hc; apply: Hcs; rewrite inE Hc orbT.
  split=> // r c Hr Hc; rewrite H2 // /p1 eqxx andbF /= inE.
  by case: (eqVneq c a) => [->|ca] /=; rewrite ?(negbTE an).
Qed.

Lemma ec_row_spec i t p : (i < k)%N -> vinv i t p -> exists p', vinv i.+1 (ec_row G t i) p'.
Proof.
  move=> Hi [Ht [Et [Hz [Hlo Hhi]]]]; rewrite /ec_row.
  have [[Er [Ec _]] Hv] := Ht; have iT : (i < T)%N by lia.
  have roots r : (r < i)%N -> (p i).[x r] = 0 by move=> Hr; rewrite Hz // (_ : i == r = false) //; lia.
  have si : size (p i) = i.+1 by apply: Hhi; rewrite leqnn.
  have piv : (p i).[x i] != 0.
    apply/eqP => Z; have := @poly_zero (p i) (iota 0 i.+1); rewrite iota_uniq size_iota si => H.
    have p0 : p i = 0.
      apply: H => // r; rewrite mem_iota => Hr; split; first lia.
      by case: (eqVneq r i) => [->|ri] //; apply: roots; lia.
    by move: si; rewrite p0 size_poly0.
  case: ifP => [idn|_].
    exists p; split=> //; split=> //; split; last first.
      split=> c Hc; last by apply: Hhi; lia.
      case: (ltnP c i) => H; first by have := Hlo c H; lia.
      have -> : c = i by lia.
      by rewrite si.
    move=> r c Hr Hc; case: (eqVneq r i) => [->|ri]; last by apply: Hz => //; lia.
    move: idn; rewrite /row_is_identity Ec forallb_iota => /forallP /(_ (Ordinal Hc)) /N.eqb_spec /= E.
    by rewrite -Et // /MatrixI.en E (phi_delta _ _ _ Pr).
  pose p1 c := if c == i then (p i).[x i]^-1 *: p i else p c.
  set t1 := if _ then _ else _.
  have [Ht1 Et1] : mvd T k t1 /\ forall r c, (r < T)%N -> (c < k)%N -> en t1 r c = (p1 c).[x r].
    rewrite /t1 /p1; case: N.eqb_spec => [e|_].
      split=> // r c Hr Hc; rewrite Et //; case: eqP => [->|//].
      by have := Et i i iT Hi; rewrite /MatrixI.en -e (gp_1 _ _ _ Pr) => <-; rewrite invr1 scale1r.
    have nz : mget t i i <> 0%num.
      by move=> Z; move/eqP: piv; apply; rewrite -Et // /MatrixI.en Z (gp_0 _ _ _ Pr).
    have [H1 H2] := e_ec1 t i Ht Hi nz; split=> // r c Hr Hc; rewrite H2 //; case: eqP => _; last exact: Et.
    by rewrite hornerZ !Et.
  have [[_ [-> _]] _] := Ht1; rewrite seq_iota.
  have p1i : (p1 i).[x i] = 1 by rewrite /p1 eqxx hornerZ mulVf.
  have [||H1 H2] := ec_cols i (iota 0 k) t1 p1 Ht1 Hi Et1 p1i; [by move=> c; rewrite mem_iota|exact: iota_uniq|].
  eexists; split; first exact: H1. split; first exact: H2.
  have s1 : size (p1 i) = i.+1 by rewrite /p1 eqxx size_scale // invr_eq0.
  have p1r r : (r < i)%N -> (p1 i).[x r] = 0 by move=> Hr; rewrite /p1 eqxx hornerZ (roots r Hr) mulr0.
  have p1c c : c != i -> p1 c = p c by move=> ci; rewrite /p1 (negbTE ci).
  split.
    move=> r c Hr Hc; rewrite mem_iota /= add0n Hc /=; case: (eqVneq c i) => [->|ci] /=.
      case: (eqVneq r i) => [->|ri]; first by rewrite p1i.
      by rewrite p1r //; lia.
    rewrite hornerD hornerN hornerZ; case: (eqVneq r i) => [->|ri].
      by rewrite p1i mulr1 subrr (negbTE ci).
    have ri' : (r < i)%N by lia.
    by rewrite p1r // mulr0 subr0 p1c // Hz.
  split=> c Hc; rewrite mem_iota /= add0n.
    have ck : (c < k)%N by lia.
    rewrite ck /=; case: (eqVneq c i) => [->|ci] /=; first by rewrite s1.
    rewrite (leq_trans (size_add _ _)) // size_opp geq_max p1c //; apply/andP; split.
      by apply: leq_trans (Hlo c _) _; lia.
    by rewrite (leq_trans (size_scale_leq _ _)) // s1.
  have ck : (c < k)%N by lia.
  have ci : c != i by lia.
  have sc : size (p c) = c.+1 by apply: Hhi; lia.
  rewrite ck ci /= p1c // size_addl ?sc //.
  by rewrite size_opp (leq_ltn_trans (size_scale_leq _ _)) // s1; lia.
Qed.

Lemma ec_rows n : forall i t p, (i + n <= k)%N -> vinv i t p -> exists p', vinv (i + n) (List.fold_left (ec_row G) (iota i n) t) p'.
Proof.
  elim: n => [|n IH] i t p Hi V /=; first by exists p; rewrite addn0.
  have [p1 V1] := ec_row_spec i t p ltac:(lia) V.
  have [p2 V2] := IH i.+1 _ p1 ltac:(lia) V1.
  by exists p2; rewrite -addSnnS.
Qed.

(** The coding matrix is the Lagrange basis on the first [k] points, taken at the next [m] points. *)
Lemma vdm_spec junk junk' : let V := vandermonde_suitable_for_ec G junk (new_matrix junk' m k) in mvd m k V /\
  exists p : nat -> {poly F}, (forall c, (c < k)%N -> (size (p c) <= k)%N) /\
    (forall r c, (r < k)%N -> (c < k)%N -> (p c).[x r] = (c == r)%:R) /\
    (forall r c, (r < m)%N -> (c < k)%N -> en V r c = (p c).[x (k + r)%N]).
Proof.
  rewrite /vandermonde_suitable_for_ec /new_matrix; cbn [Matrix.m_rows Matrix.m_cols].
  have [p0 V0] := vdm_start junk.
  have [p [[W Hv] [Et [Hz [Hs _]]]]] := ec_rows k 0 _ p0 (leqnn k) V0; rewrite add0n in W Hv Et Hz Hs *.
  rewrite seq_iota; set t := List.fold_left _ _ _ in W Hv Et.
  have [W' E'] := fill_spec m k (new_matrix junk' m k) (fun i j => mget t (k + i)%coq_nat j) (mwf_new junk' m k).
  split; first by split=> // i j Hi Hj; rewrite E'; [apply: Hv => //; lia|lia|lia].
  exists p; split=> //; split=> //.
  by move=> r c Hr Hc; rewrite /MatrixI.en E'; [rewrite -/(en t (k + r)%N c) Et //; lia|lia|lia].
Qed.

Section Code.
Variables (junk junk' : N).
Notation V := (vandermonde_suitable_for_ec G junk (new_matrix junk' m k)).
Let HV : mvd m k V := proj1 (vdm_spec junk junk').

(** Fragment [id] is the value at point [id] of the polynomial whose values at the first points are the data. *)
Lemma vdm_interp (v : nat -> F) : exists p : {poly F}, (size p <= k)%N /\
  forall id, (id < k + m)%N -> \sum_(j < k) full k V id j * v j = p.[x id].
Proof.
  have [_ [q [Hs [Hz He]]]] := vdm_spec junk junk'.
  exists (\sum_(c < k) v c *: q c); split.
    rewrite (leq_trans (size_sum _ _ _)) //; apply/bigmax_leqP => c _; by rewrite (leq_trans (size_scale_leq _ _)) // Hs.
  move=> id Hid; rewrite horner_sum; apply: eq_bigr => c _; rewrite hornerZ mulrC; congr (_ * _); rewrite /full.
  case: ltnP => H; first by rewrite Hz // eq_sym.
  by rewrite He //; [congr horner; congr phi; congr N.of_nat; lia|lia].
Qed.

Theorem vdm_decode data par D0 : mwf k k D0 -> length (List.filter data (List.seq 0 k)) <> k -> length (used_ids k m data par) = k ->
  exists B, decode_build G gdiv junk V D0 k m data par = Some (Decode B).
Proof.
  move=> W0 Hnd Lid; apply: (dec_complete k m V k0 HV data par junk D0 W0 Lid Hnd) => v Hv j Hj.
  have [p [Hs Hp]] := vdm_interp v.
  have p0 : p = 0.
    apply: (poly_zero p (used_ids k m data par)).
    - exact: (NoDup_uniq_nat _ (used_NoDup k m data par)).
    - move=> r Hr; have := used_valid k m data par r (In_mem _ _ Hr) => Hr'.
      split; first lia.
      have [t [Ht Et]] := nth_In_ex _ _ Hr.
      by rewrite -Hp; [rewrite -Et; apply: Hv; rewrite -Lid|lia].
    - by move: Lid; rewrite -[length _]/(size _) => ->.
  have := Hp j ltac:(lia); rewrite p0 horner0 /full Hj (bigD1 (Ordinal Hj)) //= eqxx mul1r big1 ?addr0 // => i ij.
  by rewrite -val_eqE /= in ij; rewrite eq_sym (negbTE ij) mul0r.
Qed.
End Code.
End Vdm.
End Codes.
