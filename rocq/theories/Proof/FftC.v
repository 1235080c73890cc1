(** Correctness of the codes with a multiplicative transform of any length, over any presented field. *)
Set Warnings "-notation-overridden,-ambiguous-paths".
From Coq Require Import NArith ZArith Arith.
From Coq Require List.
From Verif.Model Require Import Common Arith Ring Fft2n Radix2 Poly Props Views Gf2n MixedFft Fnt FftCodes.
From Verif.Proof Require Import ListP.
From mathcomp Require Import all_ssreflect ssralg poly.
From mathcomp Require Import zify.
From Verif.Spec Require Import Dft Mixed.
From Verif.Proof Require Import Kern PolyL Pres Fft2nP Radix2P PolyP DftInv Interp MixedL AddC.
Import GRing.Theory.
Local Open Scope ring_scope.
Notation lnth := List.nth.

(** ** Transforms *)
Section Transform.
Variables (w : N) (F : fieldType) (G : gfops) (phi : N -> F).
Hypothesis P : gf_pres F G phi.
Notation ok := (gvalid G).

(** Through [view] a vector of [l] elements reads as [n] elements, those of indices [a], where an index beyond [l]
    stands for a zero. *)
Definition sees (view : vect -> vect) (l n : nat) (a : nat -> nat) : Prop :=
  forall b, source w (b + l)%N (view (new_plain b l)) n (fun i => if (a i < l)%N then (b + a i)%N else (b + l)%N).

Lemma sees_id l : sees (fun v => v) l l (fun i => i).
Proof.
  move=> b; apply: (source_ext w _ _ _ (fun i => (b + i)%N)); last by move=> i ->.
  by apply: win_source; [exact: win_plain|move=> i Hi; lia].
Qed.
Lemma sees_ext l n : (0 < l)%N -> sees (fun v => new_zero_ext v n) l n (fun i => i).
Proof.
  move=> l0 b; apply: (source_ext w _ _ _ (fun i => if (i < l)%N then (b + i)%N else (b + l)%N)); last by [].
  apply: source_zero_ext; apply: (source_ext w _ _ _ (fun i => (b + i)%N)) => //.
  by apply: win_source; [exact: win_plain|move=> i Hi; lia].
Qed.
Lemma sees_slice l k n : (k < l)%N -> sees (fun v => new_zero_ext (new_slice v k 0) n) l n (fun i => if (i < k)%N then i else l).
Proof.
  move=> kl b; apply: (source_ext w _ _ _ (fun i => if (i < k)%N then (b + i)%N else (b + l)%N)); last first.
    by move=> i _; case: (ltnP i k) => H; [rewrite (ltn_trans H kl)|rewrite ltnn].
  apply: source_zero_ext.
  have -> : new_slice (new_plain b l) k 0 = Slice (mkHdr b l k) l 0.
    rewrite /new_slice /slice_len /get_mem /get_mem_len /get_n /= !Nat.add_0_r Nat.sub_0_r.
    rewrite (_ : (k <? l)%coq_nat = true); last by apply/Nat.ltb_spec0/ltP.
    by rewrite (_ : (0 <? l)%coq_nat = true) //; apply/Nat.ltb_spec0/ltP; lia.
  split=> // m i S Hi /=.
  rewrite /get_n /= (_ : (i <? k)%coq_nat = true); last by apply/Nat.ltb_spec0/ltP.
  by rewrite peekE // S; lia.
Qed.

(** Elements of the field. *)
Definition els (v : list N) : Prop := forall i, ok (lnth i v 0%num).
Lemma els_in v : (forall i, (i < size v)%N -> ok (lnth i v 0%num)) -> els v.
Proof.
  move=> H i; case: (ltnP i (size v)) => Hi; first exact: H.
  by rewrite List.nth_overflow; [exact: (gvalid0 F G phi P)|apply/leP].
Qed.
(** [o] is made of the [n] elements [y]. *)
Definition gives (o : list N) (n : nat) (y : nat -> F) : Prop :=
  [/\ size o = n, els o & forall i, (i < n)%N -> phi (lnth i o 0%num) = y i].
(** What [run] gives for any input seen through a view. *)
Definition runs (run : (nat -> N) -> list N -> list N -> (vect -> vect) -> option (list N)) (n : nat) (R : (nat -> F) -> (nat -> F) -> Prop) : Prop :=
  forall pv out inp view a y, size out = n -> els inp -> sees view (size inp) n a ->
    R (fun i => phi (lnth (if (a i < size inp)%N then a i else size inp) inp 0%num)) y ->
    exists o, run pv out inp view = Some o /\ gives o n y.
(** The transform of root [r] and length [n]. *)
Record tfm_ok (t : tfm) (n : nat) (r : F) : Prop := TfmOk {
  to_fft : runs (t_fft w G t) n (fun x y => forall i, (i < n)%N -> y i = dft F r n x i);
  to_inv : runs (t_fft_inv w G t) n (fun x y => forall i, (i < n)%N -> y i = dft F r^-1 n x i);
  to_ifft : runs (t_ifft w G t) n (fun x y => forall i, (i < n)%N -> x i = dft F r n y i) }.

(** ** Cooley-Tukey *)
Lemma tc_call (run : memory -> vect -> vect -> option memory) h n pv out inp view a (y : nat -> F)
    (Q : memory -> (nat -> nat) -> Prop) :
  (forall m o v ao ai, win w o n ao -> source w (size m) v n ai -> tpre G m n (area 0 h) ao ai -> Q m ai ->
     exists m', run m o v = Some m' /\ tout F G phi m m' n (area 0 h) ao y) ->
  size out = n -> els inp -> sees view (size inp) n a ->
  (forall m, (forall i, (i < n)%N -> rd m (if (a i < size inp)%N then (h + n + a i)%N else (h + n + size inp)%N) =
      lnth (if (a i < size inp)%N then a i else size inp) inp 0%num) ->
    Q m (fun i => if (a i < size inp)%N then (h + n + a i)%N else (h + n + size inp)%N)) ->
  exists o, match run (List.map pv (List.seq 0 h) ++ out ++ inp)%list (new_plain h (length out))
              (view (new_plain (h + length out)%coq_nat (length inp))) with
      | Some m => Some (List.firstn (length out) (List.skipn h m))
      | None => None
      end = Some o /\ gives o n y.
Proof.
  move=> T So Vi Se HQ; rewrite -[length out]/(size out) -[length inp]/(size inp) So -[(h + n)%coq_nat]/(h + n)%N.
  set m := (_ ++ _)%list; set ai := (fun i => if _ then _ else _) in HQ.
  have Lh : length (List.map pv (List.seq 0 h)) = h by rewrite List.map_length List.seq_length.
  have Sm : size m = (h + n + size inp)%N.
    by rewrite -[size m]/(length m) /m !List.app_length Lh -[length out]/(size out) So -[length inp]/(size inp); lia.
  have Ri i : rd m (ai i) = lnth (if (a i < size inp)%N then a i else size inp) inp 0%num.
    rewrite /rd /m /ai; case: ifP => Ha.
      rewrite List.app_nth2 Lh; last lia. rewrite List.app_nth2 -[length out]/(size out) So; last lia.
      by congr (lnth _ _ _); lia.
    rewrite [RHS]List.nth_overflow //; apply: List.nth_overflow.
    by rewrite -[length _]/(size m) Sm.
  have [||||m' [E [S' _ V']]] := T m (new_plain h n) (view (new_plain (h + n) (size inp))) (fun i => (h + i)%N) ai.
  - exact: win_plain.
  - by rewrite Sm; exact: Se.
  - split; [|split].
    + move=> i Hi; split; [by rewrite Sm; lia|by rewrite /area; lia|by rewrite /area /ai; case: ifP; lia|].
      by rewrite Ri; exact: Vi.
    + by move=> i j Hi Hj; rewrite /ai; split; [lia|case: ifP; lia].
    + by move=> c; rewrite /area Sm; lia.
  - by apply: HQ => i _; exact: Ri.
  rewrite E; eexists; split; first reflexivity.
  have Nth i : (i < n)%N -> lnth i (List.firstn n (List.skipn h m')) 0%num = rd m' (h + i)%N.
    by move=> Hi; rewrite nth_firstn nth_skipn (_ : (i <? n)%coq_nat = true) //; apply/Nat.ltb_spec0/ltP.
  have So' : size (List.firstn n (List.skipn h m')) = n.
    by rewrite -[size _]/(length _) List.firstn_length List.skipn_length -[length m']/(size m') S' Sm; lia.
  split=> //; last by move=> i Hi; rewrite Nth //; case: (V' i Hi).
  by apply: els_in; rewrite So' => i Hi; rewrite Nth //; case: (V' i Hi).
Qed.

Lemma tc_ok o inv_n h n r : tspec w F G phi (ct_fft w G o false) n (area 0 h) r ->
  tspec w F G phi (ct_fft w G o true) n (area 0 h) r^-1 -> ispec w F G phi (ct_ifft w G o inv_n) n (area 0 h) r ->
  tfm_ok (TC o inv_n h) n r.
Proof.
  move=> T1 T2 T3; split=> pv out inp view a y So Vi Se R; rewrite /t_fft /t_fft_inv /t_ifft /t_call.
  - apply: (tc_call _ h n pv out inp view a y (fun m ai => forall i, (i < n)%N -> y i = dft F r n (fun j => phi (rd m (ai j))) i)) => //.
      move=> m o' v ao ai W1 W2 W3 Q; have [m' [E [X1 X2 X3]]] := T1 m o' v ao ai W1 W2 W3.
      by exists m'; split=> //; split=> // i Hi; rewrite Q //; exact: X3.
    by move=> m Hm i Hi; rewrite R //; apply: dft_ext => j Hj; rewrite Hm.
  - apply: (tc_call _ h n pv out inp view a y (fun m ai => forall i, (i < n)%N -> y i = dft F r^-1 n (fun j => phi (rd m (ai j))) i)) => //.
      move=> m o' v ao ai W1 W2 W3 Q; have [m' [E [X1 X2 X3]]] := T2 m o' v ao ai W1 W2 W3.
      by exists m'; split=> //; split=> // i Hi; rewrite Q //; exact: X3.
    by move=> m Hm i Hi; rewrite R //; apply: dft_ext => j Hj; rewrite Hm.
  - apply: (tc_call _ h n pv out inp view a y (fun m ai => forall i, (i < n)%N -> phi (rd m (ai i)) = dft F r n y i)) => //.
      by move=> m o' v ao ai W1 W2 W3 Q; exact: (T3 m o' v ao ai y W1 W2 W3 Q).
    by move=> m Hm i Hi; rewrite Hm // R.
Qed.

(** ** Radix2 *)
Lemma elements_sees view inp n a : sees view (size inp) n a ->
  elements w inp (view (new_plain 0 (length inp))) =
    List.map (fun i => lnth (if (a i < size inp)%N then a i else size inp) inp 0%num) (List.seq 0 n).
Proof.
  move=> /(_ 0%N) [E H]; rewrite /elements -[length inp]/(size inp) E.
  apply: List.map_ext_in => i /List.in_seq [_ Hi].
  by rewrite H //; lia.
Qed.

Lemma tr_ok L f : radix2_ok F G phi L f -> (exists e, (e <= L)%N /\ r_data_len f = (2 ^ e)%N) -> tfm_ok (TR f) (2 ^ L) (phi (r_w f)).
Proof.
  move=> Hf [e [He Hd]]; have SV := sym_vec_pres F G phi P.
  have eL : (2 ^ e <= 2 ^ L)%N by rewrite leq_exp2l.
  have Fin (inp : list N) (x : nat -> nat) o (y y' : nat -> F) :
     reads (sym_vec G) ok phi (2 ^ L) o y' -> (forall i, (i < 2 ^ L)%N -> y i = y' i) -> exists o', Some o = Some o' /\ gives o' (2 ^ L) y.
    move=> [R1 R2] HE; exists o; split=> //.
    have So : size o = (2 ^ L)%N by [].
    split=> //; last by move=> i Hi; rewrite HE //; case: (R2 i Hi).
    by apply: els_in; rewrite So => i Hi; case: (R2 i Hi).
  have Nth (g : nat -> N) i : (i < 2 ^ L)%N -> lnth i (List.map g (List.seq 0 (2 ^ L)%N)) 0%num = g i.
    by move=> Hi; rewrite nth_map_seq //; apply/ltP.
  have Len (g : nat -> N) : length (List.map g (List.seq 0 (2 ^ L)%N)) = (2 ^ L)%N by rewrite List.map_length List.seq_length.
  split=> pv out inp view a y So Vi Se R; rewrite /t_fft /t_fft_inv /t_ifft /t_call (elements_sees _ _ _ _ Se); set g := (fun i => lnth _ _ _).
  - apply: (Fin inp a); first apply: (r2_fft_vec_reads F G phi N (sym_vec G) _ _ SV L f Hf L _ out (leqnn L)) => //.
    + by rewrite Len Hd; move: eL; move: (2 ^ e)%N (2 ^ L)%N; clear; lia.
    + by rewrite Len => i Hi; rewrite [s_zero _]/= Nth //; exact: Vi.
    + by move=> i Hi; rewrite R //; apply: dft_ext => j Hj; rewrite [s_zero _]/= Nth.
  - apply: (Fin inp a); first apply: (r2_fft_inv_vec_reads F G phi N (sym_vec G) _ _ SV L f Hf _ out) => //.
    + by rewrite Len.
    + by rewrite Len => i Hi; rewrite [s_zero _]/= Nth //; exact: Vi.
    + by move=> i Hi; rewrite R //; apply: dft_ext => j Hj; rewrite [s_zero _]/= Nth.
  - apply: (Fin inp a); first apply: (r2_ifft_vec_reads F G phi P L f Hf _ out) => //.
    + by rewrite Len.
    + by rewrite Len => i Hi; rewrite Nth //; exact: Vi.
    + have Pw := ro_prim _ _ _ _ _ Hf.
      move=> i Hi /=; rewrite (dft_ext _ _ _ _ (dft F (phi (r_w f)) (2 ^ L) y)); last by move=> j Hj; rewrite Nth // -R.
      by rewrite (dft_inverse _ _ _ _ _ Pw) // mulKf // (prim_natr _ _ _ Pw).
Qed.
End Transform.

(** ** Codes *)
Section Code.
Variables (F : fieldType) (phi : N -> F) (c : fcode) (r r2 : F).
Notation G := (f_G c).
Notation k := (f_k c).
Notation n := (f_n c).
Notation l2 := (f_l2 c).

Record fcode_ok : Prop := FcodeOk {
  fk_P : gf_pres F G phi;
  fk_k : (0 < k)%N;
  fk_kl : (k < f_len c)%N;
  fk_n : (f_len c <= n)%N;
  fk_l2 : (2 * k <= l2)%N;
  fk_r : n.-primitive_root r;
  fk_r2 : l2.-primitive_root r2;
  fk_fft : tfm_ok (f_w c) F G phi (f_fft c) n r;
  fk_fft2k : tfm_ok (f_w c) F G phi (f_fft2k c) l2 r2;
  fk_rpow : forall i, (i < n)%N -> gvalid G (lnth i (f_rpow c) 0%num) /\ phi (lnth i (f_rpow c) 0%num) = r ^+ i;
  fk_p : (0 < f_p c <= g_card G)%num;
  fk_char : forall i, phi (N.of_nat i mod f_p c)%num = i%:R;
  fk_had : forall x y, size x = l2 -> size y = l2 -> els G x -> els G y -> f_had c x y = map2 (g_mul G) x y
}.
Hypothesis ok : fcode_ok.
Let P : gf_pres F G phi := fk_P ok.
Notation els := (els G).
Notation gives := (gives F G phi).

Lemma kn : (k < n)%N. Proof. by have := fk_kl ok; have := fk_n ok; lia. Qed.
Lemma kl2 : (k < l2)%N. Proof. by have := fk_l2 ok; have := fk_k ok; lia. Qed.

(** The transform of the first [k] elements. *)
Lemma dft_eval m (s : F) (Q : {poly F}) (x : nat -> F) i : (size Q <= m)%N -> (forall j, (j < m)%N -> x j = Q`_j) ->
  dft F s m x i = Q.[s ^+ i].
Proof.
move=> sQ Hx; rewrite dft_horner; congr (_.[_]); apply/polyP => j; rewrite coef_poly.
by case: ltnP => Hj; [exact: Hx|rewrite nth_default // (leq_trans sQ)].
Qed.

(** Encoding: the values of a polynomial. *)
Theorem f_transform_ok pv out words (Q : {poly F}) : (size Q <= k)%N -> size out = n -> size words = k -> els words ->
  (forall j, (j < k)%N -> phi (lnth j words 0%num) = Q`_j) ->
  exists o, f_transform c pv out words = Some o /\ gives o n (fun i => Q.[r ^+ i]).
Proof.
move=> sQ So Sw Vw Ew; apply: (to_fft _ _ _ _ _ _ _ (fk_fft ok) pv out words _ (fun i => i)) => //.
  by rewrite Sw; apply: sees_ext; exact: (fk_k ok).
move=> i Hi; symmetry; apply: dft_eval => [|j Hj]; first exact: leq_trans sQ (ltnW kn).
rewrite Sw; case: ifP => Hjk; first exact: Ew.
rewrite List.nth_overflow -?[length _]/(size _) ?Sw //; rewrite (gp_0 _ _ _ P) nth_default //.
by apply: leq_trans sQ _; rewrite leqNgt Hjk.
Qed.

(** Indices of the fragments used: [k] different ones below [n]. *)
Definition ids_ok (ids : list nat) : Prop :=
  List.length ids = k /\ List.NoDup ids /\ forall i, List.In i ids -> (i < n)%N.

Variable ids : list nat.
Hypothesis Hids : ids_ok ids.
Definition xpt (i : nat) : F := r ^+ (lnth i ids 0%N).

Lemma ids_lt i : (i < k)%N -> (lnth i ids 0%N < n)%N.
Proof. by case: Hids => Hl [_ H] Hi; apply: H; apply: List.nth_In; rewrite Hl; apply/ltP. Qed.
Lemma xpt_inj i j : (i < k)%N -> (j < k)%N -> xpt i = xpt j -> i = j.
Proof.
move=> Hi Hj /eqP; rewrite /xpt (eq_prim_root_expr (fk_r ok)) !modn_small ?ids_lt // => /eqP E.
by case: Hids => Hl [ND _]; apply: (proj1 (List.NoDup_nth ids 0%N) ND); rewrite ?Hl //; apply/ltP.
Qed.
Lemma xpt_neq0 i : (i < k)%N -> xpt i != 0.
Proof. by move=> _; rewrite expf_neq0 // (prim_unit _ _ _ (fk_r ok)). Qed.

Notation vx := (List.map (get 0%num (f_rpow c)) ids).
Lemma vx_spec i : (i < k)%N -> gvalid G (lnth i vx 0%num) /\ phi (lnth i vx 0%num) = xpt i.
Proof.
move=> Hi; rewrite (List.nth_indep _ 0%num (get 0%num (f_rpow c) 0%N)); last by rewrite List.map_length; case: Hids => -> _; apply/ltP.
by rewrite List.map_nth; apply: (fk_rpow ok); exact: ids_lt.
Qed.

Notation A := (Apoly F xpt k).
Definition fctx_ok (x : ctx) : Prop :=
  [/\ x_ids x = ids, List.length (x_invA x) = k,
   (forall i, (i < k)%N -> gvalid G (lnth i (x_invA x) 0%num) /\ phi (lnth i (x_invA x) 0%num) = ((deriv A).[xpt i] * xpt i)^-1)
   & gives (x_A2k x) l2 (fun i => A.[r2 ^+ i])].

Lemma size_A_l2 : (size A <= l2)%N. Proof. by rewrite size_Apoly; exact: kl2. Qed.
Lemma size_A' : (size (deriv A) <= k)%N.
Proof. by rewrite -ltnS -(size_Apoly F xpt k) lt_size_deriv // -size_poly_eq0 size_Apoly. Qed.

Theorem fctx_new_ok pv1 out1 pv2 out2 : size out1 = n -> size out2 = l2 ->
  exists x, fctx_new c ids pv1 out1 pv2 out2 = Some x /\ fctx_ok x.
Proof.
move=> S1 S2; rewrite /fctx_new.
case: (Hids) => Hl [ND Hb].
have Hlx : List.length vx = k by rewrite List.map_length.
have [q [EA HA DA LA]] := ctx_A_gen F G phi P n vx k xpt kn Hlx vx_spec.
rewrite EA.
have [q' [EA' HA' _ LA']] := deriv_spec F G phi P q _ k (f_p c) HA DA (size_Apoly _ _ _)
   ltac:(by rewrite LA; exact: kn) (fk_p ok) (fk_char ok).
rewrite EA'.
have Lq : size (p_buf q) = n by [].
have Lq' : size (p_buf q') = n by rewrite -[size _]/(length _) LA'.
have [|i|AF [-> [SF VF EF]]] := to_fft _ _ _ _ _ _ _ (fk_fft ok) pv1 out1 (p_buf q') (fun v => v) (fun i => i)
   (fun i => (deriv A).[r ^+ i]) S1 (fun i => proj1 (HA' i)).
- by rewrite Lq'; exact: sees_id.
- move=> Hi; symmetry; apply: dft_eval => [|j Hj]; first exact: leq_trans size_A' (ltnW kn).
  by rewrite Lq' Hj; exact: (proj2 (HA' j)).
have [|i|A2 [-> G2]] := to_fft _ _ _ _ _ _ _ (fk_fft2k ok) pv2 out2 (p_buf q) (fun v => new_zero_ext v l2) (fun i => i)
   (fun i => A.[r2 ^+ i]) S2 (fun i => proj1 (HA i)).
- by rewrite Lq; apply: sees_ext; have := kn; lia.
- move=> Hi; symmetry; apply: dft_eval => [|j Hj]; first exact: size_A_l2.
  rewrite Lq; case: ifP => Hjn; first exact: (proj2 (HA j)).
  rewrite List.nth_overflow -?[length _]/(size _) ?Lq //; rewrite (gp_0 _ _ _ P) nth_default // size_Apoly.
  by apply: leq_trans kn _; rewrite leqNgt Hjn.
eexists; split; first reflexivity.
split=> //=; first by rewrite List.map_length List.combine_length Hlx Hl; clear; lia.
move=> i Hi.
have Hc : lnth i (List.combine ids vx) (0%N, 0%num) = (lnth i ids 0%N, lnth i vx 0%num).
  by apply: List.combine_nth; rewrite List.map_length.
have [Vv Ev] := vx_spec i Hi; have E1 := EF _ (ids_lt i Hi); have V1 := VF (lnth i ids 0%N).
have [M1 M2] := gp_mul _ _ _ P _ _ V1 Vv.
rewrite (List.nth_indep _ 0%num (g_inv G (g_mul G (get 0%num AF 0%N) 0%num))); last first.
  by rewrite List.map_length List.combine_length Hlx Hl; move: Hi; clear; lia.
rewrite (List.map_nth (fun jx => g_inv G (g_mul G (get 0%num AF (fst jx)) (snd jx))) _ (0%N, 0%num)) Hc /= /get.
have nz : g_mul G (lnth (lnth i ids 0%N) AF 0%num) (lnth i vx 0%num) <> 0%num.
  move=> E0; move: M2; rewrite E0 (gp_0 _ _ _ P) => /esym/eqP; rewrite mulf_eq0 E1 Ev (negbTE (xpt_neq0 i Hi)) orbF.
  by rewrite -/(xpt i) -(Acof_val F k xpt (Ordinal Hi)) (negbTE (Acof_neq0 F k xpt xpt_inj (Ordinal Hi))).
have [I1 I2] := gp_inv _ _ _ P _ M1 nz.
by split=> //; rewrite I2 M2 E1 Ev.
Qed.

(** The vector given to the inverse transform: [v_i / (A'(x_i) x_i)] at the place [ids_i], zero elsewhere. *)
Lemma list_nth_nth (B : Type) (l : seq B) i d : lnth i l d = nth d l i.
Proof. by elim: l i => [|a l IH] [|i] //=. Qed.
Lemma sum_ids (y g : nat -> F) : (forall l, (l < n)%N -> ~ List.In l ids -> y l = 0) ->
  \sum_(l < n) y l * g l = \sum_(i < k) y (lnth i ids 0%N) * g (lnth i ids 0%N).
Proof.
move=> Hy; case: (Hids) => Hl [ND Hb].
have inE : forall l, reflect (List.In l ids) (l \in ids).
  by move=> l; elim: (ids) => [|a t IH] /=; [constructor|rewrite in_cons; apply: (iffP orP) => [[/eqP ->|/IH]|[->|/IH]]; auto].
have Un : uniq ids.
  elim: ND => //= a l Ha _ ->; rewrite andbT; apply/negP => H; apply: Ha.
  by elim: l H => //= b l IH; rewrite in_cons => /orP [/eqP ->|/IH]; [left|right].
rewrite -(big_mkord xpredT (fun l => y l * g l)) (bigID (fun l => l \in ids)) /=.
rewrite [X in _ + X]big1_seq ?addr0; last first.
  by move=> l /andP [/negP H]; rewrite mem_index_iota => Hln; rewrite Hy ?mul0r //; move/inE.
rewrite -big_filter (perm_big ids) /=; last first.
  apply: uniq_perm; rewrite ?filter_uniq ?iota_uniq // => l; rewrite mem_filter mem_index_iota.
  by case: inE => //= H; rewrite (Hb l H).
rewrite (big_nth 0%N) big_mkord.
have -> : size ids = k by exact: Hl.
by apply: eq_bigr => i _; rewrite list_nth_nth.
Qed.
Lemma fftinv_Q (y v : nat -> F) j : (forall l, (l < n)%N -> ~ List.In l ids -> y l = 0) ->
  (forall i, (i < k)%N -> y (lnth i ids 0%N) = ((deriv A).[xpt i] * xpt i)^-1 * v i) ->
  (j < k)%N -> dft F r^-1 n y j = (Qpoly F k xpt v)`_j.
Proof.
move=> Hy0 Hy Hj; rewrite /dft (sum_ids y (fun l => r^-1 ^+ (j * l))) // /Qpoly coef_poly Hj.
apply: eq_bigr => i _; rewrite Hy // [v i / _]mulrC; congr (_ * _).
by rewrite /xpt mulnC exprM exprVn.
Qed.
Lemma shuffle_spec T (z : T) src : List.length src = k ->
  List.length (shuffle z ids n src) = n /\
  (forall i, (i < k)%N -> lnth (lnth i ids 0%N) (shuffle z ids n src) z = lnth i src z) /\
  (forall l, ~ List.In l ids -> lnth l (shuffle z ids n src) z = z).
Proof.
move=> Hs; case: (Hids) => Hl [ND Hb].
have X m : (m <= k)%N -> let sh := List.fold_left (fun v i => Common.set v (get 0%N ids i) (get z src i)) (List.seq 0 m) (List.repeat z n) in
  List.length sh = n /\ (forall i, (i < m)%N -> lnth (lnth i ids 0%N) sh z = lnth i src z) /\
  (forall l, ~ List.In l ids -> lnth l sh z = z).
  elim: m => [|m IH] Hm; first by split; [rewrite List.repeat_length|split=> // l _; rewrite List.nth_repeat].
  rewrite List.seq_S List.fold_left_app; have [I1 [I2 I3]] := IH (ltnW Hm).
  set sh := List.fold_left _ _ _ in I1 I2 I3 *; rewrite /= /get.
  split; first by rewrite set_length.
  split=> [i Hi|l Hli].
    case: (Nat.eq_dec i m) => [->|ne].
      by rewrite nth_set_eq // I1; have := ids_lt m Hm; clear; lia.
    rewrite nth_set_neq; first by apply: I2; move: Hi ne; clear; lia.
    move=> E; apply: ne.
    by apply: (proj1 (List.NoDup_nth ids 0%N) ND); rewrite ?Hl //; move: Hi Hm; clear; lia.
  rewrite nth_set_neq; first exact: I3.
  by move=> E; apply: Hli; rewrite E; apply: List.nth_In; rewrite Hl; move: Hm; clear; lia.
by rewrite /shuffle Hl; exact: X.
Qed.

Definition vs_len (vs : vscratch) : Prop := [/\ size (v_n2 vs) = n, size (v_2k1 vs) = l2 & size (v_2k2 vs) = l2].

(** Decoding: the coefficients of the polynomial from its values at the points of the context. *)
Theorem fdecode_apply_ok x pv1 pv2 pv3 vs words (Q : {poly F}) : fctx_ok x -> vs_len vs -> (size Q <= k)%N ->
  size words = k -> els words -> (forall i, (i < k)%N -> phi (lnth i words 0%num) = Q.[xpt i]) ->
  exists vs' out, [/\ fdecode_apply c x pv1 pv2 pv3 vs words = Some (vs', out), vs_len vs' & gives out k (fun j => Q`_j)].
Proof.
move=> [X1 X2 X3 [X4 X5 X6]] [Hv1 Hv2 Hv3] sQ Sw Vw Ew; rewrite /fdecode_apply X1.
set src := map2 _ words _.
have Lw : length words = k by [].
have Ls : List.length src = k by rewrite map2_length ?Lw ?X2.
have Es i : (i < k)%N -> gvalid G (lnth i src 0%num) /\ phi (lnth i src 0%num) = ((deriv A).[xpt i] * xpt i)^-1 * Q.[xpt i].
  move=> Hi; rewrite (map2_nth _ _ _ _ 0%num 0%num) ?Lw ?X2 //.
  have [I1 I2] := X3 i Hi.
  by have [M1 M2] := gp_mul _ _ _ P _ _ (Vw i) I1; split=> //; rewrite M2 Ew // I2 mulrC.
have [S1 [S2 S3]] := shuffle_spec N 0%num src Ls.
set n1 := shuffle _ _ _ _ in S1 S2 S3 *.
have inV : els n1.
  move=> i; case: (List.in_dec Nat.eq_dec i ids) => Hi; last by rewrite S3 //; exact: (gvalid0 F G phi P).
  have [t [Ht Et]] := List.In_nth ids i 0%N Hi.
  have Htk : (t < k)%N by move: Ht; case: Hids => ->; clear; lia.
  by rewrite -Et S2 //; case: (Es t Htk).
have Sn1 : size n1 = n by [].
have [|i|y2 [-> [Sy Vy Ey]]] := to_inv _ _ _ _ _ _ _ (fk_fft ok) pv1 (v_n2 vs) n1 (fun v => v) (fun i => i)
   (dft F r^-1 n (fun i => phi (lnth i n1 0%num))) Hv1 inV.
- by rewrite Sn1; exact: sees_id.
- by move=> Hi; apply: dft_ext => j Hj; rewrite Sn1 Hj.
pose QQ := Qpoly F k xpt (fun i => Q.[xpt i]).
have Hj j : (j < k)%N -> phi (lnth j y2 0%num) = QQ`_j.
  move=> Hjk; rewrite Ey; last exact: ltn_trans Hjk kn.
  apply: fftinv_Q => // [l Hl Hni|i Hi]; first by rewrite S3 //; exact: (gp_0 _ _ _ P).
  by rewrite S2 //; have [_ ->] := Es i Hi.
have sQQ : (size QQ <= k)%N by exact: size_Qpoly.
have [|i|q [-> [Sq Vq Eq]]] := to_fft _ _ _ _ _ _ _ (fk_fft2k ok) pv2 (v_2k1 vs) y2 (fun v => new_zero_ext (new_slice v k 0) l2)
   (fun i => if (i < k)%N then i else n) (fun i => QQ.[r2 ^+ i]) Hv2 Vy.
- by rewrite Sy; apply: sees_slice; exact: kn.
- move=> Hi; symmetry; apply: dft_eval => [|j Hjl]; first exact: leq_trans sQQ (ltnW kl2).
  rewrite Sy; case: (ltnP j k) => Hjk; first by rewrite (ltn_trans Hjk kn) Hj.
  rewrite ltnn List.nth_overflow -?[length _]/(size _) ?Sy //; rewrite (gp_0 _ _ _ P) nth_default //.
  exact: leq_trans sQQ Hjk.
rewrite (fk_had ok) //; set a := map2 _ _ _.
have Lq : length q = l2 by [].
have LA : length (x_A2k x) = l2 by [].
have La : List.length a = l2 by rewrite /a map2_length Lq ?LA.
have Ea i : (i < l2)%N -> gvalid G (lnth i a 0%num) /\ phi (lnth i a 0%num) = (A * QQ).[r2 ^+ i].
  move=> Hi; rewrite /a (map2_nth _ _ _ _ 0%num 0%num) ?Lq ?LA //.
  by have [M1 M2] := gp_mul _ _ _ P _ _ (Vq i) (X5 i); split=> //; rewrite M2 Eq // X6 // hornerM mulrC.
have sAQ : (size (A * QQ)%R <= l2)%N.
  apply: (leq_trans (size_mul_leq _ _)); rewrite size_Apoly.
  by have := fk_l2 ok; move: sQQ; move: (size QQ) => s; clear; lia.
have [||i|iv [-> [Si Vi Ei]]] := to_ifft _ _ _ _ _ _ _ (fk_fft2k ok) pv3 (v_2k2 vs) a (fun v => v) (fun i => i)
   (fun j => (A * QQ)`_j) Hv3.
- by apply: (els_in F G phi P); rewrite -[size _]/(length a) La => i Hi; case: (Ea i Hi).
- by rewrite -[size _]/(length a) La; exact: sees_id.
- move=> Hi; rewrite -[size _]/(length a) La Hi (dft_eval _ _ (A * QQ)) //; by case: (Ea i Hi).
have Vneg i : gvalid G (g_neg G (lnth i iv 0%num)) by case: (gp_neg _ _ _ P _ (Vi i)).
have Nneg i : (i < l2)%N -> lnth i (List.map (g_neg G) iv) 0%num = g_neg G (lnth i iv 0%num).
  move=> Hi; rewrite (List.nth_indep _ 0%num (g_neg G 0%num)) ?List.map_nth //.
  by rewrite List.map_length -[length _]/(size _) Si; apply/ltP.
have Nf j : (j < k)%N -> lnth j (List.firstn k (List.map (g_neg G) iv)) 0%num = g_neg G (lnth j iv 0%num).
  move=> Hjk; rewrite nth_firstn (_ : (j <? k)%coq_nat = true); last by apply/Nat.ltb_spec0/ltP.
  by apply: Nneg; exact: ltn_trans Hjk kl2.
eexists; eexists; split; first reflexivity.
  by split=> //=; rewrite size_map.
have Lk : size (List.firstn k (List.map (g_neg G) iv)) = k.
  by rewrite -[size _]/(length _) List.firstn_length List.map_length -[length iv]/(size iv) Si; have := kl2; clear; lia.
split=> //; first by apply: (els_in F G phi P); rewrite Lk => i Hi; rewrite Nf.
move=> j Hjk; rewrite Nf //.
have [_ ->] := gp_neg _ _ _ P _ (Vi j); rewrite Ei; last exact: ltn_trans Hjk kl2.
by apply: decode_identity => //; [exact: xpt_inj|exact: xpt_neq0].
Qed.
End Code.
