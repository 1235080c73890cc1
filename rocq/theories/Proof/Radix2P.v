(** Radix2 objects over a prime field: the transforms are DFTs, symbol by symbol. *)
Set Warnings "-notation-overridden,-ambiguous-paths".
From Coq Require Import NArith ZArith.
From Coq Require List.
From mathcomp Require Import all_ssreflect fingroup ssralg poly.
From mathcomp Require Import zify.
From Verif.Model Require Import Common Arith Ring Fft2n Radix2.
From Verif.Spec Require Import Dft.
From Verif.Proof Require Import ListP Kern Pres Fft2nP RootP DftInv.
Import GRing.Theory.
Local Open Scope ring_scope.

Notation lnth := List.nth.

(** ** The two symbol types *)
Section Sym.
Variables (F : fieldType) (G : gfops) (phi : N -> F).
Hypothesis P : gf_pres F G phi.

Lemma gvalid0 : gvalid G 0%num.
Proof. by have := gp_card _ _ _ P; rewrite /gvalid; lia. Qed.

Lemma sym_vec_pres : sym_pres F N N (sym_vec G) (gvalid G) phi (gvalid G) phi.
Proof.
split; rewrite /=.
- by split; [exact: gvalid0|exact: (gp_0 _ _ _ P)].
- move=> r a b Hr Ha Hb; have [V1 E1] := gp_mul _ _ _ P _ _ Hr Hb.
  have [V2 E2] := gp_add _ _ _ P _ _ Ha V1; have [V3 E3] := gp_sub _ _ _ P _ _ Ha V1.
  by rewrite E2 E3 E1.
- move=> r a b Hr Ha Hb; have [V1 E1] := gp_sub _ _ _ P _ _ Ha Hb.
  have [V2 E2] := gp_add _ _ _ P _ _ Ha Hb; have [V3 E3] := gp_mul _ _ _ P _ _ Hr V1.
  by rewrite E2 E3 E1.
- by move=> r a b; exact: (gp_mul _ _ _ P).
- by move=> r a b Hr _; exact: (gp_mul _ _ _ P).
- by move=> a Ha; have [V1 E1] := gp_sub _ _ _ P _ _ gvalid0 Ha; rewrite E1 (gp_0 _ _ _ P) sub0r.
Qed.

(** A packet of [pkt] valid elements. *)
Definition pvalid (pkt : nat) (p : list N) : Prop := List.length p = pkt /\ List.Forall (gvalid G) p.

(** The element of a packet at position [j]. *)
Definition plane (j : nat) (p : list N) : F := phi (lnth j p 0%num).

Lemma map2_length {A B D} (f : A -> B -> D) l m : List.length l = List.length m -> List.length (map2 f l m) = List.length l.
Proof. by elim: l m => [|a l IH] [|b m] //= [H]; rewrite IH. Qed.

Lemma map2_nth {A B D} (f : A -> B -> D) l m j a b d : List.length l = List.length m -> (j < List.length l)%N ->
  lnth j (map2 f l m) d = f (lnth j l a) (lnth j m b).
Proof. by elim: l m j => [|x l IH] [|y m] [|j] //= [H] Hj; apply: IH => //; lia. Qed.

Lemma map2_Forall {A B D} (f : A -> B -> D) (PA : A -> Prop) (PB : B -> Prop) (PD : D -> Prop) l m :
  (forall a b, PA a -> PB b -> PD (f a b)) -> List.Forall PA l -> List.Forall PB m -> List.Forall PD (map2 f l m).
Proof.
move=> H Hl; elim: Hl m => [|a {}l Ha Hl IH] [|b m] //= Hm; try by constructor.
by constructor; [apply: H => //; exact: List.Forall_inv Hm|apply: IH; exact: List.Forall_inv_tail Hm].
Qed.

Lemma Forall_nth0 pkt p j : pvalid pkt p -> (j < pkt)%N -> gvalid G (lnth j p 0%num).
Proof. by move=> [Hl /List.Forall_forall H] Hj; apply: H; apply: List.nth_In; rewrite Hl; lia. Qed.

Lemma map_pvalid (g : N -> N) (u : F -> F) pkt j p : (forall a, gvalid G a -> gvalid G (g a) /\ phi (g a) = u (phi a)) ->
  (j < pkt)%N -> pvalid pkt p -> pvalid pkt (List.map g p) /\ plane j (List.map g p) = u (plane j p).
Proof.
move=> H Hj Hp; have [Lp Fp] := Hp; split; last first.
  rewrite /plane (List.nth_indep _ _ (g 0%num)); last by rewrite List.map_length Lp; lia.
  by rewrite List.map_nth; case: (H _ (Forall_nth0 pkt _ _ Hp Hj)).
split; first by rewrite List.map_length.
by apply/List.Forall_map; apply: List.Forall_impl Fp => x Hx; case: (H x Hx).
Qed.

Lemma map2_pvalid (g : N -> N -> N) (u : F -> F -> F) pkt j p q :
  (forall a b, gvalid G a -> gvalid G b -> gvalid G (g a b) /\ phi (g a b) = u (phi a) (phi b)) ->
  (j < pkt)%N -> pvalid pkt p -> pvalid pkt q ->
  pvalid pkt (map2 g p q) /\ plane j (map2 g p q) = u (plane j p) (plane j q).
Proof.
move=> H Hj Hp Hq; have [Lp Fp] := Hp; have [Lq Fq] := Hq; split; last first.
  rewrite /plane (map2_nth _ _ _ _ 0%num 0%num); [|by rewrite Lp Lq|by rewrite Lp].
  by case: (H _ _ (Forall_nth0 pkt _ _ Hp Hj) (Forall_nth0 pkt _ _ Hq Hj)).
split; first by rewrite map2_length // Lp Lq.
by apply: (map2_Forall _ (gvalid G) (gvalid G)) => // x y Hx Hy; case: (H x y Hx Hy).
Qed.

Lemma sym_pkt_pres pkt j : (j < pkt)%N ->
  sym_pres F N (list N) (sym_pkt G pkt) (gvalid G) phi (pvalid pkt) (plane j).
Proof.
move=> Hj; have SV := sym_vec_pres; split; rewrite [sym_pkt _ _]/=.
- rewrite /plane; split; last by rewrite List.nth_repeat (gp_0 _ _ _ P).
  split; first exact: List.repeat_length.
  by apply/List.Forall_forall => x /(@List.repeat_spec _ _ _ _) ->; exact: gvalid0.
- move=> r p q Hr Hp Hq; split.
    apply: (map2_pvalid _ (fun a b => a + phi r * b)) => // a b Ha Hb.
    by have [X _] := sp_ct _ _ _ _ _ _ _ _ SV r a b Hr Ha Hb.
  apply: (map2_pvalid _ (fun a b => a - phi r * b)) => // a b Ha Hb.
  by have [_ X] := sp_ct _ _ _ _ _ _ _ _ SV r a b Hr Ha Hb.
- move=> r p q Hr Hp Hq; split.
    apply: (map2_pvalid _ (fun a b => a + b)) => // a b Ha Hb.
    by have [X _] := sp_gs _ _ _ _ _ _ _ _ SV r a b Hr Ha Hb.
  apply: (map2_pvalid _ (fun a b => phi r * (a - b))) => // a b Ha Hb.
  by have [_ X] := sp_gs _ _ _ _ _ _ _ _ SV r a b Hr Ha Hb.
- move=> r p q Hr Hp; apply: (map_pvalid _ (fun a => phi r * a)) => // a Ha.
  exact: (gp_mul _ _ _ P).
- move=> r p q Hr _ Hp; apply: (map_pvalid _ (fun a => phi r * a)) => // a Ha.
  exact: (gp_mul _ _ _ P).
- move=> p Hp; apply: (map_pvalid _ (fun a => - a)) => // a Ha; exact: (sp_neg _ _ _ _ _ _ _ _ SV a Ha).
Qed.
End Sym.

(** ** Objects *)
(** What the constructor guarantees about an object of length [2^L]. *)
Record radix2_ok (F : fieldType) (G : gfops) (phi : N -> F) (L : nat) (f : radix2) : Prop := Radix2Ok {
  ro_L : (L < 32)%N;
  ro_n : r_n f = (2 ^ L)%N;
  ro_rev : r_rev f = init_bitrev (2 ^ L);
  ro_w : gvalid G (r_w f);
  ro_prim : (2 ^ L).-primitive_root (phi (r_w f));
  ro_W : is_powers 0%num (gvalid G) phi (2 ^ L) (phi (r_w f)) (r_W f);
  ro_inv_W : is_powers 0%num (gvalid G) phi (2 ^ L) (phi (r_w f))^-1 (r_inv_W f);
  ro_inv_n : gvalid G (r_inv_n f) /\ phi (r_inv_n f) = ((2 ^ L)%:R)^-1
}.

Section New.
Variables (F : fieldType) (G : gfops) (phi : N -> F) (p : N).
Hypothesis P : gf_pres F G phi.
Hypothesis fermat : forall a, gvalid G a -> a <> 0%num -> phi a ^+ N.to_nat (g_card G - 1) = 1.
Variable hw : N.
Hypothesis hw0 : (0 < hw)%num.
Hypothesis hq : (g_card G <= 2 ^ (2 * hw))%num.
Hypothesis cp : g_card G = p.
Hypothesis pnat : forall a, gvalid G a -> phi a = (N.to_nat a)%:R.
Variable root : N.
Hypothesis vroot : gvalid G root.
Hypothesis proot : (N.to_nat (p - 1)).-primitive_root (phi root).

Let p2 : (1 < p)%num.
Proof. by rewrite -cp; exact: (gp_card _ _ _ P). Qed.

Lemma omegas_powers n w : (N.of_nat n <= p)%num -> gvalid G w ->
  is_powers 0%num (gvalid G) phi n (phi w) (compute_omegas G n w).
Proof.
move=> Hn Hw i Hi; rewrite /compute_omegas.
rewrite nth_map_seq; last lia.
by have [A B] := gp_exp _ _ _ P w (N.of_nat i) Hw ltac:(rewrite cp; lia); rewrite B Nat2N.id.
Qed.

Theorem radix2_new_ok L data_len : (L < 32)%N -> N.divide (2 ^ N.of_nat L) (p - 1) -> (data_len <= 2 ^ L)%N ->
  exists f, [/\ radix2_new G p root (2 ^ L) data_len = Some f, radix2_ok F G phi L f
   & r_data_len f = (if (0 < data_len)%N then data_len else 2 ^ L)%N ] /\ r_w f = get_nth_root G root (2 ^ N.of_nat L).
Proof.
move=> HL Hd Hdl; rewrite /radix2_new.
have -> : Nat.ltb (2 ^ L)%N data_len = false by apply/Nat.ltb_ge; lia.
have En : N.of_nat (2 ^ L)%N = (2 ^ N.of_nat L)%num.
  by rewrite -powE Nat2N.inj_pow.
have n0 : (2 ^ N.of_nat L)%num <> 0%num by apply: N.pow_nonzero.
rewrite En; move/(proj2 (N.mod_divide _ _ n0)): (Hd) => -> /=.
eexists; split; [split; first reflexivity|reflexivity]; rewrite /=; last by case: data_len Hdl.
have h0 : (p - 1)%num <> 0%num by lia.
have [Vw Pw] := get_nth_root_spec F G phi P fermat hw hw0 hq root (2 ^ N.of_nat L)%num vroot ltac:(by rewrite cp) n0.
have Eg : N.gcd (2 ^ N.of_nat L) (g_card G - 1) = (2 ^ N.of_nat L)%num.
  rewrite cp; have := N.divide_gcd_iff (2 ^ N.of_nat L)%num (p - 1)%num; case; first lia.
  by move/(_ Hd).
rewrite Eg -En Nat2N.id in Pw; rewrite En in Pw.
set w := get_nth_root _ _ _ in Vw Pw *.
have Hle : (N.of_nat (2 ^ L)%N <= p)%num.
  by rewrite En; have := N.divide_pos_le _ _ _ Hd; lia.
have Hlt : (N.of_nat (2 ^ L)%N < p)%num.
  by rewrite En; have := N.divide_pos_le _ _ _ Hd; lia.
have w0 : w <> 0%num.
  by move=> E; have := prim_unit _ _ _ Pw; rewrite E (gp_0 _ _ _ P) eqxx.
have [Vi Ei] := gp_inv _ _ _ P w Vw w0.
split=> //=.
- exact: omegas_powers.
- by rewrite -Ei; apply: omegas_powers.
- have Vn : gvalid G (2 ^ N.of_nat L)%num by rewrite /gvalid cp -En.
  have [Vn1 En1] := gp_inv _ _ _ P _ Vn n0.
  rewrite /get_inv_n_mod_p N.mod_small; last by rewrite -cp.
  split=> //; rewrite En1 pnat // -En Nat2N.id //.
Qed.
End New.

(** ** Transforms of an object *)
Section Run.
Variables (F : fieldType) (G : gfops) (phi : N -> F).
Hypothesis P : gf_pres F G phi.
Variables (T : Type) (S : symops N T) (vT : T -> Prop) (hT : T -> F).
Hypothesis PS : sym_pres F N T S (gvalid G) phi vT hT.
Variables (L : nat) (f : radix2).
Hypothesis Hf : radix2_ok F G phi L f.

Notation reads := (reads S vT hT).
Notation z := (s_zero S).

Let HL := ro_L _ _ _ _ _ Hf.
Let wL : phi (r_w f) ^+ (2 ^ L) = 1.
Proof. exact: prim_expr_order (ro_prim _ _ _ _ _ Hf). Qed.
Let wm : (0 < L)%N -> phi (r_w f) ^+ (2 ^ L.-1) = -1.
Proof. by move=> H; apply: prim_half => //; apply: (ro_prim _ _ _ _ _ Hf). Qed.
Let wL' : (phi (r_w f))^-1 ^+ (2 ^ L) = 1.
Proof. exact: prim_expr_order (prim_inv _ _ _ (ro_prim _ _ _ _ _ Hf)). Qed.
Let wm' : (0 < L)%N -> (phi (r_w f))^-1 ^+ (2 ^ L.-1) = -1.
Proof. by move=> H; apply: prim_half => //; apply: prim_inv; apply: (ro_prim _ _ _ _ _ Hf). Qed.

Theorem r2_fft_vec_reads e input out : (e <= L)%N ->
  Nat.max (r_data_len f) (List.length input) = (2 ^ e)%N -> List.length out = (2 ^ L)%N ->
  (forall i, (i < List.length input)%N -> vT (lnth i input z)) ->
  reads (2 ^ L) (r2_fft_vec S f out input) (dft F (phi (r_w f)) (2 ^ L) (fun i => hT (lnth i input z))).
Proof.
move=> He HD Hout Hin; rewrite /r2_fft_vec (ro_n _ _ _ _ _ Hf) (ro_rev _ _ _ _ _ Hf).
by apply: (fft_vec_reads S 0%num _ _ _ _ PS L _ wL wm _ _ _ _ e) => //; apply: (ro_W _ _ _ _ _ Hf).
Qed.

Theorem r2_fft_buf_reads e input out : (e <= L)%N ->
  Nat.max (r_data_len f) (List.length input) = (2 ^ e)%N -> List.length out = (2 ^ L)%N ->
  (forall i, (i < List.length input)%N -> vT (lnth i input z)) ->
  reads (2 ^ L) (r2_fft_buf S f out input) (dft F (phi (r_w f)) (2 ^ L) (fun i => hT (lnth i input z))).
Proof.
move=> He HD Hout Hin; rewrite /r2_fft_buf (ro_n _ _ _ _ _ Hf) (ro_rev _ _ _ _ _ Hf).
by apply: (fft_buf_reads S 0%num _ _ _ _ PS L _ wL wm _ _ _ _ e) => //; apply: (ro_W _ _ _ _ _ Hf).
Qed.

Theorem r2_fft_inv_vec_reads input out : List.length out = (2 ^ L)%N -> (List.length input <= 2 ^ L)%N ->
  (forall i, (i < List.length input)%N -> vT (lnth i input z)) ->
  reads (2 ^ L) (r2_fft_inv_vec S f out input) (dft F (phi (r_w f))^-1 (2 ^ L) (fun i => hT (lnth i input z))).
Proof.
move=> Hout Hl Hin; rewrite /r2_fft_inv_vec (ro_n _ _ _ _ _ Hf) (ro_rev _ _ _ _ _ Hf).
by apply: (fft_inv_vec_reads S 0%num _ _ _ _ PS L _ wm') => //; apply: (ro_inv_W _ _ _ _ _ Hf).
Qed.

Theorem r2_fft_inv_buf_reads input out : List.length out = (2 ^ L)%N -> (0 < List.length input)%N ->
  (List.length input <= 2 ^ L)%N ->
  (forall i, (i < List.length input)%N -> vT (lnth i input z)) ->
  reads (2 ^ L) (r2_fft_inv_buf S f out input) (dft F (phi (r_w f))^-1 (2 ^ L) (fun i => hT (lnth i input z))).
Proof.
move=> Hout H0 Hl Hin; rewrite /r2_fft_inv_buf (ro_n _ _ _ _ _ Hf) (ro_rev _ _ _ _ _ Hf).
by apply: (fft_inv_buf_reads S 0%num _ _ _ _ PS L _ wm') => //; apply: (ro_inv_W _ _ _ _ _ Hf).
Qed.

(** Scaling by coefficients, with the four cases of the code. [h] presents -1. *)
Lemma mul_coef_spec h c s d : gvalid G h -> phi h = -1 -> gvalid G c -> (c <= h)%num -> vT s ->
  vT (mul_coef S h c s d) /\ hT (mul_coef S h c s d) = phi c * hT s.
Proof.
clear - P PS; move=> Vh Eh Vc Hc Vs; rewrite /mul_coef.
have [Z1 Z2] := sp_zero _ _ _ _ _ _ _ _ PS.
case: ifP => C1.
  apply: (sp_scale _ _ _ _ _ _ _ _ PS) => // E; case/andP: C1 => _ /N.ltb_spec0.
  by have -> : c = h; [apply: (gp_inj _ _ _ P) => //; rewrite E Eh|move/N.lt_irrefl].
case: N.eqb_spec => [->|C2]; first by rewrite (gp_1 _ _ _ P) mul1r.
case: N.eqb_spec => [->|C3]; first by rewrite (gp_0 _ _ _ P) mul0r.
case: N.eqb_spec => [->|C4].
  by rewrite Eh mulN1r; exact: (sp_neg _ _ _ _ _ _ _ _ PS).
have : (1 <? c)%num && (c <? h)%num by apply/andP; split; apply/N.ltb_spec0; lia.
by rewrite C1.
Qed.

Lemma mul_vec_spec h u src dest n g : gvalid G h -> phi h = -1 ->
  (forall i, (i < List.length u)%N -> gvalid G (lnth i u 0%num) /\ (lnth i u 0%num <= h)%num) ->
  (List.length u <= List.length dest)%N -> (n <= List.length u)%N ->
  (forall i, (i < n)%N -> vT (lnth i src z) /\ hT (lnth i src z) = g i) ->
  let d := mul_vec_to_vecp S h u src dest in
  List.length d = List.length dest /\
  (forall i, (i < n)%N -> vT (lnth i d z) /\ hT (lnth i d z) = phi (lnth i u 0%num) * g i) /\
  (forall i, (List.length u <= i)%N -> lnth i d z = lnth i dest z).
Proof.
clear - P PS; move=> Vh Eh Hu Hl Hn Hs /=; rewrite /mul_vec_to_vecp.
have X : forall m, (m <= List.length u)%N ->
  let d := List.fold_left (fun d i => set d i (mul_coef S h (get 0%num u i) (get z src i) (get z d i))) (List.seq 0 m) dest in
  List.length d = List.length dest /\
  (forall i, (i < m)%N -> (i < n)%N -> vT (lnth i d z) /\ hT (lnth i d z) = phi (lnth i u 0%num) * g i) /\
  (forall i, (m <= i)%N -> lnth i d z = lnth i dest z).
  elim=> [|m IH] Hm; first by split=> //; split=> // i; rewrite ltn0.
  rewrite List.seq_S List.fold_left_app /=.
  have [I1 [I2 I3]] := IH ltac:(lia); set d := List.fold_left _ _ _ in I1 I2 I3 *.
  split; first by rewrite set_length.
  split=> i Hi; last by rewrite nth_set_neq; [apply: I3; lia|lia].
  move=> Hi2; case: (Nat.eq_dec i m) => [E|Hne].
    subst i; rewrite nth_set_eq; last by rewrite I1; lia.
    have [A B] := Hs m Hi2; have [C D] := Hu m Hm.
    by rewrite -B; apply: mul_coef_spec.
  by rewrite nth_set_neq; [apply: I2; lia|lia].
have [A [B C]] := X _ (leqnn _).
split=> //; split=> // i Hi; apply: B => //; lia.
Qed.

End Run.

(** ** The transforms of a build *)
Section RunK.
Variables (F : fieldType) (G : gfops) (phi : N -> F).
Hypothesis P : gf_pres F G phi.
Variables (T : Type) (K : kernels T) (vT : T -> Prop) (hT : T -> F).
Hypothesis KO : kern_ok K.
Notation S := (k_sym K).
Hypothesis PS : sym_pres F N T S (gvalid G) phi vT hT.
Variables (L : nat) (f : radix2).
Hypothesis Hf : radix2_ok F G phi L f.

Notation reads := (reads S vT hT).
Notation z := (s_zero S).

Theorem k_fft_reads e input out : (e <= L)%N ->
  Nat.max (r_data_len f) (List.length input) = (2 ^ e)%N -> List.length out = (2 ^ L)%N ->
  (forall i, (i < List.length input)%N -> vT (lnth i input z)) ->
  reads (2 ^ L) (k_fft K f out input) (dft F (phi (r_w f)) (2 ^ L) (fun i => hT (lnth i input z))).
Proof.
move=> He HD Hout Hin.
rewrite (ko_fft _ KO f L e) ?powE //; [exact: (r2_fft_buf_reads F G phi T S vT hT PS L f Hf e)|exact: (ro_n _ _ _ _ _ Hf)|exact/leP].
Qed.

Theorem k_fft_inv_reads input out : List.length out = (2 ^ L)%N -> (0 < List.length input)%N ->
  (List.length input <= 2 ^ L)%N ->
  (forall i, (i < List.length input)%N -> vT (lnth i input z)) ->
  reads (2 ^ L) (k_fft_inv K f out input) (dft F (phi (r_w f))^-1 (2 ^ L) (fun i => hT (lnth i input z))).
Proof.
move=> Hout H0 Hl Hin.
rewrite (ko_inv _ KO f L) ?powE //; [exact: (r2_fft_inv_buf_reads F G phi T S vT hT PS L f Hf)|exact: (ro_n _ _ _ _ _ Hf)|exact/ltP].
Qed.

Theorem r2_ifft_buf_reads h input out : gvalid G h -> phi h = -1 -> (forall c, gvalid G c -> (c <= h)%num) ->
  List.length out = (2 ^ L)%N -> (0 < List.length input)%N -> (List.length input <= 2 ^ L)%N ->
  (forall i, (i < List.length input)%N -> vT (lnth i input z)) ->
  reads (2 ^ L) (r2_ifft_buf K h f out input)
    (fun i => ((2 ^ L)%:R)^-1 * dft F (phi (r_w f))^-1 (2 ^ L) (fun i => hT (lnth i input z)) i).
Proof.
move=> Vh Eh Hmax Hout H0 Hl Hin; rewrite /r2_ifft_buf.
have [R1 R2] := k_fft_inv_reads input out Hout H0 Hl Hin.
set v := k_fft_inv _ _ _ _ in R1 R2 *.
have [Vi Ei] := ro_inv_n _ _ _ _ _ Hf.
have Lu : List.length (List.repeat (r_inv_n f) (r_n f)) = (2 ^ L)%N by rewrite List.repeat_length (ro_n _ _ _ _ _ Hf).
have Nu : forall i, (i < 2 ^ L)%N -> lnth i (List.repeat (r_inv_n f) (r_n f)) 0%num = r_inv_n f.
  move=> i Hi; rewrite (List.nth_indep _ _ (r_inv_n f)) ?List.nth_repeat //.
  by rewrite Lu; lia.
have [A [B _]] := mul_vec_spec F G phi P T S vT hT PS h (List.repeat (r_inv_n f) (r_n f)) v v (2 ^ L) _ Vh Eh
  ltac:(by rewrite Lu => i Hi; rewrite Nu //; split=> //; apply: Hmax) ltac:(by rewrite Lu R1) ltac:(by rewrite Lu) R2.
split; first by rewrite A R1.
by move=> i Hi; have [C D] := B i Hi; split=> //; rewrite D Nu // Ei.
Qed.
End RunK.

(** Vector version of [ifft]. *)
Section RunVec.
Variables (F : fieldType) (G : gfops) (phi : N -> F).
Hypothesis P : gf_pres F G phi.
Variables (L : nat) (f : radix2).
Hypothesis Hf : radix2_ok F G phi L f.
Notation reads := (reads (sym_vec G) (gvalid G) phi).

Theorem r2_ifft_vec_reads input out : List.length out = (2 ^ L)%N -> (List.length input <= 2 ^ L)%N ->
  (forall i, (i < List.length input)%N -> gvalid G (lnth i input 0%num)) ->
  reads (2 ^ L) (r2_ifft_vec G f out input)
    (fun i => ((2 ^ L)%:R)^-1 * dft F (phi (r_w f))^-1 (2 ^ L) (fun i => phi (lnth i input 0%num)) i).
Proof.
move=> Hout Hl Hin; rewrite /r2_ifft_vec.
have [R1 R2] := r2_fft_inv_vec_reads F G phi N (sym_vec G) _ _ (sym_vec_pres F G phi P) L f Hf input out Hout Hl Hin.
have [Vi Ei] := ro_inv_n _ _ _ _ _ Hf.
split; first by rewrite List.map_length R1.
move=> i Hi; have [A B] := R2 i Hi; rewrite /= in A B *.
rewrite (List.nth_indep _ _ (g_mul G 0%num (r_inv_n f))); last by rewrite List.map_length R1; lia.
rewrite (List.map_nth (fun x => g_mul G x (r_inv_n f))).
by have [C ->] := gp_mul _ _ _ P _ _ A Vi; split=> //; rewrite B Ei mulrC.
Qed.

(** [ifft] after [fft] and [fft] after [ifft] give back the vector. *)
Theorem r2_roundtrip e x out1 out2 : (e <= L)%N -> Nat.max (r_data_len f) (2 ^ L) = (2 ^ e)%N ->
  List.length x = (2 ^ L)%N -> List.length out1 = (2 ^ L)%N -> List.length out2 = (2 ^ L)%N ->
  List.Forall (gvalid G) x ->
  r2_ifft_vec G f out2 (r2_fft_vec (sym_vec G) f out1 x) = x /\
  r2_fft_vec (sym_vec G) f out2 (r2_ifft_vec G f out1 x) = x.
Proof.
move=> He HD Hx H1 H2 Hv.
have PS := sym_vec_pres F G phi P.
have Pw := ro_prim _ _ _ _ _ Hf.
have N0 : (2 ^ L)%:R != 0 :> F by apply: prim_natr Pw.
have Vx : forall i, (i < List.length x)%N -> gvalid G (lnth i x 0%num).
  by move=> i Hi; move/List.Forall_forall: Hv; apply; apply: List.nth_In; lia.
split.
- have [R1 R2] := r2_fft_vec_reads F G phi N (sym_vec G) _ _ PS L f Hf e x out1 He ltac:(by rewrite Hx) H1 Vx.
  set y := r2_fft_vec _ _ _ _ in R1 R2 *; rewrite /= in R2.
  have [Q1 Q2] := r2_ifft_vec_reads y out2 H2 ltac:(by rewrite R1) ltac:(by rewrite R1 => i Hi; case: (R2 i Hi)).
  apply: (list_ext _ 0%num); first by rewrite Q1 Hx.
  move=> i; rewrite Q1 => Hi; have Hi' : (i < 2 ^ L)%N by lia.
  have [A B] := Q2 i Hi'; rewrite /= in A B.
  apply: (gp_inj _ _ _ P) => //; first by apply: Vx; rewrite Hx.
  rewrite B (dft_ext _ _ _ _ (dft F (phi (r_w f)) (2 ^ L) (fun i => phi (lnth i x 0%num)))).
    by rewrite dft_inverse // mulKf.
  by move=> j Hj; case: (R2 j Hj).
- have [R1 R2] := r2_ifft_vec_reads x out1 H1 ltac:(by rewrite Hx) Vx.
  set y := r2_ifft_vec _ _ _ _ in R1 R2 *; rewrite /= in R2.
  have [Q1 Q2] := r2_fft_vec_reads F G phi N (sym_vec G) _ _ PS L f Hf e y out2 He ltac:(by rewrite R1) H2
     ltac:(by rewrite R1 => i Hi; case: (R2 i Hi)).
  apply: (list_ext _ 0%num); first by rewrite Q1 Hx.
  move=> i; rewrite Q1 => Hi; have Hi' : (i < 2 ^ L)%N by lia.
  have [A B] := Q2 i Hi'; rewrite /= in A B.
  apply: (gp_inj _ _ _ P) => //; first by apply: Vx; rewrite Hx.
  rewrite B (dft_ext _ _ _ _ (fun i => ((2 ^ L)%:R)^-1 * dft F (phi (r_w f))^-1 (2 ^ L) (fun i => phi (lnth i x 0%num)) i)).
    rewrite /dft; under eq_bigr => j _ do rewrite -mulrA.
    rewrite -big_distrr /= -/(dft F (phi (r_w f)) (2 ^ L) (dft F (phi (r_w f))^-1 (2 ^ L) (fun i => phi (lnth i x 0%num))) i).
    rewrite -{1}(invrK (phi (r_w f))) dft_inverse ?mulKf //.
    exact: prim_inv.
  by move=> j Hj; case: (R2 j Hj).
Qed.
End RunVec.
