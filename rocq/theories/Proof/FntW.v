(** Packets: exact results of the encoder and the decoder of the Fermat-field code. *)
Set Warnings "-notation-overridden,-ambiguous-paths".
From Coq Require Import NArith ZArith.
From Coq Require List.
From mathcomp Require Import all_ssreflect ssralg poly.
From mathcomp Require Import zify.
From Verif.Model Require Import Common Arith Ring Fft2n Radix2 Poly Props Fnt.
From Verif.Spec Require Import Dft Code.
From Verif.Proof Require Import ListP PolyL Pres Fft2nP Radix2P PolyP DftInv Interp Kern Build FntP FntV.
Import GRing.Theory.
Local Open Scope ring_scope.
Notation lnth := List.nth.

Lemma pkts_length rows pkt f : List.length (pkts rows pkt f) = rows.
Proof. by rewrite /pkts List.map_length List.seq_length. Qed.

Lemma pkts_nth rows pkt f i d : (i < rows)%N -> lnth i (pkts rows pkt f) d = List.map (f i) (List.seq 0 pkt).
Proof. by move=> Hi; rewrite /pkts nth_map_seq //; lia. Qed.

Lemma pkts_nth2 rows pkt f i t d d' : (i < rows)%N -> (t < pkt)%N -> lnth t (lnth i (pkts rows pkt f) d) d' = f i t.
Proof. by move=> Hi Ht; rewrite pkts_nth // nth_map_seq //; lia. Qed.

Section Words.
Variables (F : fieldType) (phi : N -> F) (psi : F -> N) (L L2 e : nat) (c : fnt).
Hypothesis ok : fnt_ok F phi L L2 e c.
Hypothesis bo : build_ok c.
Let G := c_G c.
Let P : gf_pres F G phi := fo_P _ _ _ _ _ _ ok.
Hypothesis psiP : forall y, gvalid G (psi y) /\ phi (psi y) = y.
Let k := c_k c.
Let w : F := phi (r_w (c_fft c)).
Let n := (2 ^ L)%N.
Let n2 := (2 ^ L2)%N.

(** The polynomial of degree below [k] with values [v i] at [w^i]. *)
Definition interp (v : nat -> F) : {poly F} :=
  \sum_(i < k) (v i / (deriv (Apoly F (fun i => w ^+ i) k)).[w ^+ i]) *: Acof F k (fun i => w ^+ i) i.

Definition msg (col : nat -> N) : {poly F} :=
  if c_sys c then interp (fun i => phi (col i)) else \poly_(j < k) phi (col j).

Definition cw (col : nat -> N) (i : nat) : N := psi (msg col).[w ^+ i].

Let kn : (k < n)%N := kn F phi L L2 e c ok.

Lemma winj i j : (i < k)%N -> (j < k)%N -> w ^+ i = w ^+ j -> i = j.
Proof.
move=> Hi Hj /eqP; rewrite (eq_prim_root_expr (wprim F phi L L2 e c ok)) !modn_small => [/eqP //||];
  by apply: ltn_trans kn.
Qed.

Lemma interp_size v : (size (interp v) <= k)%N.
Proof.
apply: (leq_trans (size_sum _ _ _)); apply/bigmax_leqP => i _.
by apply: (leq_trans (size_scale_leq _ _)); rewrite size_Acof.
Qed.

Lemma interp_val v i : (i < k)%N -> (interp v).[w ^+ i] = v i.
Proof.
move=> Hi; rewrite horner_sum (bigD1 (Ordinal Hi)) //= big1 ?addr0.
  have := Acof_neq0 F k (fun i => w ^+ i) winj (Ordinal Hi); have := Acof_val F k (fun i => w ^+ i) (Ordinal Hi).
  by move=> /= E1 E2; rewrite hornerZ E1 divfK // -E1.
by move=> j Hj; rewrite hornerZ (Acof_other F k (fun i => w ^+ i) j (Ordinal Hi)) ?mulr0 // eq_sym.
Qed.

(** The same for other points: [k] values determine a message. *)
Lemma cw_onto ids (g : nat -> N) : ids_ok L c ids -> (forall i, (i < k)%N -> gvalid G (g i)) ->
  exists col, (forall j, (j < k)%N -> gvalid G (col j)) /\ forall i, (i < k)%N -> cw col (lnth i ids 0%N) = g i.
Proof.
move=> Hids Hg.
have xinj := xpt_inj F phi L L2 e c ok ids Hids.
pose x := xpt F phi c ids.
pose Q : {poly F} := \sum_(i < k) (phi (g i) / (deriv (Apoly F x k)).[x i]) *: Acof F k x i.
have sQ : (size Q <= k)%N.
  apply: (leq_trans (size_sum _ _ _)); apply/bigmax_leqP => i _.
  by apply: (leq_trans (size_scale_leq _ _)); rewrite size_Acof.
have vQ i : (i < k)%N -> Q.[x i] = phi (g i).
  move=> Hi; rewrite horner_sum (bigD1 (Ordinal Hi)) //= big1 ?addr0.
    have := Acof_neq0 F k x xinj (Ordinal Hi); have := Acof_val F k x (Ordinal Hi).
    by move=> /= E1 E2; rewrite hornerZ E1 divfK // -E1.
  by move=> j Hj; rewrite hornerZ (Acof_other F k x j (Ordinal Hi)) ?mulr0 // eq_sym.
pose col j := if c_sys c then psi Q.[w ^+ j] else psi Q`_j.
exists col; split; first by move=> j Hj; rewrite /col; case: (c_sys c); exact: (proj1 (psiP _)).
suff E : msg col = Q.
  by move=> i Hi; rewrite /cw E vQ //; case: (psiP (phi (g i))) => V E1; apply: (gp_inj _ _ _ P) => //; exact: Hg.
rewrite /msg /col; case: (c_sys c).
  rewrite {2}(lagrange F k (fun i => w ^+ i) winj Q sQ) /interp; apply: eq_bigr => i _.
  by rewrite (proj2 (psiP _)).
apply/polyP => j; rewrite coef_poly; case: ltnP => Hj; first by rewrite (proj2 (psiP _)).
by rewrite nth_default // (leq_trans sQ).
Qed.

Lemma msg_size col : (size (msg col) <= k)%N.
Proof. by rewrite /msg; case: (c_sys c); [exact: interp_size|exact: size_poly]. Qed.

Lemma msg_ext col col' : (forall j, (j < k)%N -> col j = col' j) -> msg col = msg col'.
Proof.
move=> H; rewrite /msg; case: (c_sys c); first by apply: eq_bigr => i _; rewrite H.
by apply/polyP => j; rewrite !coef_poly; case: ltnP => // Hj; rewrite H.
Qed.

Lemma psi_phi a : gvalid G a -> psi (phi a) = a.
Proof. by move=> Ha; case: (psiP (phi a)) => V1 E1; apply: (gp_inj _ _ _ P). Qed.

Lemma psi0 : psi 0 = 0%num.
Proof. by rewrite -(gp_0 _ _ _ P) psi_phi //; exact: (gvalid0 F G phi P). Qed.

Lemma cw_zero i : cw (fun _ => 0%num) i = 0%num.
Proof.
rewrite /cw (_ : msg _ = 0) ?horner0 ?psi0 //; apply/polyP => j; rewrite coef0 /msg (gp_0 _ _ _ P).
case: (c_sys c); last by rewrite coef_poly; case: ifP.
by rewrite /interp coef_sum big1 // => l _; rewrite mul0r scale0r coef0.
Qed.

Lemma cw_sys col i : c_sys c = true -> (forall j, (j < k)%N -> gvalid G (col j)) -> (i < k)%N -> cw col i = col i.
Proof. by move=> Hs Hc Hi; rewrite /cw /msg Hs interp_val // psi_phi //; exact: Hc. Qed.

(** ** Packets *)

(** A list of packets read in every lane. *)
Definition pkt_reads (rows : nat) (v : list (list N)) (f : nat -> nat -> F) : Prop :=
  List.length v = rows /\ forall i, (i < rows)%N -> pvalid G (c_pkt c) (lnth i v (List.repeat 0%num (c_pkt c))) /\
    forall t, (t < c_pkt c)%N -> phi (lnth t (lnth i v (List.repeat 0%num (c_pkt c))) 0%num) = f i t.

Lemma pkt_reads_eq rows v g : (0 < c_pkt c)%N -> pkt_reads rows v (fun i t => phi (g i t)) ->
  (forall i t, (i < rows)%N -> (t < c_pkt c)%N -> gvalid G (g i t)) -> v = pkts rows (c_pkt c) g.
Proof.
move=> p0 [Hl Hr] Hg; apply: (list_ext _ (List.repeat 0%num (c_pkt c))); first by rewrite pkts_length.
rewrite Hl => i /ltP Hi; have [[Hp Hv] He] := Hr i Hi.
rewrite pkts_nth //; apply: (list_ext _ 0%num); first by rewrite Hp List.map_length List.seq_length.
rewrite Hp => t /ltP Ht; rewrite nth_map_seq; last lia.
apply: (gp_inj _ _ _ P); [|exact: Hg|exact: He].
by apply: (Forall_nth0 G (c_pkt c)).
Qed.

Lemma sym_k_pres t : (t < c_pkt c)%N ->
  sym_pres F N (list N) (k_sym (c_K c)) (gvalid G) phi (pvalid G (c_pkt c)) (plane F phi t).
Proof.
move=> Ht; have PS := sym_pkt_pres F G phi P (c_pkt c) t Ht; have A := bo_sym _ bo; split.
- by rewrite (sa_zero _ _ _ _ A); exact: (sp_zero _ _ _ _ _ _ _ _ PS).
- by move=> r a b Hr Ha Hb; rewrite (sa_ct _ _ _ _ A) //; exact: (sp_ct _ _ _ _ _ _ _ _ PS).
- by move=> r a b Hr Ha Hb; rewrite (sa_gs _ _ _ _ A) //; exact: (sp_gs _ _ _ _ _ _ _ _ PS).
- by move=> r a b Hr Ha; rewrite (sa_gss _ _ _ _ A) //; exact: (sp_gss _ _ _ _ _ _ _ _ PS).
- move=> r a b Hr Hn Ha; rewrite (sa_scale _ _ _ _ A) //; first exact: (sp_scale _ _ _ _ _ _ _ _ PS).
  have [_ Eh] := fo_h _ _ _ _ _ _ ok; have ne : r <> c_h c by move=> E; apply: Hn; rewrite E.
  by move: Hr ne; rewrite /gvalid /c_h -/G; lia.
- by move=> a Ha; rewrite (sa_neg _ _ _ _ A) //; exact: (sp_neg _ _ _ _ _ _ _ _ PS).
Qed.

Lemma k_zero : s_zero (k_sym (c_K c)) = List.repeat 0%num (c_pkt c).
Proof. exact: (sa_zero _ _ _ _ (bo_sym _ bo)). Qed.

(** Per-lane reading of a list of packets. *)
Lemma reads_pkts rows v f : (0 < c_pkt c)%N ->
  (forall t, (t < c_pkt c)%N -> reads (k_sym (c_K c)) (pvalid G (c_pkt c)) (plane F phi t) rows v (fun i => f i t)) ->
  pkt_reads rows v f.
Proof.
move=> p0 H; split; first by case: (H 0%N p0).
move=> i Hi; rewrite -k_zero; split; first by have [_ /(_ i Hi) []] := H 0%N p0.
by move=> t Ht; have [_ /(_ i Hi) []] := H t Ht.
Qed.

Lemma pvalid_map (g : nat -> N) : (forall t, (t < c_pkt c)%N -> gvalid G (g t)) ->
  pvalid G (c_pkt c) (List.map g (List.seq 0 (c_pkt c))).
Proof.
move=> H; split; first by rewrite List.map_length List.seq_length.
by apply/List.Forall_forall => x /List.in_map_iff [t [<- /List.in_seq Ht]]; apply: H; lia.
Qed.

Lemma sys_seq_ids : ids_ok L c (List.seq 0 k).
Proof.
split; first by rewrite List.seq_length.
split; first exact: List.seq_NoDup.
by move=> i /List.in_seq Hi; have := kn; rewrite -/k; lia.
Qed.

Lemma seq_nth0 i : (i < k)%N -> lnth i (List.seq 0 k) 0%N = i.
Proof. by move=> Hi; rewrite List.seq_nth //; lia. Qed.

Section Fixed.
Hypothesis p0 : (0 < c_pkt c)%N.
Variable f : nat -> nat -> N.
Hypothesis Hf : forall j t, (j < k)%N -> (t < c_pkt c)%N -> gvalid G (f j t).
Let K := c_K c.
Notation S := (k_sym K).
Let KO := bo_kern _ bo.
Let Q t := msg (fun j => f j t).
Let d := List.repeat 0%num (c_pkt c).

Let PS t (Ht : (t < c_pkt c)%N) := sym_k_pres t Ht.

(** The words are the coefficients of [Q] (non-systematic) or its first values (systematic). *)
Lemma words_coeffs t : (t < c_pkt c)%N -> c_sys c = false ->
  coeffs F c _ K (pvalid G (c_pkt c)) (plane F phi t) (Q t) (pkts k (c_pkt c) f).
Proof.
move=> Ht Hs j Hj; rewrite pkts_nth //; split; first by apply: pvalid_map => u Hu; exact: Hf.
by rewrite /plane nth_map_seq ?/Q /msg ?Hs ?coef_poly ?Hj //; lia.
Qed.

Lemma words_values t ids : (t < c_pkt c)%N -> ids_ok L c ids ->
  holds_values F phi c ids _ K (pvalid G (c_pkt c)) (plane F phi t) (Q t)
    (pkts k (c_pkt c) (fun i t => cw (fun j => f j t) (lnth i ids 0%N))).
Proof.
move=> Ht Hi i Hik; rewrite pkts_nth //; split; first by apply: pvalid_map => u Hu; case: (psiP (Q u).[w ^+ (lnth i ids 0%N)]).
rewrite /plane nth_map_seq; last lia.
by rewrite /cw; case: (psiP (msg (fun j => f j t)).[w ^+ lnth i ids 0%N]) => _ ->.
Qed.

Lemma sys_words : c_sys c = true -> pkts k (c_pkt c) f =
  pkts k (c_pkt c) (fun i t => cw (fun j => f j t) (lnth i (List.seq 0 k) 0%N)).
Proof.
move=> Hs; rewrite /pkts; apply: List.map_ext_in => i /List.in_seq Hi; apply: List.map_ext_in => t /List.in_seq Ht.
have Hik : (i < k)%N by lia.
by rewrite seq_nth0 // cw_sys // => j Hj; apply: Hf => //; lia.
Qed.

(** Encoding. *)
Theorem enc_spec xe es out : ctx_ok F phi L2 c (List.seq 0 k) xe -> es_ok c es -> List.length out = c_outlen c ->
  exists es', es_ok c es' /\ encode_words K c xe es out (pkts k (c_pkt c) f) =
    (es', pkts (c_outlen c) (c_pkt c) (fun i t => cw (fun j => f j t) (out_pos c i)), pkts k (c_pkt c) f).
Proof.
move=> Hx [E1 [E2 E3]] Ho; rewrite /encode_words /out_pos /c_outlen.
have cn := fo_n _ _ _ _ _ _ ok.
case Hs: (c_sys c); last first.
  exists es; split=> //; congr (_, _, _).
  apply: pkt_reads_eq => //; last by move=> i t _ _; exact: (proj1 (psiP _)).
  rewrite cn; apply: reads_pkts => // t Ht.
  have [R1 R2] := fft_eval F phi L L2 e c ok _ K _ _ KO (PS t Ht) out (pkts k (c_pkt c) f) (Q t) (msg_size _)
     ltac:(by rewrite Ho /c_outlen Hs cn) (pkts_length _ _ _) (words_coeffs t Ht Hs).
  split=> // i Hi; have [R3 R4] := R2 i Hi; split=> //; rewrite R4 /cw.
  by case: (psiP (msg (fun j => f j t)).[w ^+ i]) => _ ->.
have kml := fo_km _ _ _ _ _ _ ok.
rewrite (c_l2E F phi L L2 e c ok) in E1.
set dd := decode_data _ _ _ _ _ _.
have D t (Ht : (t < c_pkt c)%N) := decode_data_spec F phi L L2 e c ok (List.seq 0 k) sys_seq_ids _ K _ _ KO (PS t Ht) xe
  (e_b1 es) (e_mx es) (pkts k (c_pkt c) f) (Q t) Hx seq_nth0 E1 E2 (msg_size _)
  ltac:(by rewrite sys_words //; apply: words_values => //; exact: sys_seq_ids).
rewrite -/dd in D.
case: dd D => b1 mx /= D.
have [D1 D2 _] := D 0%N p0.
have kmx : (k <= c_max c)%N by have := kn; rewrite /c_max cn -/n; clear; lia.
have Lk : List.length (List.firstn k mx) = k by rewrite List.firstn_length D2; move: kmx; clear; lia.
set all := k_fft _ _ _ _.
have Hall : pkt_reads n all (fun i t => (Q t).[w ^+ i]).
  apply: reads_pkts => // t Ht.
  apply: (fft_eval F phi L L2 e c ok _ K _ _ KO (PS t Ht)) => //; first exact: msg_size.
    rewrite !List.app_length pkts_length Ho E3 /c_outlen Hs cn -/k -/n.
    by move: kml; rewrite -/k -/n; clear; lia.
  move=> j Hj; have [_ _ D3] := D t Ht; have [D4 D5] := D3 j Hj.
  by rewrite nth_firstn; case: Nat.ltb_spec => //; move: Hj; clear; lia.
have Eall : all = pkts n (c_pkt c) (fun i t => cw (fun j => f j t) i).
  apply: pkt_reads_eq => //; last by move=> i t _ _; exact: (proj1 (psiP _)).
  case: Hall => H1 H2; split=> // i Hi; have [H3 H4] := H2 i Hi; split=> // t Ht; rewrite H4 //.
  by rewrite /cw; case: (psiP (msg (fun j => f j t)).[w ^+ i]) => _ ->.
exists (mkEscratch b1 mx (List.skipn (c_k c + c_m c)%coq_nat all)); split.
  split; first by rewrite D1 (c_l2E F phi L L2 e c ok).
  split=> //=; rewrite List.skipn_length Eall pkts_length cn -/n -/k; clear; lia.
congr (_, _, _); rewrite Eall.
- apply: (list_ext _ d); first by rewrite List.firstn_length List.skipn_length !pkts_length; move: kml; rewrite -/k -/n; clear; lia.
  move=> i; rewrite List.firstn_length List.skipn_length pkts_length => Hi.
  rewrite nth_firstn nth_skipn; case: Nat.ltb_spec; last by move: Hi; clear; lia.
  move=> Him; rewrite !pkts_nth //; move: Him kml; rewrite -/k -/n; clear; lia.
- apply: (list_ext _ d); first by rewrite List.firstn_length !pkts_length; move: kml; rewrite -/k -/n; clear; lia.
  move=> i; rewrite List.firstn_length pkts_length => Hi.
  rewrite nth_firstn; case: Nat.ltb_spec; last by move: Hi; rewrite -/k; clear; lia.
  rewrite -/k => Hik; have Hik' : (i < k)%N by move: Hik; clear; lia.
  rewrite !pkts_nth //; last by move: Hik kml; rewrite -/k -/n; clear; lia.
  by apply: List.map_ext_in => t /List.in_seq Ht; rewrite cw_sys // => j Hj; apply: Hf => //; move: Ht; clear; lia.
Qed.

(** Decoding. *)
Theorem dec_spec x ids ds : ids_ok L c ids -> ctx_ok F phi L2 c ids x -> ds_ok c ds ->
  let ds' := decode_words K c x ds (pkts k (c_pkt c) (fun i t => cw (fun j => f j t) (lnth i ids 0%N))) in
  ds_ok c ds' /\ List.firstn k (d_mx ds') = pkts k (c_pkt c) f.
Proof.
move=> Hids Hx [E1 [E2 E3]]; rewrite /decode_words.
have cn := fo_n _ _ _ _ _ _ ok.
have c2 := c_l2E F phi L L2 e c ok.
rewrite c2 in E1.
have D t (Ht : (t < c_pkt c)%N) := decode_apply_spec F phi L L2 e c ok ids Hids _ K _ _ KO (PS t Ht) x
  (d_b1 ds) (d_mx ds) _ (Q t) Hx E1 E2 (msg_size _) (words_values t ids Ht Hids).
set dd := decode_apply _ _ _ _ _ _.
rewrite -/dd in D.
case: dd D => b1 mx /= D.
have [D1 D2 _] := D 0%N p0.
have kmx : (k <= c_max c)%N by have := kn; rewrite /c_max cn -/n; clear; lia.
have Lk : List.length (List.firstn k mx) = k by rewrite List.firstn_length D2; move: kmx; clear; lia.
case Hs: (c_sys c); rewrite /=.
  set all := k_fft _ _ _ _.
  have Hall : pkt_reads n all (fun i t => (Q t).[w ^+ i]).
    apply: reads_pkts => // t Ht.
    apply: (fft_eval F phi L L2 e c ok _ K _ _ KO (PS t Ht)) => //; first exact: msg_size.
      by rewrite E3 cn.
    move=> j Hj; have [_ _ D3] := D t Ht; have [D4 D5] := D3 j Hj.
    by rewrite nth_firstn; case: Nat.ltb_spec => //; move: Hj; clear; lia.
  have [A1 A2] := Hall.
  have Lka : List.length (List.firstn k all) = k by rewrite List.firstn_length A1; move: kn; clear; lia.
  split.
    split; first by rewrite /= D1.
    split; last by rewrite /= A1.
    by rewrite /= List.app_length List.skipn_length Lka D2; move: kmx; rewrite -/k; clear; lia.
  have -> : List.firstn k (List.firstn (c_k c) all ++ List.skipn (c_k c) mx)%list = List.firstn k all.
    rewrite List.firstn_app -/k Lka (_ : (k - k)%coq_nat = 0%N) ?List.app_nil_r; last by clear; lia.
    by rewrite List.firstn_firstn (_ : Nat.min k k = k) //; clear; lia.
  apply: pkt_reads_eq => //; split=> // i Hi.
  have Hin := ltn_trans Hi kn.
  have [A3 A4] := A2 i Hin.
  rewrite nth_firstn; case: Nat.ltb_spec; last by move: Hi; clear; lia.
  by move=> _; split=> // t Ht; rewrite A4 // /Q /msg Hs interp_val.
split; first by split; rewrite /= ?D1.
apply: pkt_reads_eq => //; apply: reads_pkts => // t Ht.
split=> // i Hi; have [_ _ D3] := D t Ht; have [D4 D5] := D3 i Hi.
rewrite nth_firstn; case: Nat.ltb_spec; last by move: Hi; clear; lia.
by move=> _; split=> //; rewrite D5 /Q /msg Hs coef_poly Hi.
Qed.
End Fixed.

(** Vectors, non-systematic code. *)
Lemma venc_spec out col : c_sys c = false -> List.length out = n -> (forall j, (j < k)%N -> gvalid G (col j)) ->
  r2_fft_vec (sym_vec G) (c_fft c) out (List.map col (List.seq 0 k)) = List.map (cw col) (List.seq 0 n).
Proof.
move=> Hs Ho Hc.
have [R1 R2] := fft_eval_vec F phi L L2 e c ok out (List.map col (List.seq 0 k)) (msg col) (msg_size _) Ho
  ltac:(by rewrite List.map_length List.seq_length)
  ltac:(by move=> j Hj; rewrite nth_map_seq ?/msg ?Hs ?coef_poly ?Hj; [split=> //; exact: Hc|apply/ltP]).
apply: (list_ext _ 0%num); first by rewrite R1 List.map_length List.seq_length.
rewrite R1 => i /ltP Hi; have [R3 R4] := R2 i Hi; rewrite nth_map_seq; last by apply/ltP.
by apply: (gp_inj _ _ _ P) => //; rewrite /cw; case: (psiP (msg col).[w ^+ i]) => // V ->.
Qed.

Lemma vdec_spec x ids vs col : c_sys c = false -> ids_ok L c ids -> ctx_ok F phi L2 c ids x -> vs_len L L2 vs ->
  (forall j, (j < k)%N -> gvalid G (col j)) ->
  let r := decode_apply_vec c x vs (List.map (fun i => cw col (lnth i ids 0%N)) (List.seq 0 k)) in
  vs_len L L2 (fst r) /\ snd r = List.map col (List.seq 0 k).
Proof.
move=> Hs Hids Hx Hv Hc.
set ws := List.map _ (List.seq 0 k).
have Lw : List.length ws = k by rewrite List.map_length List.seq_length.
have Hw i : (i < k)%N -> gvalid G (lnth i ws 0%num) /\ phi (lnth i ws 0%num) = (msg col).[xpt F phi c ids i].
  by move=> Hi; rewrite /ws nth_map_seq; [exact: psiP|apply/ltP].
have [D1 D2 D3] := decode_apply_vec_spec F phi L L2 e c ok bo ids x vs ws (msg col) Hids Hx Hv (msg_size _) Lw Hw.
split=> //; apply: (list_ext _ 0%num); first by rewrite D2 List.map_length List.seq_length.
rewrite D2 => j /ltP Hj; have [D4 D5] := D3 j Hj; rewrite nth_map_seq; last by apply/ltP.
by apply: (gp_inj _ _ _ P) => //; [exact: Hc|rewrite D5 /msg Hs coef_poly Hj].
Qed.

Theorem fnt_code_spec : (0 < c_pkt c)%N -> code_spec c cw.
Proof.
move=> p0.
have cn := fo_n _ _ _ _ _ _ ok.
have c2 := c_l2E F phi L L2 e c ok.
have ids_of ids : frags c ids -> ids_ok L c ids.
  by move=> [A [B C]]; split=> //; split=> // i Hi; have := C i Hi; rewrite cn; clear; lia.
split.
- by have := fo_k _ _ _ _ _ _ ok; lia.
- by have := fo_m _ _ _ _ _ _ ok; lia.
- by have := fo_km _ _ _ _ _ _ ok; rewrite cn; lia.
- by move=> col col' i H; rewrite /cw (msg_ext col col') // => j Hj; apply: H; apply/ltP.
- by move=> col i; exact: (proj1 (psiP _)).
- exact: cw_zero.
- by move=> Hs col i Hc Hi; apply: cw_sys => // [j Hj|]; [apply: Hc|]; apply/ltP.
- move=> ids j1 j2 Hi H1 H2.
  have [x [Hx _]] := ctx_new_ok F phi L L2 e c ok ids (ids_of _ Hi) j1 j2 ltac:(by rewrite H1 cn) ltac:(by rewrite H2 c2).
  by exists x.
- move=> xe j1 j2 es out f Hx H1 H2 He Ho Hf.
  have [x [Hx2 Hok]] := ctx_new_ok F phi L L2 e c ok _ sys_seq_ids j1 j2 ltac:(by rewrite H1 cn) ltac:(by rewrite H2 c2).
  have Exx : x = xe by move: Hx Hx2; rewrite -/k => -> [].
  apply: enc_spec => //; first by move=> j t Hj Ht; apply: Hf; apply/ltP.
  by rewrite -Exx.
- move=> x ids j1 j2 ds f Hx Hids H1 H2 Hd Hf.
  have [y [Hy2 Hok]] := ctx_new_ok F phi L L2 e c ok ids (ids_of _ Hids) j1 j2 ltac:(by rewrite H1 cn) ltac:(by rewrite H2 c2).
  have Exx : y = x by move: Hx Hy2 => -> [].
  rewrite Exx in Hok; split; first by case: Hok.
  apply: dec_spec => //; [by move=> j t Hj Ht; apply: Hf; apply/ltP|exact: ids_of].
- exact: (bo_post _ bo).
- move=> ids g Hids Hg.
  have [col [H1 H2]] := cw_onto ids g (ids_of _ Hids) ltac:(by move=> i Hi; apply: Hg; apply/ltP).
  by exists col; split=> i Hi; [apply: H1|apply: H2]; apply/ltP.
- by move=> Hs out col Ho Hc; rewrite cn; apply: venc_spec => // [|j Hj]; [rewrite Ho|apply: Hc; apply/ltP].
- move=> Hs x ids j1 j2 vs col Hx Hids H1 H2 [V1 [V2 V3]] Hc.
  have [y [Hy2 Hok]] := ctx_new_ok F phi L L2 e c ok ids (ids_of _ Hids) j1 j2 ltac:(by rewrite H1 cn) ltac:(by rewrite H2 c2).
  have Exx : y = x by move: Hx Hy2 => -> [].
  rewrite Exx in Hok.
  have [[W1 W2 W3] W4] := vdec_spec x ids vs col Hs (ids_of _ Hids) Hok
    ltac:(by split; [rewrite V1|rewrite V2|rewrite V3]) ltac:(by move=> j Hj; apply: Hc; apply/ltP).
  by split=> //; split; [rewrite W1|split; [rewrite W2|rewrite W3]].
Qed.
End Words.
