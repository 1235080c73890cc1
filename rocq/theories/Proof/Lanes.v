(** Packet transforms, position by position. *)
Set Warnings "-notation-overridden,-ambiguous-paths".
From Coq Require Import NArith ZArith.
From Coq Require List.
From mathcomp Require Import all_ssreflect fingroup ssralg poly.
From mathcomp Require Import zify.
From Verif.Model Require Import Common Arith Ring Fft2n Radix2.
From Verif.Spec Require Import Dft.
From Verif.Proof Require Import ListP Kern Build Pres Fft2nP DftInv Radix2P.
Import GRing.Theory.
Local Open Scope ring_scope.

Notation lnth := List.nth.

(** Elements at position [j] of a list of packets. *)
Definition lane (j : nat) (v : list (list N)) : list N := List.map (fun p => lnth j p 0%num) v.

Lemma lane_nth j v i d : (i < List.length v)%N -> lnth i (lane j v) 0%num = lnth j (lnth i v d) 0%num.
Proof.
move=> Hi; rewrite /lane (List.nth_indep _ _ (lnth j d 0%num)); last by rewrite List.map_length; lia.
by rewrite (List.map_nth (fun p => lnth j p 0%num)).
Qed.

Lemma lane_length j v : List.length (lane j v) = List.length v.
Proof. exact: List.map_length. Qed.

Section Lanes.
Variables (F : fieldType) (G : gfops) (phi : N -> F).
Hypothesis P : gf_pres F G phi.
Variables (L : nat) (f : radix2) (pkt : nat).
Hypothesis Hf : radix2_ok F G phi L f.
Variable K : kernels (list N).
Hypothesis KO : kern_ok K.
Hypothesis KA : sym_agree G pkt (k_sym K) (sym_pkt G pkt).
Hypothesis Kh : phi (g_card G - 1) = -1.
Notation SP := (k_sym K).
Notation SV := (sym_vec G).

Lemma sym_K_pres t : (t < pkt)%N -> sym_pres F N (list N) SP (gvalid G) phi (pvalid G pkt) (plane F phi t).
Proof.
move=> Ht; have PS := sym_pkt_pres F G phi P pkt t Ht; split.
- by rewrite (sa_zero _ _ _ _ KA); exact: (sp_zero _ _ _ _ _ _ _ _ PS).
- by move=> r a b Hr Ha Hb; rewrite (sa_ct _ _ _ _ KA) //; exact: (sp_ct _ _ _ _ _ _ _ _ PS).
- by move=> r a b Hr Ha Hb; rewrite (sa_gs _ _ _ _ KA) //; exact: (sp_gs _ _ _ _ _ _ _ _ PS).
- by move=> r a b Hr Ha; rewrite (sa_gss _ _ _ _ KA) //; exact: (sp_gss _ _ _ _ _ _ _ _ PS).
- move=> r a b Hr Hn Ha; rewrite (sa_scale _ _ _ _ KA) //; first exact: (sp_scale _ _ _ _ _ _ _ _ PS).
  have ne : r <> (g_card G - 1)%num by move=> E; apply: Hn; rewrite E.
  by move: Hr ne; rewrite /gvalid; lia.
- by move=> a Ha; rewrite (sa_neg _ _ _ _ KA) //; exact: (sp_neg _ _ _ _ _ _ _ _ PS).
Qed.

Lemma pkt_in (v : list (list N)) : List.Forall (pvalid G pkt) v ->
  forall i, (i < List.length v)%N -> pvalid G pkt (lnth i v (s_zero SP)).
Proof. by move=> /List.Forall_forall H i Hi; apply: H; apply: List.nth_In; lia. Qed.

Lemma lane_in (v : list (list N)) j : (j < pkt)%N -> List.Forall (pvalid G pkt) v ->
  forall i, (i < List.length (lane j v))%N -> gvalid G (lnth i (lane j v) (s_zero SV)).
Proof.
move=> Hj H i; rewrite lane_length => Hi; rewrite (lane_nth _ _ _ (s_zero SP)) //.
by apply: (Forall_nth0 G pkt) => //; apply: pkt_in.
Qed.

Lemma lane_val (v : list (list N)) j : (j < pkt)%N -> forall i,
  plane F phi j (lnth i v (s_zero SP)) = phi (lnth i (lane j v) (s_zero SV)).
Proof.
move=> Hj i; rewrite /plane.
case: (Nat.ltb_spec i (List.length v)) => Hi; first by rewrite (lane_nth _ _ _ (s_zero SP)) //; lia.
by rewrite (List.nth_overflow v) // (List.nth_overflow (lane j v)) ?lane_length // (sa_zero _ _ _ _ KA) /= List.nth_repeat.
Qed.

(** Two readings of the same values agree position by position. *)
Lemma reads_lane j n v u g : (j < pkt)%N -> reads SP (pvalid G pkt) (plane F phi j) n v g ->
  reads SV (gvalid G) phi n u g -> lane j v = u.
Proof.
move=> Hj [A1 A2] [B1 B2]; apply: (list_ext _ 0%num); first by rewrite lane_length A1 B1.
move=> i; rewrite lane_length A1 => Hi; have Hi' : (i < n)%N by lia.
have [V1 E1] := A2 i Hi'; have [V2 E2] := B2 i Hi'.
rewrite (lane_nth _ _ _ (s_zero SP)); last by rewrite A1.
apply: (gp_inj _ _ _ P) => //; first exact: (Forall_nth0 G pkt).
by move: E1; rewrite /plane => ->; rewrite -E2.
Qed.

Lemma reads_ext T (S : symops N T) vT hT n v g g' : reads (F := F) S vT hT n v g -> (forall i, (i < n)%N -> g i = g' i) -> reads S vT hT n v g'.
Proof. by move=> [A B] E; split=> // i Hi; rewrite -E //; apply: B. Qed.

Lemma dft_lane w n j v : (j < pkt)%N -> forall i,
  dft F w n (fun i => plane F phi j (lnth i v (s_zero SP))) i = dft F w n (fun i => phi (lnth i (lane j v) (s_zero SV))) i.
Proof. by move=> Hj i; apply: dft_ext => k _; apply: lane_val. Qed.

Theorem fft_lane j e input out out' : (j < pkt)%N -> (e <= L)%N ->
  Nat.max (r_data_len f) (List.length input) = (2 ^ e)%N -> List.Forall (pvalid G pkt) input ->
  List.length out = (2 ^ L)%N -> List.length out' = (2 ^ L)%N ->
  lane j (k_fft K f out input) = r2_fft_vec SV f out' (lane j input).
Proof.
move=> Hj He HD Hin Ho Ho'.
have PP := sym_K_pres j Hj; have PV := sym_vec_pres F G phi P.
have R1 := k_fft_reads F G phi _ K _ _ KO PP L f Hf e input out He HD Ho (pkt_in _ Hin).
have R2 := r2_fft_vec_reads F G phi _ _ _ _ PV L f Hf e (lane j input) out' He ltac:(by rewrite lane_length) Ho' (lane_in _ _ Hj Hin).
apply: (reads_lane j (2 ^ L) _ _ _ Hj _ R2); apply: (reads_ext _ _ _ _ _ _ _ _ R1) => i Hi; exact: dft_lane.
Qed.

Theorem fft_inv_lane j input out out' : (j < pkt)%N -> (0 < List.length input)%N -> (List.length input <= 2 ^ L)%N ->
  List.Forall (pvalid G pkt) input -> List.length out = (2 ^ L)%N -> List.length out' = (2 ^ L)%N ->
  lane j (k_fft_inv K f out input) = r2_fft_inv_vec SV f out' (lane j input).
Proof.
move=> Hj H0 Hl Hin Ho Ho'.
have PP := sym_K_pres j Hj; have PV := sym_vec_pres F G phi P.
have R1 := k_fft_inv_reads F G phi _ K _ _ KO PP L f Hf input out Ho H0 Hl (pkt_in _ Hin).
have R2 := r2_fft_inv_vec_reads F G phi _ _ _ _ PV L f Hf (lane j input) out' Ho' ltac:(by rewrite lane_length) (lane_in _ _ Hj Hin).
apply: (reads_lane j (2 ^ L) _ _ _ Hj _ R2); apply: (reads_ext _ _ _ _ _ _ _ _ R1) => i Hi; exact: dft_lane.
Qed.

Theorem ifft_lane h j input out out' : gvalid G h -> phi h = -1 -> (forall c, gvalid G c -> (c <= h)%num) ->
  (j < pkt)%N -> (0 < List.length input)%N -> (List.length input <= 2 ^ L)%N ->
  List.Forall (pvalid G pkt) input -> List.length out = (2 ^ L)%N -> List.length out' = (2 ^ L)%N ->
  lane j (r2_ifft_buf K h f out input) = r2_ifft_vec G f out' (lane j input).
Proof.
move=> Vh Eh Mh Hj H0 Hl Hin Ho Ho'.
have PP := sym_K_pres j Hj.
have R1 := r2_ifft_buf_reads F G phi P _ K _ _ KO PP L f Hf h input out Vh Eh Mh Ho H0 Hl (pkt_in _ Hin).
have R2 := r2_ifft_vec_reads F G phi P L f Hf (lane j input) out' Ho' ltac:(by rewrite lane_length) (lane_in _ _ Hj Hin).
apply: (reads_lane j (2 ^ L) _ _ _ Hj _ R2); apply: (reads_ext _ _ _ _ _ _ _ _ R1) => i Hi /=; congr (_ * _); exact: dft_lane.
Qed.
End Lanes.
