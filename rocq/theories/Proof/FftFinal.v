(** The transforms over prime fields in terms of numbers. *)
Set Warnings "-notation-overridden,-ambiguous-paths".
From Coq Require Import NArith ZArith.
From Coq Require List.
From mathcomp Require Import all_ssreflect fingroup ssralg poly.
From mathcomp Require Import zify.
From Verif.Model Require Import Common Arith Ring Fft2n Radix2.
From Verif.Spec Require Import Dft Primes Modular.
From Verif.Proof Require Import ListP Kern Build Pres BitRev Fft2nL Fft2nP FieldP DftInv Radix2P Lanes PrimeR2.
Import GRing.Theory.
Local Open Scope ring_scope.

Notation lnth := List.nth.

Lemma object_exists h p L dl : (0 < h)%num -> (2 * p <= 2 ^ (2 * h))%num -> primeN p -> (L < 32)%coq_nat ->
  N.divide (2 ^ N.of_nat L) (p - 1) -> (dl <= Nat.pow 2 L)%coq_nat ->
  exists f, (0 < h /\ 2 * p <= 2 ^ (2 * h))%num /\ primeN p /\ (L < 32)%coq_nat /\
  exists r, find_primitive_root (2 * h) (prime_ops (2 * h) p) = Some r /\
            radix2_new (prime_ops (2 * h) p) p r (Nat.pow 2 L) dl = Some f.
Proof.
rewrite powE => Hh Hw Hp HL Hd Hl.
have [r [f [E1 E2 _ _ _]]] := prime_radix2 p Hp h Hh Hw L dl ltac:(lia) Hd ltac:(move: (2 ^ L)%N Hl => x; lia).
by exists f; split=> //; split=> //; split=> //; exists r.
Qed.

Section Obj.
Variables (h p : N) (L dl : nat) (f : radix2) (r : N).
Notation G := (prime_ops (2 * h) p).
Hypothesis Hh : (0 < h)%num.
Hypothesis Hw : (2 * p <= 2 ^ (2 * h))%num.
Hypothesis Hp : primeN p.
Hypothesis HL0 : (L < 32)%coq_nat.
Hypothesis Hr : find_primitive_root (2 * h) G = Some r.
Hypothesis Hf0 : radix2_new G p r (Nat.pow 2 L) dl = Some f.

Let HL : (L < 32)%N. Proof. exact/ltP. Qed.
Let Hf : radix2_new G p r (2 ^ L) dl = Some f. Proof. by rewrite -powE. Qed.
Let ok := prime_radix2_ok p Hp h Hh Hw L dl r f HL Hr Hf.
Let P := prime_pres (2 * h) p Hp Hw.

Lemma dlE : r_data_len f = (if Nat.ltb 0 dl then dl else (2 ^ L)%N).
Proof. by case: ok => _ _ -> _ _; case: dl. Qed.

Lemma in_valid x : List.Forall (fun a => (a < p)%num) x -> forall i, (i < List.length x)%N -> gvalid G (lnth i x 0%num).
Proof. by move=> /List.Forall_forall H i Hi; apply: H; apply: List.nth_In; apply/ltP. Qed.

Lemma fft_dft e out input : (e <= L)%coq_nat ->
  Nat.max (if Nat.ltb 0 dl then dl else Nat.pow 2 L) (List.length input) = Nat.pow 2 e ->
  List.length out = Nat.pow 2 L -> List.Forall (fun a => (a < p)%num) input ->
  let res := r2_fft_vec (sym_vec G) f out input in
  mod_order p (r_w f) (2 ^ N.of_nat L) /\ List.length res = Nat.pow 2 L /\
  forall j, (j < Nat.pow 2 L)%coq_nat -> lnth j res 0%num = dft_mod p (r_w f) (Nat.pow 2 L) input j.
Proof.
rewrite !powE -dlE => He HD Ho Hin /=; have [O _ _ _ M] := ok; split=> //.
have R := r2_fft_vec_reads _ _ _ _ _ _ _ (sym_vec_pres _ _ _ P) L f O e input out ltac:(exact/leP) HD Ho (in_valid _ Hin).
have [A B] := reads_mod p Hp h L _ (r_w f) _ R; split=> // j Hj; apply: B; exact/ltP.
Qed.

Lemma fft_inv_dft out input : (List.length input <= Nat.pow 2 L)%coq_nat -> List.length out = Nat.pow 2 L ->
  List.Forall (fun a => (a < p)%num) input ->
  let res := r2_fft_inv_vec (sym_vec G) f out input in
  exists iw, ((r_w f * iw) mod p = 1)%num /\ List.length res = Nat.pow 2 L /\
  forall j, (j < Nat.pow 2 L)%coq_nat -> lnth j res 0%num = dft_mod p iw (Nat.pow 2 L) input j.
Proof.
rewrite !powE => Hl Ho Hin /=; have [O _ _ Vw M] := ok.
have R := r2_fft_inv_vec_reads _ _ _ _ _ _ _ (sym_vec_pres _ _ _ P) L f O input out Ho ltac:(exact/leP) (in_valid _ Hin).
have w0 : r_w f <> 0%num.
  by move=> E; have := prim_unit _ _ _ (ro_prim _ _ _ _ _ O); rewrite E eqxx.
have [B1 B2] := inv_bezoutE (2 * h) p Hp Hw _ Vw w0.
have [B3 B4] := inv_bezout_phi (2 * h) p Hp Hw _ Vw w0.
exists (inv_bezout (2 * h) p (r_w f)); split=> //.
rewrite -B4 in R.
have [A B] := reads_mod p Hp h L _ _ _ R; split=> // j Hj; apply: B; exact/ltP.
Qed.

Lemma roundtrip out1 out2 x : List.length x = Nat.pow 2 L -> List.length out1 = Nat.pow 2 L -> List.length out2 = Nat.pow 2 L ->
  List.Forall (fun a => (a < p)%num) x ->
  r2_ifft_vec G f out2 (r2_fft_vec (sym_vec G) f out1 x) = x /\
  r2_fft_vec (sym_vec G) f out2 (r2_ifft_vec G f out1 x) = x.
Proof.
rewrite !powE => H0 H1 H2 Hx; have [O Hd E _ _] := ok.
apply: (r2_roundtrip _ _ _ P L f O L) => //.
by rewrite E; move: (2 ^ L)%N Hd => y; case: ifP; lia.
Qed.

Lemma pkt_valid pkt v : List.Forall (fun b => List.length b = pkt /\ List.Forall (fun a => (a < p)%num) b) v ->
  List.Forall (pvalid G pkt) v.
Proof. by []. Qed.

Lemma phi_pm1 : phi p (p - 1) = -1.
Proof.
have [p1 _] := Hp; apply/eqP; rewrite -addr_eq0 -(phi_1 p) -phi_add.
have -> : (p - 1 + 1 = p)%num by lia.
by apply/eqP; apply: phi_p.
Qed.

Section Kernels.
Variables (pkt : nat) (K : kernels (list N)).
Hypothesis KO : kern_ok K.
Hypothesis KA : sym_agree G pkt (k_sym K) (sym_pkt G pkt).

Lemma fft_pkt e j out out' input : (e <= L)%coq_nat ->
  Nat.max (if Nat.ltb 0 dl then dl else Nat.pow 2 L) (List.length input) = Nat.pow 2 e ->
  List.Forall (fun b => List.length b = pkt /\ List.Forall (fun a => (a < p)%num) b) input -> (j < pkt)%coq_nat ->
  List.length out = Nat.pow 2 L -> List.length out' = Nat.pow 2 L ->
  List.map (fun b => lnth j b 0%num) (k_fft K f out input) =
  r2_fft_vec (sym_vec G) f out' (List.map (fun b => lnth j b 0%num) input).
Proof.
rewrite !powE -dlE => He HD Hin Hj Ho Ho'; have [O _ _ _ _] := ok.
by apply: (fft_lane _ _ _ P L f pkt O K KO KA phi_pm1 j e) => //; [exact/ltP|exact/leP].
Qed.

Lemma fft_inv_pkt j out out' input : (0 < List.length input)%coq_nat /\ (List.length input <= Nat.pow 2 L)%coq_nat ->
  List.Forall (fun b => List.length b = pkt /\ List.Forall (fun a => (a < p)%num) b) input -> (j < pkt)%coq_nat ->
  List.length out = Nat.pow 2 L -> List.length out' = Nat.pow 2 L ->
  List.map (fun b => lnth j b 0%num) (k_fft_inv K f out input) =
  r2_fft_inv_vec (sym_vec G) f out' (List.map (fun b => lnth j b 0%num) input).
Proof.
rewrite !powE => -[H0 Hl] Hin Hj Ho Ho'; have [O _ _ _ _] := ok.
by apply: (fft_inv_lane _ _ _ P L f pkt O K KO KA phi_pm1 j) => //; [exact/ltP|exact/ltP|exact/leP].
Qed.

Lemma ifft_pkt j out out' input : (0 < List.length input)%coq_nat /\ (List.length input <= Nat.pow 2 L)%coq_nat ->
  List.Forall (fun b => List.length b = pkt /\ List.Forall (fun a => (a < p)%num) b) input -> (j < pkt)%coq_nat ->
  List.length out = Nat.pow 2 L -> List.length out' = Nat.pow 2 L ->
  List.map (fun b => lnth j b 0%num) (r2_ifft_buf K (p - 1) f out input) =
  r2_ifft_vec G f out' (List.map (fun b => lnth j b 0%num) input).
Proof.
rewrite !powE => -[H0 Hl] Hin Hj Ho Ho'; have [O _ _ _ _] := ok; have [p1 _] := Hp.
apply: (ifft_lane _ _ _ P L f pkt O K KO KA phi_pm1 (p - 1) j) => //; try by [exact/ltP|exact/leP].
- by rewrite /gvalid /=; lia.
- exact: phi_pm1.
- by move=> c; rewrite /gvalid /=; lia.
Qed.
End Kernels.
End Obj.

Lemma reverse_bits l x : (l < 32 -> x < 2 ^ l ->
  let y := reverse_bitwise x (2 ^ l) l in
  y < 2 ^ l /\ (forall b, b < l -> N.testbit y b = N.testbit x (l - 1 - b)) /\ reverse_bitwise y (2 ^ l) l = x)%num.
Proof.
move=> Hl Hx y; have E : N.of_nat (N.to_nat l) = l by rewrite N2Nat.id.
have Ey : y = brevN (N.to_nat l) x by apply: reverse_bitwise_brevN.
have Hy : (y < 2 ^ l)%num by rewrite Ey -{2}E; apply: brevN_lt.
split=> //; split.
- by move=> b Hb; rewrite Ey brevN_bits ?E.
- by rewrite reverse_bitwise_brevN // Ey brevN_invol // E.
Qed.

Lemma permute_twice A (d : A) L v : (L < 32)%coq_nat -> List.length v = Nat.pow 2 L ->
  let rev := init_bitrev (Nat.pow 2 L) in
  (forall i, (i < Nat.pow 2 L)%coq_nat -> (lnth i rev 0%N < Nat.pow 2 L)%coq_nat /\ lnth (lnth i rev 0%N) rev 0%N = i) /\
  (forall k, (k < Nat.pow 2 L)%coq_nat -> lnth k (bit_rev_permute d (Nat.pow 2 L) rev v) d = lnth (lnth k rev 0%N) v d) /\
  bit_rev_permute d (Nat.pow 2 L) rev (bit_rev_permute d (Nat.pow 2 L) rev v) = v.
Proof.
move=> HL Hv rev; have [Rl Rn] := init_bitrev_spec L HL; rewrite -/rev in Rl Rn.
have pE : N.of_nat (Nat.pow 2 L) = (2 ^ N.of_nat L)%num by rewrite Nat2N.inj_pow.
have X : forall i, (i < Nat.pow 2 L)%coq_nat -> (lnth i rev 0%N < Nat.pow 2 L)%coq_nat /\ lnth (lnth i rev 0%N) rev 0%N = i.
  move=> i Hi; have B := brevN_lt L (N.of_nat i); rewrite Rn //.
  have B' : (N.to_nat (brevN L (N.of_nat i)) < Nat.pow 2 L)%coq_nat by move: B; rewrite -pE; clear; move: (brevN _ _) => y; lia.
  split=> //; rewrite Rn // N2Nat.id brevN_invol ?Nat2N.id //.
  by rewrite -pE; clear - Hi; lia.
have S u : List.length u = Nat.pow 2 L -> List.length (bit_rev_permute d (Nat.pow 2 L) rev u) = Nat.pow 2 L /\
  forall k, (k < Nat.pow 2 L)%coq_nat -> lnth k (bit_rev_permute d (Nat.pow 2 L) rev u) d = lnth (lnth k rev 0%N) u d.
  move=> Hu; apply: (permute_spec _ d _ _ (fun k => lnth k rev 0%N)) => // i Hi.
  by have [Y Z] := X i Hi.
split=> //; have [S1 S2] := S v Hv; split=> //.
have [T1 T2] := S _ S1.
apply: (list_ext _ d); first by rewrite T1 Hv.
move=> i; rewrite T1 => Hi; rewrite T2 //; have [Y Z] := X i Hi; by rewrite S2 // Z.
Qed.
