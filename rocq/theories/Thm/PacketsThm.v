(** The functions of the fields on packets and on buffers of packets: property C60. *)
Set Warnings "-notation-overridden,-ambiguous-paths".
From Coq Require Import NArith Arith.
From Coq Require List.
From Verif.Model Require Import Common Arith Ring Fft2n Radix2 Simd Gf2n Packets.
From Verif.Spec Require Import Primes.
From Verif.Proof Require Import ListP Build PacketsP FntInst.
From mathcomp Require Import all_ssreflect ssralg finalg poly.
From mathcomp Require Import zify.
From Verif.Spec Require Import Gf2n Packets.
From Verif.Proof Require Import Pres FieldP Radix2P MatrixB MixedB.
Import GRing.Theory.
Local Open Scope ring_scope.

Section Field.
Variables (F : fieldType) (G : gfops) (phi : N -> F).
Hypothesis Pr : gf_pres F G phi.
Variables (nh : nat) (w rc : N).
Hypothesis fits : build_fits nh w rc G.
Variable n : nat.
Notation packet := (packet G n).
Notation made_of := (made_of F G phi n).
Notation elt := (elt F phi).
Let Hn : Peano.le nh 2. Proof. by apply/leP; case: fits. Qed.
Let fit : nh = 0%N \/ simd_size w = None \/ exists e, simd_size w = Some e /\ rc = vcard e /\ G = prime_ops w rc.
Proof. by case: (fits_simd G nh w rc fits) => [|[|[e [E1 E2 E3]]]]; auto; right; right; exists e. Qed.

Lemma packet_pok p : packet p -> pok G n p.
Proof.
  move=> [S V]; split=> //; apply/List.Forall_nth => i d Hi; rewrite (List.nth_indep _ d 0%num) //; apply: V.
  by rewrite -S; apply/ltP.
Qed.

Lemma made2 (f : N -> N -> N) (g : F -> F -> F) a b :
  (forall x y, gvalid G x -> gvalid G y -> gvalid G (f x y) /\ phi (f x y) = g (phi x) (phi y)) ->
  packet a -> packet b -> made_of (fun t => g (elt a t) (elt b t)) (map2 f a b).
Proof.
  move=> H [La Va] [Lb Vb].
  have X t : (t < n)%N -> gvalid G (List.nth t (map2 f a b) 0%num) /\ phi (List.nth t (map2 f a b) 0%num) = g (elt a t) (elt b t).
    move=> Ht; rewrite (map2_nth _ _ _ _ 0%num 0%num) -?[length _]/(size _) ?La ?Lb //.
    by apply: H; [exact: Va|exact: Vb].
  split; last by move=> t /X [].
  by split; [rewrite -[size _]/(length _) map2_length -?[length _]/(size _) ?La ?Lb|move=> t /X []].
Qed.
Lemma made1 (f : N -> N) (g : F -> F) a : (forall x, gvalid G x -> gvalid G (f x) /\ phi (f x) = g (phi x)) ->
  packet a -> made_of (fun t => g (elt a t)) (List.map f a).
Proof.
  move=> H [La Va].
  have X t : (t < n)%N -> gvalid G (List.nth t (List.map f a) 0%num) /\ phi (List.nth t (List.map f a) 0%num) = g (elt a t).
    move=> Ht; rewrite (List.nth_indep _ 0%num (f 0%num)) ?List.map_nth; last by rewrite List.map_length -[length _]/(size _) La; apply/ltP.
    by apply: H; exact: Va.
  split; last by move=> t /X [].
  by split; [rewrite size_map|move=> t /X []].
Qed.

(** Loops on the packets. *)
Lemma fold_rows (g : nat -> list N -> list N) k d : (k <= size d)%N ->
  let o := List.fold_left (fun d i => set d i (g i (get nil d i))) (List.seq 0 k) d in
  size o = size d /\ forall i, List.nth i o nil = if (i < k)%N then g i (List.nth i d nil) else List.nth i d nil.
Proof.
  elim: k => [|k IH] Hk; first by split.
  have [S E] := IH ltac:(lia); rewrite List.seq_S List.fold_left_app; move: S E; set o := List.fold_left _ _ d => S E.
  rewrite [List.fold_left _ _ o]/=; split; first by rewrite -[size _]/(length _) set_length.
  move=> i; case: (ltngtP i k) => [lt|gt|->].
  - by rewrite nth_set_neq ?E ?lt ?(ltn_trans lt) //; lia.
  - by rewrite nth_set_neq ?E ?[(i < k)%N]ltnNge ?[(i < k.+1)%N]ltnNge ?(ltnW gt) ?gt //; lia.
  - rewrite ltnSn nth_set_eq; last by rewrite -[length o]/(size o) S; apply/ltP.
    by rewrite /get E ltnn.
Qed.
Lemma ofold_rows (g : nat -> list N -> option (list N)) (h : nat -> list N -> list N) (Q : nat -> list N -> Prop) l d :
  (forall i x, Q i x -> g i x = Some (h i x)) -> List.NoDup l -> (forall i, List.In i l -> Q i (List.nth i d nil)) ->
  ofold (fun d i => match g i (get nil d i) with Some r => Some (set d i r) | None => None end) l d =
  Some (List.fold_left (fun d i => set d i (h i (get nil d i))) l d).
Proof.
  move=> H; elim: l d => [//|i l IH] d ND Hd.
  move/List.NoDup_cons_iff: ND => [Ni ND]; rewrite /= (H i); last by apply: Hd; left.
  apply: IH => // j Hj; rewrite nth_set_neq; first by apply: Hd; right.
  by move=> e; apply: Ni; rewrite -e.
Qed.

Definition coef_ok (c : N) : Prop := (c < g_card G)%num /\ (c = (g_card G - 1)%num -> phi c = - 1).

Lemma row_right c a d : coef_ok c -> packet a -> size d = n ->
  exists o, row_mul nh w rc G c a d n = Some o /\ made_of (fun t => phi c * elt a t) o.
Proof.
  move=> [Vc Hm] Pa Sd; have Qa := packet_pok a Pa; rewrite /row_mul.
  case: (N.ltb_spec 1 c) => [Q1|Q1]; case: (N.ltb_spec c (g_card G - 1)) => [Q2|Q2] /=.
  - eexists; split; first by apply: (buf_scale_ok nh w rc G Hn fit n).
    by apply: (made1 _ ( *%R (phi c))) => // x Vx; apply: (gp_mul _ _ _ Pr).
  - have e : c = (g_card G - 1)%num by move: Vc; lia.
    rewrite (proj2 (N.eqb_neq c 1)); last by lia.
    rewrite (proj2 (N.eqb_neq c 0)); last by lia.
    rewrite (proj2 (N.eqb_eq _ _) e).
    eexists; split; first by [].
    rewrite (buf_neg_ok nh w rc G Hn fit n) //.
    apply: (made1 _ ( *%R (phi c))) => // x Vx.
    have [A B] := gp_sub _ _ _ Pr 0%num x (gvalid0 F G phi Pr) Vx; split=> //.
    by rewrite B (gp_0 _ _ _ Pr) sub0r (Hm e) mulN1r.
  all: case: (N.eqb_spec c 1) => [->|n1].
  1,3: by exists a; split=> //; split=> // t Ht; rewrite (gp_1 _ _ _ Pr) mul1r.
  all: have -> : c = 0%num by lia.
  all: exists (List.repeat 0%num n); split=> //; split; [split; first by rewrite -[size _]/(length _) List.repeat_length|].
  all: move=> t Ht; rewrite List.nth_repeat; first [by have := gp_card _ _ _ Pr; lia|by rewrite (gp_0 _ _ _ Pr) mul0r].
Qed.

(** ** Packets *)
Lemma packets_gen a b : packet a -> packet b ->
  [/\ made_of (fun t => elt a t + elt b t) (buf_add nh w rc G a b n),
      (forall r, size r = n -> made_of (fun t => elt a t - elt b t) (buf_sub nh w rc G a b r n)),
      made_of (fun t => - elt a t) (buf_neg nh w rc G n a),
      made_of (fun t => elt a t * elt b t) (ring_hadamard nh w rc G a b) &
      (forall c r, (c < g_card G - 1)%num -> size r = n ->
        exists o, buf_scale nh w rc G c a r n = Some o /\ made_of (fun t => phi c * elt a t) o)].
Proof.
  move=> Ha Hb; have Pa := packet_pok a Ha; have Pb := packet_pok b Hb; split.
  - by rewrite (buf_add_ok nh w rc G Hn fit n) //; apply: (made2 _ +%R) => // x y; exact: (gp_add _ _ _ Pr).
  - move=> r Sr; rewrite (buf_sub_ok nh w rc G Hn fit n) //.
    by apply: (made2 _ (fun x y => x - y)) => // x y; exact: (gp_sub _ _ _ Pr).
  - rewrite (buf_neg_ok nh w rc G Hn fit n) //; apply: made1 => // x Vx.
    have [A B] := gp_sub _ _ _ Pr 0%num x (gvalid0 F G phi Pr) Vx; split=> //.
    by rewrite B (gp_0 _ _ _ Pr) sub0r.
  - by rewrite (buf_had_ok nh w rc G Hn fit n) //; apply: (made2 _ *%R) => // x y; exact: (gp_mul _ _ _ Pr).
  - move=> c r Hc Sr; eexists; split; first by apply: (buf_scale_ok nh w rc G Hn fit n).
    by apply: (made1 _ ( *%R (phi c))) => // x Vx; apply: (gp_mul _ _ _ Pr) => //; rewrite /gvalid; lia.
Qed.
(** ** Buffers *)
Notation buffer := (buffer G n).
Notation updated := (updated F G phi n).
Notation cell := (cell F phi).
Lemma updated_rows m (f : nat -> nat -> F) (g : nat -> list N -> list N) d : (m <= size d)%N ->
  (forall i, (i < m)%N -> made_of (f i) (g i (List.nth i d nil))) ->
  updated m f d (List.fold_left (fun d i => set d i (g i (get nil d i))) (List.seq 0 m) d).
Proof.
  move=> Hm H; have [S E] := fold_rows g m d Hm; split=> // i Hi; rewrite E; first by rewrite Hi; exact: H.
  by rewrite ltnNge Hi.
Qed.

Lemma buffers_gen m a b r : buffer m a -> buffer m b -> (m <= size r)%N -> (forall i, (i < m)%N -> size (List.nth i r nil) = n) ->
  [/\ exists o, vecp_add nh w rc G a b n = Some o /\ updated m (fun i t => cell a i t + cell b i t) b o,
      exists o, vecp_sub nh w rc G a b r n = Some o /\ updated m (fun i t => cell a i t - cell b i t) r o,
      updated m (fun i t => - cell a i t) a (vecp_neg nh w rc G a n) &
      forall u, size u = m -> (forall i, (i < m)%N -> coef_ok (List.nth i u 0%num)) ->
        exists o, vecp_mul nh w rc G u a r n = Some o /\ updated m (fun i t => phi (List.nth i u 0%num) * cell a i t) r o].
Proof.
  move=> [Sa Pa] [Sb Pb] Sr Pr'; split.
  - rewrite /vecp_add -[length a]/(size a) -[length b]/(size b) Sa Sb Nat.eqb_refl; eexists; split; first by [].
    apply: (updated_rows m _ (fun i x => buf_add nh w rc G (get nil a i) x n)); rewrite ?Sb // => i Hi.
    by have [H _ _ _ _] := packets_gen _ _ (Pa i Hi) (Pb i Hi).
  - rewrite /vecp_sub -[length a]/(size a) -[length b]/(size b) -[length r]/(size r) Sa Sb Nat.eqb_refl.
    rewrite (proj2 (Nat.leb_le _ _)) /=; last by apply/leP.
    eexists; split; first by [].
    apply: (updated_rows m _ (fun i x => buf_sub nh w rc G (get nil a i) (get nil b i) x n)) => // i Hi.
    by have [_ H _ _ _] := packets_gen _ _ (Pa i Hi) (Pb i Hi); exact: H (Pr' i Hi).
  - split; first by rewrite size_map.
      move=> i Hi; rewrite /vecp_neg (List.nth_indep _ nil (buf_neg nh w rc G n nil)) ?List.map_nth; last first.
        by rewrite List.map_length -[length a]/(size a) Sa; apply/ltP.
      by have [_ _ H _ _] := packets_gen _ _ (Pa i Hi) (Pa i Hi).
    by move=> i Hi; rewrite !List.nth_overflow // ?List.map_length -[length a]/(size a) Sa; apply/leP.
  - move=> u Su Hu; pose h i x := if row_mul nh w rc G (get 0%num u i) (get nil a i) x n is Some o then o else nil.
    have R i x : (i < m)%N /\ size x = n -> row_mul nh w rc G (get 0%num u i) (get nil a i) x n = Some (h i x).
      by move=> [Hi Hx]; have [o [E _]] := row_right _ _ x (Hu i Hi) (Pa i Hi) Hx; rewrite /h /get E.
    exists (List.fold_left (fun d i => set d i (h i (get nil d i))) (List.seq 0 m) r); split.
      rewrite /vecp_mul -[length a]/(size a) -[length u]/(size u) -[length r]/(size r) Sa Su Nat.eqb_refl.
      rewrite (proj2 (Nat.leb_le _ _)) /=; last by apply/leP.
      apply: (ofold_rows (fun i x => row_mul nh w rc G (get 0%num u i) (get nil a i) x n) h (fun i x => (i < m)%N /\ size x = n)) => //.
        exact: List.seq_NoDup.
      by move=> i /List.in_seq [_ Hi]; have Hm : (i < m)%N by [apply/ltP]; split; last exact: Pr'.
    apply: updated_rows => // i Hi; have [o [E M]] := row_right _ _ _ (Hu i Hi) (Pa i Hi) (Pr' i Hi).
    by rewrite /h /get E.
Qed.
End Field.

(** ** What the functions must do: on packets, and on buffers with the coefficients [ok] *)
Section Claims.
Variables (F : fieldType) (G : gfops) (phi : N -> F) (nh : nat) (w rc : N).
Definition packets_right : Prop := forall n a b, packet G n a -> packet G n b ->
  [/\ made_of F G phi n (fun t => elt F phi a t + elt F phi b t) (buf_add nh w rc G a b n),
      (forall r, size r = n -> made_of F G phi n (fun t => elt F phi a t - elt F phi b t) (buf_sub nh w rc G a b r n)),
      made_of F G phi n (fun t => - elt F phi a t) (buf_neg nh w rc G n a),
      made_of F G phi n (fun t => elt F phi a t * elt F phi b t) (ring_hadamard nh w rc G a b) &
      (forall c r, (c < g_card G - 1)%num -> size r = n ->
        exists o, buf_scale nh w rc G c a r n = Some o /\ made_of F G phi n (fun t => phi c * elt F phi a t) o)].
Definition buffers_right (ok : N -> Prop) : Prop := forall n m a b r, buffer G n m a -> buffer G n m b ->
  (m <= size r)%N -> (forall i, (i < m)%N -> size (List.nth i r nil) = n) ->
  [/\ exists o, vecp_add nh w rc G a b n = Some o /\ updated F G phi n m (fun i t => cell F phi a i t + cell F phi b i t) b o,
      exists o, vecp_sub nh w rc G a b r n = Some o /\ updated F G phi n m (fun i t => cell F phi a i t - cell F phi b i t) r o,
      updated F G phi n m (fun i t => - cell F phi a i t) a (vecp_neg nh w rc G a n) &
      forall u, size u = m -> (forall i, (i < m)%N -> ok (List.nth i u 0%num)) ->
        exists o, vecp_mul nh w rc G u a r n = Some o /\
          updated F G phi n m (fun i t => phi (List.nth i u 0%num) * cell F phi a i t) r o].
End Claims.

(** ** C60, prime fields: every element as a coefficient.  Missing: the builds with SIMD of fields in 16 and 32 bits other than
    those of 257 and 65537 elements, see [C60_simd_prime_refuted]. *)
Theorem C60_prime_partial nh w p : primeN p -> (2 * p <= 2 ^ w)%num -> build_fits nh w p (prime_ops w p) ->
  packets_right (FieldP.Fpp p) (prime_ops w p) (FieldP.phi p) nh w p /\
  buffers_right (FieldP.Fpp p) (prime_ops w p) (FieldP.phi p) nh w p (fun c => c < p)%num.
Proof.
  move=> pp pw Hf; have Pr := FieldP.prime_pres w p pp pw; split.
    by move=> n a b; exact: (packets_gen _ _ _ Pr nh w p Hf n a b).
  move=> n m a b r Ha Hb H1 H2; have [X1 X2 X3 X4] := buffers_gen _ _ _ Pr nh w p Hf n m a b r Ha Hb H1 H2; split=> //.
  move=> u Su Hu; apply: X4 => // i Hi; split; first exact: Hu.
  move=> ->; have [p2 _] := pp; apply/eqP; rewrite -subr_eq0 opprK; apply/eqP; rewrite -[1](FieldP.phi_1 p) -(FieldP.phi_add p).
  by rewrite -[RHS](FieldP.phi_p p pp); congr (FieldP.phi p _); change (g_card (prime_ops w p)) with p; lia.
Qed.

(** ** C60, fields of [2 ^ d] elements: every coefficient but [2 ^ d - 1] if [d >= 2], see [C60_minus_one_refuted].  Missing also: the builds
    with SIMD in 16 and 32 bits, see [C60_simd_bin_refuted]. *)
Theorem C60_bin_partial junk nh w d rc X : supported w d -> new_bin_ext junk w d = Some X -> build_fits nh w rc (bin_ops X) ->
  exists (F : finFieldType) (h : N -> F), gf_pres F (bin_ops X) h /\ packets_right F (bin_ops X) h nh w rc /\
    buffers_right F (bin_ops X) h nh w rc (fun c => c < 2 ^ d /\ (c = 2 ^ d - 1 -> d = 1))%num.
Proof.
  move=> sup EX Hf; have [F [h [Pr C _ ch _]]] := bin_all junk w d X sup EX; exists F, h; split=> //; split.
    by move=> n a b; exact: (packets_gen _ _ _ Pr nh w rc Hf n a b).
  move=> n m a b r Ha Hb H1 H2; have [X1 X2 X3 X4] := buffers_gen _ _ _ Pr nh w rc Hf n m a b r Ha Hb H1 H2; split=> //.
  move=> u Su Hu; apply: X4 => // i Hi; have [Vc Hc] := Hu i Hi; rewrite /coef_ok C; split=> // e.
  by rewrite e (Hc e) ch (gp_1 _ _ _ Pr).
Qed.

(** ** Refuted: over a field of [2 ^ d] elements, [d >= 2], the coefficient [2 ^ d - 1] is taken for -1, that is 1: the packet is
    copied, in every build without specialisation. *)
Theorem C60_minus_one_refuted junk w d rc X a r : supported w d -> (2 <= d)%num -> new_bin_ext junk w d = Some X -> packet (bin_ops X) 1 a ->
  List.nth 0 a 0%num <> 0%num -> size r = 1%N ->
  exists (F : finFieldType) (h : N -> F), gf_pres F (bin_ops X) h /\
    (2 ^ d - 1 < g_card (bin_ops X))%num /\
    vecp_mul 0 w rc (bin_ops X) [:: (2 ^ d - 1)%num] [:: a] [:: r] 1 = Some [:: a] /\
    h (2 ^ d - 1)%num * elt F h a 0 <> elt F h a 0.
Proof.
  move=> sup d2 EX [Sa Va] a0 Sr; have [F [h [Pr C D ch X1]]] := bin_all junk w d X sup EX; exists F, h; split=> //.
  have q4 : (4 <= 2 ^ d)%num by rewrite -[4%num]/(2 ^ 2)%num; apply: N.pow_le_mono_r.
  have V0 := Va 0%N isT; split; first by rewrite C; lia.
  split.
    rewrite /vecp_mul /= /get /= /row_mul C N.ltb_irrefl Bool.andb_false_r.
    rewrite (proj2 (N.eqb_neq _ 1)); last by lia.
    rewrite (proj2 (N.eqb_neq _ 0)); last by lia.
    rewrite N.eqb_refl /=; congr (Some [:: _]); move: Sa V0; case: a {Va a0} => [//|x [|//]] _ /= V0; congr [:: _].
    have [V E] := gp_sub _ _ _ Pr 0%num x (gvalid0 F (bin_ops X) h Pr) V0.
    by apply: (gp_inj _ _ _ Pr) => //; rewrite E (gp_0 _ _ _ Pr) sub0r ch.
  rewrite /elt => E; have N0 : h (List.nth 0 a 0%num) != 0.
    by apply/eqP => Z; apply: a0; apply: (gp_inj _ _ _ Pr) => //; rewrite ?(gp_0 _ _ _ Pr) //; exact: gvalid0 Pr.
  have H1 : h (2 ^ d - 1)%num = 1 by apply: (mulIf N0); rewrite mul1r.
  have : (2 ^ d - 1)%num = 1%num by apply: (gp_inj _ _ _ Pr); rewrite /gvalid ?C ?(gp_1 _ _ _ Pr) //; lia.
  by lia.
Qed.

(** ** Refuted: in a build with SIMD the functions in 16 and 32 bits are those modulo 257 and 65537 for every field. *)
Theorem C60_simd_prime_refuted : exists nh w p a b, [/\ primeN p, (2 * p <= 2 ^ w)%num, packet (prime_ops w p) 4 a, packet (prime_ops w p) 4 b &
  ring_hadamard nh w p (prime_ops w p) a b <> map2 (fun x y => (x * y) mod p)%num a b].
Proof.
  exists 1%N, 32%num, 257%num, [:: 200; 1; 2; 3]%num, [:: 200; 1; 2; 3]%num; split.
  - exact: prime257.
  - by vm_compute.
  - by split; [|case=> [|[|[|[|t]]]]; vm_compute].
  - by split; [|case=> [|[|[|[|t]]]]; vm_compute].
  - by vm_compute.
Qed.
Theorem C60_simd_bin_refuted junk X : new_bin_ext junk 16 8 = Some X -> exists (F : finFieldType) (h : N -> F) a,
  [/\ gf_pres F (bin_ops X) h, packet (bin_ops X) 8 a &
      ~ made_of F (bin_ops X) h 8 (fun t => elt F h a t + elt F h a t) (buf_add 1 16 (exp 16 2 8) (bin_ops X) a a 8)].
Proof.
  move=> EX; have sup : supported 16 8 by split; [right; left|split; [do 4 right; left|split]].
  have [F [h [Pr C _ ch _]]] := bin_all junk 16 8 X sup EX; exists F, h, (List.repeat 1%num 8); split; [exact: Pr| |].
    by split; [|move=> t Ht; rewrite C; do 8 (case: t Ht => [//|t] Ht)].
  have -> : buf_add 1 16 (exp 16 2 8) (bin_ops X) (List.repeat 1%num 8) (List.repeat 1%num 8) 8 = List.repeat 2%num 8 by vm_compute.
  move=> [_ /(_ 0%N isT)] /=; rewrite /elt /= (gp_1 _ _ _ Pr) => E.
  have V2 : gvalid (bin_ops X) 2 by rewrite /gvalid C.
  have Z : h 2%num = h 0%num by rewrite E (gp_0 _ _ _ Pr); apply/eqP; rewrite addr_eq0 ch.
  by have := gp_inj _ _ _ Pr _ _ V2 (gvalid0 F (bin_ops X) h Pr) Z.
Qed.
(** The member [_card] of a field of 2^32 elements in uint32_t is 0: a product divides by zero. *)
Theorem C60_card_zero_refuted G c src dest : buf_scale 1 32 (exp 32 2 32) G c src dest 5 = None.
Proof.
  have -> : exp 32 2 32 = 0%num by vm_compute.
  by [].
Qed.

(** ** Cases *)
Example C60_case_fits : build_fits 0 64 257 (prime_ops 64 257) /\ build_fits 2 16 257 (prime_ops 16 257) /\ build_fits 1 32 65537 (prime_ops 32 65537) /\
  build_fits 2 64 12289 (prime_ops 64 12289).
Proof.
  by split; [split; [|left]|split; [split; [|do 2 right; left]|split; [split; [|do 3 right]|split; [|right; left => -[//|[//|[]]]]]]].
Qed.
(** Nine elements, with SSE: one register and a tail. *)
Example C60_case_simd : vecp_mul 1 16 257 (prime_ops 16 257) [:: 200; 256]%num
    [:: [:: 200; 1; 2; 3; 4; 5; 6; 256; 256]; [:: 0; 1; 2; 3; 4; 5; 6; 256; 100]]%num [:: List.repeat 7%num 9; List.repeat 7%num 9; [:: 8%num]] 9 =
  Some [:: [:: 165; 200; 143; 86; 29; 229; 172; 57; 57]; [:: 0; 256; 255; 254; 253; 252; 251; 1; 157]; [:: 8]]%num.
Proof. by vm_compute. Qed.

Print Assumptions C60_prime_partial.
Print Assumptions C60_bin_partial.
Print Assumptions C60_minus_one_refuted.
Print Assumptions C60_simd_prime_refuted.
Print Assumptions C60_simd_bin_refuted.
Print Assumptions C60_card_zero_refuted.
