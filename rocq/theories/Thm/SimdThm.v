(** Properties C30, C31 and C15: the SIMD builds (src/simd_fnt.h, src/simd_ring.h, src/simd_radix2_fft.h and the
    specialisations that call them). *)
From Coq Require Import List NArith ZArith Arith Bool Lia.
From Verif.Model Require Import Common Arith Ring Fft2n Radix2 Poly Props Bytes Simd Fnt Blocks Header CApi.
From Verif.Spec Require Import Modular Code Blocks Session CApi Simd.
From Verif.Proof Require Import ListP Tac BytesP BlocksP Kern Build SimdL SimdR SimdP SimdK SimdPost.
From Verif.Proof Require Import FftFinal.
From Verif.Thm Require Import FftThm BlocksThm CApiThm.
Import ListNotations.
Open Scope nat_scope.

(** ** From registers to elements *)
Lemma field_cases e q : lane_field e q -> (e = 2 \/ e = 4) /\ q = vcard e.
Proof. intros [[-> ->]|[-> ->]]; auto. Qed.

Section Elements.
Variables (e nh : nat) (q : N).
Hypothesis Hf : lane_field e q.
Hypothesis Hn : reg_halves nh.
Let He : e = 2 \/ e = 4 := proj1 (field_cases e q Hf).
Let Eq : q = vcard e := proj2 (field_cases e q Hf).
Notation cnt := (16 * nh / e).

Lemma lanes_symbol r t : length r = 16 * nh -> t < cnt -> nth t (lanes e nh r) 0%N = symbol e r t.
Proof.
  intros L Ht. unfold lanes, pack_buf. change (countof e nh) with cnt. rewrite nth_map_seq by exact Ht.
  change (word_at e r t = symbol e r t). apply word_at_symbol. pose proof (cnt_e e nh He Hn) as C. change (countof e nh) with cnt in C. nia.
Qed.

Definition el (r : list N) (t : nat) : N := nth t (lanes e nh r) 0%N.

Lemma reduced_rof r : reduced e nh q r -> r = rof e nh (el r) /\ forall t, t < cnt -> el r t = symbol e r t /\ (el r t < q)%N.
Proof.
  intros (L & B & H). split; [symmetry; now apply (rof_lanes e nh He Hn)|]. intros t Ht. unfold el. rewrite lanes_symbol by auto. auto.
Qed.
Lemma reduced_small r : reduced e nh q r -> small e nh (el r).
Proof. intros H t Ht. apply reduced_rof in H. destruct H as [_ H]. specialize (H t Ht). pose proof (q_lt e He). rewrite <- Eq in *. lia. Qed.

Lemma rof_holds g f : (forall t, t < cnt -> g t = f t /\ (f t < q)%N) -> holds e nh f (rof e nh g).
Proof.
  intros H. split; [apply (rof_length e nh He Hn)|]. split.
  - unfold rof, of_lanes, unpack_buf. apply Forall_flat_map, Forall_forall. intros v _. apply bytes_of_word_bytes.
  - intros t Ht. rewrite <- lanes_symbol by (auto; apply (rof_length e nh He Hn)).
    rewrite (lanes_rof e nh He Hn).
    + change (countof e nh) with cnt. rewrite nth_map_seq by exact Ht. now apply H.
    + intros i Hi. destruct (H i Hi) as [-> X]. pose proof (q_lt e He). rewrite <- Eq in *. lia.
Qed.

Let qpos : (0 < q)%N.
Proof. rewrite Eq. pose proof (q_big e nh He Hn). lia. Qed.
Let mlt a : (a mod q < q)%N.
Proof. apply N.mod_upper_bound. lia. Qed.

Lemma el_rof r : reduced e nh q r -> rof e nh (el r) = r.
Proof. intros H. symmetry. now apply reduced_rof. Qed.
Lemma el_spec r t : reduced e nh q r -> t < cnt -> symbol e r t = el r t /\ (el r t < vcard e)%N.
Proof. intros H Ht. apply reduced_rof in H. destruct H as [_ H]. destruct (H t Ht) as [E L]. rewrite <- Eq. auto. Qed.

Ltac elementwise E x y :=
  let E' := fresh in pose proof E as E'; rewrite ?el_rof in E' by assumption; rewrite E'; apply rof_holds; intros t Ht; split; [|try apply mlt].

Lemma el_add x y : reduced e nh q x -> reduced e nh q y ->
  holds e nh (fun t => (symbol e x t + symbol e y t) mod q)%N (mod_add e nh x y).
Proof.
  intros Hx Hy. elementwise (mod_add_rof e nh He Hn (el x) (el y) (reduced_small x Hx) (reduced_small y Hy)) x y.
  destruct (el_spec x t Hx Ht) as [-> L1], (el_spec y t Hy Ht) as [-> L2]. rewrite Eq. now apply (ladd_res e nh He Hn).
Qed.
Lemma el_sub x y : reduced e nh q x -> reduced e nh q y ->
  holds e nh (fun t => (symbol e x t + q - symbol e y t) mod q)%N (mod_sub e nh x y).
Proof.
  intros Hx Hy. elementwise (mod_sub_rof e nh He Hn (el x) (el y) (reduced_small x Hx) (reduced_small y Hy)) x y.
  destruct (el_spec x t Hx Ht) as [-> L1], (el_spec y t Hy Ht) as [-> L2]. rewrite Eq. now apply (lsub_res e nh He Hn).
Qed.
Lemma el_neg x : reduced e nh q x -> holds e nh (fun t => (q - symbol e x t) mod q)%N (mod_neg e nh x).
Proof.
  intros Hx. elementwise (mod_neg_rof e nh He Hn (el x) (reduced_small x Hx)) x x.
  destruct (el_spec x t Hx Ht) as [-> L1]. rewrite Eq. now apply (lneg_res e nh He Hn).
Qed.
Lemma el_mul x y : reduced e nh q x -> reduced e nh q y ->
  holds e nh (fun t => if (symbol e x t =? q - 1)%N && (symbol e y t =? q - 1)%N then 0%N
                       else ((symbol e x t * symbol e y t) mod q)%N) (mod_mul e nh x y).
Proof.
  intros Hx Hy. elementwise (mod_mul_rof e nh He Hn (el x) (el y) (reduced_small x Hx) (reduced_small y Hy)) x y.
  - destruct (el_spec x t Hx Ht) as [-> L1], (el_spec y t Hy Ht) as [-> L2]. rewrite Eq.
    destruct (N.eqb_spec (el x t) (vcard e - 1)) as [E1|E1], (N.eqb_spec (el y t) (vcard e - 1)) as [E2|E2]; cbn [andb];
      try (apply (lmul_res e nh He Hn); tauto). rewrite E1, E2. apply (lmul_max e nh He Hn).
  - destruct (_ && _); [exact qpos|apply mlt].
Qed.
Lemma el_mul_safe x y : reduced e nh q x -> reduced e nh q y ->
  holds e nh (fun t => (symbol e x t * symbol e y t) mod q)%N (mod_mul_safe e nh x y).
Proof.
  intros Hx Hy. elementwise (mod_mul_safe_rof e nh He Hn (el x) (el y) (reduced_small x Hx) (reduced_small y Hy)) x y.
  destruct (el_spec x t Hx Ht) as [-> L1], (el_spec y t Hy Ht) as [-> L2]. rewrite Eq. now apply (lmuls_res e nh He Hn).
Qed.
Lemma el_ct r x y : (r < q)%N -> reduced e nh q x -> reduced e nh q y ->
  let z := reg_ct e nh (get_case r q) (set_one e nh r) x y in
  holds e nh (fun t => (symbol e x t + r * symbol e y t) mod q)%N (fst z) /\
  holds e nh (fun t => (symbol e x t + (q - r * symbol e y t mod q)) mod q)%N (snd z).
Proof.
  intros Hr Hx Hy z. pose proof (reg_ct_rof e nh He Hn r q (el x) (el y) (reduced_small x Hx) (reduced_small y Hy)) as E.
  rewrite !el_rof in E by assumption. unfold z. rewrite E. cbn [fst snd].
  assert (K : forall t, t < cnt -> lct e r (el x t) (el y t) q =
    ((symbol e x t + r * symbol e y t) mod q, (symbol e x t + (q - r * symbol e y t mod q)) mod q)%N).
  { intros t Ht. destruct (el_spec x t Hx Ht) as [-> L1], (el_spec y t Hy Ht) as [-> L2]. rewrite Eq in Hr |- *.
    rewrite (lct_res e nh He Hn) by auto. pose proof (N.mod_upper_bound (r * el y t) (vcard e)). pose proof (q_big e nh He Hn). f_equal.
    - rewrite N.add_mod_idemp_r by lia. reflexivity.
    - f_equal. lia. }
  split; apply rof_holds; intros t Ht; rewrite K by exact Ht; auto.
Qed.
Lemma el_gs r x y : (r < q)%N -> reduced e nh q x -> reduced e nh q y ->
  let z := reg_gs e nh (get_case r q) (set_one e nh r) x y in
  holds e nh (fun t => (symbol e x t + symbol e y t) mod q)%N (fst z) /\
  holds e nh (fun t => (r * (symbol e x t + (q - symbol e y t))) mod q)%N (snd z).
Proof.
  intros Hr Hx Hy z. pose proof (reg_gs_rof e nh He Hn r q (el x) (el y) (reduced_small x Hx) (reduced_small y Hy)) as E.
  rewrite !el_rof in E by assumption. unfold z. rewrite E. cbn [fst snd].
  assert (K : forall t, t < cnt -> lgs e r (el x t) (el y t) q =
    ((symbol e x t + symbol e y t) mod q, (r * (symbol e x t + (q - symbol e y t))) mod q)%N).
  { intros t Ht. destruct (el_spec x t Hx Ht) as [-> L1], (el_spec y t Hy Ht) as [-> L2]. rewrite Eq in Hr |- *. pose proof (q_big e nh He Hn).
    rewrite (lgs_res e nh He Hn) by auto. f_equal. rewrite N.mul_mod_idemp_r by lia. do 2 f_equal. lia. }
  split; apply rof_holds; intros t Ht; rewrite K by exact Ht; auto.
Qed.
Lemma el_gss r x : (r < q)%N -> reduced e nh q x ->
  holds e nh (fun t => (r * symbol e x t) mod q)%N (reg_gss e nh (get_case r q) (set_one e nh r) x).
Proof.
  intros Hr Hx. elementwise (reg_gss_rof e nh He Hn r q (el x) (reduced_small x Hx)) x x.
  destruct (el_spec x t Hx Ht) as [-> L1]. rewrite Eq in Hr |- *. now apply (lgss_res e nh He Hn).
Qed.
End Elements.

(** * C30 Registers: every element of the result is the residue. *)
Theorem C30_lanes e q nh x y : lane_field e q -> reg_halves nh -> reduced e nh q x -> reduced e nh q y ->
  holds e nh (fun t => (symbol e x t + symbol e y t) mod q)%N (mod_add e nh x y) /\
  holds e nh (fun t => (symbol e x t + q - symbol e y t) mod q)%N (mod_sub e nh x y) /\
  holds e nh (fun t => (q - symbol e x t) mod q)%N (mod_neg e nh x) /\
  holds e nh (fun t => (symbol e x t * symbol e y t) mod q)%N (mod_mul_safe e nh x y).
Proof.
  intros Hf Hn Hx Hy. split; [|split; [|split]]; [now apply el_add|now apply el_sub|now apply el_neg|now apply el_mul_safe].
Qed.

(** The fast product is the residue unless both elements are [q - 1]; then it is 0 instead of 1. *)
Theorem C30_fast_mul e q nh x y : lane_field e q -> reg_halves nh -> reduced e nh q x -> reduced e nh q y ->
  holds e nh (fun t => if (symbol e x t =? q - 1)%N && (symbol e y t =? q - 1)%N then 0%N
                       else ((symbol e x t * symbol e y t) mod q)%N) (mod_mul e nh x y).
Proof. intros Hf Hn Hx Hy. now apply el_mul. Qed.

(** The butterflies choose among three cases by the coefficient [r], with the fast product in one of them. *)
Theorem C30_butterflies e q nh r x y : lane_field e q -> reg_halves nh -> (r < q)%N -> reduced e nh q x -> reduced e nh q y ->
  let ct := reg_ct e nh (get_case r q) (set_one e nh r) x y in
  let gs := reg_gs e nh (get_case r q) (set_one e nh r) x y in
  holds e nh (fun t => (symbol e x t + r * symbol e y t) mod q)%N (fst ct) /\
  holds e nh (fun t => (symbol e x t + (q - r * symbol e y t mod q)) mod q)%N (snd ct) /\
  holds e nh (fun t => (symbol e x t + symbol e y t) mod q)%N (fst gs) /\
  holds e nh (fun t => (r * (symbol e x t + (q - symbol e y t))) mod q)%N (snd gs) /\
  holds e nh (fun t => (r * symbol e x t) mod q)%N (reg_gss e nh (get_case r q) (set_one e nh r) x).
Proof.
  intros Hf Hn Hr Hx Hy ct gs. destruct (el_ct e nh q Hf Hn r x y Hr Hx Hy), (el_gs e nh q Hf Hn r x y Hr Hx Hy).
  do 4 (split; [assumption|]). now apply el_gss.
Qed.

(** ** Packets of every size, in memory: whole registers, then the last elements. *)
Lemma packet_pok w q n p : packet q n p <-> pok (prime_ops w q) n p.
Proof.
  split; intros [L H]; (split; [exact L|]).
  - apply Forall_forall. intros x Hx. apply (In_nth _ _ 0%N) in Hx. destruct Hx as (t & Ht & <-). apply H. lia.
  - intros t Ht. apply (proj1 (Forall_forall _ _) H). apply nth_In. lia.
Qed.

Lemma filled_tab n f p : p = tab n f -> filled n f p.
Proof. intros ->. split; [apply tab_length|]. intros t Ht. now apply nth_tab. Qed.

Lemma filled_map2 q (e : nat) n f g a b : packet q n a -> packet q n b ->
  (forall x y, x < q -> y < q -> f x y = g x y)%N ->
  filled n (fun t => g (nth t a 0%N) (nth t b 0%N)) (map2 f a b).
Proof.
  intros Ha Hb H. rewrite (pok_map2 e q f n) by (now apply packet_pok).
  split; [apply tab_length|]. intros t Ht. rewrite nth_tab by exact Ht. apply H; [now apply Ha|now apply Hb].
Qed.
Lemma filled_map q (e : nat) n f g a : packet q n a -> (forall x, x < q -> f x = g x)%N -> filled n (fun t => g (nth t a 0%N)) (map f a).
Proof.
  intros Ha H. rewrite (pok_map e q f n) by (now apply packet_pok).
  split; [apply tab_length|]. intros t Ht. rewrite nth_tab by exact Ht. apply H; now apply Ha.
Qed.

(** The butterflies, the multiplication by a coefficient, the negation and the product of two packets, as called by the
    transforms and by the polynomial code, for the field of [q] elements in words of [e] bytes. *)
Theorem C30_packets e q nh pkt r a b : lane_field e q -> reg_halves nh -> (r < q)%N -> packet q pkt a -> packet q pkt b ->
  let S := sym_simd e nh (prime_ops (8 * N.of_nat e) q) pkt in
  filled pkt (fun t => (nth t a 0 + r * nth t b 0) mod q)%N (fst (s_ct S r a b)) /\
  filled pkt (fun t => (nth t a 0 + (q - r * nth t b 0 mod q)) mod q)%N (snd (s_ct S r a b)) /\
  filled pkt (fun t => (nth t a 0 + nth t b 0) mod q)%N (fst (s_gs S r a b)) /\
  filled pkt (fun t => (r * (nth t a 0 + (q - nth t b 0))) mod q)%N (snd (s_gs S r a b)) /\
  (forall old, filled pkt (fun t => (r * nth t a 0) mod q)%N (s_gss S r a old)) /\
  (forall old, (r < q - 1)%N -> filled pkt (fun t => (r * nth t a 0) mod q)%N (s_scale S r a old)) /\
  filled pkt (fun t => (q - nth t a 0) mod q)%N (s_neg S a) /\
  filled pkt (fun t => (nth t a 0 * nth t b 0) mod q)%N (simd_hadamard e nh q a b).
Proof.
  intros Hf Hn Hr Ha Hb S. destruct (field_cases e q Hf) as [He Eq].
  pose proof (radd e nh He Hn q Eq) as Ra. pose proof (rsub e nh He Hn q Eq) as Rs. pose proof (rmul e nh He Hn q Eq) as Rm.
  change (wbits e) with (8 * N.of_nat e)%N in Ra, Rs, Rm.
  assert (Hq : (0 < q)%N) by (rewrite Eq; pose proof (q_big e nh He Hn); lia).
  assert (Hm : forall x, (x mod q < q)%N) by (intros x; apply N.mod_upper_bound; lia).
  pose proof (simd_agree e nh He Hn q Eq pkt) as A. change (wbits e) with (8 * N.of_nat e)%N in A. fold S in A.
  pose proof (proj1 (packet_pok (8 * N.of_nat e) q pkt a) Ha) as Pa.
  pose proof (proj1 (packet_pok (8 * N.of_nat e) q pkt b) Hb) as Pb.
  rewrite (sa_ct _ _ _ _ A r a b Hr Pa Pb), (sa_gs _ _ _ _ A r a b Hr Pa Pb), (sa_neg _ _ _ _ A a Pa).
  rewrite (simd_had_ok e nh He Hn q Eq pkt a b Pa Pb). cbn [sym_pkt s_ct s_gs s_neg fst snd prime_ops g_add g_sub g_mul].
  change (wbits e) with (8 * N.of_nat e)%N.
  split; [|split; [|split; [|split; [|split; [|split; [|split]]]]]].
  - apply (filled_map2 q e pkt _ (fun x y => (x + r * y) mod q)%N); auto. intros x y Hx Hy. rewrite Rm, Ra by auto.
    apply N.add_mod_idemp_r. lia.
  - apply (filled_map2 q e pkt _ (fun x y => (x + (q - r * y mod q)) mod q)%N); auto. intros x y Hx Hy. rewrite Rm, Rs by auto.
    apply f_equal2; [|reflexivity]. specialize (Hm (r * y)%N). lia.
  - apply (filled_map2 q e pkt _ (fun x y => (x + y) mod q)%N); auto.
  - apply (filled_map2 q e pkt _ (fun x y => (r * (x + (q - y))) mod q)%N); auto. intros x y Hx Hy. rewrite Rs, Rm by auto.
    rewrite N.mul_mod_idemp_r by lia. apply f_equal2; [|reflexivity]. apply f_equal2; lia.
  - intros old. rewrite (sa_gss _ _ _ _ A r a old Hr Pa). cbn [sym_pkt s_gss prime_ops g_mul].
    apply (filled_map q e pkt _ (fun x => (r * x) mod q)%N); auto.
  - intros old Hr1. rewrite (sa_scale _ _ _ _ A r a old Hr1 Pa). cbn [sym_pkt s_scale prime_ops g_mul].
    apply (filled_map q e pkt _ (fun x => (r * x) mod q)%N); auto.
  - apply (filled_map q e pkt _ (fun x => (q - x) mod q)%N); auto. intros x Hx. rewrite Rs by auto. now rewrite N.add_0_l.
  - apply (filled_map2 q e pkt _ (fun x y => (x * y) mod q)%N); auto.
Qed.

(** Sums and differences of packets; the destination of the difference may be any packet, also one of the operands. *)
Theorem C30_sums e q nh pkt a b old : lane_field e q -> reg_halves nh -> packet q pkt a -> packet q pkt b -> length old = pkt ->
  filled pkt (fun t => (nth t a 0 + nth t b 0) mod q)%N (add_two_bufs e nh q a b pkt) /\
  filled pkt (fun t => (nth t a 0 + q - nth t b 0) mod q)%N (sub_two_bufs e nh q a b old pkt).
Proof.
  intros Hf Hn Ha Hb Lo. destruct (field_cases e q Hf) as [He Eq].
  rewrite (add_two_ok e nh He Hn q Eq pkt), (sub_two_ok e nh He Hn q Eq pkt) by (auto; now apply packet_pok).
  split; [apply (filled_map2 q e pkt _ (fun x y => (x + y) mod q)%N)|apply (filled_map2 q e pkt _ (fun x y => (x + q - y) mod q)%N)]; auto.
Qed.

(** ** The transforms of the SIMD builds: position [j] of the result is the scalar transform (C16, C17) of positions [j]
    of the operands. *)
Theorem C30_fft e q nh L data_len f k pkt j out out' input : lane_field e q -> reg_halves nh ->
  radix2_object (4 * N.of_nat e) q L data_len f ->
  k <= L -> Nat.max (if 0 <? data_len then data_len else 2 ^ L) (length input) = 2 ^ k ->
  packets q pkt input -> j < pkt -> length out = 2 ^ L -> length out' = 2 ^ L ->
  let G := prime_ops (8 * N.of_nat e) q in
  at_pos j (simd_fft e nh G pkt f out input) = r2_fft_vec (sym_vec G) f out' (at_pos j input).
Proof.
  intros Hf Hn ([Hh Hw] & Hp & HL & r & Hr & Ho). destruct (field_cases e q Hf) as [He Eq].
  assert (Ew : (2 * (4 * N.of_nat e) = 8 * N.of_nat e)%N) by lia. intros Hk Hm Hi Hj.
  pose proof (simd_agree e nh He Hn q Eq pkt) as A. change (wbits e) with (8 * N.of_nat e)%N in A.
  assert (K : kern_ok (simd_kernels e nh (prime_ops (8 * N.of_nat e) q) pkt)) by (apply simd_kern; auto; lia).
  rewrite <- Ew in *.
  exact (fft_pkt (4 * N.of_nat e) q L data_len f r Hh Hw Hp HL Hr Ho pkt _ K A k j out out' input Hk Hm Hi Hj).
Qed.

Theorem C30_fft_inv e q nh L data_len f pkt j out out' input : lane_field e q -> reg_halves nh ->
  radix2_object (4 * N.of_nat e) q L data_len f ->
  0 < length input <= 2 ^ L -> packets q pkt input -> j < pkt -> length out = 2 ^ L -> length out' = 2 ^ L ->
  let G := prime_ops (8 * N.of_nat e) q in
  at_pos j (simd_fft_inv e nh G pkt f out input) = r2_fft_inv_vec (sym_vec G) f out' (at_pos j input).
Proof.
  intros Hf Hn ([Hh Hw] & Hp & HL & r & Hr & Ho). destruct (field_cases e q Hf) as [He Eq].
  assert (Ew : (2 * (4 * N.of_nat e) = 8 * N.of_nat e)%N) by lia. intros Hl Hi Hj.
  pose proof (simd_agree e nh He Hn q Eq pkt) as A. change (wbits e) with (8 * N.of_nat e)%N in A.
  assert (K : kern_ok (simd_kernels e nh (prime_ops (8 * N.of_nat e) q) pkt)) by (apply simd_kern; auto; lia).
  rewrite <- Ew in *.
  exact (fft_inv_pkt (4 * N.of_nat e) q L data_len f r Hh Hw Hp HL Hr Ho pkt _ K A j out out' input Hl Hi Hj).
Qed.

Lemma flat_filter {A} (l : list nat) (P : nat -> bool) (f : nat -> A) :
  map f (filter P l) = flat_map (fun t => if P t then [f t] else []) l.
Proof. induction l as [|a l IH]; [reflexivity|]. cbn [filter flat_map]. destruct (P a); cbn [map app]; now rewrite IH. Qed.
Lemma flat_map_ext' {A} (l : list nat) (f g : nat -> list A) : (forall t, In t l -> f t = g t) -> flat_map f l = flat_map g l.
Proof. induction l as [|a l IH]; intros H; [reflexivity|]. cbn [flat_map]. rewrite H, IH; [reflexivity|intros; apply H; now right|now left]. Qed.

(** * C31 The records made by the vectorised scan. *)
Theorem C31_records e q nh pkt nout offset output ps i : lane_field e q -> reg_halves nh ->
  (forall i, i < nout -> packet q pkt (nth i output [])) -> i < nout ->
  nth i (simd_post e nh pkt nout (q - 1) offset output ps) [] = nth i ps [] ++ places (q - 1) offset (nth i output []).
Proof.
  intros Hf Hn H Hi. destruct (field_cases e q Hf) as [He Eq].
  rewrite (simd_post_eq e nh He Hn (8 * N.of_nat e) q pkt) by (auto; intros t Ht; apply packet_pok; auto).
  unfold plain_post. rewrite nth_map_seq by exact Hi. unfold get. apply f_equal.
  destruct (H i Hi) as [_ B]. rewrite scan_eq. unfold places. rewrite flat_filter. apply flat_map_ext'. intros t Ht.
  apply in_seq in Ht. destruct (H i Hi) as [L _]. assert (X : (nth t (nth i output []) 0 < q)%N) by (apply B; lia).
  assert (Q : exists k, (q - 1 = 2 ^ k)%N) by (destruct Hf as [[_ ->]|[_ ->]]; [exists 8%N|exists 16%N]; reflexivity).
  destruct Q as [k Q]. rewrite Q, land_thres by lia. reflexivity.
Qed.

Theorem C31_same_as_scalar e q nh pkt nout offset output ps : lane_field e q -> reg_halves nh ->
  (forall i, i < nout -> packet q pkt (nth i output [])) ->
  simd_post e nh pkt nout (q - 1) offset output ps = plain_post nout (q - 1) offset output ps.
Proof.
  intros Hf Hn H. destruct (field_cases e q Hf) as [He Eq].
  apply (simd_post_eq e nh He Hn (8 * N.of_nat e) q pkt); auto. intros t Ht; apply packet_pok; auto.
Qed.

(** * C15 Words of one byte through the C interface: 32-bit symbols, the field of 257 elements, kernels for 65537.  One
    fragment out of two, one byte of data.  All the hypotheses of C12_roundtrip_partial but the build are met; both calls return 0,
    and the byte is not the one that was encoded. *)
Definition c15_fnt (nh : nat) : fnt := match fnt32_new nh 1 1 1 false with Some c => c | None => case_fnt false end.
Definition c15_mem : list (list N) := map (fun p => repeat 5%N 64 ++ p) [[200%N]; [8%N]].
Definition c15_wc : list (list N) := sevens 1 1024.
Definition c15_buf : list (list N) := sevens 2 1024.
Definition c15_es : escratch (list N) := mkEscratch c15_buf c15_buf [].
Definition c15_ds : dscratch (list N) := mkDscratch c15_buf c15_buf c15_buf.
Definition c15_enc (nh : nat) :=
  fnt32_encode (c15_fnt nh) (mkCtx [] [] []) c15_es c15_wc c15_buf c15_mem [true; true] 1.
Definition c15_dec (nh : nat) (mem : list (list N)) :=
  fnt32_decode (c15_fnt nh) [7; 7]%N [7; 7]%N c15_wc c15_ds mem [true; false] 1.

Definition run_of (enc : option (outcome (Z * cmem * escratch (list N)))) (dec : cmem -> option (outcome (Z * cmem))) : option (list N) :=
  match enc with
  | Some (Ret (0%Z, mem, _)) =>
      match dec mem with
      | Some (Ret (0%Z, mem3)) =>
          if (length mem =? 2) && forallb (fun b => (length b =? header_size 1 + 1) && forallb (fun x => x <? 256)%N b) mem
          then Some (payload 1 mem3 0) else None
      | _ => None
      end
  | _ => None
  end.
Definition c15_run (nh : nat) : option (list N) := run_of (c15_enc nh) (c15_dec nh).

Lemma run_of_ok enc dec v : run_of enc dec = Some v -> exists mem' es' mem3, enc = Some (Ret (0%Z, mem', es')) /\
  enough false 1 1 1 [true; true] [true; false] mem' mem' /\ dec mem' = Some (Ret (0%Z, mem3)) /\ payload 1 mem3 0 = v.
Proof.
  unfold run_of. destruct enc as [[|[[z mem] es]]|]; try discriminate. destruct z; try discriminate.
  destruct (dec mem) as [[|[z3 mem3]]|] eqn:D; try discriminate. destruct z3; try discriminate.
  destruct ((length mem =? 2) && forallb _ mem) eqn:B; [|discriminate]. intros E. injection E as <-.
  apply andb_prop in B. destruct B as [B1 B2]. apply Nat.eqb_eq in B1.
  exists mem, es, mem3. split; [reflexivity|]. split; [|split; [exact D|reflexivity]].
  split; [now apply blocks_dec|]. split; [now intros i Hi|]. split; [|cbn; lia].
  intros q Hq _. cbn in Hq. destruct q as [|[|q]]; [reflexivity|reflexivity|lia].
Qed.

Lemma c15_buffers nh : nh <= 2 -> fnt32_new nh 1 1 1 false = Some (c15_fnt nh) /\
  encoder_buffers (c15_fnt nh) (mkCtx [] [] []) c15_es c15_wc c15_buf /\
  decoder_buffers (c15_fnt nh) [7; 7]%N [7; 7]%N c15_wc c15_ds.
Proof.
  intros H.
  assert (E : c_n (c15_fnt nh) = 2 /\ c_l2 (c15_fnt nh) = 2 /\ c_sys (c15_fnt nh) = false /\ c_k (c15_fnt nh) = 1 /\ c_m (c15_fnt nh) = 1 /\
              c_pkt (c15_fnt nh) = 1024 /\ c_ws (c15_fnt nh) = 1)
    by (destruct nh as [|[|[|nh]]]; [repeat split; vm_compute; reflexivity..|lia]).
  destruct E as (En & El & Es & Ek & Em & Ep & Ew). split; [|split].
  - unfold c15_fnt. destruct (fnt32_new nh 1 1 1 false) eqn:D; [reflexivity|].
    assert (X : match fnt32_new nh 1 1 1 false with Some _ => true | None => false end = true)
      by (destruct nh as [|[|[|nh]]]; [vm_compute; reflexivity..|lia]).
    rewrite D in X. discriminate.
  - split; [rewrite Es; discriminate|]. split.
    + rewrite Ek, Ep, Ew. intros i Hi. destruct i as [|i]; [reflexivity|lia].
    + unfold c_outlen. rewrite Es, En. reflexivity.
  - unfold decoder_buffers, ds_ok, c_max. rewrite En, El, Ek, Ep, Ew, ?Em. repeat split.
    intros i Hi. destruct i as [|i]; [reflexivity|lia].
Qed.

Theorem C15_refuted nh : reg_halves nh -> exists c xe es wc out mem wanted mem' es' missing junk1 junk2 wc' ds mem3,
  fnt32_new nh 1 1 1 false = Some c /\ encoder_buffers c xe es wc out /\ limit 1 1 /\ capi_memory (1 + 1) 1 mem /\
  fnt32_encode c xe es wc out mem wanted 1 = Some (Ret (0%Z, mem', es')) /\
  decoder_buffers c junk1 junk2 wc' ds /\ enough false 1 1 1 wanted missing mem' mem' /\
  fnt32_decode c junk1 junk2 wc' ds mem' missing 1 = Some (Ret (0%Z, mem3)) /\
  payload 1 mem3 0 <> payload 1 mem 0.
Proof.
  intros Hn. assert (R : c15_run nh = Some [144%N]) by (destruct Hn as [->| ->]; vm_compute; reflexivity).
  destruct (run_of_ok _ _ _ R) as (mem' & es' & mem3 & E & H & D & P).
  destruct (c15_buffers nh ltac:(destruct Hn; lia)) as (B1 & B2 & B3).
  exists (c15_fnt nh), (mkCtx [] [] []), c15_es, c15_wc, c15_buf, c15_mem, [true; true], mem', es', [true; false], [7; 7]%N, [7; 7]%N, c15_wc, c15_ds, mem3.
  split; [exact B1|]. split; [exact B2|]. split; [split; [reflexivity|vm_compute; discriminate]|].
  split; [apply blocks_dec; [reflexivity|vm_compute; reflexivity]|].
  split; [exact E|]. split; [exact B3|]. split; [exact H|]. split; [exact D|]. rewrite P. discriminate.
Qed.

(** The same calls without SIMD. *)
Example C15_case_scalar : c15_run 0 = Some [200%N].
Proof. vm_compute. reflexivity. Qed.

(** * Concrete cases *)
(** Registers with the elements 256, 1, 5, 200, 0, 255, 7, 256 and 256, 256, 252, 100, 0, 3, 250, 1. *)
Definition case_x : list N := [0; 1; 1; 0; 5; 0; 200; 0; 0; 0; 255; 0; 7; 0; 0; 1]%N.
Definition case_y : list N := [0; 1; 0; 1; 252; 0; 100; 0; 0; 0; 3; 0; 250; 0; 1; 0]%N.

Lemma case_field : lane_field 2 257 /\ reg_halves 1.
Proof. split; left; auto. Qed.

Lemma reduced_dec e nh q r : length r = 16 * nh -> forallb (fun b => b <? 256)%N r = true ->
  forallb (fun t => symbol e r t <? q)%N (seq 0 (16 * nh / e)) = true -> reduced e nh q r.
Proof.
  intros L B H. split; [exact L|]. split; [now apply bytes_dec|]. intros t Ht. rewrite forallb_forall in H.
  apply N.ltb_lt, H, in_seq. lia.
Qed.

Example C30_case_reduced : reduced 2 1 257 case_x /\ reduced 2 1 257 case_y.
Proof. split; apply reduced_dec; vm_compute; reflexivity. Qed.

Definition case_elements (r : list N) : list N := map (symbol 2 r) (seq 0 8).
Example C30_case : case_elements (mod_add 2 1 case_x case_y) = [255; 0; 0; 43; 0; 1; 0; 0]%N /\
  case_elements (mod_sub 2 1 case_x case_y) = [0; 2; 10; 100; 0; 252; 14; 255]%N /\
  case_elements (mod_neg 2 1 case_x) = [1; 256; 252; 57; 0; 2; 250; 1]%N /\
  case_elements (mod_mul_safe 2 1 case_x case_y) = [1; 256; 232; 211; 0; 251; 208; 256]%N /\
  case_elements (mod_mul 2 1 case_x case_y) = [0; 256; 232; 211; 0; 251; 208; 256]%N /\
  case_elements (snd (reg_ct 2 1 (get_case 256 257) (set_one 2 1 256) case_x case_y)) = [255; 0; 0; 43; 0; 1; 0; 0]%N.
Proof. vm_compute. auto 10. Qed.

(** Eleven elements: one register and three more. *)
Definition case_p : list N := [256; 1; 2; 3; 4; 5; 6; 256; 8; 256; 10]%N.
Definition case_q : list N := [256; 0; 255; 3; 4; 5; 6; 7; 8; 256; 10]%N.
Lemma packet_dec q n p : length p = n -> forallb (fun v => v <? q)%N p = true -> packet q n p.
Proof. intros L H. split; [exact L|]. intros t Ht. rewrite forallb_forall in H. apply N.ltb_lt, H, nth_In. lia. Qed.

Example C30_case_packets : packet 257 11 case_p /\ packet 257 11 case_q /\
  simd_hadamard 2 1 257 case_p case_q = [1; 0; 253; 9; 16; 25; 36; 250; 64; 1; 100]%N /\
  add_two_bufs 2 1 257 case_p case_q 11 = [255; 1; 0; 6; 8; 10; 12; 6; 16; 255; 20]%N /\
  sub_two_bufs 2 1 257 case_p case_q case_q 11 = [0; 1; 4; 0; 0; 0; 0; 249; 0; 0; 0]%N /\
  s_ct (sym_simd 2 1 (prime_ops 16 257) 11) 2%N case_p case_q =
    ([254; 1; 255; 9; 12; 15; 18; 13; 24; 254; 30], [1; 1; 6; 254; 253; 252; 251; 242; 249; 1; 247])%N.
Proof. split; [now apply packet_dec|]. split; [now apply packet_dec|]. vm_compute. auto 6. Qed.

Example C31_case : nth 0 (simd_post 2 1 11 1 256 1000 [case_p] [[(3, 1)%N]]) [] = [(3, 1); (1000, 1); (1007, 1); (1009, 1)]%N.
Proof. vm_compute. reflexivity. Qed.

(** A transform of eight packets of eleven elements. *)
Definition case_g : radix2 := match radix2_new (prime_ops 16 257) 257 3 8 4 with Some f => f | None => mkRadix2 0 0 0 0 [] [] [] 0 end.
Example C30_case_fft : radix2_object (4 * N.of_nat 2) 257 3 4 case_g /\ packets 257 11 [case_p; case_q; case_p] /\
  at_pos 9 (simd_fft 2 1 (prime_ops 16 257) 11 case_g (repeat [7; 8]%N 8) [case_p; case_q; case_p]) =
  map (dft_mod 257 64 8 [256; 256; 256]%N) (seq 0 8).
Proof.
  split; [|split; [repeat constructor|vm_compute; reflexivity]].
  split; [split; [reflexivity|discriminate]|]. split; [apply C16_object|]. split; [lia|]. exists 3%N. split; vm_compute; reflexivity.
Qed.

Print Assumptions C30_lanes.
Print Assumptions C30_fast_mul.
Print Assumptions C30_butterflies.
Print Assumptions C30_packets.
Print Assumptions C30_sums.
Print Assumptions C30_fft.
Print Assumptions C30_fft_inv.
Print Assumptions C31_records.
Print Assumptions C31_same_as_scalar.
Print Assumptions C15_refuted.
