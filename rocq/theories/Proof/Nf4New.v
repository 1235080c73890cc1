(** The constructor of the code over NF4. *)
From Coq Require Import List NArith ZArith Arith Bool Lia Sorted.
From Verif.Model Require Import Common Arith Ring Fft2n Radix2 Poly Props Fnt Nf4.
From Verif.Spec Require Import Primes Blocks Nf4 Code Widths.
From Verif.Proof Require Import ListP Tac ArithP PrimeP Ceil2P CodeLenP Smooth FntInst Nf4L Param ParamO Nf4Sim Nf4Code.
Import ListNotations.
Open Scope N_scope.

(** ** Search of a root *)
Lemma find_root_some G proper h nb0 : is_primitive_root G proper nb0 = true -> nb0 <= h ->
  forall fuel nb, nb <= nb0 -> (N.to_nat (nb0 - nb) < fuel)%nat -> exists r, find_root_loop fuel G proper h nb = Some r.
Proof.
  intros H Hh. induction fuel as [|f IH]; intros nb Hn Hf; [lia|]. cbn [find_root_loop].
  destruct (N.leb_spec nb h); [|lia]. destruct (is_primitive_root G proper nb) eqn:E; [eauto|].
  apply IH; [|destruct (N.eq_dec nb nb0); [congruence|lia]]. destruct (N.eq_dec nb nb0); [congruence|lia].
Qed.

Section Search.
Variables (B : build) (w : N) (e : nat).
Hypothesis HT : nf4_type B w e.
Hypothesis Hw : In w [32; 64; 128].

Lemma pow_RC x y p : RC e x y -> RC e (exp_quick_pos (nf4_mul B w e) x p) (exp_quick_pos (g_mul F4) y p).
Proof. intros H. induction p; cbn [exp_quick_pos]; auto; repeat apply (mul_RC B w e HT); auto. Qed.
Lemma pow_RT i x y p : (i < e)%nat -> RT e i x y -> RT e i (exp_quick_pos (nf4_mul B w e) x p) (exp_quick_pos (g_mul F4) y p).
Proof. intros Hi H. induction p; cbn [exp_quick_pos]; auto; repeat apply (mul_RT B w e HT); auto. Qed.
Lemma pow_0 p : exp_quick_pos (g_mul F4) 0 p = 0.
Proof. induction p; cbn [exp_quick_pos]; rewrite ?IHp; reflexivity. Qed.
Lemma RT_1 y : RT e 0 1 y -> y = 1.
Proof.
  intros (s & [Ls Hs] & E & <-). pose proof (e_pos B w e HT) as He.
  assert (E1 : 1 = word32 (1 :: repeat 0 (e - 1))) by (unfold word32; rewrite digits_cons, digits_zeros; lia).
  rewrite E1 in E. unfold word32 in E. apply digits_inj in E; [|reflexivity|cbn [length]; rewrite repeat_length; lia| |now apply el_small].
  - now rewrite <- E.
  - constructor; [reflexivity|]. apply Forall_forall. intros x Hx. apply repeat_spec in Hx. subst. reflexivity.
Qed.

(** The number of units of the search: 65536 in all the lanes. *)
Lemma h_word : nf4_h w e = 65536 * word32 (repeat 1 e).
Proof.
  unfold nf4_h. rewrite (replicate_word w e B) by (auto; reflexivity). clear. unfold word32.
  induction e as [|n IH]; [reflexivity|]. cbn [repeat]. rewrite !digits_cons, IH. lia.
Qed.
Lemma ones_odd : (word32 (repeat 1 e)) mod 2 = 1.
Proof.
  pose proof (e_pos B w e HT) as He. destruct e as [|n]; [lia|]. cbn [repeat]. unfold word32. rewrite digits_cons.
  replace (1 + 2 ^ 32 * digits (2 ^ 32) (repeat 1 n)) with (1 + (2 ^ 31 * digits (2 ^ 32) (repeat 1 n)) * 2) by lia.
  rewrite N.mod_add by discriminate. reflexivity.
Qed.
Lemma half : exists h, 0 < h /\ w = 2 * h.
Proof. destruct Hw as [<-|[<-|[<-|[]]]]; [exists 16|exists 32|exists 64]; split; reflexivity. Qed.
Lemma h_lt : nf4_h w e < 2 ^ w.
Proof.
  unfold nf4_h. rewrite (replicate_word w e B) by (auto; reflexivity). pose proof (type_bits w e B HT) as Hb.
  assert (L : word32 (repeat 65536 e) < (2 ^ 32) ^ N.of_nat (length (repeat 65536 e))).
  { apply digits_lt; [reflexivity|]. apply Forall_forall. intros x Hx. apply repeat_spec in Hx. subst. reflexivity. }
  rewrite repeat_length, <- N.pow_mul_r in L. eapply N.lt_le_trans; [exact L|]. apply N.pow_le_mono_r; [discriminate|lia].
Qed.
Lemma h_big : 65536 <= nf4_h w e.
Proof. rewrite h_word. pose proof ones_odd as Ho. destruct (word32 (repeat 1 e)) eqn:E; [discriminate|]. lia. Qed.

Lemma search_some : nf4_search B w e <> None.
Proof.
  unfold nf4_search, find_primitive_root. cbn [g_card]. rewrite N.add_sub. pose proof h_big as Hb.
  destruct (N.eqb_spec (nf4_h w e) 1); [discriminate|]. destruct half as (hw & hw0 & Ew).
  destruct (factor_prime_spec hw hw0 (nf4_h w e)) as (fs & E & S & F & P); [lia|rewrite <- Ew; apply h_lt|]. rewrite <- Ew in E. rewrite E.
  set (X := Gfops _ _ _ _ _ _ _). set (l := get_proper_divisors_of _ _).
  assert (Hl : forall d, In d l -> exists p, primeN p /\ p < nf4_h w e /\ nf4_h w e / p = d).
  { intros d Hd. unfold l, get_proper_divisors_of in Hd. apply in_flat_map in Hd. destruct Hd as (p & Hp & Hd).
    destruct (N.ltb_spec p (nf4_h w e)); [|destruct Hd]. destruct Hd as [<-|[]]. exists p. split; auto. apply in_map_iff in Hp.
    destruct Hp as ((p', k') & <- & Hp). rewrite Forall_forall in F. apply (F _ Hp). }
  destruct (Nat.eq_dec e 1) as [E1|E1].
  - (* one lane: 3 *)
    assert (Eh : nf4_h w e = 65536) by (rewrite h_word, E1; reflexivity).
    destruct (find_root_some X l (nf4_h w e) 3) with (fuel := N.to_nat (nf4_h w e)) (nb := 2) as [r ->]; try lia; [|discriminate].
    assert (Ef : fs = [(2, 16)]).
    { assert (E' : factor_prime w 65536 = Some [(2, 16)]) by (destruct Hw as [<-|[<-|[<-|[]]]]; vm_compute; reflexivity).
      rewrite Eh, E' in E. congruence. }
    unfold is_primitive_root. apply forallb_forall. intros d Hd. unfold l in Hd. rewrite Ef, Eh in Hd. assert (Ed : d = 32768) by (destruct Hd as [<-|[]]; reflexivity). rewrite Ed.
    apply negb_true_iff, N.eqb_neq. change (g_exp X 3 32768) with (exp_quick_pos (nf4_mul B w e) 3 32768).
    assert (R : RC e 3 3). { split; [reflexivity|]. rewrite E1. reflexivity. }
    destruct (pow_RC 3 3 32768 R) as [_ ->]. replace (exp_quick_pos (g_mul F4) 3 32768) with 65536 by (vm_compute; reflexivity).
    rewrite E1. vm_compute. discriminate.
  - (* more lanes: 0 in the first one *)
    pose proof (e_pos B w e HT) as He.
    assert (Hh : 2 ^ 32 <= nf4_h w e).
    { rewrite h_word. destruct e as [|[|e2]]; [lia|lia|]. cbn [repeat]. unfold word32. rewrite !digits_cons. lia. }
    destruct (find_root_some X l (nf4_h w e) (2 ^ 32)) with (fuel := N.to_nat (nf4_h w e)) (nb := 2) as [r ->]; auto; try lia; [|discriminate].
    unfold is_primitive_root. apply forallb_forall. intros d Hd. destruct (Hl d Hd) as (p & Hp & Hlt & <-).
    cbn [X g_exp]. apply negb_true_iff, N.eqb_neq. assert (D0 : nf4_h w e / p <> 0).
    { destruct Hp as [Hp _]. intros E0. apply N.div_small_iff in E0; lia. }
    destruct (nf4_h w e / p) as [|d']; [congruence|]. unfold exp_quick. intros E2.
    assert (R : RT e 0 (2 ^ 32) 0).
    { exists (0 :: 1 :: repeat 0 (e - 2)). split; [|split; [|reflexivity]].
      - split; [cbn [length]; rewrite repeat_length; lia|]. constructor; [reflexivity|]. constructor; [reflexivity|].
        apply Forall_forall. intros x Hx. apply repeat_spec in Hx. subst. reflexivity.
      - unfold word32. rewrite !digits_cons, digits_zeros. reflexivity. }
    apply (pow_RT 0 _ _ d' He) in R. rewrite E2, pow_0 in R. apply RT_1 in R. discriminate.
Qed.
End Search.

(** ** Lengths *)
Lemma repeat_of l : Forall (fun x => x = 2) l -> l = repeat 2 (length l).
Proof. induction 1; cbn [repeat length]; congruence. Qed.

(** Lengths up to the power of two that divides the order are powers of two. *)
Lemma code_len_2part h order t M n : 0 < h -> order < 2 ^ (2 * h) -> order = 2 ^ t * M -> M mod 2 = 1 -> 2 <= n -> n <= 2 ^ t ->
  exists e, ring_code_len_high_compo (2 * h) (order + 1) n = Some (2 ^ e) /\ n <= 2 ^ e /\ 2 ^ e < 2 * n.
Proof.
  intros h0 ow oE Mo Hn Hle. assert (t0 : 2 ^ t <> 0) by (apply N.pow_nonzero; lia).
  assert (M0 : M <> 0) by (intros ->; discriminate). assert (o0 : n <= order) by nia.
  unfold ring_code_len_high_compo. rewrite N.add_sub. destruct (N.ltb_spec order n); [lia|].
  destruct (get_prime_factors_spec h h0 order) as (l & -> & P1 & P2 & P3); [lia|auto|].
  destruct (sorted_split 2 l P3) as (l1 & l2 & -> & S1 & S2). apply Forall_app in P1. destruct P1 as [Q1 Q2].
  assert (E1 : l1 = repeat 2 (length l1)).
  { apply repeat_of. apply Forall_forall. intros x Hx. rewrite Forall_forall in S1, Q1. specialize (S1 x Hx). destruct (Q1 x Hx). lia. }
  assert (E2 : list_prod l1 = 2 ^ N.of_nat (length l1)) by (rewrite E1 at 1; apply list_prod_repeat).
  rewrite list_prod_app in P2.
  assert (D : (2 ^ t | list_prod l1)).
  { apply (N.gauss (2 ^ t) (list_prod l2)).
    - rewrite N.mul_comm, P2, oE. apply N.divide_factor_l.
    - apply coprime_of_primes; auto. intros p Hp D1 D2. apply (prime_divides_list p l2 Hp Q2) in D2.
      rewrite Forall_forall in S2. specialize (S2 p D2). apply prime_divides_pow in D1; auto. apply N.divide_pos_le in D1; lia. }
  assert (L : n <= list_prod l1).
  { assert (0 < list_prod l1) by (rewrite E2; pose proof (N.pow_nonzero 2 (N.of_nat (length l1))); lia).
    pose proof (N.divide_pos_le _ _ ltac:(eauto) D). lia. }
  unfold get_code_len_high_compo. rewrite (high_compo_loop_app n Hn l1 l2 [] 1); cbn [app]; auto; [| |lia].
  - rewrite E1. rewrite E2 in L. destruct (code_len_pow2 (length l1) n Hn L) as (e & _ & E & R1 & R2).
    exists (N.of_nat e). unfold get_code_len_high_compo in E. rewrite E. auto.
  - apply Forall_forall. intros x Hx. rewrite Forall_forall in Q1. destruct (Q1 x Hx). lia.
Qed.
Lemma pow2_unique n a b : n <= 2 ^ a -> 2 ^ a < 2 * n -> n <= 2 ^ b -> 2 ^ b < 2 * n -> a = b.
Proof.
  intros H1 H2 H3 H4. assert (A : 2 ^ a < 2 ^ (b + 1)) by (rewrite N.pow_add_r, N.pow_1_r; lia).
  assert (A' : 2 ^ b < 2 ^ (a + 1)) by (rewrite N.pow_add_r, N.pow_1_r; lia).
  apply N.pow_lt_mono_r_iff in A, A'; lia.
Qed.

(** ** Constructor *)
Lemma fnt_new_inv k m c : fnt_new 0 32 false 2 k m 1 = Some c -> exists root n dl l2 f f2,
  find_primitive_root 32 F4 = Some root /\
  ring_code_len_high_compo 32 65537 (N.of_nat (k + m)) = Some n /\ ceil2 (N.of_nat k) = Some dl /\
  ring_code_len_high_compo 32 65537 (2 * N.of_nat k) = Some l2 /\
  radix2_new F4 65537 root (N.to_nat n) (N.to_nat dl) = Some f /\ radix2_new F4 65537 root (N.to_nat l2) (N.to_nat l2) = Some f2 /\
  c = fnt_make 0 32 false 2 k m 1 F4 (N.to_nat n) (get_nth_root F4 root n) f f2
        (map (fun i => g_exp F4 (get_nth_root F4 root n) (N.of_nat i)) (seq 0 (N.to_nat n))).
Proof.
  unfold fnt_new. change (Nat.leb 4 2) with false. cbv iota.
  replace (wrap 32 (2 ^ (8 * N.of_nat 2) + 1)) with 65537 by (vm_compute; reflexivity). cbv zeta. fold F4.
  destruct (find_primitive_root 32 F4) as [root|]; [|discriminate].
  destruct (jacobi 100 (Z.of_N root) (Z.of_N 65537)) as [z|]; [|discriminate]. 
  assert (J : forall (X : option fnt), match z with (-1)%Z => X | _ => None end = Some c -> X = Some c).
  { intros X. destruct z as [|p|p]; try discriminate. destruct p; try discriminate. auto. }
  intros E. apply J in E. revert E.
  destruct (ring_code_len_high_compo 32 65537 (N.of_nat (k + m))) as [n|]; [|discriminate].
  destruct (ceil2 (N.of_nat k)) as [dl|]; [|discriminate].
  destruct (65537 <=? 2 * N.of_nat k); [discriminate|].
  destruct (radix2_new F4 65537 root (N.to_nat n) (N.to_nat dl)) as [f|] eqn:Ef; [|discriminate].
  destruct (ring_code_len_high_compo 32 65537 (2 * N.of_nat k)) as [l2|]; [|discriminate].
  destruct (radix2_new F4 65537 root (N.to_nat l2) (N.to_nat l2)) as [f2|] eqn:Ef2; [|discriminate].
  intros E. injection E as <-. exists root, n, dl, l2, f, f2. auto 10.
Qed.

Theorem nf4_new_scalar B w ws k m : (2 <= ws <= 8)%nat -> nf4_type B w (Nat.div ws 2) -> In w [32; 64; 128] -> fnt_sizes 2 k m ->
  exists c c' cw L L2 d, fnt_new 0 32 false 2 k m 1 = Some c' /\ nf4_new B w ws k m = Some c /\ nf4_sim c c' cw L L2 d /\
    nf_B c = B /\ nf_w c = w /\ nf_e c = Nat.div ws 2 /\ nf_k c = k /\ nf_len c = (k + m)%nat /\ (k + m <= nf_n c)%nat.
Proof.
  intros Hws HT Hw Hs. destruct (fnt_new_spec 32 false 2 k m) as (cw & r & n0 & _ & Hc); auto.
  { right. split; [reflexivity|]. left. reflexivity. }
  destruct (Hc 0%nat 1%nat) as (c' & Ec & _ & Cs & _); [left; reflexivity|lia|]. clear Hc.
  destruct Hs as (k0 & m0 & km & k2). change (256 ^ N.of_nat 2) with 65536 in *.
  destruct (fnt_new_inv k m c' Ec) as (root & n & dl & l2 & f & f2 & Er & En & Ed & El & Ef & Ef2 & Ec').
  assert (Hr : root < 65537).
  { assert (Er' : find_primitive_root 32 F4 = Some 3) by (vm_compute; reflexivity). rewrite Er' in Er. injection Er as <-. reflexivity. }
  destruct (ring_code_len_pow2 16 65537 16 (N.of_nat (k + m))) as (a1 & A1 & A2 & A3 & A4); try reflexivity; try lia.
  change (2 * 16) with 32 in A2. rewrite A2 in En. injection En as <-.
  destruct (ring_code_len_pow2 16 65537 16 (2 * N.of_nat k)) as (b1 & B1 & B2 & B3 & B4); try reflexivity; try lia.
  change (2 * 16) with 32 in B2. rewrite B2 in El. injection El as <-.
  destruct (ceil2_spec (N.of_nat k)) as (d1 & D1 & D2 & D3); [lia|]. rewrite D1 in Ed. injection Ed as <-.
  destruct (half B w (Nat.div ws 2) HT Hw) as (hw & hw0 & Ew).
  destruct (code_len_2part hw (nf4_h w (Nat.div ws 2)) 16 (word32 (repeat 1 (Nat.div ws 2))) (N.of_nat (2 * k))) as (b2 & C2 & C3 & C4); auto.
  { rewrite <- Ew. apply (h_lt B); auto. }
  { apply (h_word B); auto. } 
  { apply (ones_odd B w); auto. }
  { lia. }
  { change (2 ^ 16) with 65536. lia. }
  assert (b2 = b1). { apply (pow2_unique (2 * N.of_nat k)); auto; replace (2 * N.of_nat k) with (N.of_nat (2 * k)) by lia; auto. }
  subst b2. rewrite <- Ew in C2.
  destruct (rel_radix2 B w (Nat.div ws 2) HT root _ _ _ Hr Ef) as (g & Eg & Rg).
  destruct (rel_radix2 B w (Nat.div ws 2) HT root _ _ _ Hr Ef2) as (g2 & Eg2 & Rg2).
  assert (pw : forall x, x <= 16 -> 2 ^ x <= 65536).
  { intros x Hx. change 65536 with (2 ^ 16). apply N.pow_le_mono_r; [discriminate|auto]. }
  pose proof (pw a1 A1) as Pa. pose proof (pw b1 B1) as Pb.
  exists (mkNf4code B w (Nat.div ws 2) k (k + m) (N.to_nat (2 ^ a1)) (nf4_nth_root w (Nat.div ws 2) root (N.of_nat (N.to_nat (2 ^ a1)))) g g2).
  exists c', cw, (N.to_nat a1), (N.to_nat b1), (N.to_nat d1).
  assert (N1 : N.to_nat (2 ^ a1) = Nat.pow 2 (N.to_nat a1)) by (rewrite N2Nat.inj_pow; reflexivity).
  assert (N2 : N.to_nat (2 ^ b1) = Nat.pow 2 (N.to_nat b1)) by (rewrite N2Nat.inj_pow; reflexivity).
  assert (N3 : N.to_nat (2 ^ d1) = Nat.pow 2 (N.to_nat d1)) by (rewrite N2Nat.inj_pow; reflexivity).
  assert (R : forall len dl f, radix2_new F4 65537 root len dl = Some f -> (0 < dl)%nat -> r_n f = len /\ r_rev f = init_bitrev len /\ r_data_len f = dl).
  { intros len dl f0. unfold radix2_new. destruct (Nat.ltb len dl); [discriminate|]. destruct (negb _); [discriminate|]. cbv zeta.
    intros E Hd. injection E as <-. cbn [r_n r_rev r_data_len]. destruct (Nat.ltb_spec 0 dl); [auto|lia]. }
  destruct (R _ _ _ Ef) as (F1 & F2 & F3); [lia|]. destruct (R _ _ _ Ef2) as (F4' & F5 & F6); [lia|]. clear R.
  split; [exact Ec|]. split; [|split; [|repeat split; try reflexivity; cbn [nf_n]; lia]].
  - unfold nf4_new. destruct (Nat.ltb_spec ws 2); [lia|]. destruct (Nat.ltb_spec 8 ws); [lia|]. cbn [orb]. cbv zeta. rewrite Er.
    assert (Hf : nf4_field B w (Nat.div ws 2) = true).
    { unfold nf4_field. apply andb_true_iff. split.
      - apply N.leb_le. pose proof (type_bits w (Nat.div ws 2) B HT). apply N.div_le_lower_bound; lia.
      - pose proof (search_some B w (Nat.div ws 2) HT Hw). destruct (nf4_search B w (Nat.div ws 2)); [reflexivity|congruence]. }
    rewrite Hf, A2, D1, C2. unfold wrap. rewrite (N.mod_small (2 ^ b1)) by lia. rewrite Eg, Eg2. reflexivity.
  - assert (P : c_G c' = F4 /\ c_n c' = N.to_nat (2 ^ a1) /\ c_r c' = get_nth_root F4 root (2 ^ a1) /\ c_k c' = k /\
      c_fft c' = f /\ c_fft2k c' = f2 /\ c_had c' = map2 (g_mul F4) /\ c_sys c' = false /\
      c_rpow c' = map (fun i => g_exp F4 (get_nth_root F4 root (2 ^ a1)) (N.of_nat i)) (seq 0 (N.to_nat (2 ^ a1))) /\
      c_K c' = plain (sym_pkt F4 1) /\ c_pkt c' = 1%nat) by (subst c'; repeat split).
    destruct P as (P1 & P2 & P3 & P4 & P5 & P6 & P7 & P8 & P9 & P10 & P11).
    assert (Ll2 : c_l2 c' = N.to_nat (2 ^ b1)) by (unfold c_l2; now rewrite P6).
    assert (Hd : d1 <= a1).
    { assert (X : 2 ^ d1 < 2 ^ (a1 + 1)) by (rewrite N.pow_add_r, N.pow_1_r; lia). apply N.pow_lt_mono_r_iff in X; lia. }
    clear Ec Ec' Ef Ef2 Eg Eg2 Er.
    split; cbn [nf_B nf_w nf_e nf_k nf_len nf_n nf_r nf_fft nf_fft2k]; rewrite ?P5, ?P6, ?Ll2, ?P2, ?P3, ?P4; auto.
    + rewrite N2Nat.id. apply (root_RC B); auto. lia.
    + rewrite N1. split; [reflexivity|lia].
    + rewrite <- N3. auto.
    + rewrite <- N3. split; lia.
    + rewrite N2. split; [reflexivity|lia].
    + lia.
Qed.
Theorem nf4_new_sim B w ws k m : (2 <= ws <= 8)%nat -> nf4_type B w (Nat.div ws 2) -> In w [32; 64; 128] -> fnt_sizes 2 k m ->
  exists c c' cw L L2 d, nf4_new B w ws k m = Some c /\ nf4_sim c c' cw L L2 d /\
    nf_B c = B /\ nf_w c = w /\ nf_e c = Nat.div ws 2 /\ nf_k c = k /\ nf_len c = (k + m)%nat /\ (k + m <= nf_n c)%nat.
Proof. intros H1 H2 H3 H4. destruct (nf4_new_scalar B w ws k m H1 H2 H3 H4) as (c & c' & cw & L & L2 & d & _ & H). now exists c, c', cw, L, L2, d. Qed.
