(** Words of NF4 as lists of elements. *)
From Coq Require Import List NArith ZArith Arith Bool Lia.
From Verif.Model Require Import Common Arith Ring Fft2n Radix2 Bytes Simd Nf4.
From Verif.Spec Require Import Blocks Nf4.
From Verif.Proof Require FieldP FntInst.
From Verif.Proof Require Import ListP Tac BytesP BitRev SimdL.
Import ListNotations.
Open Scope N_scope.

Notation L32 := (fun x => x < 2 ^ 32).
Lemma el_small l : Forall (fun x => x < 65537) l -> Forall L32 l.
Proof. apply Forall_impl. intros a Ha. lia. Qed.

Lemma digits_cons b x l : digits b (x :: l) = x + b * digits b l. Proof. reflexivity. Qed.
Lemma digits_app b l m : digits b (l ++ m) = digits b l + b ^ N.of_nat (length l) * digits b m.
Proof.
  induction l as [|x l IH]; cbn [app length].
  - change (N.of_nat 0) with 0. rewrite N.pow_0_r. cbn [digits fold_right]. lia.
  - rewrite !digits_cons, IH, Nat2N.inj_succ, N.pow_succ_r'. lia.
Qed.
Lemma digits_zeros b n : digits b (repeat 0 n) = 0.
Proof. induction n; [reflexivity|]. cbn [repeat]. rewrite digits_cons, IHn. lia. Qed.
Lemma digits_lt b l : 0 < b -> Forall (fun x => x < b) l -> digits b l < b ^ N.of_nat (length l).
Proof.
  intros Hb. induction 1 as [|x l Hx Hl IH]; [cbn; lia|]. cbn [length]. rewrite digits_cons, Nat2N.inj_succ, N.pow_succ_r'. nia.
Qed.
Lemma digits_inj b l m : 0 < b -> length l = length m -> Forall (fun x => x < b) l -> Forall (fun x => x < b) m ->
  digits b l = digits b m -> l = m.
Proof.
  intros Hb. revert m. induction l as [|x l IH]; intros [|y m] E Hl Hm H; try discriminate; [reflexivity|].
  inversion Hl; inversion Hm; subst. rewrite !digits_cons in H.
  assert (x = y /\ digits b l = digits b m) as [-> Ed].
  { destruct (N.div_mod_unique b (digits b l) (digits b m) x y); auto; lia. }
  f_equal. apply IH; auto.
Qed.

(** ** Reading *)
Lemma lor_add c s x : x < 2 ^ s -> N.lor (N.shiftl c s) x = x + 2 ^ s * c.
Proof. intros H. rewrite N.lor_comm, lor_shift_add by auto. lia. Qed.

Lemma split32_digits l : Forall L32 l -> split32 (length l) (digits (2 ^ 32) l) = l.
Proof.
  induction 1 as [|x l Hx Hl IH]; [reflexivity|]. cbn [length split32]. rewrite digits_cons.
  unfold wrap. rewrite (N.mul_comm (2 ^ 32)), N.mod_add, N.mod_small by (try discriminate; auto). f_equal.
  rewrite N.shiftr_shiftr, N.shiftr_div_pow2. change (16 + 16) with 32. rewrite N.div_add, N.div_small by (try discriminate; auto).
  exact IH.
Qed.
Lemma split16_digits l : Forall (fun x => x < 2 ^ 16) l -> split16 (length l) (digits (2 ^ 16) l) = l.
Proof.
  induction 1 as [|x l Hx Hl IH]; [reflexivity|]. cbn [length split16]. rewrite digits_cons.
  change 65535 with (N.ones 16). rewrite N.land_ones, (N.mul_comm (2 ^ 16)), N.mod_add, N.mod_small by (try discriminate; auto).
  f_equal. rewrite N.shiftr_div_pow2, N.div_add, N.div_small by (try discriminate; auto). exact IH.
Qed.

(** ** Writing *)
Lemma plain_digits s w l : Forall (fun x => x < 2 ^ s) l -> s * N.of_nat (length l) <= w ->
  fold_right (fun x c => N.lor (wrap w (N.shiftl c s)) x) 0 l = digits (2 ^ s) l.
Proof.
  induction 1 as [|x l Hx Hl IH]; intros Hw; [reflexivity|]. cbn [length] in Hw. cbn [fold_right].
  rewrite IH, digits_cons by lia.
  unfold wrap. rewrite N.mod_small, lor_add; auto. rewrite N.shiftl_mul_pow2.
  pose proof (digits_lt (2 ^ s) l ltac:(apply N.neq_0_lt_0, N.pow_nonzero; discriminate) Hl) as D.
  rewrite <- N.pow_mul_r in D. apply N.lt_le_trans with (2 ^ (s * N.of_nat (length l)) * 2 ^ s).
  - apply N.mul_lt_mono_pos_r; auto. apply N.neq_0_lt_0, N.pow_nonzero; discriminate.
  - rewrite <- N.pow_add_r. apply N.pow_le_mono_r; lia.
Qed.
Lemma wrap_wrap_shift w c : 32 <= w -> wrap w (N.shiftl (wrap w (N.shiftl c 16)) 16) = wrap w (N.shiftl c 32).
Proof.
  intros Hw. unfold wrap. rewrite !N.shiftl_mul_pow2. rewrite N.mul_mod_idemp_l by (apply N.pow_nonzero; discriminate).
  f_equal. change (2 ^ 32) with (2 ^ 16 * 2 ^ 16). lia.
Qed.

Lemma wob_app a b : word_of_bytes (a ++ b) = word_of_bytes a + 256 ^ N.of_nat (length a) * word_of_bytes b.
Proof.
  induction a as [|x a IH]; cbn [app length word_of_bytes].
  { change (N.of_nat 0) with 0. rewrite N.pow_0_r. lia. }
  rewrite IH, Nat2N.inj_succ, N.pow_succ_r'. lia.
Qed.
Lemma wob_zeros n : word_of_bytes (repeat 0 n) = 0.
Proof. induction n; [reflexivity|]. cbn [repeat word_of_bytes]. rewrite IHn. reflexivity. Qed.
Lemma wob_unpack e l : Forall (fun x => x < 256 ^ N.of_nat e) l ->
  word_of_bytes (unpack_buf e l) = digits (256 ^ N.of_nat e) l.
Proof.
  induction 1 as [|x l Hx Hl IH]; [reflexivity|]. unfold unpack_buf in *. cbn [flat_map]. rewrite wob_app, IH, BytesP.word_bytes.
  rewrite N.mod_small, bytes_of_word_length, digits_cons by auto. reflexivity.
Qed.
Lemma unpack_length e l : length (unpack_buf e l) = (e * length l)%nat.
Proof. unfold unpack_buf. rewrite (flat_length _ e) by apply bytes_of_word_length. apply Nat.mul_comm. Qed.
Lemma set_epi_digits e l : Forall (fun x => x < 256 ^ N.of_nat e) l -> (e * length l <= 16)%nat ->
  set_epi e l = digits (256 ^ N.of_nat e) l.
Proof.
  intros H Hl. unfold set_epi, Nf4.bytes_word. rewrite firstn_all2 by (rewrite app_length, repeat_length, unpack_length; lia).
  rewrite wob_app, wob_zeros, wob_unpack by auto. lia.
Qed.

Lemma Forall_zip (P Q R : N -> Prop) f l m : Forall P l -> Forall Q m -> (forall a b, P a -> Q b -> R (f a b)) -> Forall R (zip f l m).
Proof.
  intros HP. revert m. induction HP as [|x l Hx Hl IH]; intros m Hm Hf; [constructor|]. destruct Hm; [constructor|].
  cbn. constructor; auto. apply IH; auto.
Qed.
Lemma zip_length f l m : length l = length m -> length (zip f l m) = length l.
Proof. intros H. unfold zip. rewrite map_length, combine_length. lia. Qed.
Lemma map2_zip (f : N -> N -> N) l m : map2 f l m = zip f l m.
Proof. revert m. induction l; intros [|y m]; cbn; auto. f_equal. apply IHl. Qed.
Lemma zip_ext (P Q : N -> Prop) f g l m : Forall P l -> Forall Q m -> (forall a b, P a -> Q b -> f a b = g a b) -> zip f l m = zip g l m.
Proof.
  intros HP. revert m. induction HP as [|x l Hx Hl IH]; intros m Hm Hf; [reflexivity|]. destruct Hm; [reflexivity|].
  cbn. f_equal; auto. apply IH; auto.
Qed.

Lemma split32_word n l : length l = n -> Forall L32 l -> split32 n (word32 l) = l.
Proof. intros <-. apply split32_digits. Qed.
Section Lanes.
Variables (B : build) (w : N) (n : nat).
Hypothesis HT : nf4_type B w n.

Lemma expand32_digits l : length l = n -> Forall L32 l -> expand32 B w l = word32 l.
Proof.
  intros Hl H. unfold expand32. destruct HT as [Hn HB]. destruct B as [|nh hi].
  - unfold word32. rewrite <- (plain_digits 32 w l) by (subst n; auto). clear Hl H. induction l as [|x l IH]; [reflexivity|].
    cbn [fold_right]. rewrite IH. now rewrite wrap_wrap_shift by lia.
  - destruct HB as (_ & H4 & _). rewrite firstn_all2 by lia. apply (set_epi_digits 4); auto. lia.
Qed.
Lemma expand16_digits l : length l = n -> Forall (fun x => x < 65536) l -> expand16 B w l = word16 l.
Proof.
  intros Hl H. unfold expand16. destruct HT as [Hn HB]. destruct B as [|nh hi].
  - apply (plain_digits 16 w l); auto. lia.
  - destruct HB as (_ & H4 & _). rewrite firstn_all2 by lia. apply (set_epi_digits 2); auto. lia.
Qed.

Lemma lanewise_word f s t : length s = n -> length t = n -> Forall L32 s -> Forall L32 t -> Forall L32 (zip f s t) ->
  lanewise B w n f (word32 s) (word32 t) = word32 (zip f s t).
Proof.
  intros Ls Lt Hs Ht Hf. unfold lanewise. rewrite !split32_word, map2_zip by auto. apply expand32_digits; auto.
  rewrite zip_length; lia.
Qed.

End Lanes.

(** ** Registers *)
Definition pad4 (l : list N) : list N := l ++ repeat 0 (4 - length l).
Lemma pad4_length l : (length l <= 4)%nat -> length (pad4 l) = 4%nat.
Proof. intros H. unfold pad4. rewrite app_length, repeat_length. lia. Qed.
Lemma pad4_digits b l : digits b (pad4 l) = digits b l.
Proof. unfold pad4. rewrite digits_app, digits_zeros. lia. Qed.
Lemma pad4_Forall (P : N -> Prop) l : P 0 -> Forall P l -> Forall P (pad4 l).
Proof. intros H0 H. unfold pad4. apply Forall_app. split; auto. apply Forall_forall. intros x Hx. apply repeat_spec in Hx. now subst. Qed.
Lemma zip_pad4 f s t : length s = length t -> f 0 0 = 0 -> zip f (pad4 s) (pad4 t) = pad4 (zip f s t).
Proof.
  intros H H0. unfold pad4 at 3. rewrite zip_length by auto. unfold pad4. rewrite <- H.
  rewrite <- !map2_zip, map2_app by auto. f_equal. induction (4 - length s)%nat; [reflexivity|]. cbn. now rewrite IHn, H0.
Qed.

Lemma unpack_rof nh l : length l = countof 4 nh -> unpack_buf 4 l = rof 4 nh (fun t => nth t l 0).
Proof.
  intros H. unfold SimdL.rof, of_lanes. f_equal. rewrite <- H. apply (list_ext _ 0); [now rewrite map_length, seq_length|].
  intros i Hi. rewrite nth_map_seq; auto.
Qed.

Section Regs.
Variables (nh : nat) (hi : N -> list N).
Hypothesis Hn : nh = 1%nat \/ nh = 2%nat.
Hypothesis Hhi : forall x, length (hi x) = 16%nat /\ all_bytes (hi x).
Notation rof := (rof 4 nh).

Lemma load_rof s : length s = 4%nat -> Forall L32 s ->
  exists g, small 4 nh g /\ (forall t, (t < 4)%nat -> g t = nth t s 0) /\
    Nf4.word_bytes (word32 s) ++ (if Nat.eqb nh 2 then hi (word32 s) else []) = rof g.
Proof.
  intros L H.
  assert (W : Nf4.word_bytes (word32 s) = unpack_buf 4 s).
  { unfold Nf4.word_bytes, word32. rewrite <- (wob_unpack 4) by exact H.
    replace 16%nat with (length (unpack_buf 4 s)) by (rewrite unpack_length; lia). apply BytesP.bytes_word.
    unfold unpack_buf, all_bytes. apply Forall_flat_map. apply Forall_forall. intros x _. apply bytes_of_word_bytes. }
  rewrite W. set (ext := if Nat.eqb nh 2 then lanes 4 1 (hi (word32 s)) else []).
  assert (HE : Forall L32 ext).
  { subst ext. destruct (Nat.eqb nh 2); [|constructor]. apply Forall_forall. intros x Hx. apply (In_nth _ _ 0) in Hx.
    destruct Hx as (t & _ & <-). apply (lanes_small 4 1); auto. apply Hhi. }
  assert (LE : length (s ++ ext) = countof 4 nh).
  { subst ext. rewrite app_length, L. destruct Hn as [-> | ->]; reflexivity. }
  exists (fun t => nth t (s ++ ext) 0). split; [|split].
  - intros t Ht. assert (A : Forall L32 (s ++ ext)) by now apply Forall_app.
    apply (proj1 (Forall_forall _ _) A). apply nth_In. lia.
  - intros t Ht. rewrite app_nth1 by lia. reflexivity.
  - rewrite <- unpack_rof by auto. unfold unpack_buf. rewrite flat_map_app. f_equal. subst ext.
    destruct Hn as [-> | ->]; cbn [Nat.eqb]; [reflexivity|]. destruct (Hhi (word32 s)) as [Lh Bh].
    transitivity (SimdL.rof 4 1 (fun t => nth t (lanes 4 1 (hi (word32 s))) 0)).
    + symmetry. apply rof_lanes; auto.
    + symmetry. apply (unpack_rof 1). reflexivity.
Qed.

(** The first four elements of a result. *)
Lemma store_rof g : (forall t, (t < 4)%nat -> g t < 2 ^ 32) -> Nf4.bytes_word (rof g) = word32 (map g (seq 0 4)).
Proof.
  intros Hg. unfold Nf4.bytes_word, SimdL.rof, of_lanes, unpack_buf.
  assert (E : firstn 16 (flat_map (bytes_of_word 4) (map g (seq 0 (countof 4 nh)))) = unpack_buf 4 (map g (seq 0 4))).
  { destruct Hn as [-> | ->]; reflexivity. }
  rewrite E. apply (wob_unpack 4). apply Forall_forall. intros x Hx. apply in_map_iff in Hx. destruct Hx as (t & <- & Ht).
  apply in_seq in Ht. apply Hg. lia.
Qed.

Lemma simd_op_word f lf s t :
  (forall g h, small 4 nh g -> small 4 nh h -> f (rof g) (rof h) = rof (fun t => lf (g t) (h t))) ->
  length s = length t -> (length s <= 4)%nat -> Forall (fun x => x < 65537) s -> Forall (fun x => x < 65537) t ->
  (forall a b, a < 65537 -> b < 65537 -> lf a b < 65537) -> lf 0 0 = 0 ->
  simd_op nh hi f (word32 s) (word32 t) = word32 (zip lf s t).
Proof.
  intros Hf E L Hs Ht Hl H0. unfold simd_op. cbv zeta.
  assert (Es : word32 s = word32 (pad4 s)) by (symmetry; apply pad4_digits).
  assert (Et : word32 t = word32 (pad4 t)) by (symmetry; apply pad4_digits).
  assert (Ps : Forall (fun x => x < 65537) (pad4 s)) by (apply pad4_Forall; auto; reflexivity).
  assert (Pt : Forall (fun x => x < 65537) (pad4 t)) by (apply pad4_Forall; auto; reflexivity).
  rewrite Es, Et.
  destruct (load_rof (pad4 s)) as (g & Sg & Gg & ->); [apply pad4_length; lia|now apply el_small|].
  destruct (load_rof (pad4 t)) as (h & Sh & Gh & ->); [apply pad4_length; lia|now apply el_small|].
  rewrite Hf by auto.
  assert (Z : map (fun t => lf (g t) (h t)) (seq 0 4) = zip lf (pad4 s) (pad4 t)).
  { assert (Ls : length (pad4 s) = 4%nat) by (apply pad4_length; lia). assert (Lt : length (pad4 t) = 4%nat) by (apply pad4_length; lia).
    cbn [seq map]. rewrite !Gg, !Gh by lia. destruct (pad4 s) as [|a0 [|a1 [|a2 [|a3 [|]]]]]; try discriminate.
    destruct (pad4 t) as [|b0 [|b1 [|b2 [|b3 [|]]]]]; try discriminate. reflexivity. }
  rewrite store_rof.
  - rewrite Z, zip_pad4 by auto. apply pad4_digits.
  - intros u Hu. rewrite Gg, Gh by auto. apply N.lt_trans with 65537; [|reflexivity].
    apply Hl; [apply (proj1 (Forall_forall _ _) Ps)|apply (proj1 (Forall_forall _ _) Pt)]; apply nth_In; rewrite pad4_length; lia.
Qed.
End Regs.

(** ** Operations *)
Section Ops.
Variables (w : N) (n : nat).
Notation el := (elements n).

Lemma F4add a b : a < 65537 -> b < 65537 -> g_add F4 a b = (a + b) mod 65537.
Proof.
  intros Ha Hb. unfold F4, prime_ops, g_add, ring_add, wrap. rewrite (N.mod_small _ (2 ^ 32)) by lia.
  destruct (N.leb_spec 65537 (a + b)).
  - apply (N.mod_unique _ _ 1); lia.
  - symmetry. apply N.mod_small. lia.
Qed.
Lemma F4sub a b : a < 65537 -> b < 65537 -> g_sub F4 a b = (a + 65537 - b) mod 65537.
Proof.
  intros Ha Hb. unfold F4, prime_ops, g_sub, ring_sub.
  destruct (N.leb_spec b a).
  - apply (N.mod_unique _ _ 1); lia.
  - rewrite N.mod_small by lia. lia.
Qed.
Lemma F4mul a b : a < 65537 -> b < 65537 -> g_mul F4 a b = a * b mod 65537.
Proof.
  intros Ha Hb. unfold F4, prime_ops, g_mul, ring_mul, wrap. change (2 * 32) with 64.
  rewrite (N.mod_small (a * b) (2 ^ 64)), N.mod_small; auto.
  - eapply N.lt_trans; [apply N.mod_upper_bound; discriminate|reflexivity].
  - apply N.lt_trans with (65537 * 65537); [nia|reflexivity].
Qed.
Lemma mod_el a : a mod 65537 < 65537. Proof. apply N.mod_upper_bound. discriminate. Qed.

Lemma zip_el f s t : el s -> el t -> (forall a b, a < 65537 -> b < 65537 -> f a b < 65537) -> el (zip f s t).
Proof.
  intros [Ls Hs] [Lt Ht] Hf. split; [rewrite zip_length; lia|]. eapply Forall_zip; eauto.
Qed.

Lemma lanewise_el B f g s t : nf4_type B w n -> el s -> el t -> (forall a b, a < 65537 -> b < 65537 -> f a b = g a b) ->
  (forall a b, a < 65537 -> b < 65537 -> g a b < 65537) -> lanewise B w n f (word32 s) (word32 t) = word32 (zip g s t).
Proof.
  intros HT [Ls Hs] [Lt Ht] Hf Hg. assert (E : zip f s t = zip g s t) by (eapply zip_ext; [exact Hs|exact Ht|exact Hf]).
  rewrite (lanewise_word B w n HT); auto using el_small; rewrite E; auto.
  eapply Forall_zip; [exact Hs|exact Ht|]. intros a b Ha Hb. eapply N.lt_trans; [apply Hg; auto|reflexivity].
Qed.
Lemma nf4_add_word B s t : nf4_type B w n -> el s -> el t ->
  nf4_add B w n (word32 s) (word32 t) = word32 (zip (fun a b => (a + b) mod 65537) s t).
Proof.
  intros HT Es Et. destruct (Es) as [Ls Hs], (Et) as [Lt Ht]. pose proof HT as [Hn HB]. unfold nf4_add. destruct B as [|nh hi].
  - apply lanewise_el; auto using mod_el. intros a b Ha Hb. unfold lane_add, wrap.
    rewrite (N.mod_small (a + b) (2 ^ 32)); [reflexivity|]. lia.
  - destruct HB as (_ & H4 & Hnh & Hhi). rewrite (simd_op_word nh hi Hnh Hhi _ (ladd 4)); auto; try lia.
    + f_equal. eapply zip_ext; [exact Hs|exact Ht|]. intros a b Ha Hb. apply (ladd_res 4 nh); auto.
    + intros g h. apply mod_add_rof; auto.
    + intros a b Ha Hb. rewrite (ladd_res 4 nh); auto. apply mod_el.
Qed.
Lemma nf4_sub_word B s t : nf4_type B w n -> el s -> el t ->
  nf4_sub B w n (word32 s) (word32 t) = word32 (zip (fun a b => (a + 65537 - b) mod 65537) s t).
Proof.
  intros HT Es Et. destruct (Es) as [Ls Hs], (Et) as [Lt Ht]. pose proof HT as [Hn HB]. unfold nf4_sub. destruct B as [|nh hi].
  - assert (X : forall a b, a < 65537 -> b < 65537 -> lane_sub a b = (a + 65537 - b) mod 65537).
    { intros a b Ha Hb. unfold lane_sub, wrap. destruct (N.leb_spec b a).
      - apply (N.mod_unique _ _ 1); lia.
      - rewrite (N.mod_small (a + 65537 - b)) by lia. symmetry. apply (N.mod_unique _ _ 1); lia. }
    apply lanewise_el; auto using mod_el.
  - destruct HB as (_ & H4 & Hnh & Hhi). rewrite (simd_op_word nh hi Hnh Hhi _ (lsub 4)); auto; try lia.
    + f_equal. eapply zip_ext; [exact Hs|exact Ht|]. intros a b Ha Hb. apply (lsub_res 4 nh); auto.
    + intros g h. apply mod_sub_rof; auto.
    + intros a b Ha Hb. rewrite (lsub_res 4 nh); auto. apply mod_el.
Qed.
Lemma nf4_mul_word B s t : nf4_type B w n -> el s -> el t ->
  nf4_mul B w n (word32 s) (word32 t) = word32 (zip (fun a b => a * b mod 65537) s t).
Proof.
  intros HT Es Et. destruct (Es) as [Ls Hs], (Et) as [Lt Ht]. pose proof HT as [Hn HB]. unfold nf4_mul. destruct B as [|nh hi].
  - assert (X : forall a b, a < 65537 -> b < 65537 -> lane_mul a b = a * b mod 65537).
    { intros a b Ha Hb. unfold lane_mul, wrap. destruct (N.eqb_spec a 65536) as [->|]; [destruct (N.eqb_spec b 65536) as [->|]|]; cbn [andb].
      - reflexivity.
      - rewrite (N.mod_small (65536 * b)); auto. apply N.lt_trans with (65537 * 65537); [lia|reflexivity].
      - rewrite (N.mod_small (a * b)); auto. apply N.lt_trans with (65537 * 65537); [nia|reflexivity]. }
    apply lanewise_el; auto using mod_el.
  - destruct HB as (_ & H4 & Hnh & Hhi). rewrite (simd_op_word nh hi Hnh Hhi _ (lmuls 4)); auto; try lia.
    + f_equal. eapply zip_ext; [exact Hs|exact Ht|]. intros a b Ha Hb. apply (lmuls_res 4 nh); auto.
    + intros g h. apply mod_mul_safe_rof; auto.
    + intros a b Ha Hb. rewrite (lmuls_res 4 nh); auto. apply mod_el.
Qed.

Lemma F4exp a e : a < 65537 -> g_exp F4 a e = a ^ e mod 65537.
Proof. intros H. apply FieldP.ring_exp_pow; auto; [apply FntInst.prime65537|discriminate]. Qed.
Lemma F4inv0 : g_inv F4 0 = 0. Proof. vm_compute. reflexivity. Qed.
Lemma F4inv a : a < 65537 -> g_inv F4 a < 65537 /\ a * g_inv F4 a mod 65537 = (if a =? 0 then 0 else 1).
Proof.
  intros H. destruct (N.eqb_spec a 0) as [->|H0].
  - rewrite F4inv0. split; reflexivity.
  - apply (FieldP.inv_bezoutE 32 65537 FntInst.prime65537); auto. discriminate.
Qed.
Lemma F4div a b : a < 65537 -> b < 65537 -> ring_div 32 65537 a b = a * g_inv F4 b mod 65537.
Proof. intros Ha Hb. unfold ring_div. change (ring_mul 32 65537) with (g_mul F4). apply F4mul; auto. apply F4inv; auto. Qed.

Lemma zeros_el : el (repeat 0 n).
Proof. split; [apply repeat_length|]. apply Forall_forall. intros x Hx. apply repeat_spec in Hx. subst. reflexivity. Qed.
Lemma repeat_el a : a < 65537 -> el (repeat a n).
Proof. intros H. split; [apply repeat_length|]. apply Forall_forall. intros x Hx. apply repeat_spec in Hx. now subst. Qed.
Lemma map_el f s : el s -> (forall a, a < 65537 -> f a < 65537) -> el (map f s).
Proof.
  intros [Ls Hs] Hf. split; [now rewrite map_length|]. apply Forall_forall. intros x Hx. apply in_map_iff in Hx.
  destruct Hx as (y & <- & Hy). apply Hf. exact (proj1 (Forall_forall _ _) Hs y Hy).
Qed.
Lemma zip_zeros f s : zip f (repeat 0 (length s)) s = map (f 0) s.
Proof. induction s; cbn; auto. f_equal. apply IHs. Qed.

Lemma nf4_neg_word B s : nf4_type B w n -> el s -> nf4_neg B w n (word32 s) = word32 (map (fun a => (65537 - a) mod 65537) s).
Proof.
  intros HT Es. unfold nf4_neg. replace 0 with (word32 (repeat 0 n)) at 1 by apply digits_zeros.
  rewrite nf4_sub_word by auto using zeros_el. destruct (Es) as [Ls _]. rewrite <- Ls at 1. rewrite zip_zeros. reflexivity.
Qed.
Lemma nf4_inv_word B s : nf4_type B w n -> el s -> nf4_inv B w n (word32 s) = word32 (map (g_inv F4) s).
Proof.
  intros HT Es. unfold nf4_inv. rewrite split32_word by (apply Es || apply el_small, Es). apply (expand32_digits B w n HT).
  - rewrite map_length. apply Es.
  - apply el_small, map_el; auto. intros a Ha. now apply F4inv.
Qed.
Lemma nf4_div_word B s t : nf4_type B w n -> el s -> el t ->
  nf4_div B w n (word32 s) (word32 t) = word32 (zip (fun a b => a * g_inv F4 b mod 65537) s t).
Proof. intros HT Es Et. apply lanewise_el; auto using mod_el. apply F4div. Qed.
Lemma nf4_exp_word B s t : nf4_type B w n -> el s -> length t = n -> Forall L32 t ->
  nf4_exp B w n (word32 s) (word32 t) = word32 (zip (fun a b => a ^ b mod 65537) s t).
Proof.
  intros HT [Ls Hs] Lt Ht. unfold nf4_exp.
  assert (E : zip (g_exp F4) s t = zip (fun a b => a ^ b mod 65537) s t).
  { eapply zip_ext; [exact Hs|exact Ht|]. intros a b Ha Hb. now apply F4exp. }
  rewrite (lanewise_word B w n HT); auto using el_small; rewrite E; auto.
  eapply Forall_zip; [exact Hs|exact Ht|]. intros a b Ha Hb. eapply N.lt_trans; [apply mod_el|reflexivity].
Qed.

Lemma type_bits B : nf4_type B w n -> 32 * N.of_nat n <= w.
Proof. intros [Hn HB]. destruct B; [exact HB|]. destruct HB as (-> & H4 & _). lia. Qed.
Lemma Nat_iter_S A (f : A -> A) k a : Nat.iter (S k) f a = f (Nat.iter k f a).
Proof. reflexivity. Qed.
Lemma replicate_word B a : nf4_type B w n -> a < 2 ^ 32 -> replicate w n a = word32 (repeat a n).
Proof.
  intros HT Ha. pose proof (type_bits B HT) as Hw. destruct HT as [Hn _]. unfold replicate.
  assert (X : forall k, 32 * N.of_nat (S k) <= w ->
    Nat.iter k (fun b => N.lor (wrap w (N.shiftl (wrap w (N.shiftl b 16)) 16)) a) a = word32 (repeat a (S k))).
  { induction k; intros Hk.
    { unfold word32. cbn [repeat]. rewrite digits_cons. change (digits (2 ^ 32) []) with 0. rewrite N.mul_0_r, N.add_0_r. reflexivity. }
    rewrite Nat_iter_S, IHk by lia. rewrite wrap_wrap_shift by lia. unfold wrap.
    assert (D : word32 (repeat a (S k)) < (2 ^ 32) ^ N.of_nat (S k)).
    { rewrite <- (repeat_length a (S k)) at 2. apply digits_lt; [reflexivity|]. apply Forall_forall. intros x Hx. apply repeat_spec in Hx. now subst. }
    rewrite N.mod_small.
    - rewrite lor_add by auto. reflexivity.
    - rewrite N.shiftl_mul_pow2. rewrite <- N.pow_mul_r in D. eapply N.lt_le_trans; [apply N.mul_lt_mono_pos_r; [reflexivity|exact D]|].
      rewrite <- N.pow_add_r. apply N.pow_le_mono_r; [discriminate|lia]. }
  replace n with (S (n - 1)) at 2 by lia. apply X. lia.
Qed.

(** ** Numbers of 16 bits *)
Definition low (x : N) : N := if x =? 65536 then 0 else x.
Lemma low_lt x : x < 65537 -> low x < 65536.
Proof. intros H. unfold low. destruct (N.eqb_spec x 65536); lia. Qed.
Lemma lows s : Forall (fun x => x < 65537) s -> Forall (fun x => x < 65536) (map low s).
Proof. induction 1; cbn; constructor; auto using low_lt. Qed.

Lemma split16_word B h : nf4_type B w n -> numbers n h ->
  split16 (n16 B n) (word16 h) = h ++ repeat 0 (n16 B n - n).
Proof.
  intros [Hn HB] [L H]. assert (E : word16 h = word16 (h ++ repeat 0 (n16 B n - n))).
  { unfold word16. rewrite digits_app, digits_zeros. lia. }
  rewrite E. assert (EL : n16 B n = length (h ++ repeat 0 (n16 B n - n))).
  { rewrite app_length, repeat_length, L. unfold n16. destruct B; [lia|]. destruct HB as (_ & H4 & _). lia. }
  rewrite EL at 1. apply split16_digits. apply Forall_app. split; auto. apply Forall_forall. intros x Hx. apply repeat_spec in Hx. now subst.
Qed.
Lemma expand32_n16 B l : nf4_type B w n -> length l = n -> Forall L32 l -> expand32 B w (l ++ repeat 0 (n16 B n - n)) = word32 l.
Proof.
  intros HT L H. pose proof HT as [Hn HB]. unfold n16. destruct B as [|nh hi].
  - rewrite Nat.sub_diag. cbn [repeat]. rewrite app_nil_r. now apply (expand32_digits Plain w n).
  - destruct HB as (-> & H4 & Hh). rewrite (expand32_digits (Wide nh hi) 128 4).
    + unfold word32. rewrite digits_app, digits_zeros. lia.
    + split; [lia|]. split; auto.
    + rewrite app_length, repeat_length. lia.
    + apply Forall_app. split; auto. apply Forall_forall. intros x Hx. apply repeat_spec in Hx. now subst.
Qed.
Lemma pack_word B h : nf4_type B w n -> numbers n h -> pack B w n (word16 h) = word32 h.
Proof.
  intros HT Hh. unfold pack. rewrite split16_word by auto. apply expand32_n16; auto; [apply Hh|].
  eapply Forall_impl; [|apply Hh]. cbv beta. lia.
Qed.

Lemma marks_cons x s : marks (x :: s) = (if x =? 65536 then 1 else 0) + 2 * marks s.
Proof. reflexivity. Qed.
Lemma marks_zeros k : marks (repeat 0 k) = 0.
Proof. induction k; [reflexivity|]. cbn [repeat]. rewrite marks_cons, IHk. reflexivity. Qed.
Lemma marks_app s k : marks (s ++ repeat 0 k) = marks s.
Proof. induction s; cbn [app]; [apply marks_zeros|]. now rewrite !marks_cons, IHs. Qed.
Lemma flagged_marks s : Forall (fun x => x < 65537) s -> flagged (marks s) (map low s) = s.
Proof.
  induction 1 as [|x s Hx Hs IH]; [reflexivity|]. cbn [map flagged]. rewrite marks_cons.
  replace (N.shiftr _ 1) with (marks s).
  - rewrite IH. f_equal.
    unfold low. destruct (N.eqb_spec x 65536) as [->|Hx'].
    + replace (N.odd _) with true; [reflexivity|]. symmetry. apply N.odd_spec. exists (marks s). lia.
    + replace (N.odd _) with false; [reflexivity|]. symmetry. rewrite <- N.negb_even. apply negb_false_iff, N.even_spec. exists (marks s). lia.
  - rewrite N.shiftr_div_pow2. change (2 ^ 1) with 2. destruct (x =? 65536); [|rewrite N.add_0_l].
    + apply (N.div_unique _ _ _ 1); lia.
    + apply (N.div_unique _ _ _ 0); lia.
Qed.
Lemma map_app_zeros k s : map low (s ++ repeat 0 k) = map low s ++ repeat 0 k.
Proof. rewrite map_app. f_equal. induction k; cbn; auto. now rewrite IHk. Qed.
Lemma pack_flag_word B s : nf4_type B w n -> el s -> pack_flag B w n (word16 (map low s)) (marks s) = word32 s.
Proof.
  intros HT [Ls Hs]. unfold pack_flag. rewrite split16_word; auto.
  2:{ split; [now rewrite map_length|now apply lows]. }
  rewrite <- map_app_zeros, <- (marks_app s (n16 B n - n)), flagged_marks.
  - apply expand32_n16; auto using el_small.
  - apply Forall_app. split; auto. apply Forall_forall. intros x Hx. apply repeat_spec in Hx. now subst.
Qed.

Lemma flag_of_marks s : forall i, flag_of i s = N.shiftl (marks s) i.
Proof.
  induction s as [|x s IH]; intros i; [symmetry; apply N.shiftl_0_l|]. cbn [flag_of]. rewrite IH, marks_cons.
  rewrite <- (N.add_comm 1 i), <- N.shiftl_shiftl.
  replace (if x =? 65536 then N.shiftl 1 i else 0) with (N.shiftl (if x =? 65536 then 1 else 0) i) by (destruct (x =? 65536); [auto|apply N.shiftl_0_l]).
  rewrite <- N.shiftl_lor. f_equal. rewrite lor_shift_add by (destruct (x =? 65536); reflexivity). change (2 ^ 1) with 2. lia.
Qed.

Lemma half_lt x : x < 65537 -> x mod 65536 = low x /\ x / 65536 = (if x =? 65536 then 1 else 0).
Proof.
  intros H. unfold low. destruct (N.eqb_spec x 65536) as [->|]; [split; reflexivity|].
  split; [apply N.mod_small; lia|apply N.div_small; lia].
Qed.
Lemma word32_16 s : Forall L32 s -> word32 s = word16 (flat_map (fun x => [x mod 65536; x / 65536]) s).
Proof.
  unfold word32, word16. induction 1 as [|x s Hx Hs IH]; [reflexivity|]. cbn [flat_map app]. rewrite !digits_cons, IH.
  rewrite (N.div_mod x 65536) at 1 by discriminate. change (2 ^ 32) with (65536 * 65536). change (2 ^ 16) with 65536. lia.
Qed.
Lemma unpack_word B s : nf4_type B w n -> el s -> unpack B w n (word32 s) = (word16 (map low s), marks s).
Proof.
  intros HT Es. pose proof HT as [Hn HB]. pose proof Es as [Ls Hs]. unfold unpack. destruct B as [|nh hi].
  - cbv zeta. rewrite split32_word by auto using el_small. f_equal.
    + rewrite <- (expand16_digits Plain w n HT (map low s)); [|now rewrite map_length|now apply lows]. f_equal.
      apply map_ext_in. intros x Hx. pose proof (proj1 (Forall_forall _ _) Hs x Hx). cbv beta in *. unfold low, wrap.
      destruct (N.eqb_spec x 65536); [auto|]. apply N.mod_small. lia.
    + rewrite flag_of_marks. apply N.shiftl_0_r.
  - destruct HB as (Ew & H4 & _ & _).
    assert (E : word32 s = word32 (pad4 s)) by (symmetry; apply pad4_digits). rewrite E.
    assert (P : Forall (fun x => x < 65537) (pad4 s)) by (apply pad4_Forall; auto; reflexivity).
    assert (M : marks s = marks (pad4 s)) by (unfold pad4; now rewrite marks_app). rewrite M.
    assert (W : word16 (map low s) = word16 (map low (pad4 s))).
    { unfold pad4. rewrite map_app_zeros. unfold word16. rewrite digits_app, digits_zeros. lia. }
    rewrite W. rewrite word32_16 by now apply el_small.
    assert (L : length (pad4 s) = 4%nat) by (apply pad4_length; lia).
    destruct (pad4 s) as [|a0 [|a1 [|a2 [|a3 [|]]]]]; try discriminate. clear - P.
    assert (H0 : a0 < 65537) by (inversion P; auto). apply Forall_inv_tail in P.
    assert (H1 : a1 < 65537) by (inversion P; auto). apply Forall_inv_tail in P.
    assert (H2 : a2 < 65537) by (inversion P; auto). apply Forall_inv_tail in P.
    assert (H3 : a3 < 65537) by (inversion P; auto). clear P.
    cbn [flat_map app map].
    rewrite (proj1 (half_lt a0 H0)), (proj1 (half_lt a1 H1)), (proj1 (half_lt a2 H2)), (proj1 (half_lt a3 H3)).
    rewrite (proj2 (half_lt a0 H0)), (proj2 (half_lt a1 H1)), (proj2 (half_lt a2 H2)), (proj2 (half_lt a3 H3)).
    assert (B1 : forall b : bool, (if b then 1 else 0) < 2 ^ 16) by (intros []; reflexivity).
    pose proof (low_lt _ H0) as K0. pose proof (low_lt _ H1) as K1. pose proof (low_lt _ H2) as K2. pose proof (low_lt _ H3) as K3.
    set (l8 := [low a0; _; low a1; _; low a2; _; low a3; _]).
    assert (S8 : split16 8 (word16 l8) = l8) by (apply (split16_digits l8); repeat constructor; auto).
    cbv zeta. rewrite S8. subst l8. cbn [get nth].
    f_equal.
    + rewrite (set_epi_digits 2); [reflexivity| |cbn; lia]. repeat constructor; auto.
    + unfold marks. cbn [map]. destruct (a0 =? 65536), (a1 =? 65536), (a2 =? 65536), (a3 =? 65536); reflexivity.
Qed.
End Ops.

(** ** Vectors *)
Lemma flat_slices A (z : list A) e m : (m * e <= length z)%nat -> flat_map (fun t => slice z (t * e) e) (seq 0 m) = firstn (m * e) z.
Proof.
  rewrite flat_map_concat_map. induction m as [|m IH]; intros H; [reflexivity|]. rewrite seq_S, map_app, concat_app, IH by lia. cbn [map concat Nat.add].
  rewrite app_nil_r. unfold slice. replace (S m * e)%nat with (m * e + e)%nat by lia.
  rewrite <- (firstn_skipn (m * e) (firstn (m * e + e) z)). rewrite firstn_firstn, Nat.min_l by lia. f_equal.
  rewrite firstn_skipn_comm. reflexivity.
Qed.
Lemma map2_firstn A C D (f : A -> C -> D) m : forall x y, map2 f (firstn m x) (firstn m y) = firstn m (map2 f x y).
Proof. induction m; intros [|a x] [|b y]; cbn; auto. f_equal; auto. Qed.
Lemma map2_nil_r A C D (f : A -> C -> D) x : map2 f x [] = [].
Proof. destruct x; reflexivity. Qed.
Lemma map2_skipn A C D (f : A -> C -> D) m : forall x y, map2 f (skipn m x) (skipn m y) = skipn m (map2 f x y).
Proof. induction m; intros [|a x] [|b y]; cbn; auto using map2_nil_r. Qed.
Lemma map2_slice A C D (f : A -> C -> D) x y i m : map2 f (slice x i m) (slice y i m) = slice (map2 f x y) i m.
Proof. unfold slice. now rewrite map2_firstn, map2_skipn. Qed.
Lemma map2_length A C D (f : A -> C -> D) : forall x y, length x = length y -> length (map2 f x y) = length x.
Proof. induction x; intros [|b y] H; cbn in *; try discriminate; auto. Qed.

Lemma unpack_16_4 s : length s = 4%nat -> Forall L32 s -> bytes_of_word 16 (word32 s) = unpack_buf 4 s.
Proof.
  intros L H. unfold word32. rewrite <- (wob_unpack 4) by exact H.
  replace 16%nat with (length (unpack_buf 4 s)) by (rewrite unpack_length; lia). apply BytesP.bytes_word.
  unfold unpack_buf, all_bytes. apply Forall_flat_map. apply Forall_forall. intros x _. apply bytes_of_word_bytes.
Qed.
Lemma unpack_words S : Forall (fun s => length s = 4%nat /\ Forall L32 s) S -> unpack_buf 16 (map word32 S) = unpack_buf 4 (concat S).
Proof.
  induction 1 as [|s S [Hs Hs'] _ IH]; [reflexivity|]. unfold unpack_buf in *. cbn [map flat_map concat]. rewrite flat_map_app, IH. f_equal.
  now apply unpack_16_4.
Qed.
Lemma pack_unpack_16 l : Forall (fun x => x < 256 ^ 16) l -> pack_buf 16 (length l) (unpack_buf 16 l) = l.
Proof.
  intros H. unfold pack_buf, unpack_buf. apply (list_ext _ 0); [now rewrite map_length, seq_length|].
  rewrite map_length, seq_length. intros i Hi. rewrite nth_map_seq by auto.
  rewrite (slice_flat _ 16 (bytes_of_word_length 16) 0) by auto. rewrite BytesP.word_bytes. apply N.mod_small.
  apply (proj1 (Forall_forall _ _) H). now apply nth_In.
Qed.

Lemma nth_zip f : forall l m t, length l = length m -> (t < length l)%nat -> nth t (zip f l m) 0 = f (nth t l 0) (nth t m 0).
Proof.
  induction l as [|a l IH]; intros [|b m] t L H; cbn in *; try lia; try discriminate. destruct t; [reflexivity|]. apply IH; lia.
Qed.
Lemma zip_concat f X : forall Y, length X = length Y -> Forall (fun s => length s = 4%nat /\ Forall (fun x => x < 65537) s) X ->
  Forall (fun s => length s = 4%nat /\ Forall (fun x => x < 65537) s) Y -> zip f (concat X) (concat Y) = concat (map2 (zip f) X Y).
Proof.
  induction X as [|x X IH]; intros [|y Y] L HX HY; try discriminate; [reflexivity|]. inversion HX as [|? ? [Lx _] HX']; inversion HY as [|? ? [Ly _] HY']; subst.
  cbn [concat map2]. rewrite <- IH by auto. rewrite <- !map2_zip. apply map2_app. lia.
Qed.

Lemma Forall_nth_in (P : N -> Prop) l t : Forall P l -> (t < length l)%nat -> P (nth t l 0).
Proof. intros H Ht. apply (proj1 (Forall_forall _ _) H). now apply nth_In. Qed.

Section Had.
Variables (w : N) (n : nat).
Notation el := (elements n).
Definition valid (x : N) : Prop := exists s, el s /\ x = word32 s.

Lemma valids x : Forall valid x -> exists X, Forall el X /\ x = map word32 X.
Proof.
  induction 1 as [|a x (s & Hs & ->) _ (X & HX & ->)]; [exists []; auto|]. exists (s :: X). split; [constructor; auto|reflexivity].
Qed.

Lemma reg_words nh X Y : (nh = 1%nat \/ nh = 2%nat) -> (n <= 4)%nat -> length X = nh -> length Y = nh -> Forall el X -> Forall el Y ->
  pack_buf 16 nh (mod_mul_safe 4 nh (unpack_buf 16 (map word32 X)) (unpack_buf 16 (map word32 Y))) =
  map2 (fun s t => word32 (zip (fun a b => a * b mod 65537) s t)) X Y.
Proof.
  intros Hnh Hn LX LY HX HY.
  assert (P : forall Z, Forall el Z -> length Z = nh ->
    Forall (fun s => length s = 4%nat /\ Forall (fun x => x < 65537) s) (map pad4 Z) /\ map word32 Z = map word32 (map pad4 Z) /\
    Forall (fun x => x < 65537) (concat (map pad4 Z)) /\ length (concat (map pad4 Z)) = countof 4 nh).
  { intros Z HZ LZ. assert (A : Forall (fun s => length s = 4%nat /\ Forall (fun x => x < 65537) s) (map pad4 Z)).
    { apply Forall_forall. intros s Hs. apply in_map_iff in Hs. destruct Hs as (z & <- & Hz).
      destruct (proj1 (Forall_forall _ _) HZ z Hz) as [Lz Fz]. split; [apply pad4_length; lia|]. apply pad4_Forall; auto. reflexivity. }
    split; [exact A|]. split; [rewrite map_map; apply map_ext; intros z; symmetry; apply pad4_digits|]. split.
    - apply Forall_concat. eapply Forall_impl; [|exact A]. intros s [_ Hs]. exact Hs.
    - assert (C : length (concat (map pad4 Z)) = (4 * nh)%nat).
      { rewrite <- LZ. clear - A. induction Z as [|z Z IH]; [reflexivity|]. cbn [map concat length]. cbn [map] in A.
        rewrite app_length, IH by (inversion A; auto). inversion A as [|? ? [E _]]; subst. rewrite E. lia. }
      rewrite C. destruct Hnh as [-> | ->]; reflexivity. }
  destruct (P X HX LX) as (PX & -> & FX & CX). destruct (P Y HY LY) as (PY & -> & FY & CY).
  assert (I : forall Z, Forall (fun s => length s = 4%nat /\ Forall (fun x => x < 65537) s) Z ->
    Forall (fun s => length s = 4%nat /\ Forall L32 s) Z).
  { intros Z. apply Forall_impl. intros s [Ls Fs]. split; auto using el_small. }
  rewrite !unpack_words by auto. rewrite !(unpack_rof nh) by auto.
  assert (Sm : forall l, Forall (fun x => x < 65537) l -> small 4 nh (fun t => nth t l 0)).
  { intros l Hl t _. destruct (Nat.lt_ge_cases t (length l)).
    - eapply N.lt_trans; [apply (proj1 (Forall_forall _ _) Hl); now apply nth_In|reflexivity].
    - rewrite nth_overflow by auto. reflexivity. }
  rewrite mod_mul_safe_rof by auto.
  set (f := fun a b => a * b mod 65537).
  assert (R : rof 4 nh (fun t => lmuls 4 (nth t (concat (map pad4 X)) 0) (nth t (concat (map pad4 Y)) 0)) =
              unpack_buf 4 (zip f (concat (map pad4 X)) (concat (map pad4 Y)))).
  { rewrite (unpack_rof nh) by (rewrite zip_length; lia).
    apply rof_ext; auto. intros t Ht. rewrite nth_zip by lia. apply (lmuls_res 4 nh); auto.
    - apply (Forall_nth_in (fun x => x < 65537)); [exact FX|lia].
    - apply (Forall_nth_in (fun x => x < 65537)); [exact FY|lia]. }
  rewrite R, zip_concat by (rewrite ?map_length; solve [auto | lia]). clear R Sm P CX CY FX FY.
  assert (Z : map2 (zip f) (map pad4 X) (map pad4 Y) = map pad4 (map2 (zip f) X Y)).
  { clear PX PY. revert Y LY HY. rewrite <- LX. clear LX. revert HX. induction X as [|x X IH]; intros HX [|y Y] LY HY; cbn in LY; try discriminate; [reflexivity|].
    inversion HX as [|? ? Ex HX']; inversion HY as [|? ? Ey HY']; subst. cbn [map map2]. f_equal.
    - apply zip_pad4; [destruct Ex, Ey; lia|reflexivity].
    - apply IH; auto. }
  assert (V : Forall el (map2 (zip f) X Y)).
  { clear - HX HY. revert Y HY. induction HX as [|x X Ex HX IH]; intros Y HY; [constructor|]. destruct HY as [|y Y Ey HY]; [constructor|]. cbn [map2].
    constructor; [|now apply IH]. apply (zip_el 0 n f x y Ex Ey). intros a b _ _. apply mod_el. }
  assert (LZ : length (map2 (zip f) X Y) = nh) by (rewrite map2_length; lia).
  assert (M : map2 (fun s t => word32 (zip f s t)) X Y = map word32 (map2 (zip f) X Y)).
  { clear. revert Y. induction X; intros [|y Y]; cbn; auto. now rewrite IHX. }
  rewrite M, Z. set (U := map2 (zip f) X Y) in *. clearbody U. rewrite <- unpack_words.
  - assert (E : map word32 (map pad4 U) = map word32 U) by (rewrite map_map; apply map_ext; intros z; apply pad4_digits).
    rewrite E. rewrite <- LZ, <- (map_length word32 U). apply pack_unpack_16.
    apply Forall_forall. intros x Hx. apply in_map_iff in Hx. destruct Hx as (u & <- & Hu).
    destruct (proj1 (Forall_forall _ _) V u Hu) as [Lu Fu].
    eapply N.lt_le_trans; [apply digits_lt; [reflexivity|now apply el_small]|]. rewrite Lu, <- N.pow_mul_r.
    change (256 ^ 16) with (2 ^ 128). apply N.pow_le_mono_r; [discriminate|lia].
  - apply Forall_forall. intros s Hs. apply in_map_iff in Hs. destruct Hs as (z & <- & Hz).
    destruct (proj1 (Forall_forall _ _) V z Hz) as [Lz Fz]. split; [apply pad4_length; lia|]. apply pad4_Forall; auto using el_small. reflexivity.
Qed.

Lemma mul_map2 B X : nf4_type B w n -> Forall el X -> forall Y, Forall el Y ->
  map2 (nf4_mul B w n) (map word32 X) (map word32 Y) = map2 (fun s t => word32 (zip (fun a b => a * b mod 65537) s t)) X Y.
Proof.
  intros HT. induction 1 as [|x X Ex HX IH]; intros Y HY; [reflexivity|]. destruct HY; [reflexivity|]. cbn [map map2].
  rewrite IH, (nf4_mul_word w n B) by auto. reflexivity.
Qed.
Lemma map_slice A C (f : A -> C) l i m : map f (slice l i m) = slice (map f l) i m.
Proof. unfold slice. now rewrite skipn_map, firstn_map. Qed.

Lemma nf4_hadamard_mul B x y : nf4_type B w n -> Forall valid x -> Forall valid y -> length x = length y ->
  nf4_hadamard B w n x y = map2 (nf4_mul B w n) x y.
Proof.
  intros HT Hx Hy L. destruct (valids x Hx) as (X & HX & ->), (valids y Hy) as (Y & HY & ->). clear Hx Hy.
  rewrite !map_length in L. unfold nf4_hadamard. destruct B as [|nh hi]; [reflexivity|]. cbv zeta.
  pose proof HT as [Hn (_ & H4 & Hnh & _)]. rewrite map_length. set (vec := (length X / nh)%nat).
  assert (Hv : (vec * nh <= length X)%nat).
  { unfold vec. rewrite Nat.mul_comm. apply Nat.mul_div_le. lia. }
  rewrite map2_skipn. set (z := map2 _ (map word32 X) (map word32 Y)).
  assert (Lz : length z = length X) by (unfold z; rewrite map2_length; rewrite !map_length; auto).
  rewrite <- (firstn_skipn (vec * nh) z) at 2. f_equal. rewrite <- flat_slices by lia.
  rewrite !flat_map_concat_map. f_equal. apply map_ext_in. intros i Hi. apply in_seq in Hi.
  assert (Hi' : (i * nh + nh <= length X)%nat) by nia.
  rewrite <- !map_slice, reg_words; auto using Forall_slice; try (apply slice_length; lia).
  unfold z. rewrite <- map2_slice, <- !map_slice. symmetry. apply mul_map2; auto using Forall_slice.
Qed.
End Had.
