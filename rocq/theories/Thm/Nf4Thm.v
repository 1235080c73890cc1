(** Property C33: words of NF4 are vectors of elements of GF(65537).  [Plain]: the generic functions of gf_nf4.h;
    [Wide nh hi]: the specialisations for words of 128 bits, with SSE ([nh = 1]) or AVX2 ([nh = 2], whatever the contents
    [hi] of the upper halves of the registers). *)
From Coq Require Import List NArith Arith Bool Lia.
From Verif.Model Require Import Common Arith Ring Radix2 Nf4.
From Verif.Spec Require Import Blocks Nf4.
From Verif.Proof Require Import ListP Nf4L Nf4Log.
Import ListNotations.
Open Scope N_scope.

Lemma zip_cons f a s b t : zip f (a :: s) (b :: t) = f a b :: zip f s t.
Proof. reflexivity. Qed.

(** A word says what its elements are. *)
Theorem C33_word n s t : elements n s -> elements n t -> word32 s = word32 t -> s = t.
Proof.
  intros [Ls Hs] [Lt Ht]. apply digits_inj; [reflexivity|congruence|now apply el_small|now apply el_small].
Qed.

Theorem C33_add B w n s t : nf4_type B w n -> elements n s -> elements n t ->
  nf4_add B w n (word32 s) (word32 t) = word32 (zip (fun a b => (a + b) mod 65537) s t).
Proof. apply nf4_add_word. Qed.
Theorem C33_sub B w n s t : nf4_type B w n -> elements n s -> elements n t ->
  nf4_sub B w n (word32 s) (word32 t) = word32 (zip (fun a b => (a + 65537 - b) mod 65537) s t).
Proof. apply nf4_sub_word. Qed.
Theorem C33_mul B w n s t : nf4_type B w n -> elements n s -> elements n t ->
  nf4_mul B w n (word32 s) (word32 t) = word32 (zip (fun a b => a * b mod 65537) s t).
Proof. apply nf4_mul_word. Qed.
Theorem C33_neg B w n s : nf4_type B w n -> elements n s ->
  nf4_neg B w n (word32 s) = word32 (map (fun a => (65537 - a) mod 65537) s).
Proof. apply nf4_neg_word. Qed.
(** Exponents: any [n] numbers of 32 bits. *)
Theorem C33_exp B w n s t : nf4_type B w n -> elements n s -> length t = n -> Forall (fun x => x < 2 ^ 32) t ->
  nf4_exp B w n (word32 s) (word32 t) = word32 (zip (fun a b => a ^ b mod 65537) s t).
Proof. apply nf4_exp_word. Qed.
(** Inverses: that of 0 is 0. *)
Theorem C33_inv B w n s : nf4_type B w n -> elements n s ->
  exists r, elements n r /\ nf4_inv B w n (word32 s) = word32 r /\
    Forall2 (fun a b => a * b mod 65537 = if a =? 0 then 0 else 1) s r.
Proof.
  intros HT Hs. exists (map (g_inv F4) s). split; [|split].
  - apply map_el; auto. intros a Ha. now apply F4inv.
  - now apply nf4_inv_word.
  - destruct Hs as [_ Hs]. induction Hs; cbn [map]; constructor; auto. now apply F4inv.
Qed.
Theorem C33_div B w n s t : nf4_type B w n -> elements n s -> elements n t -> ~ In 0 t ->
  exists r, elements n r /\ nf4_div B w n (word32 s) (word32 t) = word32 r /\ zip (fun a b => a * b mod 65537) r t = s.
Proof.
  intros HT Hs Ht H0. exists (zip (fun a b => a * g_inv F4 b mod 65537) s t). split; [|split].
  - apply (zip_el 0 n); auto. intros a b _ _. apply mod_el.
  - now apply nf4_div_word.
  - destruct Hs as [Ls Hs], Ht as [Lt Ht]. rewrite <- Ls in Lt. clear Ls HT. revert t Lt Ht H0.
    induction Hs as [|a s Ha Hs IH]; intros [|b t] L Ht H0; try discriminate; [reflexivity|].
    inversion Ht as [|? ? Hb Ht']; subst. rewrite !zip_cons. f_equal.
    + rewrite N.mul_mod_idemp_l by discriminate. destruct (F4inv b Hb) as [Hi E].
      destruct (N.eqb_spec b 0) as [->|_]; [destruct H0; now left|].
      rewrite <- N.mul_assoc, (N.mul_comm _ b), N.mul_mod, E, N.mul_1_r, N.mod_mod by discriminate. now apply N.mod_small.
    + apply IH; auto. intros Hin. apply H0. now right.
Qed.
(** Logarithms, where all of them exist. *)
Theorem C33_log B w n s t : nf4_type B w n -> elements n s -> elements n t ->
  match nf4_log B w n (word32 s) (word32 t) with
  | Some x => exists r, elements n r /\ x = word32 r /\ ~ In 0 r /\ zip (fun a b => a ^ b mod 65537) s r = t
  | None => exists i, (i < n)%nat /\ forall e, 1 <= e < 65537 -> nth i s 0 ^ e mod 65537 <> nth i t 0
  end.
Proof.
  intros HT [Ls Hs] [Lt Ht]. unfold nf4_log. rewrite !split32_word by auto using el_small.
  pose proof F4exp as Hex. revert Hex. generalize (g_exp F4). intros ex Hex.
  pose proof (all_some_spec _ (map2 (log_naive ex 65537) s t)) as A.
  destruct (all_some _) as [r|] eqn:E; cbn [option_map].
  - assert (X : Forall (fun x => 1 <= x < 65537) r /\ length r = length s /\ zip (fun a b => a ^ b mod 65537) s r = t).
    { clear E HT. rewrite <- Ls in Lt. clear Ls. revert t Lt Ht r A. induction Hs as [|a s Ha Hs IH]; intros [|b t] L Ht r A; try discriminate.
      - inversion A; subst. repeat split; constructor.
      - cbn [map2] in A. inversion A as [|o x l r' Eo A']; subst. inversion Ht; subst. destruct (IH t) with (r := r') as (P1 & P2 & P3); auto.
        pose proof (log_naive_spec ex 65537 a b) as S. rewrite Eo in S. destruct S as [S1 S2]. repeat split.
        + constructor; auto.
        + cbn. lia.
        + rewrite zip_cons. rewrite Hex in S2 by auto. rewrite S2. f_equal. exact P3. }
    destruct X as (X1 & X2 & X3). exists r. assert (X4 : Forall (fun x => x < 65537) r) by (eapply Forall_impl; [|exact X1]; cbv beta; lia).
    split; [split; [congruence|exact X4]|]. split; [apply (expand32_digits B w n HT); [congruence|now apply el_small]|].
    split; [|exact X3]. intros H0. apply (proj1 (Forall_forall _ _) X1) in H0. lia.
  - clear E HT. rewrite <- Ls in Lt |- *. clear Ls. revert t Lt Ht A. induction Hs as [|a s Ha Hs IH]; intros [|b t] L Ht A; try discriminate; [contradiction|].
    cbn [map2] in A. destruct A as [A|A].
    + exists 0%nat. cbn [length nth]. split; [lia|]. intros e He. pose proof (log_naive_spec ex 65537 a b) as S. rewrite A in S.
      specialize (S e He). rewrite Hex in S by auto. exact S.
    + inversion Ht; subst. destruct (IH t) as (i & Hi & P); auto. exists (S i). cbn [length nth]. split; [lia|exact P].
Qed.

(** The same element everywhere. *)
Theorem C33_replicate B w n a : nf4_type B w n -> a < 2 ^ 32 -> replicate w n a = word32 (repeat a n).
Proof. apply replicate_word. Qed.

(** Vectors. *)
Theorem C33_hadamard B w n X Y : nf4_type B w n -> Forall (elements n) X -> Forall (elements n) Y -> length X = length Y ->
  nf4_hadamard B w n (map word32 X) (map word32 Y) =
  map (fun p => word32 (zip (fun a b => a * b mod 65537) (fst p) (snd p))) (combine X Y).
Proof.
  intros HT HX HY L. rewrite nf4_hadamard_mul; auto; try (now rewrite !map_length).
  - rewrite mul_map2 by auto. clear. revert Y. induction X; intros [|y Y]; cbn; auto. now rewrite IHX.
  - apply Forall_forall. intros x Hx. apply in_map_iff in Hx. destruct Hx as (s & <- & Hs). exists s. split; auto. revert Hs. now apply Forall_forall.
  - apply Forall_forall. intros x Hx. apply in_map_iff in Hx. destruct Hx as (s & <- & Hs). exists s. split; auto. revert Hs. now apply Forall_forall.
Qed.

(** Numbers of 16 bits become elements. *)
Theorem C33_pack B w n h : nf4_type B w n -> numbers n h -> pack B w n (word16 h) = word32 h.
Proof. apply pack_word. Qed.
(** Elements become numbers of 16 bits, 65536 becoming 0 with a mark in the flag. *)
Theorem C33_unpack B w n s : nf4_type B w n -> elements n s ->
  unpack B w n (word32 s) = (word16 (map (fun x => if x =? 65536 then 0 else x) s), marks s).
Proof. apply unpack_word. Qed.
(** Flags are 0 when nothing is 65536. *)
Theorem C33_marks s : marks s = 0 <-> ~ In 65536 s.
Proof.
  induction s as [|x s IH]; [cbn; tauto|]. rewrite marks_cons. cbn [In]. destruct (N.eqb_spec x 65536); split; intros H.
  - lia.
  - destruct H; auto.
  - intros [?|?]; [contradiction|]. apply IH; auto. lia.
  - rewrite (proj2 IH); auto.
Qed.
Theorem C33_marks_bit s i : N.testbit (marks s) (N.of_nat i) = (nth i s 0 =? 65536).
Proof.
  revert i. induction s as [|x s IH]; intros i; [destruct i; reflexivity|]. rewrite marks_cons. destruct i; cbn [nth].
  - change (N.of_nat 0) with 0. destruct (x =? 65536); [rewrite N.add_comm; apply N.testbit_odd_0|apply N.testbit_even_0].
  - rewrite Nat2N.inj_succ, <- IH. destruct (x =? 65536); [rewrite N.add_comm; apply N.testbit_odd_succ|apply N.testbit_even_succ]; apply N.le_0_l.
Qed.
(** Round trips. *)
Theorem C33_unpack_pack B w n h : nf4_type B w n -> numbers n h -> unpack B w n (pack B w n (word16 h)) = (word16 h, 0).
Proof.
  intros HT Hh. rewrite C33_pack by auto. destruct Hh as [L H].
  assert (E : elements n h) by (split; [exact L|]; eapply Forall_impl; [|exact H]; cbv beta; lia).
  rewrite C33_unpack by auto. f_equal.
  - f_equal. rewrite <- (map_id h) at 2. apply map_ext_in. intros x Hx. pose proof (proj1 (Forall_forall _ _) H x Hx). cbv beta in *.
    destruct (N.eqb_spec x 65536); [lia|auto].
  - apply C33_marks. intros Hi. apply (proj1 (Forall_forall _ _) H) in Hi. lia.
Qed.
Theorem C33_pack_unpack B w n s : nf4_type B w n -> elements n s ->
  let (values, flag) := unpack B w n (word32 s) in pack_flag B w n values flag = word32 s.
Proof. intros HT Hs. rewrite C33_unpack by auto. now apply pack_flag_word. Qed.

(** [check] accepts all words of elements, and with more than one element words that are not. *)
Theorem C33_check w n s : 32 * N.of_nat n <= w -> (0 < n)%nat -> elements n s -> nf4_check w n (word32 s) = true.
Proof.
  intros Hw Hn Hs. unfold nf4_check, nf4_q. rewrite (replicate_word w n Plain) by (try (split; auto); reflexivity).
  apply N.ltb_lt. destruct Hs as [Ls Hs]. rewrite <- Ls in *. clear Ls n Hw. revert Hn.
  induction Hs as [|x s Hx Hs IH]; intros Hn; [cbn in Hn; lia|]. cbn [length repeat]. unfold word32. rewrite !digits_cons.
  destruct s as [|y s]; [cbn; lia|]. specialize (IH ltac:(cbn; lia)). unfold word32 in IH. lia.
Qed.
Theorem C33_check_refuted : exists a, nf4_check 64 2 a = true /\ forall s, elements 2 s -> a <> word32 s.
Proof.
  exists 65537. split; [vm_compute; reflexivity|]. intros s [L H]. destruct s as [|x [|y [|]]]; try discriminate.
  inversion H as [|? ? Hx H']; inversion H'; subst. unfold word32. cbn [digits fold_right]. lia.
Qed.

(** Cases: four elements, one of them 65536, with registers of 128 and of 256 bits and with the generic functions. *)
Example C33_case :
  let s := [65536; 1; 65535; 40000] in let t := [65536; 65536; 3; 0] in
  let B1 := Wide 1 (fun _ => repeat 0 16) in let B2 := Wide 2 (fun x => repeat 255 16) in
  nf4_type B1 128 4 /\ nf4_type B2 128 4 /\ nf4_type Plain 128 4 /\ nf4_type Plain 64 2 /\ elements 4 s /\ elements 4 t /\
  nf4_mul B1 128 4 (word32 s) (word32 t) = word32 [1; 65536; 65531; 0] /\
  nf4_mul B2 128 4 (word32 s) (word32 t) = word32 [1; 65536; 65531; 0] /\
  nf4_mul Plain 128 4 (word32 s) (word32 t) = word32 [1; 65536; 65531; 0] /\
  nf4_add B2 128 4 (word32 s) (word32 t) = word32 [65535; 0; 1; 40000] /\
  unpack B1 128 4 (word32 s) = (word16 [0; 1; 65535; 40000], 1) /\
  unpack Plain 128 4 (word32 t) = (word16 [0; 0; 3; 0], 3) /\
  unpack B1 128 2 (word32 [5; 65536]) = (word16 [5; 0], 2).
Proof.
  assert (T : forall nh b, (nh = 1 \/ nh = 2)%nat -> b < 256 -> nf4_type (Wide nh (fun _ => repeat b 16)) 128 4).
  { intros nh b Hn Hb. split; [lia|]. split; [reflexivity|]. split; [lia|]. split; [exact Hn|]. intros x. split; [reflexivity|].
    apply Forall_forall. intros y Hy. apply repeat_spec in Hy. now subst. }
  cbv zeta. split; [apply T; [now left|reflexivity]|]. split; [apply T; [now right|reflexivity]|].
  split; [split; [lia|cbn; lia]|]. split; [split; [lia|cbn; lia]|].
  split; [split; [reflexivity|repeat constructor]|]. split; [split; [reflexivity|repeat constructor]|].
  repeat split; vm_compute; reflexivity.
Qed.

Print Assumptions C33_word.
Print Assumptions C33_add.
Print Assumptions C33_sub.
Print Assumptions C33_mul.
Print Assumptions C33_neg.
Print Assumptions C33_exp.
Print Assumptions C33_inv.
Print Assumptions C33_div.
Print Assumptions C33_log.
Print Assumptions C33_replicate.
Print Assumptions C33_hadamard.
Print Assumptions C33_pack.
Print Assumptions C33_unpack.
Print Assumptions C33_marks.
Print Assumptions C33_marks_bit.
Print Assumptions C33_unpack_pack.
Print Assumptions C33_pack_unpack.
Print Assumptions C33_check.
Print Assumptions C33_check_refuted.
