(** The powers of a root kept in a file: property C62. *)
From Coq Require Import List NArith Arith Bool Lia.
From Verif.Model Require Import Common Ring Header Cached.
From Verif.Spec Require Import Primes.
From Verif.Proof Require Import ListP TextP FntInst PrimeP.
From Verif.Thm Require Import FieldThm.
Import ListNotations.
Open Scope N_scope.

(** ** What must be computed *)
Definition powers (p a : N) (n : nat) : list N := map (fun i => a ^ N.of_nat i mod p) (seq 0 n).
(** [n] is the order of [a] modulo [p]. *)
Definition is_order (p a : N) (n : nat) : Prop :=
  (0 < n)%nat /\ a ^ N.of_nat n mod p = 1 /\ forall i, (0 < i < n)%nat -> a ^ N.of_nat i mod p <> 1.

(** Calls of compute_omegas_cached one after the other: a vector, a length, a root. *)
Definition call : Type := list N * nat * N.
Fixpoint session (tw p : N) (fs : files) (calls : list call) : option (list (list N)) :=
  match calls with
  | [] => Some []
  | (W, n, a) :: calls =>
      match compute_omegas_cached tw (prime_ops tw p) fs W n a with
      | Some (fs, W') => match session tw p fs calls with Some l => Some (W' :: l) | None => None end
      | None => None
      end
  end.

(** ** Names *)
Lemma text_eqb_ok a : forall b, text_eqb a b = true <-> a = b.
Proof.
  induction a as [|x a IH]; intros [|y b]; cbn [text_eqb]; try (split; [discriminate|discriminate]); [tauto|].
  rewrite andb_true_iff, N.eqb_eq, IH. split; [now intros [-> ->]|intros E; injection E; auto].
Qed.
Lemma name_inj a b : cache_name a = cache_name b -> a = b.
Proof.
  unfold cache_name. intros E. injection E as E. apply app_inv_tail in E.
  now rewrite <- (proj2 (proj2 (print_number_ok a))), E, (proj2 (proj2 (print_number_ok b))).
Qed.
Lemma find_cons nm t fs a : find_file ((nm, t) :: fs) a = if text_eqb nm a then Some t else find_file fs a.
Proof. reflexivity. Qed.

(** ** Texts *)
Definition text_of (l : list N) : text := flat_map (fun v => print_number v ++ [ch_nl]) l.
Lemma digits_end_app l r : digits l -> digits_end (l ++ ch_nl :: r) = ch_nl :: r.
Proof. induction 1 as [|c l Hc H IH]; [reflexivity|]. cbn [app digits_end]. now rewrite Hc. Qed.
Lemma sign_digit c t : is_digit c = true ->
  match c :: t with 45 :: t0 => (true, t0) | 43 :: t0 => (false, t0) | _ => (false, c :: t) end = (false, c :: t).
Proof.
  intros H. apply digit_range in H. assert (D : In c [48; 49; 50; 51; 52; 53; 54; 55; 56; 57]) by (cbn [In]; lia).
  cbn [In] in D. repeat destruct D as [<-|D]; try reflexivity. contradiction.
Qed.
Lemma extract_number tw nl v r : nl = [] \/ nl = [ch_nl] -> v < 2 ^ tw ->
  extract tw (nl ++ print_number v ++ ch_nl :: r) = Some (v, ch_nl :: r).
Proof.
  intros Hnl Hv. destruct (print_number_ok v) as (D & NE & R). destruct (print_number v) as [|c l] eqn:E; [contradiction|].
  assert (Hc : is_digit c = true) by now inversion D. unfold extract.
  assert (S : drop_space (nl ++ (c :: l) ++ ch_nl :: r) = (c :: l) ++ ch_nl :: r).
  { destruct Hnl as [-> | ->]; cbn [app drop_space]; [|change (is_space ch_nl) with true; cbv iota]; now rewrite (digit_space _ Hc). }
  rewrite S. cbn [app]. rewrite (sign_digit c (l ++ ch_nl :: r) Hc), Hc. change (c :: l ++ ch_nl :: r) with ((c :: l) ++ ch_nl :: r).
  rewrite read_digits_app by exact D. rewrite R. cbn [read_digits]. change (is_digit ch_nl) with false. cbv iota.
  rewrite (proj2 (N.ltb_lt _ _) Hv). now rewrite digits_end_app.
Qed.
Lemma extract_end tw nl : nl = [] \/ nl = [ch_nl] -> extract tw nl = None.
Proof. now intros [-> | ->]. Qed.
Lemma set_at (W : list N) i v : (i < length W)%nat -> firstn (S i) (set W i v) = firstn i W ++ [v] /\ skipn (S i) (set W i v) = skipn (S i) W.
Proof.
  revert i. induction W as [|x W IH]; intros i Hi; [cbn in Hi; lia|]. destruct i as [|i]; [split; reflexivity|].
  cbn [length] in Hi. destruct (IH i ltac:(lia)) as [A B]. cbn [set]. split; [|exact B].
  change (firstn (S (S i)) (x :: set W i v)) with (x :: firstn (S i) (set W i v)). now rewrite A.
Qed.
Lemma skipn_add {A} a b (l : list A) : skipn (a + b) l = skipn b (skipn a l).
Proof. revert l. induction a as [|a IH]; intros l; [reflexivity|]. destruct l; [now destruct b|]. cbn [Nat.add skipn]. apply IH. Qed.
Lemma read_text tw l : forall fuel nl i W, nl = [] \/ nl = [ch_nl] -> Forall (fun v => v < 2 ^ tw) l -> (length l < fuel)%nat ->
  read_loop fuel tw (nl ++ text_of l) i W =
  if (length l =? 0)%nat || (i + length l <=? length W)%nat then Some ((i + length l)%nat, firstn i W ++ l ++ skipn (i + length l) W) else None.
Proof.
  induction l as [|v l IH]; intros fuel nl i W Hnl Hl Hf; (destruct fuel as [|fuel]; [cbn in Hf; lia|]).
  - cbn [text_of flat_map read_loop length]. rewrite app_nil_r, extract_end by exact Hnl. cbn [Nat.eqb orb app]. now rewrite Nat.add_0_r, firstn_skipn.
  - inversion Hl as [|? ? Hv Hl']; subst. cbn [read_loop]. change (text_of (v :: l)) with ((print_number v ++ [ch_nl]) ++ text_of l).
    rewrite <- app_assoc. cbn [app]. rewrite extract_number by assumption. cbn [length Nat.eqb orb] in *.
    destruct (Nat.ltb_spec i (length W)) as [Li|Li].
    + change (ch_nl :: text_of l) with ([ch_nl] ++ text_of l). rewrite IH by (auto; lia). rewrite set_length.
      destruct (set_at W i v Li) as [A B]. replace (i + S (length l))%nat with (S i + length l)%nat by lia.
      destruct (Nat.eqb_spec (length l) 0) as [Z|Z].
      * destruct l; [|discriminate]. cbn [orb length]. rewrite Nat.add_0_r, (proj2 (Nat.leb_le (S i) (length W)) Li).
        rewrite A, B. cbn [app]. now rewrite <- app_assoc.
      * cbn [orb]. destruct (Nat.leb_spec (S i + length l) (length W)) as [Q|Q]; [|reflexivity].
        f_equal. f_equal. rewrite A, <- app_assoc. cbn [app]. do 3 f_equal.
        now rewrite !skipn_add, B.
    + destruct (Nat.leb_spec (i + S (length l)) (length W)); [lia|reflexivity].
Qed.

Lemma text_length l : (length l <= length (text_of l))%nat.
Proof. induction l as [|v l IH]; [reflexivity|]. cbn [text_of flat_map]. fold (text_of l). rewrite !app_length. cbn [length]. lia. Qed.

Section Prime.
Variables (tw p : N).
Hypothesis pp : primeN p.
Hypothesis pw : 2 * p <= 2 ^ tw.
Notation G := (prime_ops tw p).

Lemma omegas_powers a n : a < p -> compute_omegas G n a = powers p a n.
Proof. intros Ha. apply map_ext. intros i. now apply C20_exp. Qed.
Lemma powers_length a n : length (powers p a n) = n.
Proof. unfold powers. now rewrite map_length, seq_length. Qed.
Lemma powers_fit a n : Forall (fun v => v < 2 ^ tw) (powers p a n).
Proof.
  apply Forall_forall. intros v Hv. apply in_map_iff in Hv. destruct Hv as (i & <- & _).
  destruct pp as [p2 _]. pose proof (N.mod_lt (a ^ N.of_nat i) p ltac:(lia)). lia.
Qed.

(** No file: the powers are computed and written. *)
Lemma call_new fs W n a : a < p -> find_file fs (cache_name a) = None -> length W = n ->
  compute_omegas_cached tw G fs W n a = Some ((cache_name a, text_of (powers p a n)) :: fs, powers p a n).
Proof.
  intros Ha E L. unfold compute_omegas_cached. rewrite E, L, Nat.leb_refl, omegas_powers by exact Ha.
  rewrite skipn_all2 by lia. rewrite app_nil_r. rewrite firstn_all2 by now rewrite powers_length. reflexivity.
Qed.
(** A file of [m] powers. *)
Lemma call_old fs W n m a : find_file fs (cache_name a) = Some (text_of (powers p a m)) -> length W = n ->
  compute_omegas_cached tw G fs W n a = if (m =? n)%nat then Some (fs, powers p a n) else None.
Proof.
  intros E L. unfold compute_omegas_cached. rewrite E. pose proof (read_text tw (powers p a m) (S (length (text_of (powers p a m)))) [] 0 W) as R.
  cbn [app Nat.add firstn] in R. rewrite R; [|now left|apply powers_fit|pose proof (text_length (powers p a m)); lia]. rewrite powers_length.
  destruct (Nat.eqb_spec m n) as [->|NE].
  - rewrite L, Nat.leb_refl, orb_true_r, Nat.eqb_refl. rewrite skipn_all2 by lia. now rewrite app_nil_r.
  - destruct ((m =? 0)%nat || (m <=? length W)%nat); [|reflexivity]. now rewrite (proj2 (Nat.eqb_neq m n) NE).
Qed.

(** ** In one field, if each root always comes with the same length, every call gives the powers. *)
Theorem C62_session_partial fs calls :
  (forall W n a, In (W, n, a) calls -> a < p /\ length W = n /\ find_file fs (cache_name a) = None) ->
  (forall W n a W' n', In (W, n, a) calls -> In (W', n', a) calls -> n = n') ->
  session tw p fs calls = Some (map (fun c => powers p (snd c) (snd (fst c))) calls).
Proof.
  intros H1 H2. assert (I : forall W n a, In (W, n, a) calls -> a < p /\ length W = n /\
    (find_file fs (cache_name a) = None \/ find_file fs (cache_name a) = Some (text_of (powers p a n)))).
  { intros W n a Hc. destruct (H1 W n a Hc) as (A & B & C). auto. }
  clear H1. revert fs I. induction calls as [|[[W n] a] calls IH]; intros fs I; [reflexivity|]. cbn [session map fst snd].
  destruct (I W n a (or_introl eq_refl)) as (Ha & L & [F|F]).
  - rewrite call_new by assumption. rewrite IH; [reflexivity| |].
    + intros W1 n1 b W2 n2 Q1 Q2. apply (H2 W1 n1 b W2 n2); now right.
    + intros W1 n1 b Q. destruct (I W1 n1 b (or_intror Q)) as (A & B & C). split; [exact A|]. split; [exact B|]. rewrite find_cons.
      destruct (text_eqb (cache_name a) (cache_name b)) eqn:T; [|exact C]. apply text_eqb_ok, name_inj in T. subst b.
      right. rewrite (H2 W n a W1 n1); [reflexivity|now left|now right].
  - rewrite (call_old fs W n n a F L), Nat.eqb_refl. rewrite IH; [reflexivity| |].
    + intros W1 n1 b W2 n2 Q1 Q2. apply (H2 W1 n1 b W2 n2); now right.
    + intros W1 n1 b Q. apply I. now right.
Qed.
(** In particular if the length is the order of the root. *)
Theorem C62_orders fs calls :
  (forall W n a, In (W, n, a) calls -> a < p /\ length W = n /\ is_order p a n /\ find_file fs (cache_name a) = None) ->
  session tw p fs calls = Some (map (fun c => powers p (snd c) (snd (fst c))) calls).
Proof.
  intros H. apply C62_session_partial.
  - intros W n a Hc. destruct (H W n a Hc) as (A & B & _ & D). auto.
  - intros W n a W' n' H1 H2. destruct (H _ _ _ H1) as (_ & _ & (P1 & E1 & M1) & _). destruct (H _ _ _ H2) as (_ & _ & (P2 & E2 & M2) & _).
    destruct (lt_eq_lt_dec n n') as [[Q|Q]|Q]; [|exact Q|]; exfalso; [apply (M2 n)|apply (M1 n')]; auto.
Qed.

(** ** Refuted: two lengths for one root.  The second call leaves its vector or fails the assertion. *)
Theorem C62_length_refuted fs W W' n n' a : a < p -> find_file fs (cache_name a) = None -> length W = n -> length W' = n' -> n <> n' ->
  session tw p fs [(W, n, a); (W', n', a)] = None.
Proof.
  intros Ha F L L' NE. cbn [session]. rewrite call_new by assumption.
  rewrite (call_old _ W' n' n a); [now rewrite (proj2 (Nat.eqb_neq n n') NE)| |exact L'].
  rewrite find_cons. now rewrite (proj2 (text_eqb_ok _ _) eq_refl).
Qed.
End Prime.

(** ** Refuted: the files do not say which field they are for.  4 has order 5 modulo 11 and modulo 31; after a call in the first
    field the second one gets the powers modulo 11. *)
Theorem C62_field_refuted : exists tw p p' a n fs W, primeN p /\ primeN p' /\ is_order p a n /\ is_order p' a n /\
  compute_omegas_cached tw (prime_ops tw p) [] (repeat 0 n) n a = Some (fs, powers p a n) /\
  compute_omegas_cached tw (prime_ops tw p') fs (repeat 0 n) n a = Some (fs, W) /\ W <> powers p' a n.
Proof.
  exists 16, 11, 31, 4, 5%nat. eexists. eexists.
  split; [apply (is_prime_spec 16); [reflexivity|lia|reflexivity|now vm_compute]|].
  split; [apply (is_prime_spec 16); [reflexivity|lia|reflexivity|now vm_compute]|].
  assert (O : forall q, q = 11 \/ q = 31 -> is_order q 4 5).
  { intros q [-> | ->]; (split; [lia|]; split; [reflexivity|]);
      intros i Hi; do 5 (destruct i as [|i]; [first [lia|now vm_compute]|]); lia. }
  split; [auto|]. split; [auto|]. split; [vm_compute; reflexivity|]. split; [vm_compute; reflexivity|]. now vm_compute.
Qed.

(** ** Cases *)
Example C62_case : session 16 257 [] [(repeat 0 4, 4%nat, 241); (repeat 0 2, 2%nat, 256); (repeat 9 4, 4%nat, 241)] =
  Some [[1; 241; 256; 16]; [1; 256]; [1; 241; 256; 16]].
Proof. now vm_compute. Qed.

Print Assumptions C62_session_partial.
Print Assumptions C62_orders.
Print Assumptions C62_length_refuted.
Print Assumptions C62_field_refuted.
