(** Serialisation of records: C08-C11. *)
From Coq Require Import List NArith ZArith Arith Lia.
From Verif.Model Require Import Common Props Bytes Header.
From Verif.Spec Require Import Header.
From Verif.Proof Require Import HeaderP TextP.
Import ListNotations.
Open Scope nat_scope.

(** ** C08 *)

(** Records that fit with one word to spare come back in the same order (after what was there before), with locations
    modulo 2^32 and marker 1. *)
Theorem C08_roundtrip : forall ps ws ps0,
  2 + length ps < length ws -> (N.of_nat (length ws) < 2 ^ 32)%N ->
  exists ws', fnt_serialize ps ws = Ret (0%Z, ws') /\ length ws' = length ws /\
    fnt_deserialize ps0 ws' = Ret (0%Z, ps0 ++ map (fun p => (fst p mod 2 ^ 32, 1)%N) ps).
Proof. exact serialize_deserialize. Qed.

(** The same records come back when locations are below 2^32 and markers are 1. *)
Theorem C08_same : forall ps ws,
  2 + length ps < length ws -> (N.of_nat (length ws) < 2 ^ 32)%N ->
  Forall (fun p => (fst p < 2 ^ 32 /\ snd p = 1)%N) ps ->
  exists ws', fnt_serialize ps ws = Ret (0%Z, ws') /\ fnt_deserialize [] ws' = Ret (0%Z, ps).
Proof.
  intros ps ws H Hn Hp. destruct (serialize_deserialize ps ws [] H Hn) as (ws' & E & _ & D). exists ws'. split; [exact E|].
  rewrite D. cbn [app]. do 2 f_equal. rewrite <- (map_id ps) at 2. apply map_ext_in. intros [l m] Hin.
  rewrite Forall_forall in Hp. destruct (Hp _ Hin) as [A B]. cbn [fst snd] in *. subst m. unfold wrap. now rewrite N.mod_small.
Qed.

(** The bytes written: "FNT1", count, locations, zeros; the last word keeps its old contents. *)
Theorem C08_layout : forall ps ws, 2 + length ps < length ws ->
  exists ws', fnt_serialize ps ws = Ret (0%Z, ws') /\
    memory ws' = header (map (fun p => fst p mod 2 ^ 32)%N ps) ++ repeat 0%N (4 * (length ws - 3 - length ps)) ++ le32 (last ws 0%N).
Proof. exact serialize_memory. Qed.

(** Too many records: -1, nothing written. *)
Theorem C08_no_room : forall ps ws, length ws < 2 + length ps -> fnt_serialize ps ws = Ret ((-1)%Z, ws).
Proof. exact serialize_small. Qed.

(** Reading refuses a short array, a wrong magic and a count that does not fit; nothing is added.  (The two counts for which
    this fails are in C10.) *)
Theorem C08_refused_partial : forall ps ws, (N.of_nat (length ws) < 2 ^ 32)%N ->
  length ws < 2 \/ le32 (nth 0 ws 0%N) <> magic \/
    (net_value (nth 1 ws 0%N) < 2 ^ 32 - 2)%N /\ (N.of_nat (length ws) < 2 + net_value (nth 1 ws 0%N))%N ->
  fnt_deserialize ps ws = Ret ((-1)%Z, ps).
Proof.
  intros ps ws Hn H. apply deserialize_bad; [exact Hn|]. rewrite <- net_magic, htonl_net. exact H.
Qed.

(** The full C08 is false in three places: records that fill the array exactly (2 + count words), locations of 2^32 and
    more, and a count that wraps. *)
Definition C08_statement : Prop := forall ps ws, 2 + length ps <= length ws -> (N.of_nat (length ws) < 2 ^ 32)%N ->
  Forall (fun p => (fst p < 2 ^ 32 /\ snd p = 1)%N) ps ->
  exists ws', fnt_serialize ps ws = Ret (0%Z, ws') /\ fnt_deserialize [] ws' = Ret (0%Z, ps).

Theorem C08_refuted : exists ps ws, 2 + length ps <= length ws /\ (N.of_nat (length ws) < 2 ^ 32)%N /\
  Forall (fun p => (fst p < 2 ^ 32 /\ snd p = 1)%N) ps /\ fnt_serialize ps ws = Ub.
Proof.
  exists [(5, 1); (7, 1)]%N, [0; 0; 0; 0]%N. split; [cbn; lia|]. split; [reflexivity|].
  split; [repeat constructor|reflexivity].
Qed.

Corollary C08_statement_false : ~ C08_statement.
Proof.
  intros H. destruct C08_refuted as (ps & ws & A & B & C & D). destruct (H ps ws A B C) as (ws' & E & _). congruence.
Qed.

(** Two locations that differ by 2^32 give the same header. *)
Theorem C08_location_refuted : exists ps ws ws', 2 + length ps < length ws /\ fnt_serialize ps ws = Ret (0%Z, ws') /\
  fnt_deserialize [] ws' = Ret (0%Z, [(5, 1)]%N) /\ ps <> [(5, 1)]%N.
Proof.
  exists [(4294967301, 1)]%N, [0; 0; 0; 0]%N. eexists. split; [cbn; lia|].
  split; [vm_compute; reflexivity|]. split; [vm_compute; reflexivity|]. discriminate.
Qed.

Example C08_case : exists ws', fnt_serialize [(5, 1); (65536, 1)]%N [9; 9; 9; 9; 9; 9]%N = Ret (0%Z, ws') /\
  memory ws' = [70; 78; 84; 49; 0; 0; 0; 2; 0; 0; 0; 5; 0; 1; 0; 0; 0; 0; 0; 0; 9; 0; 0; 0]%N /\
  fnt_deserialize [] ws' = Ret (0%Z, [(5, 1); (65536, 1)]%N).
Proof. eexists. split; [vm_compute; reflexivity|]. split; vm_compute; reflexivity. Qed.

Example C08_refused_case : fnt_deserialize [(3, 1)]%N [827608646; 83886080; 0; 0]%N = Ret ((-1)%Z, [(3, 1)]%N) /\
  (net_value 83886080 = 5)%N /\ le32 827608646 = magic.
Proof. split; [vm_compute; reflexivity|]. split; reflexivity. Qed.

Print Assumptions C08_roundtrip.
Print Assumptions C08_same.
Print Assumptions C08_layout.
Print Assumptions C08_no_room.
Print Assumptions C08_refused_partial.
Print Assumptions C08_refuted.
Print Assumptions C08_location_refuted.

(** ** C09 *)

(** Text written by operator<< and read by operator>> gives the same list of pairs. *)
Theorem C09_text_roundtrip : forall ps, Forall (fun p => (fst p < 2 ^ 64 /\ snd p < 2 ^ 32)%N) ps ->
  parse_props (print_props ps) [] = Some ps.
Proof. exact parse_print. Qed.

(** "12 = 1\n7 = 65536\n" *)
Example C09_case : print_props [(12, 1); (7, 65536)]%N =
  [49; 50; 32; 61; 32; 49; 10; 55; 32; 61; 32; 54; 53; 53; 51; 54; 10]%N /\
  parse_props (print_props [(12, 1); (7, 65536)]%N) [] = Some [(12, 1); (7, 65536)]%N.
Proof. split; vm_compute; reflexivity. Qed.

Print Assumptions C09_text_roundtrip.

(** ** C10 *)

(** Reading leaves the array exactly for the magic followed by one of the two counts 2^32 - 2 and 2^32 - 1. *)
Theorem C10_bounds_partial : forall ps ws, (N.of_nat (length ws) < 2 ^ 32)%N ->
  fnt_deserialize ps ws = Ub <->
  2 <= length ws /\ le32 (nth 0 ws 0%N) = magic /\ (2 ^ 32 - 2 <= net_value (nth 1 ws 0%N))%N.
Proof. intros ps ws H. rewrite net_magic, <- htonl_net. exact (deserialize_ub ps ws H). Qed.

(** When it stays inside and succeeds, what is added is the [count] words that follow. *)
Theorem C10_read : forall ps ws, 2 <= length ws -> le32 (nth 0 ws 0%N) = magic ->
  (2 + net_value (nth 1 ws 0%N) <= N.of_nat (length ws))%N -> (N.of_nat (length ws) < 2 ^ 32)%N ->
  fnt_deserialize ps ws =
    Ret (0%Z, ps ++ map (fun v => (net_value v, 1)%N) (firstn (N.to_nat (net_value (nth 1 ws 0%N))) (skipn 2 ws))).
Proof.
  intros ps ws H2 Hm Hc Hn. apply net_magic in Hm. rewrite <- htonl_net in *. rewrite deserialize_good by assumption.
  do 3 f_equal. apply map_ext. intros v. now rewrite htonl_net.
Qed.

Theorem C10_refuted : exists ws, (N.of_nat (length ws) < 2 ^ 32)%N /\ fnt_deserialize [] ws = Ub.
Proof. exists [827608646; 4278190079]%N. split; [reflexivity|]. vm_compute. reflexivity. Qed.

Example C10_case : fnt_deserialize [] [827608646; 4278190079; 1; 2; 3]%N = Ub /\
  fnt_deserialize [] [827608646; 16777216; 83886080; 2; 3]%N = Ret (0%Z, [(5, 1)]%N).
Proof. split; vm_compute; reflexivity. Qed.

Print Assumptions C10_bounds_partial.
Print Assumptions C10_read.
Print Assumptions C10_refuted.

(** ** C11 *)

(** Writing leaves the array exactly when the records fill it without a spare word. *)
Theorem C11_bounds_partial : forall ps ws, fnt_serialize ps ws = Ub <-> length ws = 2 + length ps.
Proof.
  intros ps ws. split; [|exact (serialize_exact ps ws)]. intros H. destruct (lt_eq_lt_dec (length ws) (2 + length ps)) as [[L|L]|L].
  - rewrite serialize_small in H by exact L. discriminate.
  - exact L.
  - destruct (serialize_fits ps ws L) as (ws' & E & _). congruence.
Qed.

(** Otherwise every word but the last one is a function of the records. *)
Theorem C11_defined_partial : forall ps ws1 ws2 r1 r2, length ws1 = length ws2 -> 2 + length ps < length ws1 ->
  fnt_serialize ps ws1 = Ret r1 -> fnt_serialize ps ws2 = Ret r2 ->
  fst r1 = fst r2 /\ forall j, j < length ws1 - 1 -> nth j (snd r1) 0%N = nth j (snd r2) 0%N.
Proof.
  intros ps ws1 ws2 r1 r2 L H E1 E2.
  destruct (serialize_fits ps ws1 H) as (w1 & F1 & _ & W1). destruct (serialize_fits ps ws2) as (w2 & F2 & _ & W2); [lia|].
  rewrite F1 in E1. rewrite F2 in E2. injection E1 as <-. injection E2 as <-. split; [reflexivity|]. intros j Hj. cbn [snd].
  rewrite W1, W2, <- L. apply Nat.ltb_lt in Hj. rewrite Hj. reflexivity.
Qed.

(** The exactly full header is undefined behaviour, and the last word of any other header is not written. *)
Theorem C11_refuted : (exists ps ws, length ws = 2 + length ps /\ fnt_serialize ps ws = Ub) /\
  (exists ps ws1 ws2 r1 r2, length ws1 = length ws2 /\ fnt_serialize ps ws1 = Ret (0%Z, r1) /\
     fnt_serialize ps ws2 = Ret (0%Z, r2) /\ r1 <> r2).
Proof.
  split.
  - exists [(5, 1)]%N, [0; 0; 0]%N. split; reflexivity.
  - exists [(5, 1)]%N, [0; 0; 0; 0]%N, [0; 0; 0; 9]%N. do 2 eexists. split; [reflexivity|].
    split; [vm_compute; reflexivity|]. split; [vm_compute; reflexivity|]. discriminate.
Qed.

Example C11_case : exists r1 r2, fnt_serialize [(5, 1)]%N [1; 1; 1; 1; 1]%N = Ret r1 /\ fnt_serialize [(5, 1)]%N [2; 2; 2; 2; 2]%N = Ret r2 /\
  snd r1 = [827608646; 16777216; 83886080; 0; 1]%N /\ snd r2 = [827608646; 16777216; 83886080; 0; 2]%N.
Proof. do 2 eexists. split; [vm_compute; reflexivity|]. split; [vm_compute; reflexivity|]. split; reflexivity. Qed.

Print Assumptions C11_bounds_partial.
Print Assumptions C11_defined_partial.
Print Assumptions C11_refuted.
