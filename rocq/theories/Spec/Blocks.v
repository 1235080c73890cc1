(** Blocks of bytes seen as words, independently of the model. *)
From Coq Require Import List NArith Arith.
From Verif.Spec Require Import Modular.
Import ListNotations.

(** Word [t] of a block: [ws] bytes, least significant first; bytes beyond the end count as zero. *)
Definition symbol (ws : nat) (block : list N) (t : nat) : N :=
  sumN (fun b => nth (t * ws + b) block 0%N * 256 ^ N.of_nat b)%N ws.

(** [old] with its first [n] words replaced by the [f t], each cut to [ws] bytes. *)
Definition overwrite (ws n : nat) (f : nat -> N) (old : list N) : list N :=
  map (fun b => (f (b / ws)%nat / 256 ^ N.of_nat (b mod ws)%nat) mod 256)%N (seq 0 (n * ws)) ++ skipn (n * ws) old.

(** The record of a fragment with symbols [f]: the places below [n] that hold the value [h], with the mark 1. *)
Definition record (h : N) (f : nat -> N) (n : nat) : list (N * N) :=
  map (fun t => (N.of_nat t, 1%N)) (filter (fun t => (f t =? h)%N) (seq 0 n)).

Definition all_bytes (block : list N) : Prop := Forall (fun b => (b < 256)%N) block.

(** The first [len] bytes of the words [f 0], [f 1], ... of [ws] bytes. *)
Definition stream_of (ws : nat) (f : nat -> N) (len : nat) : list N :=
  map (fun b => (f (b / ws)%nat / 256 ^ N.of_nat (b mod ws)%nat) mod 256)%N (seq 0 len).

(** A record that a decoder can use for a fragment of [n] words: different places, all below [n], mark 1. *)
Definition good_record (n : nat) (rec : list (N * N)) : Prop :=
  NoDup (map fst rec) /\ forall o mk, In (o, mk) rec -> mk = 1%N /\ (o < N.of_nat n)%N.

(** Symbol [t] of a stored fragment with its record. *)
Definition stored_symbol (h : N) (ws : nat) (block : list N) (rec : list (N * N)) (t : nat) : N :=
  if existsb (fun r => (fst r =? N.of_nat t)%N) rec then h else symbol ws block t.
