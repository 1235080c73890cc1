(** What the benchmark does, independently of its code. *)
From Coq Require Import List NArith ZArith Arith Bool Permutation.
From Verif.Model Require Import Common Bench.
From Verif.Spec Require Import Session.
Import ListNotations.
Open Scope nat_scope.

(** The orders that the successive shuffles give. *)
Fixpoint orders (shuf : list (list nat -> list nat)) (ids : list nat) : list (list nat) :=
  match shuf with [] => [] | f :: l => f ids :: orders l (f ids) end.
(** An order in which the first [k] fragments are not all data: one that the benchmark decodes. *)
Definition good (sys : bool) (k : nat) (ids : list nat) : bool := negb (sys && forallb (fun j => j <? k) (firstn k ids)).
(** How many of the decodings can be made. *)
Definition possible (sys : bool) (k n : nat) (shuf : list (list nat -> list nat)) : nat :=
  length (filter (good sys k) (orders shuf (seq 0 n))).
(** random_shuffle. *)
Definition shuffles (shuf : list (list nat -> list nat)) : Prop := Forall (fun f => forall l, Permutation l (f l)) shuf.

(** The chunks of the fragments in use, for an order that is decoded. *)
Definition lost_in (k n : nat) (ids : list nat) : list bool := map (fun i => negb (existsb (Nat.eqb i) (firstn k ids))) (seq 0 n).

Definition sized (n L : nat) (b : list (list N)) : Prop := length b = n /\ forall i, i < n -> length (nth i b []) = L.

(** The three scenarios with chunks of [L] bytes, with any contents of the new chunks, seed and shuffles: they return true when
    enough shuffles are given (and otherwise wait for one), the repaired chunks are the data, and every operation is counted. *)
Definition runs_well (c : coder) (L : nat) (pat : list bool -> Prop) : Prop :=
  forall p samples d0 c0 r0 shuf, sized (cd_k c) L d0 -> sized (cd_nc c) L c0 -> sized (cd_k c) L r0 -> shuffles shuf ->
  (forall ids, In ids (orders shuf (seq 0 (cd_k c + cd_m c))) -> pat (lost_in (cd_k c) (cd_k c + cd_m c) ids)) ->
  let s0 := bench_init c d0 c0 r0 shuf in
  let n := possible (cd_sys c) (cd_k c) (cd_k c + cd_m c) shuf in
  (exists s, enc_only c L samples p s0 = BTrue s /\ be_enc s = samples /\ be_dec s = 0 /\ blocks (cd_k c) L (be_d s)) /\
  (samples <= n -> exists s, dec_only c L samples p s0 = BTrue s /\ be_enc s = 1 /\ be_dec s = samples /\ blocks (cd_k c) L (be_d s) /\
     (0 < samples -> be_r s = be_d s)) /\
  (samples <= n -> exists s, enc_dec c L samples p s0 = BTrue s /\ be_enc s = samples /\ be_dec s = samples /\ blocks (cd_k c) L (be_d s) /\
     (0 < samples -> be_r s = be_d s)) /\
  (n < samples -> dec_only c L samples p s0 = BMore /\ enc_dec c L samples p s0 = BMore).
