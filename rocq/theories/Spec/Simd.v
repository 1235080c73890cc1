(** Registers as arrays of elements, independently of the instructions. *)
From Coq Require Import List NArith Arith.
From Verif.Spec Require Import Blocks.
Import ListNotations.
Open Scope nat_scope.

(** The two fields that have SIMD functions: elements of [e] bytes, modulus [q]. *)
Definition lane_field (e : nat) (q : N) : Prop := (e = 2 /\ q = 257%N) \/ (e = 4 /\ q = 65537%N).

(** Registers of one or two halves of 128 bits. *)
Definition reg_halves (nh : nat) : Prop := nh = 1 \/ nh = 2.

(** A register whose elements are all below [q]; element [t] is [symbol e r t]. *)
Definition reduced (e nh : nat) (q : N) (r : list N) : Prop :=
  length r = 16 * nh /\ all_bytes r /\ forall t, t < 16 * nh / e -> (symbol e r t < q)%N.

(** The register [r] has the elements [f t]. *)
Definition holds (e nh : nat) (f : nat -> N) (r : list N) : Prop :=
  length r = 16 * nh /\ all_bytes r /\ forall t, t < 16 * nh / e -> symbol e r t = f t.

(** A packet of [n] elements of the field, and a packet with the elements [f t]. *)
Definition packet (q : N) (n : nat) (p : list N) : Prop := length p = n /\ forall t, t < n -> (nth t p 0 < q)%N.
Definition filled (n : nat) (f : nat -> N) (p : list N) : Prop := length p = n /\ forall t, t < n -> nth t p 0%N = f t.

(** Places of the value [v] in a packet that starts at [offset]. *)
Definition places (v offset : N) (p : list N) : list (N * N) :=
  map (fun t => ((offset + N.of_nat t)%N, 1%N)) (filter (fun t => (nth t p 0 =? v)%N) (seq 0 (length p))).
