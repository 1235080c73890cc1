(** Small helpers shared by the model files.  Proof-free. *)
From Coq Require Import List NArith ZArith Arith Bool.
Import ListNotations.
Open Scope nat_scope.

(** Write access to a vector: [v.set(i, x)] of vec_vector.h:247-251.  A write outside the vector is
    undefined behaviour in C++; here it leaves the list unchanged, and the places where an
    out-of-range write is reachable use [set_opt] instead. *)
Fixpoint set {A} (l : list A) (i : nat) (x : A) : list A :=
  match l, i with
  | [], _ => []
  | _ :: t, O => x :: t
  | a :: t, S j => a :: set t j x
  end.

(** Read access with an explicit value for the out-of-range case: [v.get(i)] of vec_vector.h:253-261. *)
Definition get {A} (d : A) (l : list A) (i : nat) : A := nth i l d.

(** Bounds-checked accesses: [None] stands for the undefined behaviour of an out-of-range index. *)
Definition get_opt {A} (l : list A) (i : nat) : option A := nth_error l i.
Definition set_opt {A} (l : list A) (i : nat) (x : A) : option (list A) :=
  if i <? length l then Some (set l i x) else None.

(** Exchange of two entries: [swap] of vec_vector.h:456-461 and vec_buffers.h:473. *)
Definition swap {A} (d : A) (l : list A) (i j : nat) : list A :=
  set (set l i (get d l j)) j (get d l i).

(** Indices visited by [for (i = start; i < stop; i += step)]; [fuel] bounds the number of turns. *)
Fixpoint steps (fuel i stop step : nat) : list nat :=
  match fuel with
  | O => []
  | S f => if i <? stop then i :: steps f (i + step) stop step else []
  end.

(** Unsigned machine arithmetic of [w] bits. *)
Definition wrap (w : N) (x : N) : N := N.modulo x (N.pow 2 w).
