(** Model of class Properties of src/property.h: records of special values.  Proof-free. *)
From Coq Require Import List NArith Arith Bool.
From Verif.Model Require Import Common.
Import ListNotations.
Open Scope N_scope.

(** property.h:62: pairs of a location and a marker. *)
Definition props := list (N * N).

(** property.h:46: [enum { OOR_MARK = 1 }]. *)
Definition OOR_MARK : N := 1.

(** property.h:76-79 *)
Definition props_add (ps : props) (location marker : N) : props := ps ++ [(location, marker)].

(** Order of std::pair used by std::sort: lexicographic. *)
Definition pair_leb (a b : N * N) : bool := (fst a <? fst b) || ((fst a =? fst b) && (snd a <=? snd b)).

(** property.h:94-97.  std::sort puts the pairs in the lexicographic order; equal pairs cannot be told apart, hence
    insertion sort gives the same list. *)
Fixpoint props_insert (x : N * N) (l : props) : props :=
  match l with
  | [] => [x]
  | y :: t => if pair_leb x y then x :: l else y :: props_insert x t
  end.
Fixpoint props_sort (l : props) : props :=
  match l with [] => [] | x :: t => props_insert x (props_sort t) end.

(** property.h:152-155 *)
Definition props_location (ps : props) (i : nat) : N := match nth_error ps i with Some x => fst x | None => 0 end.
(** property.h:165-168 *)
Definition props_marker (ps : props) (i : nat) : N := match nth_error ps i with Some x => snd x | None => 0 end.
(** property.h:178-181 *)
Definition props_is_marked (ps : props) (i : nat) (loc : N) : bool :=
  match nth_error ps i with Some x => fst x =? loc | None => false end.
(** property.h:192-197 *)
Definition props_in_range (ps : props) (i : nat) (mn mx : N) : bool :=
  match nth_error ps i with Some x => (mn <=? fst x) && (fst x <? mx) | None => false end.
