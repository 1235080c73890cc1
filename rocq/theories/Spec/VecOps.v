(** Specification for C70: what an operation on the elements of a vector is. *)
From Coq Require Import List NArith Arith Bool.
From Verif.Model Require Import Common Views.
Import ListNotations.
Open Scope nat_scope.

(** The elements of [dst] from [offset] on are combined with the first [len] elements of [src]; nothing else is changed. *)
Definition combined (w : N) (f : N -> N -> N) (m m' : memory) (dst src : vect) (offset len : nat) : Prop :=
  length m' = length m /\
  (forall i, i < len -> exists x y, vget w m dst (offset + i) = Some x /\ vget w m src i = Some y /\
     vget w m' dst (offset + i) = Some (f x y)) /\
  (forall i, i < offset \/ offset + len <= i -> vget w m' dst i = vget w m dst i) /\
  forall a, a < get_mem dst + offset \/ get_mem dst + offset + len <= a -> peek m' a = peek m a.

(** The cell of the memory that holds the element [i] of a vector; none for a zero-extended vector. *)
Fixpoint cell (v : vect) (i : nat) : option nat :=
  match v with
  | Plain h | Slice h _ _ => if i <? h_n h then Some (h_mem h + i) else None
  | View h u offset step len => if (i <? h_n h) && (0 <? len) then cell u ((offset + step * i) mod len) else None
  | ZeroExt _ _ => None
  end.
(** The elements have cells, all different. *)
Definition distinct (m : memory) (v : vect) : Prop :=
  (forall i, i < get_n v -> exists a, cell v i = Some a /\ a < length m) /\
  forall i j, i < get_n v -> j < get_n v -> cell v i = cell v j -> i = j.
(** Every element is changed by [f] of its index and value; the cells of no element keep their value. *)
Definition mapped (w : N) (f : nat -> N -> N) (m m' : memory) (v : vect) : Prop :=
  length m' = length m /\
  (forall i, i < get_n v -> exists x, vget w m v i = Some x /\ vget w m' v i = Some (f i x)) /\
  forall a, (forall i, i < get_n v -> cell v i <> Some a) -> peek m' a = peek m a.

(** All the elements, in order. *)
Definition elements (w : N) (m : memory) (v : vect) : list (option N) := map (vget w m v) (seq 0 (get_n v)).
(** The lengths of the views of views fit in the type of the elements. *)
Fixpoint fits (w : N) (v : vect) : Prop :=
  match v with
  | Plain _ | Slice _ _ _ => True
  | View _ u _ _ len => (N.of_nat len <= 2 ^ w)%N /\ fits w u
  | ZeroExt _ u => fits w u
  end.
(** How many elements of a vector, of those from [i] on to [i + k], are in the cell [a]. *)
Definition times (v : vect) (i k a : nat) : nat :=
  length (filter (fun j => match cell v j with Some b => b =? a | None => false end) (seq i k)).
