(** What a transform does, for transforms of vectors that lie anywhere in a memory (fft_base.h:60-90). *)
Set Warnings "-notation-overridden,-ambiguous-paths".
From Coq Require Import NArith.
From Coq Require List.
From Verif.Model Require Import Common Ring Views.
From mathcomp Require Import all_ssreflect ssralg.
From Verif.Spec Require Import Dft.
Import GRing.Theory.
Local Open Scope ring_scope.

(** The cell [a]. *)
Definition rd (m : memory) (a : nat) : N := List.nth a m 0%num.
(** The vector [v] has [n] elements, in the cells [a 0 .. a (n - 1)], whatever these contain. *)
Definition win (w : N) (v : vect) (n : nat) (a : nat -> nat) : Prop :=
  get_n v = n /\ forall m i x, (i < n)%N -> vget w m v i = peek m (a i) /\ vset w m v i x = poke m (a i) x.
(** In the memories of [sz] cells the vector [v] reads as [n] elements, those of the cells [a 0 .. a (n - 1)], where a
    cell that is not one of the memory stands for a zero. *)
Definition source (w : N) (sz : nat) (v : vect) (n : nat) (a : nat -> nat) : Prop :=
  get_n v = n /\ forall m i, size m = sz -> (i < n)%N -> vget w m v i = Some (rd m (a i)).
(** The cells [a] up to [b] excluded. *)
Definition area (a b : nat) : pred nat := fun c => (a <= c < b)%N.

Section Transforms.
Variables (w : N) (F : fieldType) (G : gfops) (phi : N -> F).
Notation ok a := (a < g_card G)%num.

(** The elements of the input are those of the field, the cells of the output are distinct, not those of the input nor
    those of [priv], which belong to the transform. *)
Definition tpre (m : memory) (n : nat) (priv : pred nat) (ao ai : nat -> nat) : Prop :=
  (forall i, (i < n)%N -> [/\ (ao i < size m)%N, ~~ priv (ao i), ~~ priv (ai i) & ok (rd m (ai i))]) /\
  (forall i j, (i < n)%N -> (j < n)%N -> (ao i = ao j -> i = j) /\ ao i <> ai j) /\
  (forall a, priv a -> (a < size m)%N).
(** The output has the values [y], and nothing else changes besides [priv]. *)
Definition tout (m m' : memory) (n : nat) (priv : pred nat) (ao : nat -> nat) (y : nat -> F) : Prop :=
  [/\ size m' = size m,
      (forall a, ~~ priv a -> (forall i, (i < n)%N -> ao i <> a) -> rd m' a = rd m a) &
      (forall i, (i < n)%N -> ok (rd m' (ao i)) /\ phi (rd m' (ao i)) = y i)].
(** [run] transforms the vectors of [n] elements with the root [r]. *)
Definition tspec (run : memory -> vect -> vect -> option memory) (n : nat) (priv : pred nat) (r : F) : Prop :=
  forall m out inp ao ai, win w out n ao -> source w (size m) inp n ai -> tpre m n priv ao ai ->
    exists m', run m out inp = Some m' /\ tout m m' n priv ao (dft F r n (fun j => phi (rd m (ai j)))).
(** [run] is the inverse of the transform of root [r]. *)
Definition ispec (run : memory -> vect -> vect -> option memory) (n : nat) (priv : pred nat) (r : F) : Prop :=
  forall m out inp ao ai x, win w out n ao -> source w (size m) inp n ai -> tpre m n priv ao ai ->
    (forall j, (j < n)%N -> phi (rd m (ai j)) = dft F r n x j) ->
    exists m', run m out inp = Some m' /\ tout m m' n priv ao x.

(** ** Buffers *)

(** [n] packets of [pkt] elements of the field. *)
Definition packets (pkt n : nat) (l : list (list N)) : Prop :=
  length l = n /\ List.Forall (fun p => length p = pkt /\ List.Forall (fun a => ok a) p) l.
Definition el (l : list (list N)) (t j : nat) : F := phi (List.nth t (List.nth j l nil) 0%num).
(** [run] transforms each of the vectors made of the [t]-th elements of the packets. *)
Definition bspec (run : list (list N) -> list (list N)) (pkt n : nat) (r : F) : Prop :=
  forall inp, packets pkt n inp -> packets pkt n (run inp) /\
    forall t i, (t < pkt)%N -> (i < n)%N -> el (run inp) t i = dft F r n (el inp t) i.
Definition ibspec (run : list (list N) -> option (list (list N))) (pkt n : nat) (r : F) : Prop :=
  forall inp x, packets pkt n inp -> (forall t j, (t < pkt)%N -> (j < n)%N -> el inp t j = dft F r n (x t) j) ->
    exists out, [/\ run inp = Some out, packets pkt n out & forall t i, (t < pkt)%N -> (i < n)%N -> el out t i = x t i].
End Transforms.
