(** What a program sees of an allocator: arrays of bytes at addresses. *)
From Coq Require Import List NArith Bool.
Import ListNotations.
Open Scope N_scope.

(** The arrays in use: address and contents. *)
Definition arrays := list (N * list N).
(** [a] is one of the bytes of the array. *)
Definition within (a : N) (x : N * list N) : Prop := fst x <= a < fst x + N.of_nat (length (snd x)).
Definition apart (x y : N * list N) : Prop := forall a, within a x -> within a y -> False.

(** The array with the byte at the address [a] changed. *)
Definition put (a v : N) (x : N * list N) : N * list N :=
  if (fst x <=? a) && (a <? fst x + N.of_nat (length (snd x)))
  then (fst x, firstn (N.to_nat (a - fst x)) (snd x) ++ v :: skipn (S (N.to_nat (a - fst x))) (snd x))
  else x.

(** A correct memory for a program: the arrays are in the 64-bit address space, apart and at different addresses, and hold what
    the memory holds. *)
Record good (byte : N -> N) (l : arrays) : Prop := {
  good_range : forall x, In x l -> 0 < fst x /\ fst x + N.of_nat (length (snd x)) <= 2 ^ 64;
  good_apart : ForallOrdPairs (fun x y => fst x <> fst y /\ apart x y) l;
  good_bytes : forall x i, In x l -> (i < length (snd x))%nat -> byte (fst x + N.of_nat i) = nth i (snd x) 0 }.

(** The system gives a block inside of the address space that meets no other block; a block of no bytes has an address of its
    own all the same, and the address after the block is an address. *)
Definition fresh (blocks : list (N * N)) (a size : N) : Prop :=
  0 < a /\ a + N.max size 1 < 2 ^ 64 /\
  forall b s, In (b, s) blocks -> a + N.max size 1 <= b \/ b + N.max s 1 <= a.
