(** Model of src/vec_buffers.h: vectors of pointers to buffers.  Proof-free.
    The heap is the list of the allocated buffers and a pointer is the number of a buffer.  Sizes are natural numbers; the
    destructor is not modelled.  [None]: a failed assertion or an index outside of a std::vector. *)
From Coq Require Import List NArith Arith Bool.
From Verif.Model Require Import Common.
Import ListNotations.
Open Scope nat_scope.

Definition heap := list (list N).

(** vec_buffers.h:128-132 *)
Record buffers := mkBuffers { b_mem : list nat; b_mem_len : nat; b_size : nat; b_n : nat }.

(** [k] calls of allocator.allocate: the new pointers; [junk] is what the memory holds. *)
Definition allocate (h : heap) (junk : list N) (k : nat) : heap * list nat :=
  (h ++ repeat junk k, seq (length h) k).

(** vec_buffers.h:146-158 *)
Definition new_full (h : heap) (junk : list N) (n size : nat) : heap * buffers :=
  let '(h', ps) := allocate h junk n in (h', mkBuffers ps (n * size) size n).

(** vec_buffers.h:167-175 *)
Definition new_wrap (n size : nat) (mem : list nat) : buffers := mkBuffers mem (n * size) size n.

(** vec_buffers.h:385-397, get: the assertion and the index of the std::vector. *)
Definition buf_get (b : buffers) (i : nat) : option nat := if i <? b_n b then nth_error (b_mem b) i else None.
(** The contents of the buffer of index [i]. *)
Definition buf_at (h : heap) (b : buffers) (i : nat) : option (list N) :=
  match buf_get b i with Some p => nth_error h p | None => None end.

(** std::copy_n to the start of the buffer [p]. *)
Definition write_to (h : heap) (p : nat) (x : list N) : option heap :=
  match nth_error h p with
  | Some old => if length x <=? length old then Some (set h p (x ++ skipn (length x) old)) else None
  | None => None
  end.

(** [for (i = first; i < first + k; i++)] with a step that may fail. *)
Fixpoint loop {A} (f : A -> nat -> option A) (first k : nat) (s : A) : option A :=
  match k with
  | O => Some s
  | S k' => match f s first with Some s' => loop f (S first) k' s' | None => None end
  end.

(** vec_buffers.h:183-211: the parameter [n] is 0 by default; [mem_len] is computed from it. *)
Definition new_clone (h : heap) (junk : list N) (v : buffers) (n : nat) : option (heap * buffers) :=
  let n' := if n =? 0 then b_n v else n in
  let '(h1, ps) := allocate h junk n' in
  let b := mkBuffers ps (n * b_size v) (b_size v) n' in
  let copy_len := if n' <=? b_n v then n' else b_n v in
  match loop (fun h i => match buf_at h v i, nth_error ps i with
                         | Some x, Some p => write_to h p (firstn (b_size v) x)
                         | _, _ => None
                         end) 0 copy_len h1 with
  | Some h2 =>
      if b_n v <? n' then
        match loop (fun h i => match nth_error ps i with Some p => write_to h p (repeat 0%N (b_size v)) | None => None end)
                (b_n v) (n' - b_n v) h2 with
        | Some h3 => Some (h3, b)
        | None => None
        end
      else Some (h2, b)
  | None => None
  end.

(** A zero buffer: allocate and memset. *)
Definition new_zeros (h : heap) (size : nat) : heap * nat := (h ++ [repeat 0%N size], length h).

(** vec_buffers.h:224-249.  Inserting from after the end of [vec_mem] is undefined. *)
Definition new_range (h : heap) (v : buffers) (b e : nat) : option (heap * buffers) :=
  if b <? e then
    if e <=? b_n v then
      if e <=? length (b_mem v)
      then Some (h, mkBuffers (firstn (e - b) (skipn b (b_mem v))) ((e - b) * b_size v) (b_size v) (e - b)) else None
    else if b <=? length (b_mem v) then
      let '(h', z) := new_zeros h (b_size v) in
      Some (h', mkBuffers (skipn b (b_mem v) ++ repeat z (e - b_n v)) ((e - b) * b_size v) (b_size v) (e - b))
    else None
  else None.

(** vec_buffers.h:257-274 *)
Definition new_concat (v1 v2 : buffers) : option buffers :=
  if b_size v1 =? b_size v2
  then Some (mkBuffers (b_mem v1 ++ b_mem v2) ((b_n v1 + b_n v2) * b_size v1) (b_size v1) (b_n v1 + b_n v2)) else None.

(** vec_buffers.h:295-327.  In the first case [mem] has only reserved memory: it has no elements to assign. *)
Definition new_shuffled (h : heap) (v : buffers) (map : list nat) (n : nat) : option (heap * buffers) :=
  if length map <=? n then
    let '(h', mem0) := if n <=? b_n v then (h, [])
                       else let '(h', z) := new_zeros h (b_size v) in (h', repeat z n) in
    match loop (fun mem i => match nth_error map i, nth_error (b_mem v) i with
                             | Some j, Some p => set_opt mem j p
                             | _, _ => None
                             end) 0 (length map) mem0 with
    | Some mem => Some (h', mkBuffers mem (n * b_size v) (b_size v) n)
    | None => None
    end
  else None.

(** vec_buffers.h:411-419 *)
Definition buf_copy (h : heap) (b v : buffers) : option heap :=
  if (b_n v =? b_n b) && (b_size v <=? b_size b) then
    loop (fun h i => match buf_at h v i, nth_error (b_mem b) i with
                     | Some x, Some p => write_to h p (firstn (b_size v) x)
                     | _, _ => None
                     end) 0 (b_n b) h
  else None.

(** vec_buffers.h:427-443; [i = 2 j]. *)
Definition separate_even_odd (b : buffers) : option buffers :=
  let half := b_n b / 2 in
  match loop (fun t j => match buf_get b (2 * j), buf_get b (2 * j + 1) with
                         | Some p, Some q => match set_opt t j p with Some t' => set_opt t' (j + half) q | None => None end
                         | _, _ => None
                         end) 0 ((b_n b + 1) / 2) (repeat 0 (b_n b)) with
  | Some t => if b_n b <=? length (b_mem b)
              then Some (mkBuffers (t ++ skipn (b_n b) (b_mem b)) (b_mem_len b) (b_size b) (b_n b)) else None
  | None => None
  end.
