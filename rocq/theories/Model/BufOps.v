(** Model of the operations on whole buffers of src/vec_buffers.h:361-372, 421-425 and 454-478, on the heap of Model/Buffers.v.
    Proof-free.  [None]: a failed assertion, an index outside of a std::vector or an access outside of a buffer. *)
From Coq Require Import List NArith Arith Bool.
From Verif.Model Require Import Common Buffers.
Import ListNotations.
Open Scope nat_scope.

(** vec_buffers.h:361-366 *)
Definition buf_zero_fill (h : heap) (b : buffers) : option heap :=
  loop (fun h i => match nth_error (b_mem b) i with Some p => write_to h p (repeat 0%N (b_size b)) | None => None end) 0 (b_n b) h.

(** vec_buffers.h:368-372, without an assertion on the index. *)
Definition buf_fill (h : heap) (b : buffers) (i : nat) (value : N) : option heap :=
  match nth_error (b_mem b) i with Some p => write_to h p (repeat value (b_size b)) | None => None end.

(** vec_buffers.h:421-425: the elements at the pointer [q]. *)
Definition buf_copy_one (h : heap) (b : buffers) (i q : nat) : option heap :=
  match nth_error (b_mem b) i, nth_error h q with
  | Some p, Some x => if b_size b <=? length x then write_to h p (firstn (b_size b) x) else None
  | _, _ => None
  end.

(** vec_buffers.h:473-478 *)
Definition buf_swap (b : buffers) (i j : nat) : option buffers :=
  match nth_error (b_mem b) i, nth_error (b_mem b) j with
  | Some p, Some q => Some (mkBuffers (set (set (b_mem b) i q) j p) (b_mem_len b) (b_size b) (b_n b))
  | _, _ => None
  end.

(** vec_buffers.h:454-470.  The first [k] elements of two buffers; the first of them that differ end the loops. *)
Fixpoint eq_elements (k : nat) (x y : list N) : option bool :=
  match k with
  | O => Some true
  | S k' =>
      match x, y with
      | a :: x', c :: y' => if (a =? c)%N then eq_elements k' x' y' else Some false
      | _, _ => None
      end
  end.
Fixpoint eq_buffers (h : heap) (a b : buffers) (i k : nat) : option bool :=
  match k with
  | O => Some true
  | S k' =>
      match buf_at h a i, buf_at h b i with
      | Some x, Some y =>
          match eq_elements (b_size a) x y with
          | Some true => eq_buffers h a b (S i) k'
          | r => r
          end
      | _, _ => None
      end
  end.
Definition buf_eq (h : heap) (a b : buffers) : option bool :=
  if (b_n a =? b_n b) && (b_size a =? b_size b) then eq_buffers h a b 0 (b_n a) else Some false.
