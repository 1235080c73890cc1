(** Model of the functions that print vectors, polynomials, matrices and buffers: src/vec_vector.h:471-478, src/vec_poly.h:243-253,
    src/vec_matrix.h:432-455, src/vec_buffers.h:480-493.  Proof-free.  The text is what is sent to std::cout, with its initial flags, as
    a list of characters.  [None]: a failed assertion or an access outside of the memory. *)
From Coq Require Import List NArith ZArith Arith Bool.
From Verif.Model Require Import Common Misc Views Poly Matrix Buffers.
Import ListNotations.
Open Scope nat_scope.

(** [std::cout << x] for an [x] of type [T] (a numeral; the operator of misc.cpp:35-64 for 128 bits), or a character if [T] is
    [uint8_t] ([bytes]). *)
Definition num (bytes : bool) (x : N) : list N := if bytes then [x] else digits false 10 40 x.

(** [for (; i < i + k; i++)] of what [f] prints *)
Fixpoint cat_loop (f : nat -> option (list N)) (i k : nat) : option (list N) :=
  match k with
  | O => Some []
  | S k' => match f i with
            | Some a => match cat_loop f (S i) k' with Some t => Some (a ++ t) | None => None end
            | None => None
            end
  end.

(** vec_vector.h:471-478; get is virtual, so that slices, views and zero-extended vectors print their elements. *)
Definition vec_dump (bytes : bool) (w : N) (m : memory) (v : vect) : option (list N) :=
  match cat_loop (fun i => match vget w m v i with Some x => Some (num bytes x ++ [32%N]) | None => None end) 0 (get_n v) with
  | Some t => Some ([40; 32]%N ++ t ++ [41; 10]%N)
  | None => None
  end.

(** vec_poly.h:243-253 *)
Definition poly_dump (bytes : bool) (q : poly) : option (list N) :=
  match cat_loop (fun i => match nth_error (p_buf q) i with
                           | Some x => Some ((if i =? 0 then [] else [32; 43; 32]%N) ++ num bytes x ++ [32; 120; 94]%N ++ num false (N.of_nat i))
                           | None => None
                           end) 0 (Z.to_nat (p_deg q + 1)) with
  | Some t => Some (t ++ [10%N])
  | None => None
  end.

(** One row: vec_matrix.h:437-440 and 450-453. *)
Definition row_text (bytes : bool) (M : matrix) (i : nat) : option (list N) :=
  match cat_loop (fun j => match nth_error (m_mem M) (i * m_cols M + j) with Some x => Some (32%N :: num bytes x) | None => None end) 0 (m_cols M) with
  | Some t => Some (t ++ [10%N])
  | None => None
  end.
(** vec_matrix.h:432-441 *)
Definition dump_row (bytes : bool) (M : matrix) (row : nat) : option (list N) :=
  if row <? m_rows M then row_text bytes M row else None.
(** vec_matrix.h:443-455 *)
Definition matrix_dump (bytes : bool) (M : matrix) : option (list N) :=
  match cat_loop (row_text bytes M) 0 (m_rows M) with Some t => Some ([45; 45; 10]%N ++ t) | None => None end.

(** vec_buffers.h:485-487: the first [k] elements, each with a dash. *)
Fixpoint dashes (bytes : bool) (k : N) (x : list N) : option (list N) :=
  if (k =? 0)%N then Some []
  else match x with
       | [] => None
       | a :: x' => match dashes bytes (k - 1) x' with Some t => Some (num bytes a ++ 45%N :: t) | None => None end
       end.
(** vec_buffers.h:488-490 *)
Definition last_text (bytes : bool) (size : nat) (x : list N) : option (list N) :=
  match size with
  | O => Some []
  | S k => match nth_error x k with Some a => Some (num bytes a) | None => None end
  end.
(** vec_buffers.h:480-493; [size - 1] is a [size_t] of 64 bits. *)
Definition buf_dump (bytes : bool) (h : heap) (b : buffers) : option (list N) :=
  match cat_loop (fun i => match buf_at h b i with
                           | Some x =>
                               match dashes bytes ((2 ^ 64 + N.of_nat (b_size b) - 1) mod 2 ^ 64)%N x, last_text bytes (b_size b) x with
                               | Some t, Some l => Some ([10; 9]%N ++ num false (N.of_nat i) ++ [58; 32]%N ++ t ++ l)
                               | _, _ => None
                               end
                           | None => None
                           end) 0 (b_n b) with
  | Some t => Some (t ++ [10; 41; 10]%N)
  | None => None
  end.
