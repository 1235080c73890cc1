(** Model of the arithmetic on whole vectors: src/vec_vector.h:231-235, 278-369 and 420-439, on the vectors and views of
    Model/Views.v.  Proof-free.  The ring [rn] is a [gfops].  [None]: a failed assertion or an access outside of the memory. *)
From Coq Require Import List NArith Arith Bool.
From Verif.Model Require Import Common Ring Views.
Import ListNotations.
Open Scope nat_scope.

(** The loops [dest[i] = f(dest[i], src[i])] and [mem[i] = f(mem[i])], one cell after the other: what was written is read by
    the next steps when the two parts of the memory overlap. *)
Fixpoint zip_cells (f : N -> N -> N) (m : memory) (dst src k : nat) : option memory :=
  match k with
  | O => Some m
  | S k' =>
      match peek m dst, peek m src with
      | Some x, Some y => match poke m dst (f x y) with Some m' => zip_cells f m' (S dst) (S src) k' | None => None end
      | _, _ => None
      end
  end.
Fixpoint map_cells (f : N -> N) (m : memory) (dst k : nat) : option memory :=
  match k with
  | O => Some m
  | S k' =>
      match peek m dst with
      | Some x => match poke m dst (f x) with Some m' => map_cells f m' (S dst) k' | None => None end
      | None => None
      end
  end.

(** vec_vector.h:316-324 *)
Definition vadd (G : gfops) (m : memory) (v u : vect) : option memory :=
  if get_n v =? get_n u then zip_cells (g_add G) m (get_mem v) (get_mem u) (get_n v) else None.
(** vec_vector.h:326-336 *)
Definition vadd_at (G : gfops) (m : memory) (v u : vect) (offset : nat) : option memory :=
  if get_n u + offset <=? get_n v then zip_cells (g_add G) m (get_mem v + offset) (get_mem u) (get_n u) else None.
(** vec_vector.h:338-347 *)
Definition vadd_mutual (G : gfops) (m : memory) (v u : vect) : option memory :=
  if get_n u <=? get_n v then zip_cells (g_add G) m (get_mem v) (get_mem u) (get_n u) else None.
(** vec_vector.h:349-358; [n - offset >= len] on signed numbers. *)
Definition vadd_mutual_at (G : gfops) (m : memory) (v u : vect) (offset : nat) : option memory :=
  if (get_n u =? 0) || (get_n u + offset <=? get_n v)
  then zip_cells (g_add G) m (get_mem v + offset) (get_mem u) (get_n u) else None.
(** vec_vector.h:360-369 *)
Definition vadd_mutual_len (G : gfops) (m : memory) (v u : vect) (offset len : nat) : option memory :=
  if ((len =? 0) || (len + offset <=? get_n v)) && (len <=? get_n u)
  then zip_cells (g_add G) m (get_mem v + offset) (get_mem u) len else None.
(** vec_vector.h:307-314 with the loop of gf_ring.h:825-830. *)
Definition vhadamard (G : gfops) (m : memory) (v u : vect) : option memory :=
  if get_n v =? get_n u then zip_cells (g_mul G) m (get_mem v) (get_mem u) (get_n v) else None.
(** vec_vector.h:434-439 *)
Definition vneg (G : gfops) (m : memory) (v : vect) : option memory := map_cells (g_neg G) m (get_mem v) (get_n v).

(** vec_vector.h:293-301: from the element 1 on. *)
Fixpoint beta_cells (G : gfops) (beta coef : N) (m : memory) (dst k : nat) : option memory :=
  match k with
  | O => Some m
  | S k' =>
      match peek m dst with
      | Some x =>
          match poke m dst (g_mul G x coef) with
          | Some m' => beta_cells G beta (g_mul G coef beta) m' (S dst) k'
          | None => None
          end
      | None => None
      end
  end.
Definition vmul_beta (G : gfops) (m : memory) (v : vect) (beta : N) : option memory :=
  beta_cells G beta beta m (S (get_mem v)) (get_n v - 1).

(** vec_vector.h:282-287 and 231-235: through [get] and [set] of the class; [k] steps from the element [i] on. *)
Fixpoint scalar_loop (G : gfops) (w : N) (v : vect) (scalar : N) (m : memory) (i k : nat) : option memory :=
  match k with
  | O => Some m
  | S k' =>
      match vget w m v i with
      | Some x => match vset w m v i (g_mul G x scalar) with Some m' => scalar_loop G w v scalar m' (S i) k' | None => None end
      | None => None
      end
  end.
Definition vmul_scalar (G : gfops) (w : N) (m : memory) (v : vect) (scalar : N) : option memory :=
  scalar_loop G w v scalar m 0 (get_n v).
Fixpoint zero_loop (w : N) (v : vect) (m : memory) (i k : nat) : option memory :=
  match k with
  | O => Some m
  | S k' => match vset w m v i 0%N with Some m' => zero_loop w v m' (S i) k' | None => None end
  end.
Definition vzero_fill (w : N) (m : memory) (v : vect) : option memory := zero_loop w v m 0 (get_n v).

(** vec_vector.h:420-432 *)
Fixpoint eq_loop (w : N) (m : memory) (v u : vect) (i k : nat) : option bool :=
  match k with
  | O => Some true
  | S k' =>
      match vget w m v i, vget w m u i with
      | Some x, Some y => if (x =? y)%N then eq_loop w m v u (S i) k' else Some false
      | _, _ => None
      end
  end.
Definition veq (w : N) (m : memory) (v u : vect) : option bool :=
  if get_n v =? get_n u then eq_loop w m v u 0 (get_n v) else Some false.
