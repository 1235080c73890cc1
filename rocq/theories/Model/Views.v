(** Model of the vectors and their views: src/vec_vector.h, src/vec_slice.h, src/vec_view.h, src/vec_zero_ext.h.
    Proof-free.  All the vectors live in one memory of elements.  [int] quantities are natural numbers.
    [None]: a failed assertion or an access outside of the memory. *)
From Coq Require Import List NArith Arith Bool.
From Verif.Model Require Import Common Arith Ring.
Import ListNotations.
Open Scope nat_scope.

Definition memory := list N.
Definition peek (m : memory) (a : nat) : option N := nth_error m a.
Definition poke (m : memory) (a : nat) (x : N) : option memory := if a <? length m then Some (set m a x) else None.

(** Members of class Vector: [mem] (a place of the memory), [mem_len] and [n]; vec_vector.h:118-125. *)
Record hdr := mkHdr { h_mem : nat; h_len : nat; h_n : nat }.

(** The classes.  [Slice]: [base_len] and [offset], its [mem_offset] is always [mem] (vec_slice.h:78, 99, 107);
    [View]: [vec], [offset], [step], [N] (vec_view.h:66-70); [ZeroExt]: [vec] (vec_zero_ext.h:62-65). *)
Inductive vect :=
| Plain (h : hdr)
| Slice (h : hdr) (base_len offset : nat)
| View (h : hdr) (v : vect) (offset step N : nat)
| ZeroExt (h : hdr) (v : vect).

Definition head (v : vect) : hdr :=
  match v with Plain h => h | Slice h _ _ => h | View h _ _ _ _ => h | ZeroExt h _ => h end.
(** vec_vector.h:217-221, vec_view.h:85-89, vec_zero_ext.h:75-78 *)
Definition get_n (v : vect) : nat := h_n (head v).
Definition get_mem (v : vect) : nat := h_mem (head v).
Definition get_mem_len (v : vect) : nat := h_len (head v).

(** vec_vector.h:253-261, vec_slice.h:88-94, vec_view.h:91-98, vec_zero_ext.h:81-86; [w]: width of [T], to which the
    index of a view is converted. *)
Fixpoint vget (w : N) (m : memory) (v : vect) (i : nat) : option N :=
  if i <? get_n v then
    match v with
    | Plain h | Slice h _ _ => peek m (h_mem h + i)
    | View _ u offset step len =>
        if len =? 0 then None else vget w m u (N.to_nat (wrap w (N.of_nat ((offset + step * i) mod len))))
    | ZeroExt _ u => if i <? get_n u then vget w m u i else Some 0%N
    end
  else None.

(** vec_vector.h:245-251, vec_slice.h:110-116, vec_view.h:123-130; ZeroExtended inherits Vector::set. *)
Fixpoint vset (w : N) (m : memory) (v : vect) (i : nat) (x : N) : option memory :=
  if i <? get_n v then
    match v with
    | Plain h | Slice h _ _ | ZeroExt h _ => poke m (h_mem h + i) x
    | View _ u offset step len =>
        if len =? 0 then None else vset w m u (N.to_nat (wrap w (N.of_nat ((offset + step * i) mod len)))) x
    end
  else None.

(** vec_vector.h:138-151 with a given memory. *)
Definition new_plain (mem n : nat) : vect := Plain (mkHdr mem n n).

(** vec_slice.h:72-86 *)
Definition slice_len (n offset base_len : nat) : nat :=
  if n + offset <? base_len then n else if offset <? base_len then base_len - offset else 0.
Definition new_slice (v : vect) (n offset : nat) : vect :=
  Slice (mkHdr (get_mem v + offset) (if offset <? get_mem_len v then get_mem_len v - offset else 0)
           (slice_len n offset (get_n v))) (get_n v) offset.

(** vec_slice.h:96-108; the memory is [mem_offset - this->offset + offset]. *)
Definition set_map (s : vect) (offset : nat) : vect :=
  match s with
  | Slice h base_len o =>
      let n := slice_len (h_n h) offset base_len in
      Slice (mkHdr (h_mem h - o + offset) n n) base_len offset
  | _ => s
  end.

(** vec_view.h:73-83 *)
Definition new_view (v : vect) (n offset step : nat) : option vect :=
  if n <=? get_n v then Some (View (mkHdr (get_mem v) (get_mem_len v) n) v offset step (get_n v)) else None.
(** vec_view.h:100-105, 107-112 and 114-121 *)
Definition view_set_map (v : vect) (offset step : nat) : vect :=
  match v with View h u _ _ len => View h u offset step len | _ => v end.
Definition view_set_len (v : vect) (n : nat) : option vect :=
  match v with
  | View h u o s len => if h_n h <=? len then Some (View (mkHdr (h_mem h) (h_len h) n) u o s len) else None
  | _ => None
  end.
Definition view_set_vec (v u : vect) : option vect :=
  match v with
  | View h _ o s _ => if h_n h <=? get_n u then Some (View h u o s (get_n u)) else None
  | _ => None
  end.

(** vec_zero_ext.h:67-73 *)
Definition new_zero_ext (v : vect) (n : nat) : vect := ZeroExt (mkHdr (get_mem v) (get_mem_len v) n) v.

(** std::copy_n of [k] elements between parts of the memory that do not overlap, and std::memset to zero. *)
Fixpoint copy_cells (m : memory) (src dst k : nat) : option memory :=
  match k with
  | O => Some m
  | S k' => match peek m src with
            | Some x => match poke m dst x with Some m' => copy_cells m' (S src) (S dst) k' | None => None end
            | None => None
            end
  end.
Fixpoint zero_cells (m : memory) (dst k : nat) : option memory :=
  match k with
  | O => Some m
  | S k' => match poke m dst 0%N with Some m' => zero_cells m' (S dst) k' | None => None end
  end.

(** vec_vector.h:404-418, the general form; lines 371-376, 378-389 and 391-402 are the cases of
    [copy_from_all], [copy_from_n] and [copy_from_at]. *)
Definition copy_from (m : memory) (dst src : vect) (n dest_offset src_offset : nat) : option memory :=
  if n + dest_offset <=? get_mem_len dst then
    let d := get_mem dst + dest_offset in
    let s := get_mem src + src_offset in
    if src_offset <=? get_mem_len src then
      let src_len := get_mem_len src - src_offset in
      if n <=? src_len then copy_cells m s d n
      else match copy_cells m s d src_len with Some m' => zero_cells m' (d + src_len) (n - src_len) | None => None end
    else (* a negative [src_len]: nothing is copied, the zeros start before the destination *)
      let less := src_offset - get_mem_len src in
      if less <=? d then zero_cells m (d - less) (n + less) else None
  else None.
Definition copy_from_at (m : memory) (dst src : vect) (n offset : nat) : option memory := copy_from m dst src n offset 0.
Definition copy_from_n (m : memory) (dst src : vect) (n : nat) : option memory := copy_from m dst src n 0 0.
Definition copy_from_all (m : memory) (dst src : vect) : option memory :=
  if get_mem_len src <=? get_mem_len dst then copy_cells m (get_mem src) (get_mem dst) (get_mem_len src) else None.

(** vec_vector.h:456-461: [swap(mem[i], mem[j])], whatever the class. *)
Definition vswap (m : memory) (v : vect) (i j : nat) : option memory :=
  match peek m (get_mem v + i), peek m (get_mem v + j) with
  | Some x, Some y => match poke m (get_mem v + i) y with Some m' => poke m' (get_mem v + j) x | None => None end
  | _, _ => None
  end.

(** vec_vector.h:237-243: [mem[i] = val] for [i < n]. *)
Fixpoint fill_cells (m : memory) (dst k : nat) (x : N) : option memory :=
  match k with
  | O => Some m
  | S k' => match poke m dst x with Some m' => fill_cells m' (S dst) k' x | None => None end
  end.
Definition vfill (m : memory) (v : vect) (x : N) : option memory := fill_cells m (get_mem v) (get_n v) x.
