(** Model of who frees what in src/vec_vector.h and src/vec_buffers.h: constructors, assignments, destructors.  Proof-free.
    Blocks are numbered in the order of their allocation; a pointer is a block or null.  The contents of the blocks are in
    Views.v and Buffers.v, the allocator in Alloc.v.  [None]: a failed assertion, an index outside of a std::vector, a block freed
    twice or memory read after it was freed. *)
From Coq Require Import List Arith Bool.
From Verif.Model Require Import Common.
Import ListNotations.

Definition pointer := option nat.

(** The blocks in use and the number of the next one. *)
Record blocks := mkBlocks { b_live : list nat; b_next : nat }.
Definition is_live (h : blocks) (p : nat) : bool := existsb (Nat.eqb p) (b_live h).
(** allocator.allocate *)
Definition get_block (h : blocks) : blocks * nat := (mkBlocks (b_next h :: b_live h) (S (b_next h)), b_next h).
Fixpoint get_blocks (h : blocks) (k : nat) : blocks * list nat :=
  match k with
  | O => (h, [])
  | S k' => let '(h, p) := get_block h in let '(h, ps) := get_blocks h k' in (h, p :: ps)
  end.
(** allocator.deallocate *)
Definition free_block (h : blocks) (p : pointer) : option blocks :=
  match p with
  | None => Some h
  | Some b => if is_live h b then Some (mkBlocks (filter (fun x => negb (x =? b)) (b_live h)) (b_next h)) else None
  end.
Fixpoint free_blocks (h : blocks) (ps : list pointer) : option blocks :=
  match ps with
  | [] => Some h
  | p :: ps => match free_block h p with Some h => free_blocks h ps | None => None end
  end.
(** Reading through a pointer. *)
Definition readable (h : blocks) (p : pointer) : bool := match p with Some b => is_live h b | None => false end.

(** ** Vectors *)

(** vec_vector.h:118-125 *)
Record vector := mkVector { v_n : nat; v_mem : pointer; v_mem_len : nat; v_new_mem : bool }.

(** vec_vector.h:138-151 *)
Definition vector_new (h : blocks) (n : nat) (mem : pointer) (mem_len : nat) : blocks * vector :=
  match mem with
  | None => let '(h, p) := get_block h in (h, mkVector n (Some p) n true)
  | Some _ => (h, mkVector n mem mem_len false)
  end.
(** vec_vector.h:163-175; nothing is read when there is nothing to copy. *)
Definition vector_copy (h : blocks) (v : vector) : option (blocks * vector) :=
  if v_new_mem v then
    let '(h, p) := get_block h in
    if (v_mem_len v =? 0) || readable h (v_mem v) then Some (h, mkVector (v_n v) (Some p) (v_mem_len v) true) else None
  else Some (h, mkVector (v_n v) (v_mem v) (v_mem_len v) false).
(** vec_vector.h:177-182: the new vector and what remains of the other one. *)
Definition vector_move (v : vector) : vector * vector :=
  (mkVector (v_n v) (v_mem v) (v_mem_len v) (v_new_mem v), mkVector (v_n v) None (v_mem_len v) (v_new_mem v)).
(** vec_vector.h:127-132, 206-210 *)
Definition vector_destroy (h : blocks) (v : vector) : option blocks :=
  if v_new_mem v then free_block h (v_mem v) else Some h.
(** vec_vector.h:184-190: the temporary has the members of [v] when it is destroyed. *)
Definition vector_assign (h : blocks) (v other : vector) : option (blocks * vector) :=
  match vector_copy h other with
  | Some (h, tmp) => match vector_destroy h v with Some h => Some (h, tmp) | None => None end
  | None => None
  end.
(** vec_vector.h:269-276 *)
Definition vector_set_mem (h : blocks) (v : vector) (mem : pointer) (mem_len : nat) : option (blocks * vector) :=
  match vector_destroy h v with Some h => Some (h, mkVector (v_n v) mem mem_len false) | None => None end.

(** ** Buffers *)

(** vec_buffers.h:54-73 *)
Inductive mem_alloc := ANone | ASlice | AZeroExtend | ACombined | AFull.
(** vec_buffers.h:127-136 *)
Record bufs := mkBufs { f_mem : list pointer; f_n : nat; f_case : mem_alloc; f_zeros : pointer }.

(** vec_buffers.h:146-158 *)
Definition bufs_new (h : blocks) (n : nat) : blocks * bufs :=
  let '(h, ps) := get_blocks h n in (h, mkBufs (map Some ps) n AFull None).
(** vec_buffers.h:167-175 *)
Definition bufs_wrap (n : nat) (mem : list pointer) : bufs := mkBufs mem n ANone None.
(** vec_buffers.h:183-211; the assertion of [get] and the index are one test. *)
Definition bufs_clone (h : blocks) (v : bufs) (n : nat) : option (blocks * bufs) :=
  let n' := if n =? 0 then f_n v else n in
  let '(h, ps) := get_blocks h n' in
  let copy_len := if n' <=? f_n v then n' else f_n v in
  if forallb (fun i => (i <? f_n v) && readable h (nth i (f_mem v) None)) (seq 0 copy_len)
  then Some (h, mkBufs (map Some ps) n' AFull None) else None.
(** vec_buffers.h:224-249 *)
Definition bufs_range (h : blocks) (v : bufs) (b e : nat) : option (blocks * bufs) :=
  if b <? e then
    if e <=? f_n v then
      if e <=? length (f_mem v) then Some (h, mkBufs (firstn (e - b) (skipn b (f_mem v))) (e - b) ASlice None) else None
    else if b <=? length (f_mem v) then
      let '(h, z) := get_block h in
      Some (h, mkBufs (skipn b (f_mem v) ++ repeat (Some z) (e - f_n v)) (e - b) AZeroExtend (Some z))
    else None
  else None.
(** vec_buffers.h:257-274; the test of the sizes is in Buffers.v. *)
Definition bufs_concat (v1 v2 : bufs) : bufs := mkBufs (f_mem v1 ++ f_mem v2) (f_n v1 + f_n v2) ACombined None.
(** vec_buffers.h:295-327 *)
Fixpoint shuffle_loop (mem : list pointer) (map : list nat) (src : list pointer) : option (list pointer) :=
  match map, src with
  | [], _ => Some mem
  | j :: map, p :: src => if j <? length mem then shuffle_loop (set mem j p) map src else None
  | _ :: _, [] => None
  end.
Definition bufs_shuffle (h : blocks) (v : bufs) (map : list nat) (n : nat) : option (blocks * bufs) :=
  if length map <=? n then
    if n <=? f_n v then
      match shuffle_loop [] map (f_mem v) with Some mem => Some (h, mkBufs mem n ASlice None) | None => None end
    else
      let '(h, z) := get_block h in
      match shuffle_loop (repeat (Some z) n) map (f_mem v) with
      | Some mem => Some (h, mkBufs mem n AZeroExtend (Some z))
      | None => None
      end
  else None.
(** vec_buffers.h:329-341 *)
Definition bufs_destroy (h : blocks) (v : bufs) : option blocks :=
  match f_case v with
  | ANone => Some h
  | _ =>
      if 0 <? length (f_mem v) then
        match f_case v with
        | AFull => if f_n v <=? length (f_mem v) then free_blocks h (firstn (f_n v) (f_mem v)) else None
        | AZeroExtend => free_block h (f_zeros v)
        | _ => Some h
        end
      else Some h
  end.
(** vec_buffers.h:374-383 *)
Definition bufs_set (h : blocks) (v : bufs) (i : nat) (buf : pointer) : option (blocks * bufs) :=
  if (i <? f_n v) && (i <? length (f_mem v)) then
    match (match f_case v with ANone => free_block h (nth i (f_mem v) None) | _ => Some h end) with
    | Some h => Some (h, mkBufs (set (f_mem v) i buf) (f_n v) (f_case v) (f_zeros v))
    | None => None
    end
  else None.
(** vec_buffers.h:427-443, for an even number of buffers *)
Definition bufs_separate (v : bufs) : option bufs :=
  if Nat.even (f_n v) && (f_n v =? length (f_mem v)) then
    Some (mkBufs (map (fun i => nth (2 * i) (f_mem v) None) (seq 0 (f_n v / 2)) ++
                  map (fun i => nth (2 * i + 1) (f_mem v) None) (seq 0 (f_n v / 2))) (f_n v) (f_case v) (f_zeros v))
  else None.
(** vec_buffers.h:474-479 *)
Definition bufs_swap (v : bufs) (i j : nat) : option bufs :=
  if (i <? length (f_mem v)) && (j <? length (f_mem v)) then
    Some (mkBufs (set (set (f_mem v) i (nth j (f_mem v) None)) j (nth i (f_mem v) None)) (f_n v) (f_case v) (f_zeros v))
  else None.
(** The copy assignment that the compiler writes, since the class declares none: member by member. *)
Definition bufs_assign (v other : bufs) : bufs := other.

(** ** Programs *)
Inductive object := OVector (v : vector) | OBufs (v : bufs).
(** Objects are numbered; [None] is an object that was destroyed. *)
Record world := mkWorld { w_blocks : blocks; w_objs : list (option object) }.

Inductive event :=
| Own                                              (* the program allocates a block for itself *)
| Release (b : nat)                                (* and frees it *)
| NewVector (n : nat) (mem : pointer) (mem_len : nat)
| CopyVector (i : nat)
| MoveVector (i : nat)
| AssignVector (i j : nat)
| SwapVectors (i j : nat)
| SetMem (i : nat) (mem : pointer) (mem_len : nat)
| NewBufs (n : nat)
| WrapBufs (n : nat) (mem : list pointer)
| CloneBufs (i n : nat)
| RangeBufs (i b e : nat)
| ConcatBufs (i j : nat)
| ShuffleBufs (i : nat) (map : list nat) (n : nat)
| SetBuf (i k : nat) (buf : pointer)
| SeparateBufs (i : nat)
| SwapBufs (i k l : nat)
| AssignBufs (i j : nat)
| Destroy (i : nat).

Definition obj (w : world) (i : nat) : option object := nth i (w_objs w) None.
Definition get_vector (w : world) (i : nat) : option vector := match obj w i with Some (OVector v) => Some v | _ => None end.
Definition get_bufs (w : world) (i : nat) : option bufs := match obj w i with Some (OBufs v) => Some v | _ => None end.
Definition add_obj (h : blocks) (w : world) (o : object) : world := mkWorld h (w_objs w ++ [Some o]).
Definition put_obj (h : blocks) (w : world) (i : nat) (o : option object) : world := mkWorld h (set (w_objs w) i o).

Definition run_event (w : world) (e : event) : option world :=
  let h := w_blocks w in
  match e with
  | Own => let '(h, _) := get_block h in Some (mkWorld h (w_objs w))
  | Release b => match free_block h (Some b) with Some h => Some (mkWorld h (w_objs w)) | None => None end
  | NewVector n mem len => let '(h, v) := vector_new h n mem len in Some (add_obj h w (OVector v))
  | CopyVector i =>
      match get_vector w i with
      | Some v => match vector_copy h v with Some (h, v) => Some (add_obj h w (OVector v)) | None => None end
      | None => None
      end
  | MoveVector i =>
      match get_vector w i with
      | Some v => let '(v', rest) := vector_move v in Some (add_obj h (put_obj h w i (Some (OVector rest))) (OVector v'))
      | None => None
      end
  | AssignVector i j =>
      match get_vector w i, get_vector w j with
      | Some v, Some other =>
          match vector_assign h v other with Some (h, v) => Some (put_obj h w i (Some (OVector v))) | None => None end
      | _, _ => None
      end
  | SwapVectors i j => (* vec_vector.h:103-113 *)
      match get_vector w i, get_vector w j with
      | Some v, Some v' => Some (put_obj h (put_obj h w i (Some (OVector v'))) j (Some (OVector v)))
      | _, _ => None
      end
  | SetMem i mem len =>
      match get_vector w i with
      | Some v => match vector_set_mem h v mem len with Some (h, v) => Some (put_obj h w i (Some (OVector v))) | None => None end
      | None => None
      end
  | NewBufs n => let '(h, v) := bufs_new h n in Some (add_obj h w (OBufs v))
  | WrapBufs n mem => Some (add_obj h w (OBufs (bufs_wrap n mem)))
  | CloneBufs i n =>
      match get_bufs w i with
      | Some v => match bufs_clone h v n with Some (h, v) => Some (add_obj h w (OBufs v)) | None => None end
      | None => None
      end
  | RangeBufs i b e =>
      match get_bufs w i with
      | Some v => match bufs_range h v b e with Some (h, v) => Some (add_obj h w (OBufs v)) | None => None end
      | None => None
      end
  | ConcatBufs i j =>
      match get_bufs w i, get_bufs w j with
      | Some v, Some v' => Some (add_obj h w (OBufs (bufs_concat v v')))
      | _, _ => None
      end
  | ShuffleBufs i map n =>
      match get_bufs w i with
      | Some v => match bufs_shuffle h v map n with Some (h, v) => Some (add_obj h w (OBufs v)) | None => None end
      | None => None
      end
  | SetBuf i k buf =>
      match get_bufs w i with
      | Some v => match bufs_set h v k buf with Some (h, v) => Some (put_obj h w i (Some (OBufs v))) | None => None end
      | None => None
      end
  | SeparateBufs i =>
      match get_bufs w i with
      | Some v => match bufs_separate v with Some v => Some (put_obj h w i (Some (OBufs v))) | None => None end
      | None => None
      end
  | SwapBufs i k l =>
      match get_bufs w i with
      | Some v => match bufs_swap v k l with Some v => Some (put_obj h w i (Some (OBufs v))) | None => None end
      | None => None
      end
  | AssignBufs i j =>
      match get_bufs w i, get_bufs w j with
      | Some v, Some v' => Some (put_obj h w i (Some (OBufs (bufs_assign v v'))))
      | _, _ => None
      end
  | Destroy i =>
      match obj w i with
      | Some (OVector v) => match vector_destroy h v with Some h => Some (put_obj h w i None) | None => None end
      | Some (OBufs v) => match bufs_destroy h v with Some h => Some (put_obj h w i None) | None => None end
      | None => None
      end
  end.
Fixpoint run_events (w : world) (l : list event) : option world :=
  match l with
  | [] => Some w
  | e :: l => match run_event w e with Some w => run_events w l | None => None end
  end.
