(** Model of src/simd/allocator.h: the allocator of aligned memory.  Proof-free.
    The memory is a function from addresses to bytes and the list of the blocks (address, size) that [::operator new] has given
    and [::operator delete] has not taken back.  What [::operator new] answers to the size asked is a parameter [new] of
    [allocate]: an address, or the exception [std::bad_alloc].
    [std::size_t] and [std::uintptr_t] have 64 bits. *)
From Coq Require Import List NArith Bool.
From Verif.Model Require Import Common.
Import ListNotations.
Open Scope N_scope.

(** definitions.h:69-73, 82, 92, 108: the value of [INSTRUCTION_SET]. *)
Inductive iset := NoSimd | Sse | Avx.
(** definitions.h:117: [alignof(uint64_t)], [alignof(__m128)], [alignof(__m256)]. *)
Definition alignment (I : iset) : N := match I with NoSimd => 8 | Sse => 16 | Avx => 32 end.

Record memory := mkMemory { m_byte : N -> N; m_blocks : list (N * N) }.

(** Outcomes: a result, the exception [std::bad_alloc], a failed assertion, undefined behaviour. *)
Inductive outcome (A : Type) := Done (a : A) | BadAlloc | Asserted | Undefined.
Arguments Done {A} _.
Arguments BadAlloc {A}.
Arguments Asserted {A}.
Arguments Undefined {A}.

(** [::operator new(size)] *)
Definition op_new (m : memory) (new : N -> option N) (size : N) : option (memory * N) :=
  match new size with Some a => Some (mkMemory (m_byte m) ((a, size) :: m_blocks m), a) | None => None end.
(** [::operator delete(a)]: nothing for the null pointer, undefined for anything else than the start of a block. *)
Definition op_delete (m : memory) (a : N) : outcome memory :=
  if a =? 0 then Done m
  else if existsb (fun b => fst b =? a) (m_blocks m)
  then Done (mkMemory (m_byte m) (filter (fun b => negb (fst b =? a)) (m_blocks m)))
  else Undefined.

(** Bytes can be read and written inside of blocks only. *)
Definition mapped (m : memory) (a : N) : bool := existsb (fun b => (fst b <=? a) && (a <? fst b + snd b)) (m_blocks m).
Definition load (m : memory) (a : N) : outcome N := if mapped m a then Done (m_byte m a) else Undefined.
Definition store (m : memory) (a v : N) : outcome memory :=
  if mapped m a then Done (mkMemory (fun x => if x =? a then v else m_byte m x) (m_blocks m)) else Undefined.

(** allocator.h:134-138; [sz] is [sizeof(value_type)]. *)
Definition max_size (I : iset) (sz : N) : N := (2 ^ 64 - 1 - alignment I) / sz.

(** allocator.h:95-96: the size of the block, and allocator.h:90-91 *)
Definition block_size (I : iset) (sz count : N) : N :=
  match I with NoSimd => wrap 64 (count * sz) | _ => wrap 64 (wrap 64 (count * sz) + alignment I) end.

(** allocator.h:81-114 *)
Definition allocate (I : iset) (sz : N) (m : memory) (count : N) (new : N -> option N) : outcome (memory * N) :=
  if max_size I sz <? count then BadAlloc
  else
    match op_new m new (block_size I sz count) with
    | None => BadAlloc
    | Some (m, a) =>
        match I with
        | NoSimd => Done (m, a)
        | _ =>
            let offset := wrap 32 (alignment I - a mod alignment I) in
            if offset <? 1 then Asserted
            else
              let aligned_ptr := wrap 64 (a + offset) in
              if 255 <? offset then Asserted
              else
                match store m (wrap 64 (aligned_ptr + 2 ^ 64 - 1)) (wrap 8 offset) with
                | Done m => Done (m, aligned_ptr)
                | _ => Undefined
                end
        end
    end.

(** allocator.h:116-132 *)
Definition deallocate (I : iset) (m : memory) (ptr : N) : outcome memory :=
  match I with
  | NoSimd => op_delete m ptr
  | _ =>
      if ptr =? 0 then Done m
      else match load m (wrap 64 (ptr + 2 ^ 64 - 1)) with
           | Done offset => op_delete m (wrap 64 (ptr + 2 ^ 64 - offset))
           | _ => Undefined
           end
  end.

(** allocator.h:51-59 *)
Definition addr_is_aligned (I : iset) (a : N) : bool :=
  match I with NoSimd => true | _ => N.land a (alignment I - 1) =? 0 end.

(** What a program does with the allocators: memory for [count] elements of [sz] bytes, with the answer of
    [::operator new];
    memory given back; a byte written. *)
Inductive action := Allocate (sz count : N) (new : N -> option N) | Deallocate (ptr : N) | Write (addr v : N).

(** An action gives the memory and the pointer returned, if any. *)
Definition act (I : iset) (m : memory) (x : action) : outcome (memory * option N) :=
  match x with
  | Allocate sz count new =>
      match allocate I sz m count new with
      | Done (m, p) => Done (m, Some p)
      | BadAlloc => Done (m, None)   (* caught by the program *)
      | Asserted => Asserted
      | Undefined => Undefined
      end
  | Deallocate p => match deallocate I m p with Done m => Done (m, None) | _ => Undefined end
  | Write a v => match store m a v with Done m => Done (m, None) | _ => Undefined end
  end.
