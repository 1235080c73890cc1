(** Model of the functions of RingModN on packets and on buffers of packets: src/gf_ring.h:363-451 and 825-848, and the
    specialisations for uint16_t and uint32_t of the builds with SIMD, src/gf_ring.cpp:38-118.  Proof-free.
    A packet is a list of [len] elements; a packet that is written over one of the operands is the case where the old contents
    [dest] are that operand. *)
From Coq Require Import List NArith Arith Bool.
From Verif.Model Require Import Common Ring Fft2n Radix2 Simd.
Import ListNotations.
Open Scope nat_scope.

(** Loops whose body may fail. *)
Fixpoint ofold {A B} (f : A -> B -> option A) (l : list B) (s : A) : option A :=
  match l with
  | [] => Some s
  | x :: t => match f s x with Some s' => ofold f t s' | None => None end
  end.

Section Packets.
(** The build (0: without SIMD, 1: registers of 16 bytes, 2: of 32 bytes), the width of [T], the member [_card] of RingModN
    (gf_ring.h:145), which the specialisations use, and the field.  [card_minus_one()] is [g_card G - 1]. *)
Variables (nh : nat) (w rc : N) (G : gfops).

(** hadamard_mul: gf_ring.h:824-830; gf_ring.cpp:106-118.  BinExtension overrides it with the plain loop in every build
    (gf_bin_ext.h:584-591), that is [nh = 0] here. *)
Definition ring_hadamard (x y : list N) : list N :=
  match nh, simd_size w with S _, Some e => simd_hadamard e nh rc x y | _, _ => map2 (g_mul G) x y end.

(** mul_coef_to_buf: gf_ring.h:363-372; gf_ring.cpp:52-60, 79-87.  [None]: division by [_card], when it is 0 (gf_base.h:78 for
    a field of [2 ^ n] elements in a type of [n] bits). *)
Definition buf_scale (a : N) (src dest : list N) (len : nat) : option (list N) :=
  match nh, simd_size w with
  | S _, Some e => if ((rc =? 0)%N && (0 <? tail_len e nh len))%bool then None else Some (mul_coef_to_buf e nh rc a src dest len)
  | _, _ => Some (map (g_mul G a) src)
  end.
(** add_two_bufs: gf_ring.h:403-411; gf_ring.cpp:62-67, 89-94. *)
Definition buf_add (src dest : list N) (len : nat) : list N :=
  match nh, simd_size w with S _, Some e => add_two_bufs e nh rc src dest len | _, _ => map2 (g_add G) src dest end.
(** sub_two_bufs: gf_ring.h:427-435; gf_ring.cpp:69-77, 96-104. *)
Definition buf_sub (bufa bufb res : list N) (len : nat) : list N :=
  match nh, simd_size w with S _, Some e => sub_two_bufs e nh rc bufa bufb res len | _, _ => map2 (g_sub G) bufa bufb end.
(** neg: gf_ring.h:832-839; gf_ring.cpp:40-50. *)
Definition buf_neg (len : nat) (x : list N) : list N :=
  match nh, simd_size w with S _, Some e => simd_neg e nh rc len x | _, _ => map (fun a => g_sub G 0%N a) x end.

(** One row of mul_vec_to_vecp, gf_ring.h:386-399. *)
Definition row_mul (coef : N) (src dest : list N) (len : nat) : option (list N) :=
  let h := (g_card G - 1)%N in
  if ((1 <? coef) && (coef <? h))%N then buf_scale coef src dest len
  else if (coef =? 1)%N then Some src
  else if (coef =? 0)%N then Some (repeat 0%N len)
  else if (coef =? h)%N then Some (buf_neg len src)
  else Some dest.
(** mul_vec_to_vecp: gf_ring.h:374-401.  [None] also: the assertion, or fewer packets in [dest] than coefficients. *)
Definition vecp_mul (u : list N) (src dest : list (list N)) (len : nat) : option (list (list N)) :=
  if ((length u =? length src) && (length u <=? length dest))%bool then
    ofold (fun d i => match row_mul (get 0%N u i) (get [] src i) (get [] d i) len with Some r => Some (set d i r) | None => None end)
      (seq 0 (length u)) dest
  else None.
(** add_vecp_to_vecp: gf_ring.h:413-425; sub_vecp_to_vecp: 437-451.  The two buffers have packets of [len] elements; [None]:
    the assertions, or fewer packets in [res]. *)
Definition vecp_add (src dest : list (list N)) (len : nat) : option (list (list N)) :=
  if length src =? length dest then
    Some (fold_left (fun d i => set d i (buf_add (get [] src i) (get [] d i) len)) (seq 0 (length src)) dest)
  else None.
Definition vecp_sub (veca vecb res : list (list N)) (len : nat) : option (list (list N)) :=
  if ((length veca =? length vecb) && (length veca <=? length res))%bool then
    Some (fold_left (fun d i => set d i (buf_sub (get [] veca i) (get [] vecb i) (get [] d i) len)) (seq 0 (length veca)) res)
  else None.
(** neg on buffers: gf_ring.h:841-848. *)
Definition vecp_neg (buf : list (list N)) (len : nat) : list (list N) := map (buf_neg len) buf.
End Packets.
