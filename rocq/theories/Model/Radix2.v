(** Model of the objects of class fft::Radix2 (src/fft_2n.h) and of the packet arithmetic (src/gf_ring.h) they run on.
    Proof-free. *)
From Coq Require Import List NArith Arith Bool.
From Verif.Model Require Import Common Arith Ring Fft2n.
Import ListNotations.
Open Scope nat_scope.

(** ** Symbols of the two instantiations *)

(** Vector version: symbols are field elements. *)
Definition sym_vec (G : gfops) : symops N N :=
  Symops 0%N
    (fun r a b => (g_add G a (g_mul G r b), g_sub G a (g_mul G r b)))
    (fun r a b => (g_add G a b, g_mul G r (g_sub G a b)))
    (fun r a _ => g_mul G r a) (fun r a _ => g_mul G r a) (fun a => g_sub G 0%N a).

(** Element-wise combination of two packets. *)
Fixpoint map2 {A B D} (f : A -> B -> D) (l : list A) (m : list B) : list D :=
  match l, m with
  | a :: l', b :: m' => f a b :: map2 f l' m'
  | _, _ => []
  end.

(** Buffers version without SIMD: symbols are packets of [pkt] field elements; loops of fft_2n.h:492-499, 600-607,
    620-627 and gf_ring.h:362-372, 833-839. *)
Definition sym_pkt (G : gfops) (pkt : nat) : symops N (list N) :=
  Symops (repeat 0%N pkt)
    (fun r p q => (map2 (fun a b => g_add G a (g_mul G r b)) p q, map2 (fun a b => g_sub G a (g_mul G r b)) p q))
    (fun r p q => (map2 (g_add G) p q, map2 (fun a b => g_mul G r (g_sub G a b)) p q))
    (fun r p _ => map (g_mul G r) p) (fun r p _ => map (g_mul G r) p) (map (fun a => g_sub G 0%N a)).

(** Radix2 object: fft_2n.h:143-170. *)
Record radix2 := mkRadix2 {
  r_n : nat;
  r_data_len : nat;
  r_w : N;
  r_inv_w : N;
  r_W : list N;
  r_inv_W : list N;
  r_rev : list nat;
  r_inv_n : N               (* fft_base.h:88, 104 *)
}.

(** Constructor, fft_2n.h:176-208 with fft_base.h:94-113.  [root] is the primitive root of the field.
    [None]: the failed assertion [n >= data_len] or the exception of line 182.
    The characteristic [get_p()] is [p]. *)
Definition radix2_new (G : gfops) (p root : N) (n data_len : nat) : option radix2 :=
  if n <? data_len then None
  else if negb (((p - 1) mod N.of_nat n =? 0)%N) then None
  else
    let w := get_nth_root G root (N.of_nat n) in
    let inv_w := g_inv G w in
    Some (mkRadix2 n (if 0 <? data_len then data_len else n) w inv_w
            (compute_omegas G n w) (compute_omegas G n inv_w) (init_bitrev n)
            (get_inv_n_mod_p G p (N.of_nat n))).

Section Run.
Context {T : Type}.
Variable S : symops N T.

(** Radix2::fft, fft_2n.h:269-306 (Vector) *)
Definition r2_fft_vec (f : radix2) (out input : list T) : list T :=
  fft_vec S 0%N (r_n f) (r_data_len f) (r_rev f) (r_W f) out input.

(** Radix2::fft, fft_2n.h:361-407 (Buffers) *)
Definition r2_fft_buf (f : radix2) (out input : list T) : list T :=
  fft_buf S 0%N (r_n f) (r_data_len f) (r_rev f) (r_W f) out input.

(** Radix2::fft_inv, fft_2n.h:321-342 (Vector) *)
Definition r2_fft_inv_vec (f : radix2) (out input : list T) : list T :=
  fft_inv_vec S 0%N (r_n f) (r_rev f) (r_inv_W f) out input.

(** Radix2::fft_inv, fft_2n.h:516-561 (Buffers) *)
Definition r2_fft_inv_buf (f : radix2) (out input : list T) : list T :=
  fft_inv_buf S 0%N (r_n f) (r_rev f) (r_inv_W f) out input.

(** One row of gf_ring.h:375-401: [dest] gets [coef * src]; the cases are those of lines 388-399.
    The last line is the case of an invalid coefficient, which leaves [dest] unchanged. *)
Definition mul_coef (h coef : N) (src dest : T) : T :=
  if ((1 <? coef) && (coef <? h))%N then s_scale S coef src dest
  else if (coef =? 1)%N then src
  else if (coef =? 0)%N then s_zero S
  else if (coef =? h)%N then s_neg S src
  else dest.

(** gf_ring.h:375-401, [h] is card - 1. Rows of [dest] beyond the length of [u] are kept. *)
Definition mul_vec_to_vecp (h : N) (u : list N) (src dest : list T) : list T :=
  fold_left (fun d i => set d i (mul_coef h (get 0%N u i) (get (s_zero S) src i) (get (s_zero S) d i)))
            (seq 0 (length u)) dest.

(** gf_ring.h:841-848 (Buffers) and 833-839: negation of all symbols. *)
Definition neg_bufs (v : list T) : list T := map (s_neg S) v.

End Run.

(** The transforms on buffers that a build uses: plain loops, or the SIMD specialisations of Simd.v. *)
Record kernels (T : Type) := Kernels {
  k_sym : symops N T;
  k_fft : radix2 -> list T -> list T -> list T;
  k_fft_inv : radix2 -> list T -> list T -> list T
}.
Arguments Kernels {T}.
Arguments k_sym {T}.
Arguments k_fft {T}.
Arguments k_fft_inv {T}.

(** Builds without SIMD, and types other than uint16_t and uint32_t. *)
Definition plain {T} (S : symops N T) : kernels T := Kernels S (r2_fft_buf S) (r2_fft_inv_buf S).

(** Radix2::ifft, fft_2n.h:631-639 (Buffers): in-place product by 1/n.  In-place is the case [dest = src]. *)
Definition r2_ifft_buf {T} (K : kernels T) (h : N) (f : radix2) (out input : list T) : list T :=
  let v := k_fft_inv K f out input in
  mul_vec_to_vecp (k_sym K) h (repeat (r_inv_n f) (r_n f)) v v.

(** Radix2::ifft, fft_2n.h:345-353 (Vector) with mul_scalar of vec_vector.h:282-287. *)
Definition r2_ifft_vec (G : gfops) (f : radix2) (out input : list N) : list N :=
  map (fun x => g_mul G x (r_inv_n f)) (r2_fft_inv_vec (sym_vec G) f out input).
