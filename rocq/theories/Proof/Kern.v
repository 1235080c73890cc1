(** The transforms of a build against the plain ones, for objects whose length is a power of two. *)
From Coq Require Import List NArith Arith.
From Verif.Model Require Import Common Ring Fft2n Radix2.
Import ListNotations.
Open Scope nat_scope.

Record kern_ok {T} (K : kernels T) : Prop := KernOk {
  ko_fft : forall f L e out input, r_n f = 2 ^ L -> e <= L -> Nat.max (r_data_len f) (length input) = 2 ^ e ->
    length out = 2 ^ L -> k_fft K f out input = r2_fft_buf (k_sym K) f out input;
  ko_inv : forall f L out input, r_n f = 2 ^ L -> length out = 2 ^ L -> 0 < length input ->
    k_fft_inv K f out input = r2_fft_inv_buf (k_sym K) f out input
}.

Lemma plain_ok {T} (S : symops N T) : kern_ok (plain S).
Proof. now split. Qed.
