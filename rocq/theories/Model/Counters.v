(** Model of the operation counters of src/fft_base.h:42-48 and src/fft_2n.h:641-725.  Proof-free.
    The fields are size_t in C++: they are unbounded here. *)
From Coq Require Import List NArith Arith Bool.
From Verif.Model Require Import Common Fft2n Radix2.
Import ListNotations.
Open Scope nat_scope.

(** fft_base.h:42-48 *)
Record counter := mkCounter { n_add : nat; n_sub : nat; n_mul : nat; n_neg : nat; n_butterfly : nat }.
Definition counter0 : counter := mkCounter 0 0 0 0 0.

(** [counter.butterfly++; counter.add++; counter.sub++; if (...) counter.mul++;], fft_2n.h:664-669 and 712-717;
    [h] is card_minus_one. *)
Definition count_normal (h coef : N) (c : counter) : counter :=
  mkCounter (S (n_add c)) (S (n_sub c)) (if ((1 <? coef) && (coef <? h))%N then S (n_mul c) else n_mul c) (n_neg c)
    (S (n_butterfly c)).

(** fft_2n.h:694-699 *)
Definition count_simple (h coef : N) (c : counter) : counter :=
  if (coef =? h)%N then mkCounter (n_add c) (n_sub c) (n_mul c) (S (n_neg c)) (S (n_butterfly c))
  else if (1 <? coef)%N then mkCounter (n_add c) (n_sub c) (S (n_mul c)) (n_neg c) (S (n_butterfly c))
  else mkCounter (n_add c) (n_sub c) (n_mul c) (n_neg c) (S (n_butterfly c)).

(** One turn of the loop on [m]: all starts, all butterflies.  fft_2n.h:656-671: the index is [start * ratio]. *)
Definition fft_count_layer (h : N) (len : nat) (W : list N) (m : nat) (c : counter) : counter :=
  let step := 2 * m in
  let ratio := len / step in
  fold_left (fun c start =>
    let coef := get 0%N W (start * ratio) in
    fold_left (fun c _ => count_normal h coef c) (steps len start len step) c) (seq 0 m) c.
Fixpoint fft_count_layers (fuel : nat) (h : N) (len : nat) (W : list N) (m : nat) (c : counter) : counter :=
  match fuel with
  | O => c
  | S f => if m <? len then fft_count_layers f h len W (2 * m) (fft_count_layer h len W m c) else c
  end.

(** Radix2::fft_op_counter, fft_2n.h:641-675. *)
Definition fft_op_counter (h : N) (f : radix2) (input_len : nat) : counter :=
  let len := r_n f in
  let group_len := if r_data_len f <? input_len then len / input_len else len / r_data_len f in
  fft_count_layers len h len (r_W f) group_len counter0.

(** The two kinds of turns of ifft_op_counter: fft_2n.h:688-703 and 706-720. *)
Definition ifft_count_layer (count : N -> counter -> counter) (len : nat) (W : list N) (m : nat) (c : counter) : counter :=
  let step := 2 * m in
  fold_left (fun c start =>
    let coef := get 0%N W (start * len / step) in
    fold_left (fun c _ => count coef c) (steps len start len step) c) (seq 0 m) c.
(** [for (; m >= low; m /= 2)] *)
Fixpoint ifft_count_layers (fuel : nat) (count : N -> counter -> counter) (low len : nat) (W : list N) (m : nat) (c : counter) :
    nat * counter :=
  match fuel with
  | O => (m, c)
  | S f => if low <=? m then ifft_count_layers f count low len W (m / 2) (ifft_count_layer count len W m c) else (m, c)
  end.

(** Radix2::ifft_op_counter, fft_2n.h:677-725. *)
Definition ifft_op_counter (h : N) (f : radix2) (input_len : nat) : counter :=
  let len := r_n f in
  let '(m, c) := if input_len <? len
                 then ifft_count_layers len (count_simple h) input_len len (r_inv_W f) (len / 2) counter0
                 else (len / 2, counter0) in
  snd (ifft_count_layers len (count_normal h) 1 len (r_inv_W f) m c).
