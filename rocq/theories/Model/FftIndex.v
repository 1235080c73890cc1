(** The entries of the output and of the table of powers that Radix2::fft (Vector version) reads or writes,
    src/fft_2n.h:269-306.  Vector::get and Vector::set check the index only with [assert] (src/vec_vector.h:248-261),
    so that in a build without assertions an index outside the vector is an access outside its memory.  Proof-free. *)
From Coq Require Import List NArith Arith Bool.
From Verif.Model Require Import Common Arith Ring Fft2n Radix2.
Import ListNotations.
Open Scope nat_scope.

(** fft_2n.h:278-280 and 285-287: the group of the input [idx]. *)
Definition group_touched (rev : list nat) (g idx : nat) : list nat := seq (get 0 rev idx) g.

(** fft_2n.h:297-303: the entries [i] and [i + m] of one layer. *)
Definition layer_touched (n m : nat) : list nat :=
  flat_map (fun j => flat_map (fun i => [i; i + m]) (steps n j n (2 * m))) (seq 0 m).

(** fft_2n.h:296: the entries of the table of powers used by one layer. *)
Definition layer_powers (n m : nat) : list nat := map (fun j => j * (n / (2 * m))) (seq 0 m).

(** fft_2n.h:293: all layers from [m] up. *)
Fixpoint layers_of (layer : nat -> nat -> list nat) (fuel n m : nat) : list nat :=
  match fuel with
  | O => []
  | S f => if m <? n then layer n m ++ layers_of layer f n (2 * m) else []
  end.

(** The indices in the output, for an input of [len] entries. *)
Definition fft_touched (n data_len : nat) (rev : list nat) (len : nat) : list nat :=
  let g := group_len n data_len len in
  flat_map (group_touched rev g) (seq 0 len) ++
  flat_map (group_touched rev g) (seq len (data_len - len)) ++
  layers_of layer_touched n n g.

Definition fft_powers (n data_len len : nat) : list nat := layers_of layer_powers n n (group_len n data_len len).

(** The transform, with [None] when an access is outside the output, the table of powers or the table [rev]. *)
Definition r2_fft_checked {T} (S : symops N T) (f : radix2) (out input : list T) : option (list T) :=
  let len := length input in
  if forallb (fun i => i <? length out) (fft_touched (r_n f) (r_data_len f) (r_rev f) len) &&
     forallb (fun i => i <? length (r_W f)) (fft_powers (r_n f) (r_data_len f) len) &&
     (Nat.max (r_data_len f) len <=? length (r_rev f))
  then Some (r2_fft_vec S f out input) else None.
