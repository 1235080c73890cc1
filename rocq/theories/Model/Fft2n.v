(** Model of src/fft_2n.h (class Radix2).  Proof-free.
    The butterflies are written over a symbol type [T] scaled by coefficients of type [C], so that one
    definition serves the Vector version ([T = N]) and the Buffers version ([T] = a packet of symbols). *)
From Coq Require Import List NArith Arith Bool.
From Verif.Model Require Import Common Arith Ring.
Import ListNotations.
Open Scope nat_scope.

(** ** Bit reversal: fft_2n.h:49-61, 32-bit unsigned arithmetic.
    In the first turn [bit] is 0 and the shift amount [bit_len - 1 - bit_num] wraps; 0 shifted by
    anything is taken to be 0. *)
Fixpoint rev_loop (fuel : nat) (x mask bit_num bit_len res : N) : N :=
  match fuel with
  | O => res
  | S f =>
      if (mask =? 0)%N then res
      else
        let bit := N.shiftr (N.land x mask) bit_num in
        let amount := wrap 32 (bit_len + 2 ^ 32 - 1 - bit_num) in
        let res' := N.lor res (N.shiftl bit amount) in
        rev_loop f x (N.div2 mask) (wrap 32 (bit_num + 2 ^ 32 - 1)) bit_len res'
  end.

Definition reverse_bitwise (x len bit_len : N) : N :=
  rev_loop (S (S (N.to_nat bit_len))) x len bit_len bit_len 0.

(** fft_2n.h:211-220: the table [rev] for a transform of length [n]. *)
Definition init_bitrev (n : nat) : list nat :=
  match log2 (N.of_nat n) with
  | Some l => map (fun i => N.to_nat (reverse_bitwise (N.of_nat i) (N.of_nat n) l)) (seq 0 n)
  | None => []
  end.

(** fft_2n.h:223-240: swaps of entries, for [i] increasing. *)
Definition bit_rev_permute {A} (d : A) (n : nat) (rev : list nat) (v : list A) : list A :=
  fold_left (fun v i => if get 0 rev i <? i then swap d v i (get 0 rev i) else v) (seq 0 n) v.

Section Symbols.
Context {C T : Type}.

(** Operations on symbols: for vectors the field operations, for packets the loops over the packet, which depend on
    the build (plain loops or SIMD).  The last argument of [s_gss] and [s_scale] is the old content of the symbol
    written to. *)
Record symops := Symops {
  s_zero : T;
  s_ct : C -> T -> T -> T * T;    (* [(a + r b, a - r b)] *)
  s_gs : C -> T -> T -> T * T;    (* [(a + b, r (a - b))] *)
  s_gss : C -> T -> T -> T;       (* [r a], written by butterfly_gs_step_simple *)
  s_scale : C -> T -> T -> T;     (* [r a], written by mul_coef_to_buf *)
  s_neg : T -> T
}.

Variable S : symops.
Variable dC : C.   (* value of an out-of-range read of the table of powers; never used in range *)

(** fft_2n.h:299-302 (Vector) and 492-499 (Buffers): one Cooley-Tukey butterfly on entries [i], [i + m]. *)
Definition butterfly_ct (r : C) (m : nat) (v : list T) (i : nat) : list T :=
  let ab := s_ct S r (get (s_zero S) v i) (get (s_zero S) v (i + m)) in
  set (set v i (fst ab)) (i + m) (snd ab).

(** fft_2n.h:483-501: butterflies at [start], [start + step], ... *)
Definition butterfly_ct_step (n : nat) (r : C) (start m step : nat) (v : list T) : list T :=
  fold_left (butterfly_ct r m) (steps n start n step) v.

(** fft_2n.h:332-335 and 600-607: one Gentleman-Sande butterfly. *)
Definition butterfly_gs (r : C) (m : nat) (v : list T) (i : nat) : list T :=
  let ab := s_gs S r (get (s_zero S) v i) (get (s_zero S) v (i + m)) in
  set (set v i (fst ab)) (i + m) (snd ab).

(** fft_2n.h:591-609 *)
Definition butterfly_gs_step (n : nat) (r : C) (start m step : nat) (v : list T) : list T :=
  fold_left (butterfly_gs r m) (steps n start n step) v.

(** fft_2n.h:621-626 *)
Definition butterfly_gs_simple (r : C) (m : nat) (v : list T) (i : nat) : list T :=
  set v (i + m) (s_gss S r (get (s_zero S) v i) (get (s_zero S) v (i + m))).

(** fft_2n.h:612-628 *)
Definition butterfly_gs_step_simple (n : nat) (r : C) (start m step : nat) (v : list T) : list T :=
  fold_left (butterfly_gs_simple r m) (steps n start n step) v.

(** fft_2n.h:274-291 and 370-387: bit-reversed copy of the input into groups, zeros for the missing inputs. *)
Definition group_len (n data_len input_len : nat) : nat :=
  if data_len <? input_len then n / input_len else n / data_len.

Definition fill (v : list T) (start len : nat) (a : T) : list T :=
  fold_left (fun v i => set v i a) (seq start len) v.

Definition fft_scatter (n data_len : nat) (rev : list nat) (input out : list T) : list T :=
  let g := group_len n data_len (length input) in
  let out1 := fold_left (fun v idx => fill v (get 0 rev idx) g (get (s_zero S) input idx))
                        (seq 0 (length input)) out in
  fold_left (fun v idx => fill v (get 0 rev idx) g (s_zero S))
            (seq (length input) (data_len - length input)) out1.

(** One layer of fft_2n.h:294-304: all butterflies of group size [m]. *)
Definition ct_layer (n : nat) (W : list C) (m : nat) (v : list T) : list T :=
  fold_left (fun v j => butterfly_ct_step n (get dC W (j * (n / (2 * m)))) j m (2 * m) v) (seq 0 m) v.

(** [for (m = group_len; m < len; m *= 2)], fft_2n.h:293. *)
Fixpoint ct_layers (fuel n : nat) (W : list C) (m : nat) (v : list T) : list T :=
  match fuel with
  | O => v
  | Datatypes.S f => if m <? n then ct_layers f n W (2 * m) (ct_layer n W m v) else v
  end.

(** Radix2::fft on vectors, fft_2n.h:269-306. [out] is the old content of the output. *)
Definition fft_vec (n data_len : nat) (rev : list nat) (W : list C) (out input : list T) : list T :=
  ct_layers n n W (group_len n data_len (length input)) (fft_scatter n data_len rev input out).

(** fft_2n.h:456-480: two layers for one [start]. *)
Definition two_layers_step (n : nat) (W : list C) (m : nat) (v : list T) (start : nat) : list T :=
  let step := 4 * m in
  let r1 := get dC W (start * n / m / 2) in
  let v1 := butterfly_ct_step n r1 start m step v in
  let v2 := butterfly_ct_step n r1 (start + 2 * m) m step v1 in
  let r2 := get dC W (start * n / m / 4) in
  let v3 := butterfly_ct_step n r2 start (2 * m) step v2 in
  let r3 := get dC W ((start + m) * n / m / 4) in
  butterfly_ct_step n r3 (start + m) (2 * m) step v3.

(** fft_2n.h:394-398; returns the reached [m] too. *)
Fixpoint two_layers (fuel n : nat) (W : list C) (m : nat) (v : list T) : nat * list T :=
  match fuel with
  | O => (m, v)
  | Datatypes.S f =>
      if m <? n / 2 then two_layers f n W (4 * m) (fold_left (two_layers_step n W m) (seq 0 m) v)
      else (m, v)
  end.

(** Radix2::fft on buffers, fft_2n.h:361-407. *)
Definition fft_buf (n data_len : nat) (rev : list nat) (W : list C) (out input : list T) : list T :=
  let '(m, v) := two_layers n n W (group_len n data_len (length input)) (fft_scatter n data_len rev input out) in
  if m <? n then
    fold_left (fun v j => butterfly_ct_step n (get dC W j) j m n v) (seq 0 m) v
  else v.

(** One layer of fft_2n.h:329-337 / 551-557. *)
Definition gs_layer (n : nat) (inv_W : list C) (m : nat) (v : list T) : list T :=
  fold_left (fun v j => butterfly_gs_step n (get dC inv_W (j * n / (2 * m))) j m (2 * m) v) (seq 0 m) v.

(** [for (; m >= 1; m /= 2)], fft_2n.h:327 and 551. *)
Fixpoint gs_layers (fuel n : nat) (inv_W : list C) (m : nat) (v : list T) : list T :=
  match fuel with
  | O => v
  | Datatypes.S f => if 1 <=? m then gs_layers f n inv_W (m / 2) (gs_layer n inv_W m v) else v
  end.

(** Vector::copy, vec_vector.h:371-418, from a source of length [<=] that of the destination: zero padding.
    With a longer source only the length of the destination is copied. *)
Definition copy_vec (out input : list T) : list T :=
  firstn (length out) input ++ repeat (s_zero S) (length out - length input).

(** Radix2::fft_inv on vectors, fft_2n.h:321-342. *)
Definition fft_inv_vec (n : nat) (rev : list nat) (inv_W : list C) (out input : list T) : list T :=
  bit_rev_permute (s_zero S) n rev (gs_layers n n inv_W (n / 2) (copy_vec out input)).

(** One layer of fft_2n.h:543-546 (second half of every group is taken to be zero). *)
Definition gs_simple_layer (n : nat) (inv_W : list C) (m : nat) (v : list T) : list T :=
  fold_left (fun v j => butterfly_gs_step_simple n (get dC inv_W (j * n / (2 * m))) j m (2 * m) v) (seq 0 m) v.

(** fft_2n.h:541-547; returns the reached [m] too.  (With [input_len = 0] the C++ loop would not stop.) *)
Fixpoint gs_simple_layers (fuel n input_len : nat) (inv_W : list C) (m : nat) (v : list T) : nat * list T :=
  match fuel with
  | O => (m, v)
  | Datatypes.S f =>
      if input_len <=? m then gs_simple_layers f n input_len inv_W (m / 2) (gs_simple_layer n inv_W m v)
      else (m, v)
  end.

(** fft_2n.h:528-538: copy of the input buffers, then zeros up to the next power of two. *)
Definition fft_inv_load (n : nat) (input out : list T) : list T :=
  let len := length input in
  let v := fold_left (fun v i => set v i (get (s_zero S) input i)) (seq 0 len) out in
  if len <? n then
    match ceil2 (N.of_nat len) with
    | Some p => fold_left (fun v i => set v i (s_zero S)) (seq len (N.to_nat p - len)) v
    | None => v
    end
  else v.

(** Radix2::fft_inv on buffers, fft_2n.h:516-561.  The first permutation moves the buffers of the output; what is
    read afterwards from them is overwritten or stale. *)
Definition fft_inv_buf (n : nat) (rev : list nat) (inv_W : list C) (out input : list T) : list T :=
  let out1 := bit_rev_permute (s_zero S) n rev out in
  let v := fft_inv_load n input out1 in
  let '(m, v') :=
    if length input <? n then gs_simple_layers n n (length input) inv_W (n / 2) v else (n / 2, v) in
  bit_rev_permute (s_zero S) n rev (gs_layers n n inv_W m v').

End Symbols.
Arguments symops : clear implicits.
