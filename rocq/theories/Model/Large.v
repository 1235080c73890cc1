(** Model of src/fft_large.h (class fft::Large) over [gf::Prime<T>], [T] of [tw] bits with a double-size type of [2 tw] bits
    (uint16_t, uint32_t, uint64_t).  Proof-free.
    The [int] variables are [nat], the variables of type [T] are [N].  The versions for Buffers (fft_large.h:245-260) do
    nothing. *)
From Coq Require Import List NArith Bool.
From Verif.Model Require Import Common Arith Ring.
Import ListNotations.
Open Scope N_scope.

(** fft_large.h:116-127: the do-while loop; [j] turns are enough. *)
Fixpoint get_p_loop (fuel : nat) (x : N) (y j : nat) : N :=
  match fuel with
  | O => 0
  | S f =>
      if Nat.eqb y j then (if N.odd x then 1 else 0)
      else
        let x' := N.shiftr x 1 in
        if x' =? 0 then 0 else get_p_loop f x' (S y) j
  end.
(** fft_large.h:109-130 *)
Definition get_p (i : N) (j : nat) : N := get_p_loop j i 1 j.
(** fft_large.h:135-141 *)
Definition get_p0 (i : N) (j s : nat) : N := if Nat.eqb j s then 0 else get_p i j.
(** fft_large.h:147-153 *)
Definition get_p1 (i : N) (j s : nat) : N := if Nat.eqb j s then 1 else get_p i j.

(** [T acc = 0; for (k = 1; k <= n; k++) acc += f(k)]. *)
Definition sum_to (tw : N) (f : nat -> N) (n : nat) : N :=
  fold_left (fun acc k => wrap tw (acc + f k)) (seq 1 n) 0.

Section Consts.
Variables (tw : N) (l : nat).

Definition exp2n (k : nat) : N := exp2 (N.of_nat k).

(** fft_large.h:170-172 *)
Definition large_tmp1 (i : nat) (j : N) : N := sum_to tw (fun k => get_p j (l - i + k) * exp2n (i - k)) i.
(** fft_large.h:174-177 *)
Definition large_tmp2 (i : nat) (j : N) : N := sum_to tw (fun k => get_p0 j k (l - i + 1) * exp2n (k - 1)) l.
(** fft_large.h:179-182 *)
Definition large_tmp3 (i : nat) (j : N) : N := sum_to tw (fun k => get_p1 j k (l - i + 1) * exp2n (k - 1)) l.
(** fft_large.h:184-185 *)
Definition large_tmp4 (i : nat) (j : N) : N := wrap tw (large_tmp1 i j * exp2n (l - i)).
(** fft_large.h:190-193 *)
Definition large_tmp5 (i : N) : N := sum_to tw (fun k => get_p i (l - k + 1) * exp2n (k - 1)) l.

(** fft_large.h:158-187: row 0 is left at zero. *)
Definition large_table (n : nat) (f : nat -> N -> N) : list (list N) :=
  repeat 0 n :: map (fun i => map (fun j => f i (N.of_nat j)) (seq 0 n)) (seq 1 l).
End Consts.

(** The object (fft_large.h:62-71 and fft_base.h:87-89). *)
Record large := LargeObj {
  lg_l : nat;
  lg_n : nat;
  lg_W : list N;
  lg_invW : list N;
  lg_tmp2 : list (list N);
  lg_tmp3 : list (list N);
  lg_tmp4 : list (list N);
  lg_tmp5 : list N;
  lg_inv_n : N
}.

(** fft_large.h:78-92 with fft_base.h:95-111 and gf_base.h:116-119.  [u] and [u'] are the last entries of [W] and [inv_W],
    which nothing sets. *)
Definition large_new (tw m : N) (l : nat) (w u u' : N) : large :=
  let G := prime_ops tw m in
  let n := N.to_nat (exp2n l) in
  LargeObj l n (compute_omegas G n w ++ [u]) (compute_omegas G n (g_inv G w) ++ [u'])
    (large_table l n (large_tmp2 tw l)) (large_table l n (large_tmp3 tw l)) (large_table l n (large_tmp4 tw l))
    (map (fun i => large_tmp5 tw l (N.of_nat i)) (seq 0 n))
    (get_inv_n_mod_p G m (N.of_nat n)).

Definition at_ (t : list N) (i : N) : N := nth (N.to_nat i) t 0.

Section Fft.
Variables (tw m : N) (L : large).

(** fft_large.h:211-217: row [i] of [phi] from row [i - 1]. *)
Definition large_row (W : list N) (phi : list N) (i : nat) : list N :=
  map (fun j =>
         let val := wrap (2 * tw) (at_ W (nth j (nth i (lg_tmp4 L) []) 0) * at_ phi (nth j (nth i (lg_tmp3 L) []) 0)
                                   + at_ phi (nth j (nth i (lg_tmp2 L) []) 0)) in
         wrap tw (val mod m)) (seq 0 (lg_n L)).

(** fft_large.h:198-222 *)
Definition large_run (W input : list N) : list N :=
  let phi0 := map (fun i => nth i input 0) (seq 0 (lg_n L)) in
  let phi := fold_left (large_row W) (seq 1 (lg_l L)) phi0 in
  map (fun i => at_ phi (nth i (lg_tmp5 L) 0)) (seq 0 (lg_n L)).

(** fft_large.h:225-228 *)
Definition large_fft (input : list N) : list N := large_run (lg_W L) input.
(** fft_large.h:231-234 *)
Definition large_fft_inv (input : list N) : list N := large_run (lg_invW L) input.
(** fft_large.h:237-242 with vec_vector.h:283-287; the output vector has [n] entries. *)
Definition large_ifft (input : list N) : list N :=
  let out := large_fft_inv input in
  if 1 <? lg_inv_n L then map (fun v => ring_mul tw m v (lg_inv_n L)) out else out.
End Fft.
