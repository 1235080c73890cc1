(** Model of src/fec_rs_gf2n_fft_add.h: the Reed-Solomon code over GF(2^n) with the additive transform, on vectors, with
    the part of src/fec_context.h that it uses.  Proof-free.  [None]: failed assertion or exception. *)
From Coq Require Import List NArith ZArith Arith Bool.
From Verif.Model Require Import Common Arith Ring Poly Gf2n Additive Fnt.
Import ListNotations.
Open Scope nat_scope.

(** Members: [gf], [n_data], [n], [fft] and [betas] (fec_base.h:91-105, 240-259; fec_rs_gf2n_fft_add.h:117-118, 232-234),
    with the width of the type. *)
Record acode := mkAcode { a_w : N; a_G : gfops; a_k : nat; a_n : nat; a_fft : additive; a_pts : list N }.

(** fec_rs_gf2n_fft_add.h:52-92; the transform is that of fft_add.h:102-145 without [betas]. *)
Definition acode_new (junk w : N) (ws k m : nat) : option acode :=
  if 16 <? ws then None
  else match new_bin_ext junk w (8 * N.of_nat ws) with
  | None => None
  | Some X =>
      let G := bin_ops X in
      match ceil2 (N.of_nat (k + m)), find_primitive_root w G with
      | Some n, Some root =>
          match log2 n with
          | None => None
          | Some d =>
              let d := N.to_nat d in
              let betas := default_betas G junk root d in
              match new_additive G junk d betas, compute_subspace G betas (vnew junk (N.to_nat n)) with
              | Some a, Some pts => Some (mkAcode w G k (N.to_nat n) a pts)
              | _, _ => None
              end
          end
      | _, _ => None
      end
  end.

(** fec_rs_gf2n_fft_add.h:105-113.  The input is a ZeroExtended; the transform copies its memory and completes it with
    zeros (vec_vector.h:404-418), or reads it with [get]: the same elements. *)
Definition aencode (junk : N) (c : acode) (output words : list N) : option (list N) :=
  add_fft (a_G c) junk (a_fft c) output (words ++ repeat 0%N (a_n c - length words)).

(** What the context holds and does not change: the indices, A, 1/(x_i A'(x_i)) and [vx_zero]. *)
Record actx := mkActx { ax_ids : list nat; ax_A : poly; ax_inv : list N; ax_zero : option nat }.

(** fec_rs_gf2n_fft_add.h:141-149: the last index wins. *)
Definition find_zero (vx : list N) : option nat :=
  fold_left (fun z i => if (get 0%N vx i =? 0)%N then Some i else z) (seq 0 (length vx)) None.

(** init_context_dec, fec_rs_gf2n_fft_add.h:122-165, and fec_context.h:64-107, 232-268.  [*(this->fft_2k)] is a reference
    made from a null pointer: the context keeps the null pointer and tests it before its use (line 270).
    The characteristic is 2.  [out]: the contents of the new vector [_A_fft]. *)
Definition actx_new (junk : N) (c : acode) (ids : list nat) (out : list N) : option actx :=
  let G := a_G c in
  let vx := map (get 0%N (a_pts c)) ids in
  let z := find_zero vx in
  match ring_code_len_high_compo (a_w c) (g_card G) (2 * N.of_nat (a_k c)), ctx_A G (a_n c) vx with
  | Some _, Some A =>
      match poly_derivative G 2 A with
      | None => None
      | Some A' =>
          match add_fft G junk (a_fft c) out (p_buf A') with
          | None => None
          | Some Afft =>
              Some (mkActx ids A
                (map (fun i => let a := get 0%N Afft (get 0 ids i) in
                               g_inv G (if match z with Some j => i =? j | None => false end then a
                                        else g_mul G a (get 0%N vx i))) (seq 0 (a_k c))) z)
          end
      end
  | _, _ => None
  end.

(** fec_rs_gf2n_fft_add.h:199-211: the coefficients of S.  [ns] is [vec1_n]. *)
Definition series_coef (G : gfops) (k : nat) (z : option nat) (vx ns : list N) (j : nat) : N :=
  fold_left (fun val i =>
      if match z with Some t => i =? t | None => false end then val
      else g_add G val (g_mul G (get 0%N ns i) (g_inv G (g_exp G (get 0%N vx i) (N.of_nat j)))))
    (seq 0 k) 0%N.

Definition oset (G : gfops) (o : option poly) (i : nat) (v : poly -> N) : option poly :=
  match o with Some q => poly_set G q i (v q) | None => None end.

(** decode_apply, fec_rs_gf2n_fft_add.h:176-230, with decode_prepare that does nothing.  [S] is the polynomial of the
    context, which lives between two calls; the result is the new one and the output. *)
Definition adecode (c : acode) (x : actx) (S : poly) (words : list N) : option (poly * list N) :=
  let G := a_G c in
  let k := a_k c in
  let vx := map (get 0%N (a_pts c)) (ax_ids x) in
  let ns := fold_left (fun v i => set v i (g_mul G (get 0%N words i) (get 0%N (ax_inv x) i))) (seq 0 k) (repeat 0%N (a_n c)) in
  match fold_left (fun o j => oset G o j (fun _ => series_coef G k (ax_zero x) vx ns j)) (seq 0 k) (Some S) with
  | None => None
  | Some S1 =>
      match poly_mul G S1 (ax_A x) (k - 1) with
      | None => None
      | Some S2 =>
          match (match ax_zero x with
                 | None => Some S2
                 | Some z =>
                     if (get 0%N (p_buf (ax_A x)) 0 =? 0)%N then
                       fold_left (fun o i => oset G o (i - 1)
                           (fun q => g_add G (get 0%N (p_buf q) (i - 1)) (g_mul G (get 0%N ns z) (get 0%N (p_buf (ax_A x)) i))))
                         (seq 1 (Z.to_nat (p_deg (ax_A x)))) (Some S2)
                     else None
                 end) with
          | None => None
          | Some S3 => Some (S3, map (get 0%N (p_buf S3)) (seq 0 k))
          end
      end
  end.
