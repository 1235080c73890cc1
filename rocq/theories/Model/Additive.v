(** Model of src/fft_add.h (additive transform, Taylor expansions).  Proof-free.
    A plain vector is the list of its elements (its length is both [n] and [mem_len]); the slices that the Taylor
    expansions make of one vector are the place of their first element and their length.  The contents of a new vector
    are [junk].  Lengths are natural numbers.  [None]: failed assertion or exception. *)
From Coq Require Import List NArith Arith Bool.
From Verif.Model Require Import Common Arith Ring Views.
Import ListNotations.
Open Scope nat_scope.

Section Additive.
Variables (G : gfops) (junk : N).

Definition vnew (n : nat) : list N := repeat junk n.
(** vec_vector.h:253-261 on a plain vector. *)
Definition at_ (l : list N) (i : nat) : N := get 0%N l i.
(** Assertions. *)
Definition check {A} (b : bool) (x : option A) : option A := if b then x else None.

(** ** Vectors *)

(** vec_vector.h:294-301 *)
Definition mul_beta (l : list N) (beta : N) : list N :=
  fst (fold_left (fun s i => let '(l, coef) := s in (set l i (g_mul G (at_ l i) coef), g_mul G coef beta))
                 (seq 1 (length l - 1)) (l, beta)).
(** vec_vector.h:307-314, gf_bin_ext.h:584-591 *)
Definition hadamard_mul (l v : list N) : option (list N) :=
  check (length l =? length v)
    (Some (fold_left (fun l i => set l i (g_mul G (at_ l i) (at_ v i))) (seq 0 (length l)) l)).
(** vec_vector.h:316-324 *)
Definition vadd (l v : list N) : option (list N) :=
  check (length l =? length v)
    (Some (fold_left (fun l i => set l i (g_add G (at_ l i) (at_ v i))) (seq 0 (length l)) l)).
(** vec_vector.h:326-336 *)
Definition vadd_at (l v : list N) (offset : nat) : option (list N) :=
  check (length v + offset <=? length l)
    (Some (fold_left (fun l i => set l (offset + i) (g_add G (at_ l (offset + i)) (at_ v i))) (seq 0 (length v)) l)).
(** vec_vector.h:391-418; with both offsets 0 this is 378-389. *)
Definition vcopy (l v : list N) (n dest src : nat) : option (list N) :=
  check (n + dest <=? length l)
    (Some (fold_left (fun l i => set l (dest + i) (if src + i <? length v then at_ v (src + i) else 0%N)) (seq 0 n) l)).
(** The loop of vec_vector.h:338-347 and 360-369: [len] elements from the place [src] added to those at [dest], in one
    memory. *)
Definition add_mutual (l : list N) (dest src len : nat) : list N :=
  fold_left (fun l i => set l (dest + i) (g_add G (at_ l (dest + i)) (at_ l (src + i)))) (seq 0 len) l.

(** ** Taylor expansions *)

(** fft_add.h:541-556.  The loop has at most [n] turns. *)
Fixpoint find_k_loop (fuel n t2k k : nat) : nat :=
  match fuel with
  | O => 0
  | S f => if (t2k <? n) && (n <=? 2 * t2k) then k else find_k_loop f n (2 * t2k) (S k)
  end.
Definition find_k (n t : nat) : option nat := check (t <? n) (Some (find_k_loop n n t 0)).

(** fft_add.h:605-625 before the recursive calls, and 447-467 with [t] = 2, on the [ln] elements from the place [off];
    [hdeg] is line 607-609, or [deg1] for the second. *)
Definition expand_step (l : list N) (off ln n t k : nat) (cut : bool) : option (list N) :=
  let deg2 := 2 ^ k in
  let deg0 := t * deg2 in
  let deg1 := deg0 - deg2 in
  let g1deg := n - deg0 in
  let hdeg := if cut && (g1deg <? deg1) then g1deg else deg1 in
  let n0 := slice_len deg0 0 ln in
  let n1 := slice_len g1deg deg0 ln in
  let n2 := slice_len deg2 (deg0 + deg1) ln in
  check (n2 <=? n1)
    (let l1 := add_mutual l (off + deg0) (off + deg0 + deg1) n2 in
     check ((hdeg =? 0) || (deg2 + hdeg <=? n0))
       (check (hdeg <=? n1) (Some (add_mutual l1 (off + deg2) (off + deg0) hdeg)))).

(** fft_add.h:441-472 *)
Fixpoint expand_t2 (l : list N) (off ln n k : nat) : option (list N) :=
  match expand_step l off ln n 2 k false with
  | None => None
  | Some l1 =>
      let deg0 := 2 * 2 ^ k in
      match k with
      | O => Some l1
      | S k' =>
          match expand_t2 l1 off (slice_len deg0 0 ln) deg0 k' with
          | None => None
          | Some l2 => expand_t2 l2 (off + deg0) (slice_len (n - deg0) deg0 ln) (n - deg0) k'
          end
      end
  end.
(** fft_add.h:403-430: the new [input], [g0] and [g1]. *)
Definition taylor_expand_t2 (input : list N) (n : nat) (g0 g1 : list N) : option (list N * list N * list N) :=
  check ((1 <=? n) && (length input <=? n) && is_power_of_2 (N.of_nat n))
    (if n <=? 2 then
       Some (input, set g0 0 (at_ input 0), if n =? 2 then set g1 0 (at_ input 1) else g1)
     else
       match find_k n 2 with
       | None => None
       | Some k =>
           match expand_t2 input 0 (length input) n k with
           | None => None
           | Some l =>
               let '(g0, g1) := fold_left (fun g i => (set (fst g) (i / 2) (at_ l i), set (snd g) (i / 2) (at_ l (i + 1))))
                                          (steps n 0 n 2) (g0, g1) in
               Some (l, g0, g1)
           end
       end).
(** fft_add.h:600-630; [fuel] is at least [n]. *)
Fixpoint expand (fuel : nat) (l : list N) (off ln n t : nat) : option (list N) :=
  match fuel with
  | O => None
  | S f =>
      match find_k n t with
      | None => None
      | Some k =>
          match expand_step l off ln n t k true with
          | None => None
          | Some l1 =>
              let deg0 := t * 2 ^ k in
              let g1deg := n - deg0 in
              match (if t <? deg0 then expand f l1 off (slice_len deg0 0 ln) deg0 t else Some l1) with
              | None => None
              | Some l2 => if t <? g1deg then expand f l2 (off + deg0) (slice_len g1deg deg0 ln) g1deg t else Some l2
              end
          end
      end
  end.
(** fft_add.h:569-592.  [copy] is vec_vector.h:371-376. *)
Definition taylor_expand (output input : list N) (n t : nat) : option (list N) :=
  check ((1 <=? n) && (1 <? t) && (length input <=? n))
    (let out := if length input <? length output then repeat 0%N (length output) else output in
     check (length input <=? length out)
       (let out := fold_left (fun l i => set l i (at_ input i)) (seq 0 (length input)) out in
        if t <? n then expand n out 0 (length out) n t else Some out)).

(** fft_add.h:519-532: the loops go down. *)
Definition mul_xt_x (l : list N) (t : nat) : list N :=
  let n := length l in
  let l := fold_left (fun l i => set l i (g_add G (at_ l (i - t)) (at_ l (i - 1)))) (rev (seq t (n - t))) l in
  let l := fold_left (fun l i => set l i (at_ l (i - 1))) (rev (seq 1 (Nat.min t n - 1))) l in
  set l 0 0%N.
(** fft_add.h:483-516 *)
Definition inv_taylor_expand_t2 (output g0 g1 : list N) : option (list N) :=
  let o_len := length output in
  check ((length g0 =? length g1) && is_power_of_2 (N.of_nat o_len))
    (if o_len <=? 2 then
       let out := set output 0 (at_ g0 0) in
       Some (if o_len =? 2 then set out 1 (at_ g1 0) else out)
     else
       let out := repeat 0%N o_len in
       let i := o_len / 2 - 1 in
       let out := set (set out 0 (at_ g0 i)) 1 (at_ g1 i) in
       Some (fold_left (fun out i =>
         let out := set (mul_xt_x out 2) 0 (at_ g0 i) in
         if (0 <? at_ g1 i)%N then set out 1 (g_add G (at_ out 1) (at_ g1 i)) else out) (rev (seq 0 i)) out)).
(** fft_add.h:645-673; [n]: length of the transform.  The slice [hi] has [t] elements at most; [tmp] and [input] are two
    vectors. *)
Definition add_slice (tmp input : list N) (i t : nat) : option (list N) :=
  let len := slice_len t i (length input) in
  check (len <=? length tmp)
    (Some (fold_left (fun l j => set l j (g_add G (at_ l j) (at_ input (i + j)))) (seq 0 len) tmp)).
Fixpoint inv_expand_loop (fuel : nat) (tmp input : list N) (i t : nat) : option (list N) :=
  match fuel with
  | O => None
  | S f =>
      if t <=? i then
        match add_slice (mul_xt_x tmp t) input (i - t) t with
        | Some tmp => inv_expand_loop f tmp input (i - t) t
        | None => None
        end
      else Some tmp
  end.
Definition inv_taylor_expand (n : nat) (output input : list N) (t : nat) : option (list N) :=
  let i_len := length input in
  let o_len := length output in
  check ((o_len <=? n) && (o_len <=? i_len) && (t <=? i_len))
    (match add_slice (repeat 0%N i_len) input (i_len - t) t with
     | None => None
     | Some tmp =>
         match inv_expand_loop (S i_len) tmp input (i_len - t) t with
         | Some tmp => vcopy output tmp o_len 0 0
         | None => None
         end
     end).

(** ** Construction *)

(** fft_add.h:205-231: [ids], [val] and [subspace]. *)
Definition compute_subspace (basis subspace : list N) : option (list N) :=
  let dim := length basis in
  check (length subspace =? 2 ^ dim)
    (match fold_left (fun o i =>
       match o with
       | None => None
       | Some (ids, val, subspace) =>
           fold_left (fun o j =>
             match o with
             | None => None
             | Some (ids, val, subspace) =>
                 let id := g_add G (at_ ids j) (exp2 (N.of_nat i)) in
                 match log2 (g_add G id (last ids 0%N)) with
                 | None => None
                 | Some diff =>
                     let val := g_add G val (at_ basis (N.to_nat diff)) in
                     Some (ids ++ [id], val, set subspace (N.to_nat id) val)
                 end
             end) (rev (seq 0 (2 ^ i))) (Some (ids, val, subspace))
       end) (seq 0 dim) (Some ([0%N], 0%N, set subspace 0 0%N)) with
     | Some (_, _, s) => Some s
     | None => None
     end).

(** fft_add.h:147-158 *)
Definition compute_beta_m_powers (beta_m : N) (n : nat) : list N :=
  let l := set (set (vnew n) 0 1%N) 1 beta_m in
  fst (fold_left (fun s i => let '(l, beta) := s in
                             let beta := g_mul G beta beta_m in (set l i beta, beta)) (seq 2 (n - 2)) (l, beta_m)).
(** fft_add.h:163-169 *)
Definition gamma_of (beta_m inv_beta_m beta : N) : N := if (1 <? beta_m)%N then g_mul G inv_beta_m beta else beta.
Definition delta_of (gamma : N) : N := g_add G (g_exp G gamma 2) gamma.

(** The members: [m], [beta_1] and [inv_beta_1] of an object with [m] = 1; [m], [beta_m], [inv_beta_m], [beta_m_powers],
    [G] and [fft_add] of the others.  [g0], [g1], [u], [v] and [mem] are new vectors in every call here. *)
Inductive additive :=
| Line (beta_1 inv_beta_1 : N)
| Layer (m : nat) (beta_m inv_beta_m : N) (powers gs : list N) (inner : additive).

(** fft_add.h:102-145 with given [betas]. *)
Fixpoint new_additive (m : nat) (betas : list N) : option additive :=
  match m with
  | O => None
  | S O => Some (Line (at_ betas 0) (g_inv G (at_ betas 0)))
  | S m1 =>
      let beta_m := at_ betas m1 in
      let inv_beta_m := g_inv G beta_m in
      let gammas := map (fun i => gamma_of beta_m inv_beta_m (at_ betas i)) (seq 0 m1) in
      let deltas := map delta_of gammas in
      match compute_subspace gammas (vnew (2 ^ m1)), new_additive m1 deltas with
      | Some gs, Some inner => Some (Layer m beta_m inv_beta_m (compute_beta_m_powers beta_m (2 ^ m)) gs inner)
      | _, _ => None
      end
  end.
(** fft_add.h:112-123: the basis without [betas]; [root]: the primitive root of the field. *)
Definition default_betas (root : N) (m : nat) : list N :=
  let l := set (vnew m) 0 root in
  let l := fold_left (fun l i => set l i (g_exp G root (N.of_nat (i + 1)))) (seq 1 (m - 1 - 1)) l in
  set l (m - 1) 1%N.

(** ** The transforms *)

(** fft_add.h:237-265, 329-342 *)
Fixpoint add_fft (a : additive) (output input : list N) : option (list N) :=
  match a with
  | Line beta_1 _ =>
      check ((2 <=? length output) && (2 <=? length input))
        (Some (set (set output 0 (at_ input 0)) 1 (g_add G (at_ input 0) (g_mul G (at_ input 1) beta_1))))
  | Layer m beta_m _ powers gs inner =>
      let n := 2 ^ m in
      let m_k := 2 ^ (m - 1) in
      match vcopy (vnew n) input n 0 0 with
      | None => None
      | Some mem =>
          match (if (1 <? beta_m)%N then hadamard_mul mem powers else Some mem) with
          | None => None
          | Some mem =>
              match taylor_expand_t2 mem n (vnew m_k) (vnew m_k) with
              | None => None
              | Some (_, g0, g1) =>
                  match add_fft inner (vnew m_k) g0, add_fft inner (vnew m_k) g1 with
                  | Some u, Some v =>
                      match vcopy output v m_k m_k 0, hadamard_mul v gs with
                      | Some output, Some v =>
                          match vadd v u with
                          | None => None
                          | Some v =>
                              match vcopy output v m_k 0 0 with
                              | None => None
                              | Some output => vadd_at output v m_k
                              end
                          end
                      | _, _ => None
                      end
                  | _, _ => None
                  end
              end
          end
      end
  end.
(** fft_add.h:267-295, 344-357, 388-392: fft_inv and ifft.  The slice [w0] of [input] has [m_k] elements. *)
Fixpoint add_ifft (a : additive) (output input : list N) : option (list N) :=
  match a with
  | Line _ inv_beta_1 =>
      check ((2 <=? length output) && (2 <=? length input))
        (Some (set (set output 0 (at_ input 0)) 1 (g_mul G inv_beta_1 (g_add G (at_ input 0) (at_ input 1)))))
  | Layer m beta_m inv_beta_m _ gs inner =>
      let m_k := 2 ^ (m - 1) in
      let output := repeat 0%N (length output) in
      let w0 := firstn (slice_len m_k 0 (length input)) input in
      match vcopy (vnew m_k) input m_k 0 m_k with
      | None => None
      | Some v =>
          match vadd v w0 with
          | None => None
          | Some v =>
              match hadamard_mul v gs with
              | None => None
              | Some u =>
                  match vadd u w0 with
                  | None => None
                  | Some u =>
                      match add_ifft inner (vnew m_k) u, add_ifft inner (vnew m_k) v with
                      | Some g0, Some g1 =>
                          match inv_taylor_expand_t2 output g0 g1 with
                          | None => None
                          | Some output => Some (if (1 <? beta_m)%N then mul_beta output inv_beta_m else output)
                          end
                      | _, _ => None
                      end
                  end
              end
          end
      end
  end.
End Additive.
