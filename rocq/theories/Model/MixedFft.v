(** Model of the transforms of src/fft_naive.h, src/fft_2.h, src/fft_single.h, src/fft_ct.h and src/fft_gt.h.  Proof-free.
    The vectors are those of Views.v: one memory, plain vectors and views, nested views included.  Quantities of type
    [int] or [T] that index vectors are natural numbers; the places where they may overflow say so.
    [None]: failed assertion, access outside of the memory, overflow of an [int], or a case that is not modelled. *)
From Coq Require Import List NArith Arith Bool.
From Verif.Model Require Import Common Arith Ring Fft2n Radix2 Views Matrix Simd.
From Verif.Model Require Export Packets.
Import ListNotations.
Open Scope nat_scope.

Section Fft.
Variables (w : N) (G : gfops).

(** ** Vectors *)

(** vec_matrix.h:387-404 on vectors of any class. *)
Definition vmul (M : matrix) (m : memory) (output v : vect) : option memory :=
  if (m_cols M =? get_n v) && (m_rows M =? get_n output) then
    ofold (fun m i => ofold (fun m j =>
        match vget w m v j with
        | None => None
        | Some a =>
            let x := g_mul G (mget M i j) a in
            if 0 =? j then vset w m output i x
            else match vget w m output i with None => None | Some y => vset w m output i (g_add G y x) end
        end) (seq 0 (m_cols M)) m) (seq 0 (m_rows M)) m
  else None.
(** vec_vector.h:282-287 *)
Definition mul_scalar (m : memory) (v : vect) (scalar : N) : option memory :=
  ofold (fun m i => match vget w m v i with None => None | Some a => vset w m v i (g_mul G a scalar) end) (seq 0 (get_n v)) m.

(** ** fft_naive.h *)

(** fft_naive.h:99-107.  The product [i * j] is an [int]; the matrix is new. *)
Definition compute_W (n : nat) (wr : N) : option matrix :=
  if (N.of_nat (n - 1) * N.of_nat (n - 1) <? 2 ^ 31)%N
  then Some (fill (new_matrix 0 n n) (fun i j => g_exp G wr (N.of_nat ((i * j) mod n))))
  else None.

(** The transforms without recursion: Size2 has no member of its own, Naive its two matrices (fft_naive.h:60-67). *)
Inductive small := Size2 | Naive (W inv_W : matrix).
(** fft_naive.h:73-86 *)
Definition new_naive (n : nat) (wr : N) : option small :=
  match compute_W n wr, compute_W n (g_inv G wr) with Some W, Some V => Some (Naive W V) | _, _ => None end.
(** fft_2.h:65-72 *)
Definition size2_fft (m : memory) (output input : vect) : option memory :=
  match vget w m input 0, vget w m input 1 with
  | Some a, Some b =>
      match vset w m output 0 (g_add G a b) with Some m' => vset w m' output 1 (g_sub G a b) | None => None end
  | _, _ => None
  end.
(** fft and fft_inv: fft_naive.h:118-134, fft_2.h:65-84 *)
Definition small_fft (s : small) (inv : bool) (m : memory) (output input : vect) : option memory :=
  match s with
  | Size2 => size2_fft m output input
  | Naive W V => vmul (if inv then V else W) m output input
  end.
(** ifft: fft_naive.h:136-142, fft_2.h:86-92 *)
Definition small_ifft (s : small) (inv_n : N) (m : memory) (output input : vect) : option memory :=
  match small_fft s true m output input with
  | Some m' => if (1 <? inv_n)%N then mul_scalar m' output inv_n else Some m'
  | None => None
  end.

(** ** fft_single.h *)

(** fft_single.h:64-69 and 76-80: fft and fft_inv *)
Definition single_fft (m : memory) (output input : vect) : option memory :=
  match vget w m input 0 with Some v => vfill m output v | None => None end.
(** fft_single.h:82-87; zero_fill, vec_vector.h:231-235, is [fill] with zeros. *)
Definition single_ifft (m : memory) (output input : vect) : option memory :=
  match vfill m output 0%N with
  | Some m' => match vget w m' input 0 with Some a => vset w m' output 0 a | None => None end
  | None => None
  end.

(** ** fft_ct.h *)

(** The members of an object in use.  [Leaf]: [loop] is false.  [Node]: [n], [n1], [n2], [w], [inv_w], [dft_outer], the
    address of the vector [G] and [dft_inner]. *)
Inductive ct :=
| Leaf (outer : small)
| Node (n n1 n2 : nat) (wr inv_w : N) (outer : small) (g : nat) (inner : ct).

(** fft_ct.h:126-171 for [_w] and the factors from index [id] on.  [heap]: first free place of the memory, advanced by
    the allocation of [G]. *)
Fixpoint new_ct (factors : list nat) (heap n : nat) (wr : N) : option (ct * nat) :=
  match factors with
  | [] => None
  | n1 :: rest =>
      if n1 =? 0 then None
      else
        let n2 := n / n1 in
        let w1 := g_exp G wr (N.of_nat n2) in
        match (if n1 =? 2 then Some Size2 else new_naive n1 w1) with
        | None => None
        | Some outer =>
            if 1 <? n2 then
              match new_ct rest heap n2 (g_exp G wr (N.of_nat n1)) with
              | Some (inner, h) => Some (Node n n1 n2 wr (g_inv G wr) outer h inner, h + n)
              | None => None
              end
            else Some (Leaf outer, heap)
        end
  end.

(** fft_ct.h:189-211 *)
Definition mul_twiddle_factors (m : memory) (gv : vect) (n1 n2 : nat) (wr : N) : option memory :=
  option_map fst (ofold (fun s i1 =>
    let '(m, base) := s in
    let base := g_mul G base wr in
    match ofold (fun s k2 =>
        let '(m, factor) := s in
        let loc := i1 + n1 * k2 in
        match vget w m gv loc with
        | None => None
        | Some a => match vset w m gv loc (g_mul G a factor) with
                    | Some m' => Some (m', g_mul G factor base)
                    | None => None
                    end
        end) (seq 1 (n2 - 1)) (m, base) with
    | Some (m', _) => Some (m', base)
    | None => None
    end) (seq 1 (n1 - 1)) (m, 1%N)).

(** A view made on [g], then given [u] and the length [n]: lines 218-221 and 236-238.  [left]: the length that the
    view has before. *)
Definition retarget (g : nat) (len left : nat) (u : vect) (n : nat) : option vect :=
  match view_set_vec (View (mkHdr g len left) (new_plain g len) 0 1 len) u with
  | Some v => view_set_len v n
  | None => None
  end.

(** fft_ct.h:213-251, 253-269: fft and fft_inv.  At entry the two views have the length [n1] of the last call, or 0
    before the first one; the assertions are modelled with [n1]. *)
Fixpoint ct_fft (c : ct) (inv : bool) (m : memory) (output input : vect) : option memory :=
  match c with
  | Leaf outer => small_fft outer inv m output input
  | Node n n1 n2 wr inv_w outer g inner =>
      let gv := new_plain g n in
      match retarget g n n1 input n2, retarget g n n1 gv n2 with
      | Some X, Some Y =>
          match ofold (fun m i1 => ct_fft inner inv m (view_set_map Y i1 n1) (view_set_map X i1 n1)) (seq 0 n1) m with
          | None => None
          | Some m1 =>
              match mul_twiddle_factors m1 gv n1 n2 (if inv then inv_w else wr) with
              | None => None
              | Some m2 =>
                  match retarget g n n2 output n1, retarget g n n2 gv n1 with
                  | Some X, Some Y =>
                      ofold (fun m k2 => small_fft outer inv m (view_set_map X k2 n2) (view_set_map Y (k2 * n1) 1)) (seq 0 n2) m2
                  | _, _ => None
                  end
              end
          end
      | _, _ => None
      end
  end.

(** The first layer: 134-138 with [root] that of the field, and [inv_n_mod_p] of fft_base.h:104. *)
Definition new_cooley_tukey (p root : N) (id heap n : nat) : option (ct * N * nat) :=
  match get_prime_factors w (N.of_nat n) with
  | Some fs =>
      match new_ct (skipn id (map N.to_nat fs)) heap n (get_nth_root G root (N.of_nat n)) with
      | Some (c, h) => Some (c, get_inv_n_mod_p G p (N.of_nat n), h)
      | None => None
      end
  | None => None
  end.
(** fft_ct.h:271-283, first layer *)
Definition ct_ifft (c : ct) (inv_n : N) (m : memory) (output input : vect) : option memory :=
  match ct_fft c true m output input with
  | Some m' => if (1 <? inv_n)%N then mul_scalar m' output inv_n else Some m'
  | None => None
  end.

(** ** fft_gt.h *)

(** fft_gt.h:207-215 *)
Definition inverse_mod (nb md : nat) : nat :=
  match find (fun n => (n * nb) mod md =? 1) (seq 1 (md - 1)) with Some n => n | None => 0 end.

(** The members: as for Cooley-Tukey, with the coefficients of the mapping of the indices. *)
Inductive gt :=
| GLeaf (outer : small)
| GNode (n n1 n2 a b c d : nat) (outer : small) (g : nat) (inner : ct).

(** fft_gt.h:141-188 for the factors from index [id] on.  The inner transform of a power of two, a Radix2, is not
    modelled. *)
Definition new_gt (factors : list nat) (heap n : nat) (wr : N) : option (gt * nat) :=
  match factors with
  | [] => None
  | n1 :: rest =>
      if n1 =? 0 then None
      else
        let n2 := n / n1 in
        let w1 := g_exp G wr (N.of_nat n2) in
        match (if n1 =? 2 then Some Size2 else new_naive n1 w1) with
        | None => None
        | Some outer =>
            if 1 <? n2 then
              if is_power_of_2 (N.of_nat n2) then None
              else match new_ct rest heap n2 (g_exp G wr (N.of_nat n1)) with
                   | Some (inner, h) =>
                       Some (GNode n n1 n2 n2 n1 (n2 * inverse_mod n2 n1) (n1 * inverse_mod n1 n2) outer h inner, h + n)
                   | None => None
                   end
            else Some (GLeaf outer, heap)
        end
  end.

(** The index [offset + step * i] of a view is an [int] (vec_view.h:96, 128). *)
Definition int_map (v : vect) (offset step : nat) : option vect :=
  if (N.of_nat offset + N.of_nat step * N.of_nat (get_n v - 1) <? 2 ^ 31)%N then Some (view_set_map v offset step) else None.

(** fft_gt.h:217-252, 254-270.  The products [a * i1] and [d * k2] are of type [T]. *)
Definition gt_fft (o : gt) (inv : bool) (m : memory) (output input : vect) : option memory :=
  match o with
  | GLeaf outer => small_fft outer inv m output input
  | GNode n n1 n2 a b c d outer g inner =>
      let gv := new_plain g n in
      match retarget g n n1 input n2, retarget g n n1 gv n2 with
      | Some X, Some Y =>
          match ofold (fun m i1 =>
              match int_map X (N.to_nat (wrap w (N.of_nat (a * i1))) mod n) b with
              | Some X' => ct_fft inner inv m (view_set_map Y i1 n1) X'
              | None => None
              end) (seq 0 n1) m with
          | None => None
          | Some m1 =>
              match retarget g n n2 output n1, retarget g n n2 gv n1 with
              | Some X, Some Y =>
                  ofold (fun m k2 =>
                    match int_map X (N.to_nat (wrap w (N.of_nat d * N.of_nat k2)) mod n) c with
                    | Some X' => small_fft outer inv m X' (view_set_map Y (k2 * n1) 1)
                    | None => None
                    end) (seq 0 n2) m1
              | _, _ => None
              end
          end
      | _, _ => None
      end
  end.

Definition new_good_thomas (p root : N) (id heap n : nat) : option (gt * N * nat) :=
  match get_coprime_factors w (N.of_nat n) with
  | Some fs =>
      match new_gt (skipn id (map N.to_nat fs)) heap n (get_nth_root G root (N.of_nat n)) with
      | Some (c, h) => Some (c, get_inv_n_mod_p G p (N.of_nat n), h)
      | None => None
      end
  | None => None
  end.
(** fft_gt.h:272-283, first layer *)
Definition gt_ifft (o : gt) (inv_n : N) (m : memory) (output input : vect) : option memory :=
  match gt_fft o true m output input with
  | Some m' => if (1 <? inv_n)%N then mul_scalar m' output inv_n else Some m'
  | None => None
  end.

(** ** Buffers: vectors of packets of [pkt] elements *)

(** fft, ifft and fft_inv of CooleyTukey and GoodThomas: those of the base class, which do nothing (fft_base.h:63-73). *)
Definition base_bufs (output input : list (list N)) : list (list N) := output.

(** fft_naive.h:144-164.  [output.fill(i, 0)] sets the packet to zeros. *)
Definition naive_bufs (pkt : nat) (W : matrix) (n : nat) (inp : list (list N)) : list (list N) :=
  map (fun i => fold_left (fun buf j => map2 (fun b x => g_add G b (g_mul G (mget W i j) x)) buf (nth j inp []))
                          (seq 0 n) (repeat 0%N pkt)) (seq 0 n).
(** fft_2.h:94-101.  [nh]: the build; [rc]: the member [_card] of RingModN (Packets.v). *)
Variables (nh : nat) (rc : N).
Definition size2_bufs (pkt : nat) (inp : list (list N)) : list (list N) :=
  [buf_add nh w rc G (nth 1 inp []) (nth 0 inp []) pkt; buf_sub nh w rc G (nth 0 inp []) (nth 1 inp []) (nth 1 inp []) pkt].
(** fft and fft_inv: fft_naive.h:171-187, fft_2.h:94-112 *)
Definition small_bufs (s : small) (inv : bool) (pkt n : nat) (inp : list (list N)) : list (list N) :=
  match s with
  | Size2 => size2_bufs pkt inp
  | Naive W V => naive_bufs pkt (if inv then V else W) n inp
  end.
(** ifft: fft_naive.h:187-194 multiplies in all cases, fft_2.h:114-120 as the version for vectors.  [vec_inv_n] has
    [n] times [inv_n] (fft_base.h:106-109). *)
Definition small_ibufs (s : small) (inv_n : N) (pkt n : nat) (inp : list (list N)) : option (list (list N)) :=
  let out := small_bufs s true pkt n inp in
  let mul := vecp_mul nh w rc G (repeat inv_n n) out out pkt in
  match s with
  | Size2 => if (1 <? inv_n)%N then mul else Some out
  | Naive _ _ => mul
  end.
(** fft_single.h:89-95 and 97-106, 108-113 *)
Definition single_bufs (n : nat) (inp : list (list N)) : list (list N) := repeat (nth 0 inp []) n.
Definition single_ibufs (pkt n : nat) (inp : list (list N)) : list (list N) := set (repeat (repeat 0%N pkt) n) 0 (nth 0 inp []).
End Fft.
