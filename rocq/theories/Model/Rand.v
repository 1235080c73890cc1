(** Model of the random elements: src/gf_ring.h:151-175 and 538-553, src/gf_nf4.h:334-349, src/vec_vector.h:463-469.  Proof-free.
    What the distributions draw is an argument; [None] when they cannot draw it (std::uniform_int_distribution<uint64_t>, which
    draws a number between its bounds; bounds in the wrong order are undefined behaviour). *)
From Coq Require Import List NArith Arith Bool.
From Verif.Model Require Import Common Nf4.
Import ListNotations.
Open Scope N_scope.

Definition max64 : N := 2 ^ 64 - 1.
(** gf_ring.h:157-162.  [card - 1] is computed in [T], or in [int] if [T] is shorter, whose -1 becomes 2^64 - 1; the result is
    converted to 64 bits. *)
Definition rand_upper_bound (w card : N) : N :=
  let m := if w <? 32 then 64 else w in
  if max64 <? card then max64 else wrap 64 (wrap m (card + 2 ^ m - 1)).
(** gf_ring.h:163-168 *)
Definition rand_leading_bound (w card : N) : N := if max64 <? card then wrap 64 (wrap w (card - max64 - 1)) else 0.

Definition uniform (lo hi d : N) : bool := (lo <=? d) && (d <=? hi).

(** rand, gf_ring.h:538-542, and for __uint128_t 544-553.  [d1]: drawn by [distribution], whose bounds are those of line 172;
    [d2]: by [distribution_leading], drawn only for the large rings of __uint128_t. *)
Definition ring_rand (w card d1 d2 : N) : option N :=
  if uniform 1 (rand_upper_bound w card) d1 then
    if w =? 128 then
      if max64 <? card then
        if uniform 0 (rand_leading_bound w card) d2 then Some (N.lor d1 (wrap 128 (N.shiftl d2 64))) else None
      else Some d1
    else Some (wrap w d1)
  else None.

(** NF4::rand, gf_nf4.h:334-342: the field [sub_field] is Prime<uint32_t>(65537).  [ds]: the [n] draws. *)
Fixpoint nf4_rand_loop (w : N) (c : N) (ds : list N) : option N :=
  match ds with
  | [] => Some c
  | d :: ds =>
      match ring_rand 32 65537 d 0 with
      | Some r => nf4_rand_loop w (N.lor (wrap w (N.shiftl (wrap w (N.shiftl c 16)) 16)) r) ds
      | None => None
      end
  end.
Definition nf4_rand (w : N) (ds : list N) : option N :=
  match ds with
  | [] => None
  | d :: ds => match ring_rand 32 65537 d 0 with Some c => nf4_rand_loop w c ds | None => None end
  end.
(** unpacked_rand, gf_nf4.h:344-349 *)
Definition nf4_unpacked_rand (B : build) (w : N) (n : nat) (ds : list N) : option N :=
  match nf4_rand w ds with Some c => Some (fst (unpack B w n c)) | None => None end.

(** Vector::rand, vec_vector.h:463-469: one draw (or two) per element. *)
Fixpoint vec_rand (w card : N) (ds : list (N * N)) : option (list N) :=
  match ds with
  | [] => Some []
  | d :: ds =>
      match ring_rand w card (fst d) (snd d), vec_rand w card ds with
      | Some x, Some l => Some (x :: l)
      | _, _ => None
      end
  end.
