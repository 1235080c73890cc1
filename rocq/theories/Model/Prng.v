(** Model of the generator of test chunks, benchmark/prng.h.  Proof-free.
    A chunk of [size] bytes is the list of its bytes; an access outside of it is [Ub].  The 32-bit word at its start is little
    endian. *)
From Coq Require Import List NArith Arith Bool.
From Verif.Model Require Import Common Header.
Import ListNotations.
Open Scope N_scope.

Record prng := mkPrng { p_state : N; p_inc : N }.

(** prng.h:52-56 *)
Definition prng_new (initstate initseq : N) : prng := mkPrng initstate initseq.

(** prng.h:70 *)
Definition prng_next (p : prng) : prng := mkPrng (wrap 64 (p_state p * 6364136223846793005 + p_inc p)) (p_inc p).

(** _rand, prng.h:67-74: the result and the generator after the call. *)
Definition prng_rand (p : prng) : N * prng :=
  let oldstate := p_state p in
  let xorshifted := wrap 32 (N.shiftr (N.lxor (N.shiftr oldstate 18) oldstate) 27) in
  let rot := wrap 32 (N.shiftr oldstate 59) in
  (N.lor (N.shiftr xorshifted rot) (wrap 32 (N.shiftl xorshifted (N.land (wrap 32 (2 ^ 32 - rot)) 31))), prng_next p).

(** srandom, prng.h:58-65 *)
Definition prng_srandom (initstate initseq : N) : prng :=
  let p := mkPrng 0 (N.lor (wrap 64 (N.shiftl initseq 1)) 1) in
  let p := snd (prng_rand p) in
  let p := mkPrng (wrap 64 (p_state p + initstate)) (p_inc p) in
  snd (prng_rand p).

(** prng.h:38: CRC-32C *)
Definition crc_poly : N := 2197175160.
(** prng.h:90-92, 118-120 *)
Definition crc_bit (crc : N) : N := if N.eqb (N.land crc 1) 0 then N.shiftr crc 1 else N.lxor (N.shiftr crc 1) crc_poly.
Definition crc_byte (crc val : N) : N := Nat.iter 8 crc_bit (N.lxor crc val).
(** prng.h:85-86 and 115-116; the complement of 32 bits *)
Definition not32 (x : N) : N := N.lxor x (2 ^ 32 - 1).
Definition crc_init : N := not32 0.

(** prng.h:87-93: the [n] bytes from the fifth on, and the checksum. *)
Fixpoint gen_loop (n : nat) (p : prng) (crc : N) : list N * N * prng :=
  match n with
  | O => ([], crc, p)
  | S n =>
      let '(r, p) := prng_rand p in
      let val := wrap 8 r in
      let '(l, crc, p) := gen_loop n p (crc_byte crc val) in
      (val :: l, crc, p)
  end.

(** The four bytes of a word. *)
Definition word_bytes (x : N) : list N := [wrap 8 x; wrap 8 (N.shiftr x 8); wrap 8 (N.shiftr x 16); wrap 8 (N.shiftr x 24)].
Definition bytes_word (b : list N) : N :=
  N.lor (get 0 b 0) (N.lor (N.shiftl (get 0 b 1) 8) (N.lor (N.shiftl (get 0 b 2) 16) (N.shiftl (get 0 b 3) 24))).

(** gen_chunk, prng.h:76-96.  With [size] 0 the byte [buffer[0]] is written all the same. *)
Definition gen_chunk (p : prng) (size : nat) : outcome (list N * prng) :=
  if (size =? 0)%nat then Ub
  else if (size <? 4)%nat then let '(r, p) := prng_rand p in Ret (repeat (wrap 8 r) size, p)
  else let '(l, crc, p) := gen_loop (size - 4) p crc_init in Ret (word_bytes (not32 crc) ++ l, p).

(** get_crc, prng.h:98-103 *)
Definition get_crc (chunk : list N) : N := if (length chunk <? 4)%nat then 0 else bytes_word chunk.

(** check_chunk, prng.h:105-127 *)
Definition check_chunk (chunk : list N) : outcome bool :=
  match chunk with
  | [] => Ub
  | val :: rest =>
      if (length chunk <? 4)%nat then Ret (forallb (fun b => N.eqb b val) rest)
      else
        let crc := fold_left crc_byte (skipn 4 chunk) crc_init in
        Ret (N.eqb (bytes_word chunk) (not32 crc))
  end.
