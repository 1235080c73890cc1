(** Model of compute_omegas_cached: src/gf_ring.h:502-537.  Proof-free.
    The files of the working directory are a list of names and texts; opening, reading and writing them succeeds. *)
From Coq Require Import List NArith Arith Bool.
From Verif.Model Require Import Common Ring Header.
Import ListNotations.
Open Scope N_scope.

Definition text := list N.
Definition files := list (text * text).
Fixpoint text_eqb (a b : text) : bool :=
  match a, b with
  | [], [] => true
  | x :: a, y :: b => (x =? y) && text_eqb a b
  | _, _ => false
  end.
Fixpoint find_file (fs : files) (name : text) : option text :=
  match fs with [] => None | (n, t) :: fs => if text_eqb n name then Some t else find_file fs name end.

(** gf_ring.h:514-516: "W", the number, ".cache". *)
Definition cache_name (w : N) : text := 87 :: print_number w ++ [46; 99; 97; 99; 104; 101].

(** [file >> tmp] for an unsigned type of [tw] bits, base 10: white space is skipped, then a sign and digits.  [None]: failure
    (no digits, or a number that does not fit).  As in C, a minus sign gives the opposite modulo 2^tw. *)
Fixpoint digits_end (s : text) : text := match s with [] => [] | c :: t => if is_digit c then digits_end t else s end.
Definition extract (tw : N) (s : text) : option (N * text) :=
  let s1 := drop_space s in
  let '(neg, s2) := match s1 with 45 :: t => (true, t) | 43 :: t => (false, t) | _ => (false, s1) end in
  match s2 with
  | c :: _ =>
      if is_digit c then
        let v := read_digits 0 s2 in
        if v <? 2 ^ tw then Some (if (neg : bool) then wrap tw (2 ^ tw - v) else v, digits_end s2) else None
      else None
  | [] => None
  end.

(** gf_ring.h:531-534: [None] when the vector is left.  Each turn reads a character or more. *)
Fixpoint read_loop (fuel : nat) (tw : N) (s : text) (i : nat) (W : list N) : option (nat * list N) :=
  match fuel with
  | O => None
  | S f =>
      match extract tw s with
      | None => Some (i, W)
      | Some (v, s') => if (i <? length W)%nat then read_loop f tw s' (S i) (set W i v) else None
      end
  end.

(** [tw]: the width of [T].  [None]: the vector is left or the assertion of line 535 fails. *)
Definition compute_omegas_cached (tw : N) (G : gfops) (fs : files) (W : list N) (n : nat) (w : N) : option (files * list N) :=
  match find_file fs (cache_name w) with
  | None =>
      if (n <=? length W)%nat then
        let W' := compute_omegas G n w ++ skipn n W in
        Some ((cache_name w, flat_map (fun v => print_number v ++ [ch_nl]) (firstn n W')) :: fs, W')
      else None
  | Some t =>
      match read_loop (S (length t)) tw t 0 W with
      | Some (i, W') => if (i =? n)%nat then Some (fs, W') else None
      | None => None
      end
  end.
