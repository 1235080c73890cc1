(** Model of the serialisation of records: src/property.h:99-142 (binary header) and src/property.cpp (text).
    Proof-free. *)
From Coq Require Import List NArith ZArith Arith Bool.
From Verif.Model Require Import Common Props Bytes.
Import ListNotations.
Open Scope N_scope.

(** Result of a function that may leave its arrays: [Ub] is undefined behaviour. *)
Inductive outcome (A : Type) : Type :=
| Ub : outcome A
| Ret : A -> outcome A.
Arguments Ub {A}.
Arguments Ret {A} _.

(** htonl and ntohl on a little-endian host: the four bytes in the opposite order. *)
Definition htonl (v : N) : N := word_of_bytes (rev (bytes_of_word 4 v)).

(** property.h:73: [enum { FNT1 = 0x464E5431 }] *)
Definition FNT1 : N := 1179538481.

(** [dwords[i] = v] in an array of the length of the list. *)
Definition store (i : nat) (v : N) (ws : list N) : outcome (list N) :=
  if (i <? length ws)%nat then Ret (set ws i v) else Ub.

Definition bind {A B} (o : outcome A) (f : A -> outcome B) : outcome B :=
  match o with Ub => Ub | Ret a => f a end.

(** The loop of property.h:111-113; narrow_cast<uint32_t> (core.h:108-113) is a conversion modulo 2^32. *)
Fixpoint store_locations (i : nat) (ps : props) (ws : list N) : outcome (list N) :=
  match ps with
  | [] => Ret ws
  | (loc, _) :: t => bind (store i (htonl (wrap 32 loc)) ws) (store_locations (S i) t)
  end.

(** std::fill on the words from [first] to [last - 1]; [last] is not reachable from [first] if it is smaller. *)
Definition fill_words (first last : nat) (v : N) (ws : list N) : outcome (list N) :=
  if (last <? first)%nat then Ub
  else fold_left (fun o i => bind o (store i v)) (seq first (last - first)) (Ret ws).

(** fnt_serialize, property.h:104-118.  [ws] is the array [dwords], of [n_dwords] words, before the call. *)
Definition fnt_serialize (ps : props) (ws : list N) : outcome (Z * list N) :=
  let n := length ws in
  if (n <? 2 + length ps)%nat then Ret ((-1)%Z, ws)
  else
    bind (store 0 (htonl FNT1) ws) (fun w1 =>
    bind (store_locations 2 ps w1) (fun w2 =>
    let i := (2 + length ps)%nat in
    bind (store 1 (htonl (N.of_nat (i - 2))) w2) (fun w3 =>
    bind (fill_words i (n - 1) (htonl 0) w3) (fun w4 => Ret (0%Z, w4))))).

(** The loop of property.h:138-140: [cnt] words from the rest [ws] of the array. *)
Fixpoint read_locations (cnt : N) (ws : list N) : outcome props :=
  if cnt =? 0 then Ret []
  else match ws with
       | [] => Ub
       | v :: t => bind (read_locations (cnt - 1) t) (fun l => Ret ((htonl v, OOR_MARK) :: l))
       end.

(** fnt_deserialize, property.h:125-142; the sum of line 135 is computed in 32 bits. *)
Definition fnt_deserialize (ps : props) (ws : list N) : outcome (Z * props) :=
  match ws with
  | magic :: count :: rest =>
      if negb (htonl magic =? FNT1) then Ret ((-1)%Z, ps)
      else
        let cnt := htonl count in
        if N.of_nat (length ws) <? wrap 32 (2 + cnt) then Ret ((-1)%Z, ps)
        else bind (read_locations cnt rest) (fun l => Ret (0%Z, ps ++ l))
  | _ => Ret ((-1)%Z, ps)
  end.

(** ** Text: src/property.cpp.  Characters are their codes. *)

Definition ch_nl : N := 10.
Definition ch_eq : N := 61.

(** Decimal digits of a number (std::ostream << size_t). *)
Fixpoint digits_loop (fuel : nat) (v : N) : list N :=
  match fuel with
  | O => []
  | S f => (if v <? 10 then [] else digits_loop f (v / 10)) ++ [48 + v mod 10]
  end.
Definition print_number (v : N) : list N := digits_loop (S (N.to_nat (N.size v))) v.

(** operator<<, property.cpp:70-78. *)
Definition print_props (ps : props) : list N :=
  flat_map (fun p => print_number (fst p) ++ [32; ch_eq; 32] ++ print_number (snd p) ++ [ch_nl]) ps.

(** std::getline: the characters up to the next newline, and the rest; [None] at the end of the input. *)
Fixpoint until_nl (s : list N) : list N * list N :=
  match s with
  | [] => ([], [])
  | c :: t => if c =? ch_nl then ([], t) else let '(l, r) := until_nl t in (c :: l, r)
  end.
Definition getline (s : list N) : option (list N * list N) :=
  match s with [] => None | _ => Some (until_nl s) end.

Definition mem_char (set : list N) (c : N) : bool := existsb (N.eqb c) set.

(** std::string::find_first_not_of from a position, find, find_last_not_of; [None] is npos. *)
Fixpoint find_from (p : N -> bool) (i : nat) (s : list N) : option nat :=
  match s with [] => None | c :: t => if p c then Some i else find_from p (S i) t end.
Definition find_first (p : N -> bool) (start : nat) (s : list N) : option nat := find_from p start (skipn start s).
Definition find_last (p : N -> bool) (s : list N) : option nat :=
  match find_from p 0 (rev s) with None => None | Some i => Some (length s - 1 - i)%nat end.

(** " \f\t\v" of line 43 and " \f\n\r\t\v" of line 61. *)
Definition blanks1 : list N := [32; 12; 9; 11].
Definition blanks2 : list N := [32; 12; 10; 13; 9; 11].
Definition not_in (set : list N) (c : N) : bool := negb (mem_char set c).

(** std::stoul in base 10: white space (C locale: space, \t, \n, \v, \f, \r), a sign, digits.  [None]: an exception.
    A leading minus sign gives the negative modulo 2^64, as strtoul does. *)
Definition is_space (c : N) : bool := mem_char [32; 9; 10; 11; 12; 13] c.
Definition is_digit (c : N) : bool := (48 <=? c) && (c <=? 57).
Fixpoint drop_space (s : list N) : list N :=
  match s with [] => [] | c :: t => if is_space c then drop_space t else s end.
Fixpoint read_digits (acc : N) (s : list N) : N :=
  match s with [] => acc | c :: t => if is_digit c then read_digits (10 * acc + (c - 48)) t else acc end.
Definition stoul (s : list N) : option N :=
  let s1 := drop_space s in
  let '(neg, s2) := match s1 with
                    | 45 :: t => (true, t)
                    | 43 :: t => (false, t)
                    | _ => (false, s1)
                    end in
  match s2 with
  | c :: _ =>
      if is_digit c then
        let v := read_digits 0 s2 in
        if v <? 2 ^ 64 then Some (if (neg : bool) then wrap 64 (2 ^ 64 - v) else v) else None
      else None
  | [] => None
  end.

(** [s.substr(b, len)]; line 62 with [b = npos] throws: [None]. *)
Definition substr (s : list N) (b len : nat) : list N := firstn len (skipn b s).

(** One line of property.cpp:41-64.  [None]: an exception; [Some None]: the line is skipped. *)
Definition parse_line (line : list N) : option (option (N * N)) :=
  match find_first (not_in blanks1) 0 line with
  | None => Some None
  | Some b =>
      if mem_char [35; 59] (get 0 line b) then Some None
      else
        let e := find_first (fun c => c =? ch_eq) b line in
        let key0 := match e with Some e => substr line b (e - b) | None => skipn b line end in
        let key := match find_last (not_in blanks1) key0 with Some l => firstn (S l) key0 | None => [] end in
        match key with
        | [] => Some None
        | _ =>
            let b2 := find_first (not_in blanks2) (match e with Some e => S e | None => 0%nat end) line in
            let e2 := match find_last (not_in blanks2) line with Some l => S l | None => 0%nat end in
            match stoul key, b2 with
            | Some k, Some b2 =>
                (* [end - begin] is unsigned: if negative, substr goes to the end of the line *)
                let v := if (b2 <=? e2)%nat then substr line b2 (e2 - b2) else skipn b2 line in
                match stoul v with
                | Some x => Some (Some (k, wrap 32 x))
                | None => None
                end
            | _, _ => None
            end
        end
  end.

(** operator>>, property.cpp:37-68; each turn consumes at least one character. *)
Fixpoint parse_loop (fuel : nat) (s : list N) (ps : props) : option props :=
  match fuel with
  | O => None
  | S f =>
      match getline s with
      | None => Some ps
      | Some (line, rest) =>
          match parse_line line with
          | None => None
          | Some None => parse_loop f rest ps
          | Some (Some (loc, mk)) => parse_loop f rest (props_add ps loc mk)
          end
      end
  end.
Definition parse_props (s : list N) (ps : props) : option props := parse_loop (S (length s)) s ps.
