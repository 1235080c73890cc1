(** Model of src/misc.cpp: the printing of 128-bit integers and hex_dump.  Proof-free.  Characters are their codes. *)
From Coq Require Import List NArith ZArith Bool.
From Verif.Model Require Import Common.
Import ListNotations.
Open Scope N_scope.

(** ** Output streams, as far as misc.cpp uses them *)
Inductive base := Dec | Oct | Hex.
Inductive adjust := AdjRight | AdjLeft | AdjInternal.
(** The flags of std::ios_base that matter here. *)
Record flags := mkFlags { fl_base : base; fl_adjust : adjust; fl_showbase : bool; fl_uppercase : bool }.
(** [o_room]: how many characters the buffer of the stream still takes, if there is a limit; [o_good]: no error bit is set. *)
Record ostream := mkOstream { o_text : list N; o_room : option nat; o_good : bool; o_flags : flags; o_fill : N; o_width : nat }.

(** streambuf::sputn: writes what it can and tells how much. *)
Definition sputn (os : ostream) (s : list N) : ostream * nat :=
  match o_room os with
  | None => (mkOstream (o_text os ++ s) None (o_good os) (o_flags os) (o_fill os) (o_width os), length s)
  | Some r => let n := Nat.min r (length s) in
              (mkOstream (o_text os ++ firstn n s) (Some (r - n)%nat) (o_good os) (o_flags os) (o_fill os) (o_width os), n)
  end.
Definition set_bad (os : ostream) : ostream := mkOstream (o_text os) (o_room os) false (o_flags os) (o_fill os) (o_width os).
Definition set_width (os : ostream) (w : nat) : ostream := mkOstream (o_text os) (o_room os) (o_good os) (o_flags os) (o_fill os) w.
Definition set_fill (os : ostream) (c : N) : ostream := mkOstream (o_text os) (o_room os) (o_good os) (o_flags os) c (o_width os).
Definition set_flags (os : ostream) (f : flags) : ostream := mkOstream (o_text os) (o_room os) (o_good os) f (o_fill os) (o_width os).
Definition set_hex (os : ostream) : ostream :=
  let f := o_flags os in set_flags os (mkFlags Hex (fl_adjust f) (fl_showbase f) (fl_uppercase f)).

(** Formatted output: [prefix] and [s] with fill characters up to the width, which is then 0. *)
Definition out_field (os : ostream) (prefix s : list N) : ostream :=
  if o_good os then
    let pad := repeat (o_fill os) (o_width os - length (prefix ++ s)) in
    let t := match fl_adjust (o_flags os) with
             | AdjRight => pad ++ prefix ++ s
             | AdjLeft => prefix ++ s ++ pad
             | AdjInternal => prefix ++ pad ++ s
             end in
    let '(os, n) := sputn os t in
    set_width (if Nat.eqb n (length t) then os else set_bad os) 0
  else os.
Definition out_char (os : ostream) (c : N) : ostream := out_field os [] [c].
Definition out_string (os : ostream) (s : list N) : ostream := out_field os [] s.

(** "0123456789abcdef" and "0123456789ABCDEF" *)
Definition digit_char (upper : bool) (d : N) : N := if d <? 10 then 48 + d else (if upper then 55 else 87) + d.
(** The digits of a number; [fuel] bounds their number. *)
Fixpoint digits (upper : bool) (b : N) (fuel : nat) (v : N) : list N :=
  match fuel with
  | O => []
  | S f => (if v <? b then [] else digits upper b f (v / b)) ++ [digit_char upper (v mod b)]
  end.
(** [os << v] for an [unsigned] (num_put): the prefix of [showbase] is not written for 0. *)
Definition out_unsigned (os : ostream) (v : N) : ostream :=
  let f := o_flags os in
  let b := match fl_base f with Dec => 10 | Oct => 8 | Hex => 16 end in
  let s := digits (fl_uppercase f) b 11 v in
  let prefix := if fl_showbase f && negb (v =? 0)
                then match fl_base f with Dec => [] | Oct => [48] | Hex => [48; if fl_uppercase f then 88 else 120] end else [] in
  out_field os prefix s.

(** ** misc.cpp:35-83 *)

(** misc.cpp:42-46 and 62-66: characters are written downwards from the end of the buffer of 128.  The result is the characters from
    [d] to the end; [None]: [d] would leave the buffer (or the fuel is exhausted). *)
Fixpoint write_digits (fuel : nat) (room : nat) (tmp : N) (acc : list N) : option (nat * list N) :=
  match fuel, room with
  | S f, S room =>
      let acc := nth (N.to_nat (tmp mod 10)) [48; 49; 50; 51; 52; 53; 54; 55; 56; 57] 0 :: acc in
      let tmp := tmp / 10 in
      if tmp =? 0 then Some (room, acc) else write_digits f room tmp acc
  | _, _ => None
  end.
(** misc.cpp:48-51: [len] is an [int]. *)
Definition put_buffer (os : ostream) (s : list N) : ostream :=
  let '(os, n) := sputn os s in if Nat.eqb n (length s) then os else set_bad os.
(** misc.cpp:35-54; the sentry tests the state of the stream. *)
Definition print_u128 (os : ostream) (value : N) : option ostream :=
  if o_good os then
    match write_digits 128 128 value [] with Some (_, s) => Some (put_buffer os s) | None => None end
  else Some os.
(** misc.cpp:56-79.  The negation of the smallest number overflows. *)
Definition print_i128 (os : ostream) (value : Z) : option ostream :=
  if o_good os then
    if (value =? - 2 ^ 127)%Z then None
    else
      match write_digits 128 128 (Z.to_N (if value <? 0 then - value else value)%Z) [] with
      | Some (room, s) =>
          if (value <? 0)%Z
          then match room with O => None | S _ => Some (put_buffer os (45 :: s)) end
          else Some (put_buffer os s)
      | None => None
      end
  else Some os.

(** ** misc.cpp:87-133 *)
Definition maxline : nat := 32.
(** std::isprint in the "C" locale. *)
Definition isprint (c : N) : bool := (32 <=? c) && (c <=? 126).
(** A character written in the array renderString, [None] outside. *)
Definition put_char (rs : list N) (i : nat) (c : N) : option (list N) := if (i <? length rs)%nat then Some (set rs i c) else None.
(** The string that starts at the array, [None] if it does not end in it. *)
Fixpoint c_str (rs : list N) : option (list N) :=
  match rs with
  | [] => None
  | c :: rs => if c =? 0 then Some [] else match c_str rs with Some s => Some (c :: s) | None => None end
  end.
(** " | " *)
Definition bar : list N := [32; 124; 32].
(** misc.cpp:105-120.  [buf] is the memory from the pointer on; [rs], [p]: renderString and rsptr. *)
Fixpoint dump_loop (show : bool) (bufsize : nat) (buf : list N) (linecount : N) (rs : list N) (p : nat) (os : ostream)
  : option (list N * nat * ostream) :=
  match bufsize with
  | O => Some (rs, p, os)
  | S bufsize' =>
      match buf with
      | [] => None
      | c :: buf =>
          let os := out_char (out_unsigned (set_hex (set_fill (set_width os 2) 48)) c) 32 in
          match put_char rs p (if isprint c then c else 46) with
          | None => None
          | Some rs =>
              let p := S p in
              let linecount := Common.wrap 64 (linecount + 2 ^ 64 - 1) in
              if linecount =? 0 then
                match put_char rs p 0 with
                | None => None
                | Some rs =>
                    match (if show then match c_str rs with
                                        | Some s => Some (out_string (out_string os bar) s)
                                        | None => None
                                        end else Some os) with
                    | None => None
                    | Some os => dump_loop show bufsize' buf (N.min (N.of_nat maxline) (N.of_nat bufsize)) rs 0 (out_char os 10)
                    end
                end
              else dump_loop show bufsize' buf linecount rs p os
          end
      end
  end.
(** [os << "   "] several times. *)
Fixpoint pad_line (k : nat) (os : ostream) : ostream := match k with O => os | S k => pad_line k (out_string os [32; 32; 32]) end.
(** misc.cpp:87-133.  [buf]: [None] for the null pointer, else the memory that it points to; [rs0]: what is in renderString. *)
Definition hex_dump (os : ostream) (buf : option (list N)) (bufsize : nat) (show : bool) (rs0 : list N) : option ostream :=
  match buf with
  | None => Some os
  | Some buf =>
      let oldFormat := o_flags os in
      let oldFillChar := o_fill os in
      match dump_loop show bufsize buf (N.of_nat maxline) rs0 0 os with
      | None => None
      | Some (rs, p, os) =>
          match (if (p =? 0)%nat then Some os
                 else if show then
                   match put_char rs p 0 with
                   | None => None
                   | Some rs =>
                       let os := pad_line (maxline + 1 - S p) os in
                       match c_str rs with
                       | Some s => Some (out_char (out_string (out_string os bar) s) 10)
                       | None => None
                       end
                   end
                 else Some (out_char os 10)) with
          | None => None
          | Some os => Some (set_flags (set_fill os oldFillChar) oldFormat)
          end
      end
  end.
