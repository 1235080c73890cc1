(** Model of main() of the driver test/ec_driver.cpp: the options, the check of the number of fragments and the choice of the code and
    of the type of integers.  Proof-free.
    getopt is not modelled: the list of what it returns is given.  What run_fec_* do is in Driver.v. *)
From Coq Require Import List NArith ZArith Bool Ascii String.
From Verif.Model Require Import Common Header Cached.
Import ListNotations.
Open Scope N_scope.

(** ec_type, ec_driver.cpp:482-491 *)
Inductive ecode := DUndef | DGf2n | DGf2nFft | DGf2nFftAdd | DGfpFft | DFnt | DFntSys | DNf4.
Definition is_fntc (e : ecode) : bool := match e with DFnt | DFntSys => true | _ => false end.

(** What getopt returns, ec_driver.cpp:517-572, with optarg. *)
Inductive opt := OE (a : text) | OW (a : text) | OV | OU | OC | OR | ON (a : text) | OM (a : text) | OP (a : text) | OT | OBad.

(** std::stoi, base 10: white space, a sign, digits; the rest is left.  [None]: an exception (no digits, or not an int). *)
Definition stoi (s : text) : option Z :=
  let s1 := drop_space s in
  let '(neg, s2) := match s1 with 45 :: t => (true, t) | 43 :: t => (false, t) | _ => (false, s1) end in
  match s2 with
  | c :: _ =>
      if is_digit c then
        let v := Z.of_N (read_digits 0 s2) in
        let z := if (neg : bool) then (- v)%Z else v in
        if ((- 2 ^ 31 <=? z) && (z <? 2 ^ 31))%Z then Some z else None
      else None
  | [] => None
  end.

Definition txt (s : string) : text := map N_of_ascii (list_ascii_of_string s).

(** ec_driver.cpp:519-540: the code, and the matrix when it is changed. *)
Definition code_of (a : text) : option (ecode * option bool) :=
  if text_eqb a (txt "rs-gf2n-v") then Some (DGf2n, Some true)
  else if text_eqb a (txt "rs-gf2n-c") then Some (DGf2n, Some false)
  else if text_eqb a (txt "rs-gf2n-fft") then Some (DGf2nFft, None)
  else if text_eqb a (txt "rs-gf2n-fft-add") then Some (DGf2nFftAdd, None)
  else if text_eqb a (txt "rs-gfp-fft") then Some (DGfpFft, None)
  else if text_eqb a (txt "rs-nf4") then Some (DNf4, None)
  else if text_eqb a (txt "rs-fnt") then Some (DFnt, None)
  else if text_eqb a (txt "rs-fnt-sys") then Some (DFntSys, None)
  else None.

(** The variables, ec_driver.cpp:38-42, 507-516; [o_vdm]: mflag is VANDERMONDE; [o_ws]: an unsigned int. *)
Record settings := mkSet { o_data : Z; o_par : Z; o_c : bool; o_r : bool; o_u : bool; o_e : ecode; o_vdm : bool; o_ws : N;
  o_pfx : option text; o_t : bool }.
Definition set0 : settings := mkSet (-1) (-1) false false false DUndef true 0 None false.

Inductive parsed := PUsage | PThrow | POk (s : settings).

(** The loop, ec_driver.cpp:517-572. *)
Fixpoint parse (l : list opt) (s : settings) : parsed :=
  let '(mkSet d p c r u e v w x t) := s in
  match l with
  | [] => POk s
  | o :: l =>
      match o with
      | OE a => match code_of a with
                | Some (e, m) => parse l (mkSet d p c r u e (match m with Some b => b | None => v end) w x t)
                | None => PUsage end
      | OW a => match stoi a with
                | Some z => parse l (mkSet d p c r u e v (Z.to_N (z mod 2 ^ 32)) x t)
                | None => PThrow end
      | OV => parse l s
      | OU => parse l (mkSet d p c r true e v w x t)
      | OC => parse l (mkSet d p true r u e v w x t)
      | OR => parse l (mkSet d p c true u e v w x t)
      | ON a => match stoi a with Some z => parse l (mkSet z p c r u e v w x t) | None => PThrow end
      | OM a => match stoi a with Some z => parse l (mkSet d z c r u e v w x t) | None => PThrow end
      | OP a => parse l (mkSet d p c r u e v w (Some a) t)
      | OT => parse l (mkSet d p c r u e v w x true)
      | OBad => PUsage
      end
  end.

(** check, ec_driver.cpp:493-503; [None]: a shift by a negative number of bits. *)
Definition frag_check (n ws : Z) (e : ecode) : option bool :=
  (if 4 <=? ws then Some true
   else if ws <? 0 then None
   else if is_fntc e then Some (n <=? 2 ^ (8 * ws) + 1)
   else Some (n <=? 2 ^ (8 * ws)))%Z.

(** The type of integers, ec_driver.cpp:591-679, as its number of bits; [None]: no branch is taken. *)
Definition pick_type (e : ecode) (ws : N) : option N :=
  match e with
  | DUndef => None
  | DFnt | DFntSys => if ws =? 1 then Some 16 else if ws =? 2 then Some 32 else None
  | DNf4 => if ws <=? 2 then Some 32 else if ws <=? 4 then Some 64 else if ws <=? 8 then Some 128 else None
  | DGfpFft => if ws <=? 7 then Some 64 else if ws <=? 15 then Some 128 else None
  | _ => if ws <=? 4 then Some 32 else if ws <=? 8 then Some 64 else if ws <=? 16 then Some 128 else None
  end.

(** What main() does: the ends with a message, an exception, undefined behaviour; [ANothing]: it returns 0 at once; [ARun]: it
    calls run_fec_* (with [tflag] that stops when the code is made). *)
Inductive action := AUsage | AThrow | AUb | ATooBig | ABadWord | ANothing
  | ARun (e : ecode) (vdm : bool) (w ws : N) (k m : Z) (rflag tflag : bool) (pfx : text).

(** main, ec_driver.cpp:505-683. *)
Definition main (l : list opt) : action :=
  match parse l set0 with
  | PUsage => AUsage
  | PThrow => AThrow
  | POk s =>
      match o_e s with
      | DUndef => AUsage
      | e =>
          if negb (o_u s || o_c s || o_r s) then AUsage
          else
            let n := (o_data s + o_par s)%Z in
            let ws := if o_ws s <? 2 ^ 31 then Z.of_N (o_ws s) else (Z.of_N (o_ws s) - 2 ^ 32)%Z in
            if negb ((- 2 ^ 31 <=? n) && (n <? 2 ^ 31))%Z then AUb
            else
              match frag_check n ws e with
              | None => AUb
              | Some false => ATooBig
              | Some true =>
                  match o_pfx s with
                  | None => AUsage
                  | Some pfx =>
                      if (o_data s =? -1)%Z || (o_par s =? -1)%Z then AUsage
                      else match pick_type e (o_ws s) with
                           | Some w => ARun e (o_vdm s) w (o_ws s) (o_data s) (o_par s) (o_r s) (o_t s) pfx
                           | None => if is_fntc e then ABadWord else ANothing
                           end
                  end
              end
      end
  end.
