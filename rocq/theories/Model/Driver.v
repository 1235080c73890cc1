(** Model of the driver test/ec_driver.cpp (the file program of the project): names of files, create_coding_files,
    repair_data_files and the functions run_fec_*.  Proof-free.
    The files are those of Cached.v; opening, reading and writing them succeeds, and access() finds exactly those that exist.
    Data files are read when they are opened (the files that the program writes have other names).  The messages, the statistics
    and the options are not modelled. *)
From Coq Require Import List NArith Arith Bool.
From Verif.Model Require Import Common Fnt Props Header Streams HCodes Cached.
Import ListNotations.
Open Scope nat_scope.

(** count_digits, ec_driver.cpp:77-85 *)
Fixpoint count_loop (fuel : nat) (number : N) (digits : nat) : nat :=
  match fuel with
  | O => digits
  | S f => if (number =? 0)%N then digits else count_loop f (number / 10) (digits + 1)
  end.
Definition count_digits (number : nat) : nat := count_loop (S (N.to_nat (N.size (N.of_nat number)))) (N.of_nat number) 0.

(** get_filename, ec_driver.cpp:87-98: '.', the type, and the number in at least [zpad] characters. *)
Definition get_filename (pfx : text) (type : N) (zpad part : nat) (ext : text) : text :=
  let d := print_number (N.of_nat part) in
  pfx ++ [46; type]%N ++ repeat 48%N (zpad - length d) ++ d ++ ext.

(** ".props" *)
Definition ext_props : text := [46; 112; 114; 111; 112; 115]%N.

(** The names used: ec_driver.cpp:116, 129, 140 and 193, 220, 236; the widths are those of lines 443 and 589. *)
Definition data_name (pfx : text) (k i : nat) : text := get_filename pfx 100 (count_digits (k - 1)) i [].
Definition code_name (pfx : text) (no i : nat) : text := get_filename pfx 99 (count_digits (no - 1)) i [].
Definition props_name (pfx : text) (no i : nat) : text := get_filename pfx 99 (count_digits (no - 1)) i ext_props.

(** A new file, or new contents of an old one. *)
Definition write_file (fs : files) (name t : text) : files := (name, t) :: fs.

Fixpoint all_some {A} (l : list (option A)) : option (list A) :=
  match l with
  | [] => Some []
  | Some a :: l => match all_some l with Some r => Some (a :: r) | None => None end
  | None :: _ => None
  end.
Definition is_missing {A} (o : option A) : bool := match o with None => true | Some _ => false end.
Definition contents (o : option text) : text := match o with None => [] | Some t => t end.

(** create_coding_files, ec_driver.cpp:104-173.  [None]: the program exits because a data file is not there. *)
Definition create_coding_files (c : fnt) (xe : ctx) (es : escratch (list N)) (wc out : list (list N)) (pfx : text) (fs : files)
  : option files :=
  let no := c_nout c in
  match all_some (map (fun i => find_file fs (data_name pfx (c_k c) i)) (seq 0 (c_k c))) with
  | None => None
  | Some data =>
      match encode_streams c xe es wc out data (repeat [] no) (repeat [] no) with
      | None => None
      | Some (_, outs, ps) =>
          Some (fold_left (fun fs i => write_file (write_file fs (code_name pfx no i) (get [] outs i))
                                                  (props_name pfx no i) (print_props (get [] ps i))) (seq 0 no) fs)
      end
  end.

(** repair_data_files, ec_driver.cpp:179-286.  A data file that is not there is created (line 200) and is an output; the records
    are empty without a file of records (239-240).  The answer of the decoder is not looked at (line 254); the function
    returns 0.  [None]: a number in a file of records cannot be read, the exception ends the program. *)
Definition repair_data_files (c : fnt) (junk1 junk2 : list N) (wc : list (list N)) (ds : dscratch (list N)) (pfx : text) (fs : files)
  : option files :=
  let no := c_nout c in
  let d := map (fun i => find_file fs (data_name pfx (c_k c) i)) (seq 0 (c_k c)) in
  let cf := map (fun i => find_file fs (code_name pfx no i)) (seq 0 no) in
  match all_some (map (fun i => match find_file fs (props_name pfx no i) with
                                | None => Some []
                                | Some t => parse_props t []
                                end) (seq 0 no)) with
  | None => None
  | Some ps =>
      let lost := (if c_sys c then map is_missing d else []) ++ map is_missing cf in
      match decode_streams c junk1 junk2 wc ds (map contents d) (map contents cf) ps lost (map is_missing d) (repeat [] (c_k c)) with
      | None => None
      | Some (_, outs, _) =>
          Some (fold_left (fun fs i => if is_missing (get None d i) then write_file fs (data_name pfx (c_k c) i) (get [] outs i) else fs)
                  (seq 0 (c_k c)) fs)
      end
  end.

(** run_fec_rs_fnt, ec_driver.cpp:430-457. *)
Definition run_fec_rs_fnt (c : fnt) (junk1 junk2 : list N) (wc1 : list (list N)) (ds : dscratch (list N))
    (xe : ctx) (es : escratch (list N)) (wc out : list (list N)) (pfx : text) (rflag : bool) (fs : files) : option files :=
  match (if rflag then repair_data_files c junk1 junk2 wc1 ds pfx fs else Some fs) with
  | None => None
  | Some fs => create_coding_files c xe es wc out pfx fs
  end.

(** create_coding_files, ec_driver.cpp:104-173, with [operation_on_packet] false (line 156). *)
Definition create_coding_files_h (c : vcode) (output : list N) (pfx : text) (fs : files) : option files :=
  let no := v_nout c in
  match all_some (map (fun i => find_file fs (data_name pfx (v_k c) i)) (seq 0 (v_k c))) with
  | None => None
  | Some data =>
      match encode_vstreams c output data (repeat [] no) (repeat [] no) with
      | None => None
      | Some (outs, ps) =>
          Some (fold_left (fun fs i => write_file (write_file fs (code_name pfx no i) (get [] outs i))
                                                  (props_name pfx no i) (print_props (get [] ps i))) (seq 0 no) fs)
      end
  end.

(** repair_data_files, ec_driver.cpp:179-286, with [operation_on_packet] false (line 256). *)
Definition repair_data_files_h (c : vcode) (output : list N) (pfx : text) (fs : files) : option files :=
  let no := v_nout c in
  let d := map (fun i => find_file fs (data_name pfx (v_k c) i)) (seq 0 (v_k c)) in
  let cf := map (fun i => find_file fs (code_name pfx no i)) (seq 0 no) in
  match all_some (map (fun i => match find_file fs (props_name pfx no i) with
                                | None => Some []
                                | Some t => parse_props t []
                                end) (seq 0 no)) with
  | None => None
  | Some ps =>
      let lost := (if v_sys c then map is_missing d else []) ++ map is_missing cf in
      match decode_vstreams c output (map contents d) (map contents cf) ps lost (map is_missing d) (repeat [] (v_k c)) with
      | None => None
      | Some (_, outs, _) =>
          Some (fold_left (fun fs i => if is_missing (get None d i) then write_file fs (data_name pfx (v_k c) i) (get [] outs i) else fs)
                  (seq 0 (v_k c)) fs)
      end
  end.

(** run_fec_rs_gf2n, run_fec_rs_gf2n_fft, run_fec_rs_gf2n_fft_add, run_fec_rs_gfp_fft, run_fec_rs_nf4, ec_driver.cpp:319-428 and
    459-484.  One object does both: [cd] and [ce] are the code with the memory that it gets while decoding and while encoding. *)
Definition run_fec (cd ce : vcode) (outd oute : list N) (pfx : text) (rflag : bool) (fs : files) : option files :=
  match (if rflag then repair_data_files_h cd outd pfx fs else Some fs) with
  | None => None
  | Some fs => create_coding_files_h ce oute pfx fs
  end.
