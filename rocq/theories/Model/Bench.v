(** Model of the benchmark program: benchmark/benchmark.cpp, benchmark.h, iostreambuf.h and stats.h.  Proof-free.
    A chunk is the list of its bytes.  The clock, the messages, the destructor and the threads are not modelled: this is what one
    thread does.  random_shuffle is given: [shuf] is what each of its calls does.  The calls of the code are those of a [coder];
    the code is made by the constructors of the other models. *)
From Coq Require Import List NArith ZArith Arith Bool.
From Verif.Model Require Import Common Arith Props Fnt Header Streams HCodes VCodes Prng.
Import ListNotations.
Open Scope nat_scope.

(** ** Parameters *)

(** ec_type, benchmark.h:48-59, without EC_TYPE_END *)
Inductive ec_type := TAll | TRsFnt | TRsFntSys | TRsNf4 | TRsGfpFft | TRsGf2nFftAdd | TRsGf2nV | TRsGf2nC | TRsGf2nFft.
Definition is_fnt (t : ec_type) : bool := match t with TRsFnt | TRsFntSys => true | _ => false end.
Definition is_nf4 (t : ec_type) : bool := match t with TRsNf4 => true | _ => false end.
Definition is_gfp (t : ec_type) : bool := match t with TRsGfpFft => true | _ => false end.

(** get_sizeof_T, benchmark.h:264-275, with [sizeof_T] -1: the value given to [sizeof_T], modulo 2^32. *)
Definition get_sizeof (t : ec_type) (ws : N) : N :=
  let r d := wrap 32 (wrap 64 ((wrap 64 (ws + 2 ^ 64 - 1) / d + 1) * 4)) in
  if is_nf4 t then r 2%N else if is_gfp t && (ws =? 4)%N then 8%N else r 4%N.

(** What check_params ends with: an error (benchmark.h:97-106), the exception of log2, or the size of the chunks. *)
Inductive checked := ErrWordSize | ErrComptT | ErrCodeLen | ErrDomain | DivZero | Accepted (chunk : N).

(** check_params, benchmark.cpp:276-319.  [n]: the code length, an int; [T]: sizeof(T). *)
Definition check_params (t : ec_type) (T ws : N) (n : Z) (pkt chunk : N) : checked :=
  (if ws =? 0 then ErrWordSize
   else if is_nf4 t && (ws <? 2) then ErrWordSize
   else if T <? ws then ErrComptT
   else if (is_fnt t || is_gfp t) && (T <=? ws) then ErrComptT
   else if is_fnt t && (2 <? ws) then ErrWordSize
   else if is_nf4 t && (T <? wrap 64 (2 * ws)) then ErrComptT
   else match (if (n <? 0)%Z then Some 0 else log2 (Z.to_N n)) with
        | None => ErrDomain
        | Some l =>
            if wrap 64 (8 * ws) <? l + 1 then ErrCodeLen
            else if 0 <? pkt then
              let q := wrap 64 (pkt * ws) in
              if q =? 0 then DivZero
              else if 0 <? chunk mod q then Accepted (wrap 64 (((chunk - 1) / q + 1) * q))
              else Accepted chunk
            else Accepted chunk
        end)%N.

(** main, benchmark.cpp:798-807: what [operation_on_packet] becomes. *)
Definition on_packet (t : ec_type) (pkt : N) : bool := (is_fnt t || is_nf4 t) && negb (pkt =? 0)%N.

(** run_benchmark, benchmark.cpp:721-731 with run_scenario, 696-719: the types that are run and their sizeof(T); [T] is
    [sizeof_T], [None] for -1.  It is set by the first type and kept. *)
Fixpoint run_types (l : list ec_type) (T : option N) (ws : N) : list (ec_type * N) :=
  match l with
  | [] => []
  | t :: l => let T := match T with None => get_sizeof t ws | Some T => T end in (t, T) :: run_types l (Some T) ws
  end.
Definition all_types : list ec_type := [TRsFnt; TRsFntSys; TRsNf4; TRsGfpFft; TRsGf2nFftAdd; TRsGf2nV; TRsGf2nC; TRsGf2nFft].
Definition run_benchmark (t : ec_type) (T : option N) (ws : N) : list (ec_type * N) :=
  run_types (match t with TAll => all_types | _ => [t] end) T ws.

(** ** Statistics, stats.h:38-62 *)
Record stats := mkStats { s_nb : N; s_sum : N; s_sum2 : N }.
Definition stats_begin : stats := mkStats 0 0 0.
Definition stats_add (s : stats) (val : N) : stats :=
  mkStats (wrap 64 (s_nb s + 1)) (wrap 64 (s_sum s + val)) (wrap 64 (s_sum2 s + wrap 64 (val * val))).

(** ** Running a code *)

(** The functions of the code that are called, for the number of the call: encode_streams_*, with the data, what the output
    streams hold and the records; decode_streams_*, with the data, the fragments, the records, the null pointers, the non-null
    outputs, and what the output streams hold.  [None]: an assertion or an exception. *)
Record coder := mkCoder { cd_sys : bool; cd_k : nat; cd_m : nat;
  cd_enc : nat -> list (list N) -> list (list N) -> list props -> option (list (list N) * list props);
  cd_dec : nat -> list (list N) -> list (list N) -> list props -> list bool -> list bool -> list (list N) -> option (bool * list (list N)) }.
(** benchmark.cpp:44, 190-193 *)
Definition cd_nc (c : coder) : nat := if cd_sys c then cd_m c else cd_k c + cd_m c.

(** encode_streams_horizontal and decode_streams_horizontal; [e t], [d t] and the vectors: memory at each call. *)
Definition h_coder (sys : bool) (k m : nat) (e d : nat -> vcode) (oute outd : nat -> list N) : coder :=
  mkCoder sys k m (fun t data outs ps => encode_vstreams (e t) (oute t) data outs ps)
    (fun t data par ps missing wanted outs => option_map fst (decode_vstreams (d t) (outd t) data par ps missing wanted outs)).
(** encode_streams_vertical and decode_streams_vertical of RsFnt. *)
Definition fnt_coder (c : fnt) (xe : ctx) (es : nat -> escratch (list N)) (wc out : nat -> list (list N)) (j1 j2 : nat -> list N)
    (wc1 : nat -> list (list N)) (ds : nat -> dscratch (list N)) : coder :=
  mkCoder (c_sys c) (c_k c) (c_m c)
    (fun t data outs ps => option_map (fun r => (snd (fst r), snd r)) (encode_streams c xe (es t) (wc t) (out t) data outs ps))
    (fun t data par ps missing wanted outs =>
       option_map fst (decode_streams c (j1 t) (j2 t) (wc1 t) (ds t) data par ps missing wanted outs)).
(** encode_streams_vertical and decode_streams_vertical of RsNf4, which is not systematic. *)
Definition p_coder (k m : nat) (e : penc) (d : nat -> pdec) (b : nat -> ebufs) (q : nat -> dbufs) : coder :=
  mkCoder false k m (fun t data outs ps => pencode_streams e (b t) data outs ps)
    (fun t data par ps missing wanted outs => option_map fst (pdecode_streams (d t) (q t) par ps missing wanted outs)).

(** ostreambuf, iostreambuf.h:37-59, after seekpos(0): the memory [old] after [b] has been written.  What goes over the end is
    dropped (the base overflow() fails). *)
Definition buf_write (old b : list N) : list N := firstn (length old) (b ++ skipn (length b) old).

(** The chunks, the records, the order of c_chunks_id, the calls of random_shuffle to come, the numbers of encodings and decodings
    that were added to the statistics. *)
Record bench := mkBench { be_d : list (list N); be_c : list (list N); be_r : list (list N); be_ps : list props;
  be_ids : list nat; be_shuf : list (list nat -> list nat); be_enc : nat; be_dec : nat }.

(** True or false is returned, or: undefined behaviour; a failed assertion or an exception; more calls of random_shuffle. *)
Inductive bres := BTrue (s : bench) | BFalse (s : bench) | BUb | BAbort | BMore.

(** gen_data, benchmark.cpp:321-332, without its check. *)
Fixpoint gen_chunks (n : nat) (p : prng) (size : nat) : outcome (list (list N) * prng) :=
  match n with
  | O => Ret ([], p)
  | S n => match gen_chunk p size with
           | Ret (b, p) => match gen_chunks n p size with Ret (l, p) => Ret (b :: l, p) | Ub => Ub end
           | Ub => Ub end
  end.

(** check, benchmark.cpp:334-344: up to the first chunk that is not good. *)
Fixpoint check (l : list (list N)) : outcome bool :=
  match l with
  | [] => Ret true
  | b :: l => match check_chunk b with Ret true => check l | o => o end
  end.

(** compare, benchmark.cpp:346-369 *)
Definition compare (a b : list (list N)) : outcome bool :=
  if negb (length a =? length b) then Ret false
  else if negb (forallb (fun i => N.eqb (get_crc (get [] a i)) (get_crc (get [] b i))) (seq 0 (length a))) then Ret false
  else match check a with Ret true => check b | o => o end.

(** get_avail_chunks, benchmark.cpp:433-471: the new order and the shuffles left. *)
Fixpoint get_avail (sys : bool) (k : nat) (shuf : list (list nat -> list nat)) (ids : list nat)
  : option (list nat * list (list nat -> list nat)) :=
  match shuf with
  | [] => None
  | f :: shuf =>
      let ids := f ids in
      if sys && (length (filter (fun j => j <? k) (firstn k ids)) =? k) then get_avail sys k shuf ids else Some (ids, shuf)
  end.

(** encode, benchmark.cpp:473-492, with the resets of the streams, 395-412. *)
Definition bench_encode (c : coder) (s : bench) : bres :=
  match cd_enc c (be_enc s) (be_d s) (repeat [] (cd_nc c)) (repeat [] (cd_nc c)) with
  | None => BAbort
  | Some (outs, ps) =>
      BTrue (mkBench (be_d s) (map (fun q => buf_write (get [] (be_c s) q) (get [] outs q)) (seq 0 (cd_nc c))) (be_r s) ps
               (be_ids s) (be_shuf s) (S (be_enc s)) (be_dec s))
  end.

(** decode, benchmark.cpp:494-540, with the resets of the streams, 414-431.  All the output streams are there. *)
Definition bench_decode (c : coder) (s : bench) : bres :=
  match get_avail (cd_sys c) (cd_k c) (be_shuf s) (be_ids s) with
  | None => BMore
  | Some (ids, shuf) =>
      let there := fun j => existsb (Nat.eqb j) (firstn (cd_k c) ids) in
      let pos := fun q => if cd_sys c then cd_k c + q else q in
      let data := map (fun j => if cd_sys c && there j then get [] (be_d s) j else []) (seq 0 (cd_k c)) in
      let par := map (fun q => if there (pos q) then get [] (be_c s) q else []) (seq 0 (cd_nc c)) in
      let ps := map (fun q => if there (pos q) then get [] (be_ps s) q else []) (seq 0 (cd_nc c)) in
      let missing := map (fun i => negb (there i)) (seq 0 (cd_k c + cd_m c)) in
      match cd_dec c (be_dec s) data par ps missing (repeat true (cd_k c)) (repeat [] (cd_k c)) with
      | None => BAbort
      | Some (b, outs) =>
          let r := map (fun j => buf_write (get [] (be_r s) j) (get [] outs j)) (seq 0 (cd_k c)) in
          let s' := fun n => mkBench (be_d s) (be_c s) r (be_ps s) ids shuf (be_enc s) n in
          if negb b then BFalse (s' (be_dec s))
          else match compare (be_d s) r with
               | Ub => BUb
               | Ret false => BFalse (s' (be_dec s))
               | Ret true => match check r with
                             | Ub => BUb
                             | Ret false => BFalse (s' (be_dec s))
                             | Ret true => BTrue (s' (S (be_dec s)))
                             end
               end
      end
  end.

(** The loops over the samples, benchmark.cpp:580-583, 603-606, 624-629. *)
Fixpoint repeat_res (f : bench -> bres) (n : nat) (s : bench) : bres :=
  match n with
  | O => BTrue s
  | S n => match f s with BTrue s => repeat_res f n s | r => r end
  end.
Definition then_res (f g : bench -> bres) (s : bench) : bres := match f s with BTrue s => g s | r => r end.

(** gen_data with its check: the data chunks are replaced. *)
Definition gen_data (k size : nat) (p : prng) (s : bench) : bres :=
  match gen_chunks k p size with
  | Ub => BUb
  | Ret (d, _) =>
      match check d with
      | Ub => BUb
      | Ret true => BTrue (mkBench d (be_c s) (be_r s) (be_ps s) (be_ids s) (be_shuf s) (be_enc s) (be_dec s))
      | _ => BAbort
      end
  end.

(** enc_only, dec_only and enc_dec, benchmark.cpp:573-636; [p]: the generator of init(). *)
Definition enc_only (c : coder) (size samples : nat) (p : prng) : bench -> bres :=
  then_res (gen_data (cd_k c) size p) (repeat_res (bench_encode c) samples).
Definition dec_only (c : coder) (size samples : nat) (p : prng) : bench -> bres :=
  then_res (gen_data (cd_k c) size p) (then_res (bench_encode c) (repeat_res (bench_decode c) samples)).
Definition enc_dec (c : coder) (size samples : nat) (p : prng) : bench -> bres :=
  then_res (gen_data (cd_k c) size p) (repeat_res (then_res (bench_encode c) (bench_decode c)) samples).

(** The state after init(), benchmark.cpp:152-274; [junk]: what is in the new chunks. *)
Definition bench_init (c : coder) (d0 c0 r0 : list (list N)) (shuf : list (list nat -> list nat)) : bench :=
  mkBench d0 c0 r0 (repeat [] (cd_nc c)) (seq 0 (cd_k c + cd_m c)) shuf 0 0.
