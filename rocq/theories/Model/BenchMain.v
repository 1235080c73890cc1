(** Model of main() of the benchmark program, benchmark/benchmark.cpp:738-822: the options and what the threads are started with.
    Proof-free.  getopt is not modelled: the list of what it returns is given.  What a thread does is in Bench.v and BenchThreads.v. *)
From Coq Require Import List NArith ZArith Bool Ascii String.
From Verif.Model Require Import Common Header Cached DriverMain Bench.
Import ListNotations.
Open Scope N_scope.

(** The options with a number, benchmark.cpp:747-793: -t -w -k -m -c -p -n -x -g -f. *)
Inductive nfield := FT | FW | FK | FM | FC | FP | FN | FX | FG | FF.
(** What getopt returns, with optarg. *)
Inductive bopt := BE (a : text) | BS (a : text) | BNum (f : nfield) (a : text) | BBad.

(** scenario_type, benchmark.h:134-138 *)
Inductive scenario := EncOnly | DecOnly | EncDec.

(** fec_type_map, benchmark.h:121-132, and sce_type_map, 141-145. *)
Definition fec_of (a : text) : option ec_type :=
  if text_eqb a (txt "all") then Some TAll
  else if text_eqb a (txt "rs-gf2n-v") then Some TRsGf2nV
  else if text_eqb a (txt "rs-gf2n-c") then Some TRsGf2nC
  else if text_eqb a (txt "rs-gf2n-fft") then Some TRsGf2nFft
  else if text_eqb a (txt "rs-gf2n-fft-add") then Some TRsGf2nFftAdd
  else if text_eqb a (txt "rs-gfp-fft") then Some TRsGfpFft
  else if text_eqb a (txt "rs-fnt") then Some TRsFnt
  else if text_eqb a (txt "rs-fnt-sys") then Some TRsFntSys
  else if text_eqb a (txt "rs-nf4") then Some TRsNf4
  else None.
Definition sce_of (a : text) : option scenario :=
  if text_eqb a (txt "enc_only") then Some EncOnly
  else if text_eqb a (txt "dec_only") then Some DecOnly
  else if text_eqb a (txt "enc_dec") then Some EncDec
  else None.

(** Params_t, benchmark.h:161-177, without the header. *)
Record params := mkParams { p_type : ec_type; p_ws : N; p_k : Z; p_m : Z; p_packet : bool; p_pkt : N; p_chunk : N; p_samples : N;
  p_extra : Z; p_T : Z; p_sce : scenario; p_threads : N; p_print : Z }.
Definition params0 : params := mkParams TAll 2 3 2 true 1024 512 100 (-1) (-1) EncDec 4 1.

(** The conversions of an int to size_t and to uint32_t. *)
Definition to_u64 (z : Z) : N := Z.to_N (z mod 2 ^ 64).
Definition to_u32 (z : Z) : N := Z.to_N (z mod 2 ^ 32).

(** benchmark.cpp:747-793, the assignment of one number. *)
Definition set_num (f : nfield) (z : Z) (p : params) : params :=
  let '(mkParams t ws k m pk ps ch sa ex T sc th pr) := p in
  match f with
  | FT => mkParams t ws k m pk ps ch sa ex z sc th pr
  | FW => mkParams t (to_u64 z) k m pk ps ch sa ex T sc th pr
  | FK => mkParams t ws z m pk ps ch sa ex T sc th pr
  | FM => mkParams t ws k z pk ps ch sa ex T sc th pr
  | FC => mkParams t ws k m pk ps (to_u64 z) sa ex T sc th pr
  | FP => mkParams t ws k m pk (to_u64 z) ch sa ex T sc th pr
  | FN => mkParams t ws k m pk ps ch (to_u32 z) ex T sc th pr
  | FX => mkParams t ws k m pk ps ch sa z T sc th pr
  | FG => mkParams t ws k m pk ps ch sa ex T sc (to_u32 z) pr
  | FF => mkParams t ws k m pk ps ch sa ex T sc th z
  end.
Definition set_type (t : ec_type) (p : params) : params :=
  let '(mkParams _ ws k m pk ps ch sa ex T sc th pr) := p in mkParams t ws k m pk ps ch sa ex T sc th pr.
Definition set_sce (s : scenario) (p : params) : params :=
  let '(mkParams t ws k m pk ps ch sa ex T _ th pr) := p in mkParams t ws k m pk ps ch sa ex T s th pr.
Definition set_packet (b : bool) (p : params) : params :=
  let '(mkParams t ws k m _ ps ch sa ex T sc th pr) := p in mkParams t ws k m b ps ch sa ex T sc th pr.

(** [BUsage]: the usage and exit(EXIT_FAILURE); [BThrow]: an exception of stoi, which nothing catches; [BRun]: the threads are started. *)
Inductive bstart := BUsage | BThrow | BRun (p : params).

(** The loop, benchmark.cpp:745-797. *)
Fixpoint bparse (l : list bopt) (p : params) : bstart :=
  match l with
  | [] => BRun p
  | BE a :: l => match fec_of a with Some t => bparse l (set_type t p) | None => BUsage end
  | BS a :: l => match sce_of a with Some s => bparse l (set_sce s p) | None => BUsage end
  | BNum f a :: l => match stoi a with Some z => bparse l (set_num f z p) | None => BThrow end
  | BBad :: _ => BUsage
  end.
(** main, benchmark.cpp:738-822; 799-807 with [on_packet] of Bench.v. *)
Definition bench_main (l : list bopt) : bstart :=
  match bparse l params0 with
  | BRun p => BRun (if on_packet (p_type p) (p_pkt p) then p else set_packet false p)
  | r => r
  end.

(** What a thread alone then does: the benchmarks, benchmark.cpp:722-731, with their checks, 36-60 and 276-319.  [sizeof_T] is -1
    or a number modulo 2^32; the code length is an int, [None]: it overflows. *)
Definition code_length (p : params) : option Z :=
  let n := (p_k p + p_m p)%Z in if ((- 2 ^ 31 <=? n) && (n <? 2 ^ 31))%Z then Some n else None.
Definition size_asked (p : params) : option N := if (p_T p =? -1)%Z then None else Some (to_u32 (p_T p)).
Definition bench_checks (p : params) : option (list (ec_type * N * checked)) :=
  match code_length p with
  | None => None
  | Some n => Some (map (fun tT => (tT, check_params (fst tT) (snd tT) (p_ws p) n (p_pkt p) (p_chunk p)))
                      (run_benchmark (p_type p) (size_asked p) (p_ws p)))
  end.
