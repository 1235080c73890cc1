(** Model of the threads of the benchmark program: main, run_benchmark and run_scenario of benchmark/benchmark.cpp, which share one
    Params_t without a lock.  Proof-free.
    A step is one access of a thread to one of the two fields that are written, fec_type and sizeof_T, with what follows up to the
    next one; accesses are sequentially consistent (C++ gives no meaning at all to a race, see [race]).  The other fields are only
    read.  What a benchmark itself does is in Bench.v: here [shows t T] tells whether it reaches show(). *)
From Coq Require Import List NArith Arith Bool.
From Verif.Model Require Import Common Bench.
Import ListNotations.
Open Scope nat_scope.

(** What a thread does: a benchmark of a code on a type of [T] bytes is made; its results are printed under a name and a size. *)
Inductive event := EMade (t : ec_type) (T : N) | EShown (t : ec_type) (T : N) (name : ec_type) (size : N).

(** Where a thread is, with the types of the loop that are left ([]: none, or not in the loop). *)
Inductive place :=
| AtStart                                              (* benchmark.cpp:723, reads fec_type *)
| AtLoop (l : list ec_type)                            (* 724-725, writes fec_type, or ends *)
| AtTest (l : list ec_type)                            (* benchmark.h:266, reads sizeof_T *)
| AtNf4 (l : list ec_type)                             (* 267, reads fec_type *)
| AtGfp (l : list ec_type)                             (* 269, reads fec_type *)
| AtSet (T : N) (l : list ec_type)                     (* 268, 270 or 272, writes sizeof_T *)
| AtSwitch (l : list ec_type)                          (* benchmark.cpp:701, reads sizeof_T *)
| AtNew (T : N) (l : list ec_type)                     (* 39, reads fec_type *)
| AtShow (t : ec_type) (T : N) (l : list ec_type)      (* benchmark.h:238, reads fec_type *)
| AtShowT (t : ec_type) (T : N) (name : ec_type) (l : list ec_type)  (* 243, reads sizeof_T *)
| AtEnd.

(** fec_type and sizeof_T (a number modulo 2^32, [None] for -1); [sh_exit]: a thread has called exit(0), benchmark.cpp:717. *)
Record shared := mkShared { sh_type : ec_type; sh_T : option N; sh_exit : bool }.
Record thread := mkThread { th_at : place; th_ev : list event }.

(** The value that is read from sizeof_T. *)
Definition size_read (T : option N) : N := match T with Some T => T | None => (2 ^ 32 - 1)%N end.
(** benchmark.cpp:701-718 *)
Definition known_size (T : N) : bool := existsb (N.eqb T) [2; 4; 8; 16]%N.
(** benchmark.h:268, 272 *)
Definition size_for (d ws : N) : N := wrap 32 (wrap 64 ((wrap 64 (ws + 2 ^ 64 - 1) / d + 1) * 4)).

(** One step of a thread. *)
Definition thread_step (ws : N) (shows : ec_type -> N -> bool) (s : shared) (th : thread) : shared * thread :=
  let ev := th_ev th in
  match th_at th with
  | AtStart => (s, mkThread (match sh_type s with TAll => AtLoop all_types | _ => AtTest [] end) ev)
  | AtLoop [] => (s, mkThread AtEnd ev)
  | AtLoop (t :: l) => (mkShared t (sh_T s) (sh_exit s), mkThread (AtTest l) ev)
  | AtTest l => (s, mkThread (match sh_T s with None => AtNf4 l | Some _ => AtSwitch l end) ev)
  | AtNf4 l => (s, mkThread (if is_nf4 (sh_type s) then AtSet (size_for 2 ws) l else AtGfp l) ev)
  | AtGfp l => (s, mkThread (AtSet (if is_gfp (sh_type s) && (ws =? 4)%N then 8%N else size_for 4 ws) l) ev)
  | AtSet T l => (mkShared (sh_type s) (Some T) (sh_exit s), mkThread (AtSwitch l) ev)
  | AtSwitch l =>
      let T := size_read (sh_T s) in
      if known_size T then (s, mkThread (AtNew T l) ev) else (mkShared (sh_type s) (sh_T s) true, mkThread AtEnd ev)
  | AtNew T l =>
      let t := sh_type s in
      (s, mkThread (if shows t T then AtShow t T l else AtLoop l) (ev ++ [EMade t T]))
  | AtShow t T l => (s, mkThread (AtShowT t T (sh_type s) l) ev)
  | AtShowT t T name l => (s, mkThread (AtLoop l) (ev ++ [EShown t T name (size_read (sh_T s))]))
  | AtEnd => (s, th)
  end.

(** One step of the program: a thread that exists and is not at its end, unless the program has ended. *)
Definition state := (shared * list thread)%type.
Definition step (ws : N) (shows : ec_type -> N -> bool) (i : nat) (st : state) : option state :=
  let '(s, l) := st in
  if sh_exit s then None
  else match nth_error l i with
       | None => None
       | Some th =>
           match th_at th with
           | AtEnd => None
           | _ => let '(s, th) := thread_step ws shows s th in Some (s, firstn i l ++ th :: skipn (S i) l)
           end
       end.
(** A schedule: which thread makes each step. *)
Fixpoint run_sched (ws : N) (shows : ec_type -> N -> bool) (sched : list nat) (st : state) : option state :=
  match sched with
  | [] => Some st
  | i :: sched => match step ws shows i st with Some st => run_sched ws shows sched st | None => None end
  end.
(** main, benchmark.cpp:813-817 *)
Definition start (t : ec_type) (T : option N) (n : nat) : state := (mkShared t T false, repeat (mkThread AtStart []) n).

(** The field that the next step of a thread uses, and whether it writes it. *)
Inductive field := FType | FSize.
Definition next_access (p : place) : option (field * bool) :=
  match p with
  | AtStart | AtNf4 _ | AtGfp _ | AtNew _ _ | AtShow _ _ _ => Some (FType, false)
  | AtLoop (_ :: _) => Some (FType, true)
  | AtTest _ | AtSwitch _ | AtShowT _ _ _ _ => Some (FSize, false)
  | AtSet _ _ => Some (FSize, true)
  | AtLoop [] | AtEnd => None
  end.
(** Two threads are about to use one field, and one of them to write it. *)
Definition race (st : state) : Prop :=
  exists i j a b f wa wb, i <> j /\ nth_error (snd st) i = Some a /\ nth_error (snd st) j = Some b /\
    next_access (th_at a) = Some (f, wa) /\ next_access (th_at b) = Some (f, wb) /\ wa || wb = true.
