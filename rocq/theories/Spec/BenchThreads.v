(** What the threads of the benchmark should do. *)
From Coq Require Import List NArith Bool.
From Verif.Model Require Import Bench BenchThreads.
Import ListNotations.

(** One code: its results are printed under its own name and the size of its type of integers. *)
Definition events_of (shows : ec_type -> N -> bool) (t : ec_type) (T : N) : list event :=
  EMade t T :: if shows t T then [EShown t T t T] else [].

(** All the codes, each of them once. *)
Definition every_code : list ec_type := [TRsFnt; TRsFntSys; TRsNf4; TRsGfpFft; TRsGf2nFftAdd; TRsGf2nV; TRsGf2nC; TRsGf2nFft].

(** Sizes of types of integers, in bytes. *)
Definition a_size (T : N) : Prop := T = 2%N \/ T = 4%N \/ T = 8%N \/ T = 16%N.

Definition prefix {A} (l l' : list A) : Prop := exists r, l' = l ++ r.
