(** What can be read in a text: its lines, and the numbers of a line. *)
From Coq Require Import List NArith Bool.
Import ListNotations.
Open Scope N_scope.

Definition is_digit (c : N) : bool := (48 <=? c) && (c <=? 57).
(** The parts between the ends of lines. *)
Fixpoint lines (s : list N) : list (list N) :=
  match s with
  | [] => [[]]
  | c :: s' => if c =? 10 then [] :: lines s' else match lines s' with l :: r => (c :: l) :: r | [] => [[c]] end
  end.
(** The values of the longest runs of digits; [cur]: the value of the digits that have just been read, if any. *)
Fixpoint numbers_from (cur : option N) (s : list N) : list N :=
  match s with
  | [] => match cur with Some v => [v] | None => [] end
  | c :: s' =>
      if is_digit c then numbers_from (Some (10 * match cur with Some v => v | None => 0 end + (c - 48))) s'
      else match cur with Some v => v :: numbers_from None s' | None => numbers_from None s' end
  end.
Definition numbers (s : list N) : list N := numbers_from None s.
(** The numbers of each line. *)
Definition table (s : list N) : list (list N) := map numbers (lines s).
