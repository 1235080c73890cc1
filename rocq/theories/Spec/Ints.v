(** Families of moduli, independent of the model. *)
From Coq Require Import List ZArith.
Import ListNotations.
Open Scope Z_scope.

(** Product of the moduli of a list of pairs (residue, modulus). *)
Definition zprod (l : list (Z * Z)) : Z := fold_right (fun an p => snd an * p) 1 l.

(** Pairwise coprime moduli. *)
Fixpoint pairwise_coprime (l : list (Z * Z)) : Prop :=
  match l with
  | [] => True
  | an :: t => Forall (fun bm => Z.gcd (snd an) (snd bm) = 1) t /\ pairwise_coprime t
  end.
