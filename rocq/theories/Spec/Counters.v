(** Specification of the operation counts: the transforms themselves are run on symbols that carry a tally.  Every
    butterfly adds its cost to the tally of one of the two symbols it works on, so that the sum of all the tallies at the
    end counts the butterflies that were executed. *)
From Coq Require Import List NArith Arith Bool.
From Verif.Model Require Import Fft2n Counters.
Import ListNotations.

(** Sum of two tallies, and of all the tallies of a list. *)
Definition plus (a b : counter) : counter :=
  mkCounter (n_add a + n_add b) (n_sub a + n_sub b) (n_mul a + n_mul b) (n_neg a + n_neg b) (n_butterfly a + n_butterfly b).
Definition none : counter := mkCounter 0 0 0 0 0.
Definition total (v : list counter) : counter := fold_right plus none v.

(** Costs: a coefficient of 1 or [h] (minus one) needs no product; with a zero operand [h] needs a negation. *)
Definition cost (h r : N) : counter := mkCounter 1 1 (if ((1 <? r) && (r <? h))%N then 1 else 0) 0 1.
Definition cost_simple (h r : N) : counter := mkCounter 0 0 (if ((1 <? r) && negb (r =? h))%N then 1 else 0) (if (r =? h)%N then 1 else 0) 1.

Definition tally (h : N) : symops N counter :=
  Symops none (fun r a b => (plus a (cost h r), b)) (fun r a b => (plus a (cost h r), b))
    (fun r a b => plus b (cost_simple h r)) (fun _ a _ => a) (fun a => a).
