(** Model of src/arith.h.  Proof-free.
    [w] is the width in bits of the unsigned type [T] of the templates. *)
From Coq Require Import List NArith ZArith Bool.
From Verif.Model Require Import Common.
Import ListNotations.
Open Scope N_scope.

(** ** Integer square root: arith.h:119-138 *)

(** [while (place > n) place /= 4], arith.h:123-125. *)
Fixpoint sqrt_shrink (fuel : nat) (place n : N) : N :=
  match fuel with
  | O => place
  | S f => if n <? place then sqrt_shrink f (place / 4) n else place
  end.

(** [while (place) ...], arith.h:128-135; additions wrap at [w] bits. *)
Fixpoint sqrt_loop (fuel : nat) (w place n root : N) : N :=
  match fuel with
  | O => root
  | S f =>
      if place =? 0 then root
      else
        let t := wrap w (root + place) in
        let '(n', root') := if t <=? n then (n - t, wrap w (root + wrap w (place * 2))) else (n, root) in
        sqrt_loop f w (place / 4) n' (root' / 2)
  end.

Definition sqrt (w n : N) : N :=
  let place := sqrt_shrink (N.to_nat w) (2 ^ (w - 2)) n in
  sqrt_loop (N.to_nat w) w place n 0.

(** ** Exponentiation with wrap-around: arith.h:147-165 *)
Fixpoint exp_loop (fuel : nat) (w result base exponent : N) : N :=
  match fuel with
  | O => result
  | S f =>
      let result' := if exponent mod 2 =? 1 then wrap w (result * base) else result in
      let exponent' := exponent / 2 in
      if exponent' =? 0 then result' else exp_loop f w result' (wrap w (base * base)) exponent'
  end.

Definition exp (w base exponent : N) : N :=
  if exponent =? 0 then 1 else exp_loop (N.to_nat (N.size exponent)) w 1 base exponent.

(** ** Modular exponentiation, products wrap at [w] bits before the reduction: arith.h:176-193 *)
Fixpoint exp_mod_loop (fuel : nat) (w result base exponent modulus : N) : N :=
  match fuel with
  | O => result
  | S f =>
      if exponent =? 0 then result
      else
        let result' :=
          if exponent mod 2 =? 1 then wrap w (result * base) mod modulus else result in
        exp_mod_loop f w result' (wrap w (base * base) mod modulus) (exponent / 2) modulus
  end.

Definition exp_mod (w base exponent modulus : N) : N :=
  if modulus =? 1 then 0
  else exp_mod_loop (S (N.to_nat (N.size exponent))) w 1 (base mod modulus) exponent modulus.

(** ** Powers of two: arith.h:201-255, for non-negative [int] arguments *)
Definition is_power_of_2 (n : N) : bool := (0 <? n) && (N.land n (n - 1) =? 0).

(** arith.h:237-241 *)
Fixpoint log2_loop (fuel : nat) (n result : N) : N :=
  match fuel with
  | O => result
  | S f => if 1 <? n then log2_loop f (n / 2) (result + 1) else result
  end.

(** arith.h:228-244; [None] is the exception thrown for 0. *)
Definition log2 (n : N) : option N :=
  if n =? 0 then None
  else if n =? 1 then Some 0
  else Some (log2_loop (N.to_nat (N.size n)) n 0).

(** arith.h:252-255, before any truncation to [int]. *)
Definition exp2 (n : N) : N := N.shiftl 1 n.

(** arith.h:212-218 *)
Definition ceil2 (n : N) : option N :=
  if is_power_of_2 n then Some n
  else match log2 n with Some l => Some (exp2 (l + 1)) | None => None end.

(** ** Extended Euclid: arith.h:275-317.  [Z.quot] is C++ division on signed integers.
    The result is (old_r, old_s, old_t, t, s): gcd, Bezout coefficients, quotients. *)
Record egcd_state := Egcd { e_s : Z; e_os : Z; e_t : Z; e_ot : Z; e_r : Z; e_or : Z }.

(** One turn of the loop, arith.h:291-303. *)
Definition egcd_step (st : egcd_state) : egcd_state :=
  let q := Z.quot (e_or st) (e_r st) in
  Egcd (e_os st - q * e_s st)%Z (e_s st)
       (e_ot st - q * e_t st)%Z (e_t st)
       (e_or st - q * e_r st)%Z (e_r st).

Fixpoint egcd_loop (fuel : nat) (st : egcd_state) : option egcd_state :=
  if Z.eqb (e_r st) 0 then Some st
  else match fuel with
       | O => None
       | S f => egcd_loop f (egcd_step st)
       end.

Definition egcd_init (a b : Z) : egcd_state := Egcd 0 1 1 0 b a.

(** Number of turns that is always enough (proved in Proof/ArithP.v): two per bit. *)
Definition egcd_fuel (a b : Z) : nat := 2 * Z.to_nat (Z.log2 (Z.abs b) + 1) + 1.

Definition extended_gcd (a b : Z) : option egcd_state := egcd_loop (egcd_fuel a b) (egcd_init a b).

(** ** Chinese remainder: arith.h:331-366, over [Z] (no wrap). *)
Fixpoint crt_sum (acc : Z) (l : list (Z * Z)) : option Z :=
  match l with
  | [] => Some 0%Z
  | (a, n) :: t =>
      let bigN := Z.quot acc n in
      match extended_gcd bigN n, crt_sum acc t with
      | Some st, Some s => Some (bigN * e_os st * a + s)%Z
      | _, _ => None
      end
  end.

Definition crt_acc (l : list (Z * Z)) : Z := fold_left (fun acc an => acc * snd an)%Z l 1%Z.

Definition chinese_remainder (l : list (Z * Z)) : option Z :=
  let acc := crt_acc l in
  match crt_sum acc l with
  | None => None
  | Some x0 =>
      let x := Z.rem x0 acc in
      Some (if Z.ltb x 0 then acc + x else x)%Z
  end.

(** ** Jacobi symbol: arith.h:383-431.  [None]: domain error or fuel exhausted. *)
Fixpoint jacobi_loop (fuel : nat) (n m jac : Z) : option Z :=
  if Z.eqb m 1 then Some jac
  else match fuel with
  | O => None
  | S f =>
      if (Z.eqb n 0 || (Z.eqb (Z.rem n 2) 0 && Z.eqb (Z.rem m 2) 0))%bool then jacobi_loop f n 1 0
      else if Z.eqb (Z.rem m 2) 0 then
        let jac' := if (Z.eqb (Z.rem n 8) 3 || Z.eqb (Z.rem n 8) 5)%bool then (- jac)%Z else jac in
        jacobi_loop f n (Z.quot m 2) jac'
      else if Z.eqb (Z.rem n 2) 0 then
        let jac' := if (Z.eqb (Z.rem m 8) 3 || Z.eqb (Z.rem m 8) 5)%bool then (- jac)%Z else jac in
        jacobi_loop f (Z.quot n 2) m jac'
      else if Z.ltb n 0 then
        let jac' := if Z.eqb (Z.rem m 4) 3 then (- jac)%Z else jac in
        jacobi_loop f (- n)%Z m jac'
      else
        let jac' := if (Z.eqb (Z.rem n 4) 3 && Z.eqb (Z.rem m 4) 3)%bool then (- jac)%Z else jac in
        jacobi_loop f (Z.rem m n) n jac'
  end.

Definition jacobi (fuel : nat) (n m : Z) : option Z :=
  if Z.eqb (Z.rem m 2) 0 then None
  else if Z.ltb m 0 then None
  else jacobi_loop fuel n m 1.

(** ** Solovay-Strassen test: arith.h:433-469.  [None]: exception, or fuel of jacobi exhausted.  The comparison of the [int]
    [j] with a [T] converts [j] to [T], for types of 32 bits and more. *)
Definition solovay_strassen1 (fuel : nat) (w a n : N) : option bool :=
  let res := exp_mod w a ((n - 1) / 2) n in
  match jacobi fuel (Z.of_N a) (Z.of_N n) with
  | None => None
  | Some j =>
      let res' := if Z.ltb j 0 then wrap w (res + 2 ^ w - n) else res in
      Some (Z.to_N (Z.modulo j (2 ^ Z.of_N w)) =? res')
  end.
(** [rnd i] is the result of the [i]-th call of [rand_func]. *)
Fixpoint solovay_loop (k i : nat) (fuel : nat) (w n : N) (rnd : nat -> N) : option bool :=
  match k with
  | O => Some true
  | S k =>
      match solovay_strassen1 fuel w (rnd i) n with
      | Some true => solovay_loop k (S i) fuel w n rnd
      | r => r
      end
  end.
Definition solovay_strassen (fuel : nat) (w n : N) (rnd : nat -> N) : option bool := solovay_loop 100 0 fuel w n rnd.

(** ** Greatest common divisor: arith.h:601-615 *)
Fixpoint gcd_loop (fuel : nat) (u v : N) : N :=
  match fuel with
  | O => v
  | S f => let r := u mod v in if r =? 0 then v else gcd_loop f v r
  end.

Definition gcd (u v : N) : N :=
  if v =? 0 then u else if u =? 0 then v else gcd_loop (2 * N.to_nat (N.size v) + 1) u v.

(** ** Primality: arith.h:471-482.  The loop runs [root - 1] times at most. *)
Fixpoint is_prime_loop (fuel : nat) (n i root : N) : bool :=
  match fuel with
  | O => true
  | S f => if i <=? root then (if n mod i =? 0 then false else is_prime_loop f n (i + 1) root) else true
  end.

Definition is_prime (w n : N) : bool :=
  if n =? 2 then true
  else let root := sqrt w n in is_prime_loop (N.to_nat root) n 2 root.

(** ** Factorisation: arith.h:549-589.
    [strip fuel nb i] is [while (nb % i == 0) {occurence++; nb = nb / i;}]. *)
Fixpoint strip (fuel : nat) (nb i : N) : N * N :=
  match fuel with
  | O => (0, nb)
  | S f => if nb mod i =? 0 then let '(occ, nb') := strip f (nb / i) i in (occ + 1, nb') else (0, nb)
  end.

(** The [for] loop over odd [i], arith.h:570-583; returns what is left of [nb] and the (prime, exponent) pairs. *)
Fixpoint factor_loop (fuel : nat) (w nb i : N) : N * list (N * N) :=
  match fuel with
  | O => (nb, [])
  | S f =>
      if i <=? sqrt w nb then
        let '(occ, nb') := strip (N.to_nat (N.size nb)) nb i in
        let '(rest, l) := factor_loop f w nb' (i + 2) in
        (rest, if 0 <? occ then (i, occ) :: l else l)
      else (nb, [])
  end.

(** For [nb = 0] the C++ loop at line 556 does not terminate: [None]. *)
Definition factor_prime (w nb : N) : option (list (N * N)) :=
  if nb =? 0 then None
  else
    let '(occ2, nb2) := strip (N.to_nat (N.size nb)) nb 2 in
    let '(rest, l) := factor_loop (N.to_nat (sqrt w nb2)) w nb2 3 in
    Some ((if 0 <? occ2 then [(2, occ2)] else []) ++ l ++ (if 2 <? rest then [(rest, 1)] else [])).

(** arith.h:761-774: each prime repeated as often as its exponent says. *)
Definition get_prime_factors_of (l : list (N * N)) : list N :=
  flat_map (fun pe => repeat (fst pe) (N.to_nat (snd pe))) l.

(** arith.h:743-750 *)
Definition get_prime_factors (w nb : N) : option (list N) := option_map get_prime_factors_of (factor_prime w nb).

(** arith.h:534-545 *)
Definition get_proper_divisors_of (nb : N) (primes : list N) : list N :=
  flat_map (fun p => if p <? nb then [nb / p] else []) primes.

(** arith.h:492-522: the same trial division, keeping only the primes. *)
Definition factor_distinct_prime (w nb : N) : option (list N) := option_map (map fst) (factor_prime w nb).

(** arith.h:526-530 *)
Definition get_proper_divisors (w nb : N) : option (list N) :=
  option_map (get_proper_divisors_of nb) (factor_distinct_prime w nb).

(** arith.h:720-735 *)
Definition get_coprime_factors (w nb : N) : option (list N) :=
  option_map (map (fun pe => exp w (fst pe) (snd pe))) (factor_prime w nb).

(** arith.h:619-634 *)
Fixpoint divisors_loop (fuel : nat) (n i root : N) : list N :=
  match fuel with
  | O => []
  | S f =>
      if i <=? root then (if n mod i =? 0 then i :: divisors_loop f n (i + 1) root else divisors_loop f n (i + 1) root)
      else []
  end.

Definition get_all_divisors (w n : N) : list N :=
  let l := divisors_loop (N.to_nat (sqrt w n)) n 1 (sqrt w n) in
  l ++ rev (map (fun i => n / i) l).

(** ** Code lengths *)

(** Loop of arith.h:654-659, [i] decreasing from [order / n]. [None] is the failed assertion of line 660. *)
Fixpoint code_len_down (i : nat) (order : N) : option N :=
  match i with
  | O => None
  | S j => if order mod (N.of_nat i) =? 0 then Some (order / N.of_nat i) else code_len_down j order
  end.

(** Loop of arith.h:662-667 followed by line 669. *)
Fixpoint code_len_up (fuel : nat) (order i root : N) : N :=
  match fuel with
  | O => order
  | S f => if i <=? root then (if order mod i =? 0 then i else code_len_up f order (i + 1) root) else order
  end.

(** arith.h:643-670.  [n = 0] divides by zero: [None]. *)
Definition get_code_len (w order n : N) : option N :=
  if n =? 0 then None
  else if order mod n =? 0 then Some n
  else if order <? n then None
  else
    let root := sqrt w order in
    if root <? n then code_len_down (N.to_nat (order / n)) order
    else Some (code_len_up (N.to_nat (root + 1 - n)) order n root).

(** arith.h:702-707: divide by the first factors again while the quotient stays [>= n]; the loop
    stops after [i + 1] factors, then the outer loop goes on with the reduced [x]. *)
Fixpoint high_compo_back (fs : list N) (x n : N) : N + N :=
  match fs with
  | [] => inr x
  | f :: t => let x' := x / f in if x' <? n then inl (x' * f) else high_compo_back t x' n
  end.

(** arith.h:693-712.  [seen] are the factors multiplied so far, in order. [None] is the failed assertion
    of line 710. Products are not wrapped: callers pass the prime factors of a [T] value. *)
Fixpoint high_compo_loop (seen fs : list N) (x n : N) : option N :=
  match fs with
  | [] => None
  | f :: t =>
      let x' := x * f in
      let seen' := seen ++ [f] in
      if n <=? x' then
        match high_compo_back seen' x' n with
        | inl r => Some r
        | inr x'' => high_compo_loop seen' t x'' n
        end
      else high_compo_loop seen' t x' n
  end.

Definition get_code_len_high_compo (factors : list N) (n : N) : option N := high_compo_loop [] factors 1 n.
