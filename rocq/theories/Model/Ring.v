(** Model of src/gf_ring.h, src/gf_base.h and src/gf_prime.h: integers modulo [card] held in an unsigned type of
    [w] bits with double-size types of [2 w] bits (uint16_t, uint32_t, uint64_t).  For __uint128_t, whose double-size types
    keep 128 bits only, see BigInt.v.  Proof-free. *)
From Coq Require Import List NArith ZArith Bool.
From Verif.Model Require Import Common Arith.
Import ListNotations.
Open Scope N_scope.

(** Operations that the transforms and codes use from [gf::Field<T>] (gf_ring.h:75-169): the C++ virtual methods. *)
Record gfops := Gfops {
  g_card : N;                  (* gf_ring.h:188 *)
  g_add : N -> N -> N;         (* gf_ring.h:214 *)
  g_sub : N -> N -> N;         (* gf_ring.h:226 *)
  g_mul : N -> N -> N;         (* gf_ring.h:238 *)
  g_neg : N -> N;              (* gf_ring.h:206 *)
  g_inv : N -> N;              (* gf_ring.h:274 *)
  g_exp : N -> N -> N          (* gf_ring.h:280 *)
}.

(** gf_ring.h:199-203 *)
Definition check (card a : N) : bool := a <? card.

(** gf_ring.h:214-223: the sum wraps at [w] bits before the comparison. *)
Definition ring_add (w card a b : N) : N :=
  let c := wrap w (a + b) in if card <=? c then c - card else c.

(** gf_ring.h:226-235 *)
Definition ring_sub (w card a b : N) : N :=
  if b <=? a then a - b else card - (b - a).

(** gf_ring.h:206-211 *)
Definition ring_neg (w card a : N) : N := ring_sub w card 0 a.

(** gf_ring.h:238-244: the product is computed in a type of [2w] bits (core.h:41-59). *)
Definition ring_mul (w card a b : N) : N := wrap w (wrap (2 * w) (a * b) mod card).

(** gf_ring.h:259-271.  The final conversion from the signed type to [T] is modulo [2^w]. *)
Definition inv_bezout (w card a : N) : N :=
  match extended_gcd (Z.of_N a) (Z.of_N card) with
  | Some st =>
      let b := e_os st in
      let b' := if Z.ltb b 0 then (Z.of_N card + b)%Z else b in
      Z.to_N (Z.modulo b' (2 ^ Z.of_N w))
  | None => 0
  end.

(** gf_ring.h:247-255 *)
Definition ring_div (w card a b : N) : N := ring_mul w card a (inv_bezout w card b).

(** gf_ring.h:318-336; recursion on the binary representation of the exponent. *)
Fixpoint exp_quick_pos (mul : N -> N -> N) (base : N) (e : positive) : N :=
  match e with
  | xH => base
  | xO e' => let t := exp_quick_pos mul base e' in mul t t
  | xI e' => let t := exp_quick_pos mul base e' in mul (mul t t) base
  end.

Definition exp_quick (mul : N -> N -> N) (base exponent : N) : N :=
  match exponent with N0 => 1 | Npos e => exp_quick_pos mul base e end.

(** gf_ring.h:280-285 *)
Definition ring_exp (w card a b : N) : N := exp_quick (ring_mul w card) a b.

(** gf_ring.h:298-314: [i] counts from 1 to [exponent - 1]. *)
Definition exp_naive (mul : N -> N -> N) (base exponent : N) : N :=
  if exponent =? 0 then 1
  else N.iter (exponent - 1) (fun r => mul r base) base.

(** gf_ring.h:343-353.  [None] is the exception NoSolution. *)
Fixpoint log_naive_loop (fuel : nat) (ex : N -> N -> N) (card base exponent result : N) : option N :=
  match fuel with
  | O => None
  | S f =>
      if result <? card then
        if ex base result =? exponent then Some result else log_naive_loop f ex card base exponent (result + 1)
      else None
  end.

Definition log_naive (ex : N -> N -> N) (card base exponent : N) : option N :=
  log_naive_loop (N.to_nat card) ex card base exponent 1.

(** gf_prime.h:63-68 *)
Definition inv_exp (w p a : N) : N := ring_exp w p a (p - 2).

(** The prime field [gf::Prime<T>] with the operations inherited from RingModN. *)
Definition prime_ops (w p : N) : gfops :=
  Gfops p (ring_add w p) (ring_sub w p) (ring_mul w p) (ring_neg w p) (inv_bezout w p) (ring_exp w p).

(** gf_base.h:116-119 *)
Definition get_inv_n_mod_p (G : gfops) (p n : N) : N := g_inv G n mod p.

(** ** Roots: gf_ring.h:453-466, 601-660, 773-822 *)

(** gf_ring.h:602-615: no proper divisor exponent gives 1. *)
Definition is_primitive_root (G : gfops) (proper : list N) (nb : N) : bool :=
  forallb (fun d => negb (g_exp G nb d =? 1)) proper.

(** gf_ring.h:641-655: first [nb >= 2] that passes; [None] is the failed assertion of line 658. *)
Fixpoint find_root_loop (fuel : nat) (G : gfops) (proper : list N) (h nb : N) : option N :=
  match fuel with
  | O => None
  | S f =>
      if nb <=? h then
        if is_primitive_root G proper nb then Some nb else find_root_loop f G proper h (nb + 1)
      else None
  end.

(** gf_ring.h:625-660 with [proper_divisors] from compute_factors_of_order (454-466). *)
Definition find_primitive_root (w : N) (G : gfops) : option N :=
  let h := g_card G - 1 in
  if h =? 1 then Some 1
  else match factor_prime w h with
       | None => None
       | Some fs => find_root_loop (N.to_nat h) G (get_proper_divisors_of h (map fst fs)) h 2
       end.

(** gf_ring.h:775-781 *)
Definition get_nth_root (G : gfops) (root n : N) : N :=
  let q1 := g_card G - 1 in g_exp G root (q1 / gcd n q1).

(** gf_ring.h:815-822 with [all_primes_factors] of line 462. [None]: failed assertion. *)
Definition ring_code_len_high_compo (w card n : N) : option N :=
  if card - 1 <? n then None
  else match get_prime_factors w (card - 1) with
       | None => None
       | Some fs => get_code_len_high_compo fs n
       end.

(** gf_ring.h:669-700: [l] is the stack of (prime, exponent), last element first. *)
Fixpoint do_step_get_order (fuel : nat) (G : gfops) (x h : N) (l : list (N * N)) : option N :=
  match fuel with
  | O => None
  | S f =>
      match l with
      | [] => Some h
      | (p, r) :: t =>
          let y := h / p in
          if negb (g_exp G x y =? 1) then do_step_get_order f G x h t
          else do_step_get_order f G x y (if 1 <? r then (p, r - 1) :: t else t)
      end
  end.

(** gf_ring.h:726-738 *)
Definition get_order (w : N) (G : gfops) (x : N) : option N :=
  if (x =? 0) || (x =? 1) then Some 1
  else
    let h := g_card G - 1 in
    match factor_prime w h with
    | None => None
    | Some fs =>
        let total := fold_right (fun pe acc => snd pe + acc) 0 fs in
        match do_step_get_order (S (N.to_nat total)) G x h (rev fs) with
        | None => None
        | Some order => Some (if order =? 1 then h else order)
        end
    end.

(** gf_ring.h:746-750 *)
Definition check_primitive_root (w : N) (G : gfops) (nb : N) : option bool :=
  option_map (fun o => o =? g_card G - 1) (get_order w G nb).

(** gf_ring.h:756-771: the loop runs for [i = 1 .. order - 2]. *)
Fixpoint check_order_loop (turns : nat) (G : gfops) (nb tmp : N) : bool :=
  match turns with
  | O => true
  | S t => if tmp =? 1 then false else check_order_loop t G nb (g_mul G tmp nb)
  end.

Definition check_order_naive (G : gfops) (nb order : N) : bool :=
  if negb (g_exp G nb order =? 1) then false else check_order_loop (N.to_nat (order - 2)) G nb nb.

(** gf_ring.h:495-500 *)
Definition compute_omegas (G : gfops) (n : nat) (w : N) : list N :=
  map (fun i => g_exp G w (N.of_nat i)) (seq 0 n).

(** gf_ring.h:476-486 *)
Definition is_quadratic_residue (G : gfops) (q : N) : bool :=
  existsb (fun i => g_exp G (N.of_nat i) 2 =? q) (seq 0 (N.to_nat (g_card G))).
