(** Model of src/vec_poly.h: polynomials held in a vector together with a degree.  Proof-free. *)
From Coq Require Import List NArith ZArith Arith Bool.
From Verif.Model Require Import Common Arith Ring.
Import ListNotations.
Open Scope nat_scope.

(** vec_poly.h:64-70: the memory of the underlying vector and the member [degree]. *)
Record poly := mkPoly { p_buf : list N; p_deg : Z }.

(** Constructor followed by zero_fill, vec_poly.h:73-80 and 236-240 (fec_context.h:99-106). *)
Definition poly_zero (n : nat) : poly := mkPoly (repeat 0%N n) (-1).

(** zero_fill alone, vec_poly.h:236-240: the degree is not reset. *)
Definition poly_zero_fill (q : poly) : poly := mkPoly (map (fun _ => 0%N) (p_buf q)) (p_deg q).

(** vec_poly.h:113-122.  [None]: a failed assertion. *)
Definition poly_set (G : gfops) (q : poly) (e : nat) (c : N) : option poly :=
  if (e <? length (p_buf q)) && (c <? g_card G)%N then
    Some (mkPoly (set (p_buf q) e c)
            (if ((p_deg q <? Z.of_nat e)%Z && (0 <? c)%N) then Z.of_nat e else p_deg q))
  else None.

(** vec_poly.h:105-110 *)
Definition poly_get (q : poly) (e : nat) : option N := nth_error (p_buf q) e.

(** vec_poly.h:140-148; [p] is the characteristic.  [None]: [buf[degree]] with a negative degree. *)
Definition poly_derivative (G : gfops) (p : N) (q : poly) : option poly :=
  if (p_deg q <? 0)%Z then None
  else
    let d := Z.to_nat (p_deg q) in
    let b := fold_left (fun b i => set b (i - 1) (g_mul G (N.of_nat i mod p)%N (get 0%N b i))) (seq 1 d) (p_buf q) in
    Some (mkPoly (set b d 0%N) (p_deg q - 1)).

(** vec_poly.h:162-173, Horner's rule; [i] is the number of coefficients still to be added. *)
Fixpoint poly_eval_loop (G : gfops) (b : list N) (x : N) (i : nat) (result : N) : N :=
  match i with
  | O => result
  | S j => poly_eval_loop G b x j (g_add G (g_mul G result x) (get 0%N b j))
  end.

Definition poly_eval (G : gfops) (q : poly) (x : N) : option N :=
  if (p_deg q <? 0)%Z then None
  else let d := Z.to_nat (p_deg q) in Some (poly_eval_loop G (p_buf q) x d (get 0%N (p_buf q) d)).

(** One coefficient of vec_poly.h:188-200: sum over [deg_a <= deg] and [deg_a <= degree]. *)
Definition poly_mul_coef (G : gfops) (degree : Z) (a b : list N) (deg : nat) : N :=
  fold_left (fun val i =>
      if (0 <? get 0%N a i)%N && (0 <? get 0%N b (deg - i))%N
      then g_add G val (g_mul G (get 0%N a i) (get 0%N b (deg - i))) else val)
    (seq 0 (Nat.min (S deg) (Z.to_nat (degree + 1)))) 0%N.

(** vec_poly.h:184-202: the coefficients are computed from [deg_out] down to 0 and stored in place; neither [degree]
    nor the coefficients above [deg_out] change.  [None]: a failed assertion; the index of [b->get] is at most
    [deg_out], so that [b] must have more than [deg_out] entries. *)
Definition poly_mul (G : gfops) (q b : poly) (deg_out : nat) : option poly :=
  if (deg_out <? length (p_buf q)) && (deg_out <? length (p_buf b)) then
    Some (mkPoly (fold_left (fun v deg => set v deg (poly_mul_coef G (p_deg q) v (p_buf b) deg))
                    (rev (seq 0 (S deg_out))) (p_buf q)) (p_deg q))
  else None.

(** vec_poly.h:217-228.  [None]: a failed assertion, or [buf[degree]] with a negative degree. *)
Definition poly_mul_to_x_plus_coef (G : gfops) (q : poly) (coef : N) : option poly :=
  if (p_deg q <? 0)%Z || negb (coef <? g_card G)%N then None
  else
    let d := Z.to_nat (p_deg q) in
    let val := get 0%N (p_buf q) d in
    let b := fold_left (fun b i => set b i (g_add G (get 0%N b (i - 1)) (g_mul G (get 0%N b i) coef)))
               (rev (seq 1 d)) (p_buf q) in
    let b' := set b 0 (g_mul G (get 0%N b 0) coef) in
    poly_set G (mkPoly b' (p_deg q)) (d + 1) val.

(** vec_poly.h:230-234 *)
Definition poly_neg (G : gfops) (q : poly) : poly :=
  mkPoly (fold_left (fun b i => set b i (g_neg G (get 0%N b i))) (seq 0 (Z.to_nat (p_deg q + 1))) (p_buf q)) (p_deg q).
