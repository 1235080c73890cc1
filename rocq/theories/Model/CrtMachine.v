(** extended_gcd and chinese_remainder of src/arith.h as they run on the machine: every result of an operation on the
    signed type of [dw] bits (SignedDoubleSizeVal<T>, src/core.h:61-79) that does not fit is undefined behaviour.
    [T] is an unsigned type of [tw] bits (16, 32 or 64), [dw = 2 * tw].  For __uint128_t the function does
    not compile: the signed type is the class Int256 of src/big_int.h, which has neither [*=] nor [+=].  Proof-free. *)
From Coq Require Import List NArith ZArith Bool.
From Verif.Model Require Import Common Arith Header.
Import ListNotations.
Open Scope Z_scope.

(** A value of the signed type of [dw] bits. *)
Definition fits (dw z : Z) : bool := (- 2 ^ (dw - 1) <=? z) && (z <? 2 ^ (dw - 1)).
Definition ck (dw z : Z) : outcome Z := if fits dw z then Ret z else Ub.

(** One turn of the loop, arith.h:291-303; the division overflows for the smallest value and -1. *)
Definition egcd_step_ck (dw : Z) (st : egcd_state) : outcome egcd_state :=
  bind (ck dw (Z.quot (e_or st) (e_r st))) (fun q =>
  bind (ck dw (q * e_r st)) (fun qr => bind (ck dw (e_or st - qr)) (fun r =>
  bind (ck dw (q * e_s st)) (fun qs => bind (ck dw (e_os st - qs)) (fun s =>
  bind (ck dw (q * e_t st)) (fun qt => bind (ck dw (e_ot st - qt)) (fun t =>
  Ret (Egcd s (e_s st) t (e_t st) r (e_r st))))))))).

(** [None]: fuel exhausted. *)
Fixpoint egcd_loop_ck (fuel : nat) (dw : Z) (st : egcd_state) : option (outcome egcd_state) :=
  if Z.eqb (e_r st) 0 then Some (Ret st)
  else match fuel with
       | O => None
       | S f => match egcd_step_ck dw st with Ub => Some Ub | Ret st' => egcd_loop_ck f dw st' end
       end.

(** arith.h:275-317 *)
Definition extended_gcd_ck (dw a b : Z) : option (outcome egcd_state) := egcd_loop_ck (egcd_fuel a b) dw (egcd_init a b).

(** arith.h:338-341 *)
Definition crt_acc_ck (dw : Z) (l : list (Z * Z)) : outcome Z :=
  fold_left (fun o an => bind o (fun acc => ck dw (acc * snd an))) l (Ret 1).

(** arith.h:343-349: the arrays [N] and [M]; a division by 0 is undefined. *)
Fixpoint crt_arrays (dw acc : Z) (l : list (Z * Z)) : option (outcome (list (Z * Z))) :=
  match l with
  | [] => Some (Ret [])
  | an :: t =>
      if snd an =? 0 then Some Ub
      else
        let bigN := Z.quot acc (snd an) in
        match extended_gcd_ck dw bigN (snd an) with
        | None => None
        | Some Ub => Some Ub
        | Some (Ret st) => option_map (fun o => bind o (fun r => Ret ((bigN, e_os st) :: r))) (crt_arrays dw acc t)
        end
  end.

(** arith.h:351-354: [x += N[i] * M[i] * a[i]] *)
Definition crt_sum_ck (dw : Z) (l nm : list (Z * Z)) : outcome Z :=
  fold_left (fun o p => bind o (fun x =>
      bind (ck dw (fst (snd p) * snd (snd p))) (fun nm =>
      bind (ck dw (nm * fst (fst p))) (fun t => ck dw (x + t))))) (combine l nm) (Ret 0).

(** chinese_remainder, arith.h:331-366; the result is converted to [T]. *)
Definition chinese_remainder_ck (tw : Z) (l : list (Z * Z)) : option (outcome Z) :=
  let dw := 2 * tw in
  match crt_acc_ck dw l with
  | Ub => Some Ub
  | Ret acc =>
      match crt_arrays dw acc l with
      | None => None
      | Some Ub => Some Ub
      | Some (Ret nm) =>
          Some (bind (crt_sum_ck dw l nm) (fun x0 =>
                let x := Z.rem x0 acc in
                bind (if x <? 0 then ck dw (acc + x) else Ret x) (fun x => Ret (x mod 2 ^ tw))))
      end
  end.
