(** Model of src/gf_bin_ext.h: the fields of 2^n elements held in an unsigned type of [w] bits.  Proof-free.
    [None]: a failed assertion, an index outside of an array or a loop that leaves the array [mask]. *)
From Coq Require Import List NArith ZArith Arith Bool.
From Verif.Model Require Import Common Arith Ring.
Import ListNotations.
Open Scope N_scope.

(** gf_bin_ext.h:110-140 *)
Definition primitive_poly (w n : N) : option N :=
  match n with
  | 1 => Some 0x1
  | 2 => Some 0x7
  | 3 => Some 0xb
  | 4 => Some 0x13
  | 8 => Some (wrap w 0x11d)
  | 16 => Some (wrap w 0x1100b)
  | 32 => Some 0x8d
  | 64 => Some 0x1b
  | 128 => Some 0x87
  | _ => None
  end.

(** gf_bin_ext.h:240-249 *)
Definition init_mask (w n : N) : list N :=
  fst (fold_left (fun s _ => let '(m, v) := s in (m ++ [v], wrap w (v * 2))) (seq 0 (N.to_nat n)) ([], 1)).

(** gf_bin_ext.h:142-160; [restricted]: the elements fill the type. *)
Definition is_restricted (w n : N) : bool := n / 8 =? w / 8.
Definition my_card (w n : N) : N :=
  let mask := init_mask w n in
  if is_restricted w n then
    if n <=? 64 then 2 ^ w - 1 else fold_left (fun c m => wrap w (c + m)) mask 0
  else wrap w (2 * get 0 mask (N.to_nat n - 1)).

(** gf_bin_ext.h:251-266.  [junk]: what the new arrays hold. *)
Definition tables_step (w card prim : N) (s : option (list N * list N * N)) (log : nat) : option (list N * list N * N) :=
  match s with
  | Some (gflog, gfilog, b) =>
      match set_opt gflog (N.to_nat b) (N.of_nat log), set_opt gfilog log b with
      | Some gflog', Some gfilog' =>
          let b' := wrap w (N.shiftl b 1) in
          Some (gflog', gfilog', if N.land b' card =? 0 then b' else N.lxor b' prim)
      | _, _ => None
      end
  | None => None
  end.
Definition setup_tables (junk w card prim : N) : option (list N * list N) :=
  let t := repeat junk (N.to_nat card) in
  option_map fst (fold_left (tables_step w card prim) (seq 0 (N.to_nat (card - 1))) (Some (t, t, 1))).

(** gf_bin_ext.h:268-275 *)
Definition mul_by_two (w first_bit prim x : N) : N :=
  if 0 <? N.land x first_bit then N.lxor (wrap w (N.lxor x first_bit * 2)) prim else wrap w (x * 2).

(** gf_bin_ext.h:277-289 *)
Fixpoint shift_left (two : N -> N) (x : N) (shift : nat) : N :=
  match shift with O => x | S k => shift_left two (two x) k end.

(** gf_bin_ext.h:298-347, one table of 256 x 256 elements, and the list of tables. *)
Definition get2 (t : list (list N)) (i j : nat) : N := get 0 (get [] t i) j.
Definition set2 (t : list (list N)) (i j : nat) (x : N) : list (list N) := set t i (set (get [] t i) j x).
Definition split_zeros (t : list (list N)) : list (list N) :=
  fold_left (fun t j => set2 (set2 t 0 j 0) j 0 0) (seq 0 256) t.
Definition split_column (two : N -> N) (base : N) (t : list (list N)) : list (list N) :=
  fold_left (fun t i => if Nat.odd i then set2 t i 1 (N.lxor (get2 t (i - 1) 1) base) else set2 t i 1 (two (get2 t (i / 2) 1)))
    (seq 2 254) (set2 t 1 1 base).
Definition split_row (two : N -> N) (t : list (list N)) (i : nat) : list (list N) :=
  let x := get2 t i 1 in
  fold_left (fun t j => if Nat.odd j then set2 t i j (N.lxor (get2 t i (j - 1)) x) else set2 t i j (two (get2 t i (j / 2))))
    (seq 2 254) t.
Definition split_table (junk : N) (two : N -> N) (base : N) : list (list N) :=
  fold_left (split_row two) (seq 1 255) (split_column two base (split_zeros (repeat (repeat junk 256) 256))).
Fixpoint split_tables (junk : N) (two : N -> N) (base : N) (tab_nb : nat) : list (list (list N)) :=
  match tab_nb with
  | O => []
  | S k => split_table junk two base :: split_tables junk two (shift_left two base 8) k
  end.

(** Members, gf_bin_ext.h:67-79. *)
Record bin_ext := mkBinExt {
  x_w : N; x_n : N; x_card : N; x_restricted : bool; x_mask : list N; x_first : N; x_poly : N;
  x_log : list N; x_ilog : list N; x_split : list (list (list N))
}.

(** gf_bin_ext.h:103-173 *)
Definition new_bin_ext (junk w n : N) : option bin_ext :=
  if w / 8 <? n / 8 then None
  else match primitive_poly w n with
       | None => None
       | Some prim =>
           let mask := init_mask w n in
           let first := get 0 mask (N.to_nat n - 1) in
           let card := my_card w n in
           if n <=? 16 then
             match setup_tables junk w card prim with
             | Some (gflog, gfilog) => Some (mkBinExt w n card (is_restricted w n) mask first prim gflog gfilog [])
             | None => None
             end
           else Some (mkBinExt w n card (is_restricted w n) mask first prim [] []
                        (split_tables junk (mul_by_two w first prim) 1 (N.to_nat (n / 4 - 1))))
       end.

(** gf_bin_ext.h:349-369 *)
Definition x_card_minus_one (X : bin_ext) : N := if x_restricted X then x_card X else x_card X - 1.
Definition x_check (X : bin_ext) (a : N) : bool := if x_restricted X then a <=? x_card X else a <? x_card X.

(** gf_bin_ext.h:371-388 *)
Definition x_add (X : bin_ext) (a b : N) : option N := if x_check X a && x_check X b then Some (N.lxor a b) else None.
Definition x_sub := x_add.
(** gf_ring.h:206-211 *)
Definition x_neg (X : bin_ext) (a : N) : option N := x_sub X 0 a.

(** gf_bin_ext.h:405-421 *)
Definition mul_log (X : bin_ext) (a b : N) : option N :=
  if (a =? 0) || (b =? 0) then Some 0
  else match nth_error (x_log X) (N.to_nat a), nth_error (x_log X) (N.to_nat b) with
       | Some la, Some lb =>
           let sum_log := wrap (x_w X) (la + lb) in
           nth_error (x_ilog X) (N.to_nat (if x_card X - 1 <=? sum_log then sum_log - (x_card X - 1) else sum_log))
       | _, _ => None
       end.

(** gf_bin_ext.h:423-443.  [a & 0xff] is [a mod 256]. *)
Definition split_at (X : bin_ext) (t : nat) (a b : N) : option N :=
  match nth_error (x_split X) t with
  | Some tab => match nth_error tab (N.to_nat (a mod 256)) with
                | Some row => nth_error row (N.to_nat (b mod 256))
                | None => None
                end
  | None => None
  end.
Definition mul_split (X : bin_ext) (a b : N) : option N :=
  let groups := N.to_nat (x_n X / 8) in
  fst (fold_left (fun s i =>
      let '(product, a) := s in
      (fst (fold_left (fun s j =>
           let '(product, tb) := s in
           (match product, split_at X (i + j) a tb with
            | Some p, Some q => Some (N.lxor p q)
            | _, _ => None
            end, N.shiftr tb 8)) (seq 0 groups) (product, b)),
       N.shiftr a 8)) (seq 0 groups) (Some 0, a)).

(** gf_bin_ext.h:390-403 *)
Definition x_mul (X : bin_ext) (a b : N) : option N :=
  if x_check X a && x_check X b then (if x_n X <=? 16 then mul_log X a b else mul_split X a b) else None.

(** gf_bin_ext.h:538-545: [None] below [mask[0]]. *)
Fixpoint deg_of (mask : list N) (a : N) (deg : nat) : option nat :=
  match nth_error mask deg with
  | Some m =>
      if N.land m a =? 0 then match deg with O => None | S d => deg_of mask a d end else Some deg
  | None => None
  end.

(** gf_bin_ext.h:551-582.  [ua], [ga], [da] are [uv[a]], [g[a]], [deg[a]]; exchanging [a] and [b] exchanges them.
    [fuel] bounds the number of iterations. *)
Fixpoint inv_gcd_loop (two : N -> N) (mask : list N) (top : nat) (fuel : nat) (ua ub ga gb : N) (da db : nat) : option N :=
  if ua =? 1 then Some ga
  else match fuel with
       | O => None
       | S f =>
           let '(ua, ub, ga, gb, j) := if Nat.ltb da db then (ub, ua, gb, ga, (db - da)%nat) else (ua, ub, ga, gb, (da - db)%nat) in
           let ua' := N.lxor ua (shift_left two ub j) in
           let ga' := N.lxor ga (shift_left two gb j) in
           match deg_of mask ua' top, deg_of mask ub top with
           | Some da', Some db' => inv_gcd_loop two mask top f ua' ub ga' gb da' db'
           | _, _ => None
           end
       end.
Definition inv_ext_gcd (X : bin_ext) (x : N) : option N :=
  let top := (N.to_nat (x_n X) - 1)%nat in
  match deg_of (x_mask X) x top with
  | Some d => inv_gcd_loop (mul_by_two (x_w X) (x_first X) (x_poly X)) (x_mask X) top (2 * N.to_nat (x_n X) + 1)
                x 0 1 0 d (N.to_nat (x_n X))
  | None => None
  end.

(** gf_bin_ext.h:469-487.  [diff_log] is an int; the logarithms are below 2^16.  Division by 0 returns [T(-1)]. *)
Definition div_log (X : bin_ext) (a b : N) : option N :=
  if a =? 0 then Some 0
  else if b =? 0 then Some (2 ^ x_w X - 1)
  else match nth_error (x_log X) (N.to_nat a), nth_error (x_log X) (N.to_nat b) with
       | Some la, Some lb =>
           let diff := (Z.of_N la - Z.of_N lb)%Z in
           let diff' := if (diff <? 0)%Z then (diff + Z.of_N (x_card X - 1))%Z else diff in
           if (diff' <? 0)%Z then None else nth_error (x_ilog X) (Z.to_nat diff')
       | _, _ => None
       end.

(** gf_bin_ext.h:445-467 *)
Definition x_div (X : bin_ext) (a b : N) : option N :=
  if x_check X a && x_check X b then
    if x_n X <=? 16 then div_log X a b
    else match inv_ext_gcd X b with Some i => x_mul X a i | None => None end
  else None.

(** gf_bin_ext.h:489-509 *)
Definition x_inv (X : bin_ext) (a : N) : option N :=
  if x_check X a then (if x_n X <=? 16 then x_div X 1 a else inv_ext_gcd X a) else None.

(** gf_ring.h:318-336 with the multiplication of this class. *)
Fixpoint x_exp_pos (X : bin_ext) (base : N) (e : positive) : option N :=
  match e with
  | xH => Some base
  | xO e' => match x_exp_pos X base e' with Some t => x_mul X t t | None => None end
  | xI e' => match x_exp_pos X base e' with
             | Some t => match x_mul X t t with Some u => x_mul X u base | None => None end
             | None => None
             end
  end.
(** gf_bin_ext.h:511-518 *)
Definition x_exp (X : bin_ext) (a b : N) : option N :=
  if x_check X a && x_check X b then match b with N0 => Some 1 | Npos e => x_exp_pos X a e end else None.

(** gf_bin_ext.h:520-536: [Some None] is the exception NoSolution. *)
Fixpoint x_log_loop (X : bin_ext) (a b : N) (fuel : nat) (result tmp : N) : option (option N) :=
  match fuel with
  | O => None
  | S f =>
      if result <? x_card X then
        if tmp =? b then Some (Some result)
        else match x_mul X tmp a with Some tmp' => x_log_loop X a b f (result + 1) tmp' | None => None end
      else Some None
  end.
Definition x_logarithm (X : bin_ext) (a b : N) : option (option N) :=
  if x_check X a then if b =? 1 then Some (Some 0) else x_log_loop X a b (N.to_nat (x_card X)) 1 a else None.

(** The operations as the other classes use them; [g_card] is the number of elements, that is [card_minus_one() + 1]
    ([card()] is one less in the restricted case).  Undefined results read as 0. *)
Definition odef (o : option N) : N := match o with Some x => x | None => 0 end.
Definition bin_ops (X : bin_ext) : gfops :=
  Gfops (x_card_minus_one X + 1) (fun a b => odef (x_add X a b)) (fun a b => odef (x_sub X a b)) (fun a b => odef (x_mul X a b))
    (fun a => odef (x_neg X a)) (fun a => odef (x_inv X a)) (fun a e => odef (x_exp X a e)).
