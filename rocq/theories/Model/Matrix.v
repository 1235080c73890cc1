(** Model of src/vec_matrix.h (matrices over a field) and of src/fec_rs_gf2n.h (matrix codes).  Proof-free.
    [gdiv] is the division of the field, [G] its other operations.  Indices are natural numbers, the assertions on them are
    bounds of loops.  The int products [i * n_cols + j] are not wrapped. *)
From Coq Require Import List NArith Arith Bool.
From Verif.Model Require Import Common Arith Ring Gf2n.
Import ListNotations.
Open Scope nat_scope.

(** vec_matrix.h:75-78, 90-96 *)
Record matrix := mkMat { m_rows : nat; m_cols : nat; m_mem : list N }.
Definition new_matrix (junk : N) (rows cols : nat) : matrix := mkMat rows cols (repeat junk (rows * cols)).

(** vec_matrix.h:127-143 *)
Definition mget (M : matrix) (i j : nat) : N := get 0%N (m_mem M) (i * m_cols M + j).
Definition mset (M : matrix) (i j : nat) (x : N) : matrix := mkMat (m_rows M) (m_cols M) (set (m_mem M) (i * m_cols M + j) x).

(** The double loops [for i < n_rows, for j < n_cols] of 115-125, 239-244, 260-264, 285-291, 378-384 and 410-414. *)
Definition fill (M : matrix) (f : nat -> nat -> N) : matrix :=
  fold_left (fun M i => fold_left (fun M j => mset M i j (f i j)) (seq 0 (m_cols M)) M) (seq 0 (m_rows M)) M.
(** vec_matrix.h:115-125 *)
Definition zero_fill (M : matrix) : matrix := fill M (fun _ _ => 0%N).

(** [(i == j) ? 1 : 0] *)
Definition delta (i j : nat) : N := if i =? j then 1%N else 0%N.

Section Mat.
Variables (G : gfops) (gdiv : N -> N -> N).

(** vec_matrix.h:145-159 *)
Definition swap_rows (M : matrix) (row0 row1 : nat) : matrix :=
  fold_left (fun M j => let tmp := mget M row0 j in mset (mset M row0 j (mget M row1 j)) row1 j tmp) (seq 0 (m_cols M)) M.
(** vec_matrix.h:161-171 *)
Definition mul_row (M : matrix) (row : nat) (factor : N) : matrix :=
  fold_left (fun M j => mset M row j (g_mul G (mget M row j) factor)) (seq 0 (m_cols M)) M.
(** vec_matrix.h:173-186 *)
Definition add_rows (M : matrix) (src dst : nat) (factor : N) : matrix :=
  fold_left (fun M j => mset M dst j (g_add G (mget M dst j) (g_mul G (mget M src j) factor))) (seq 0 (m_cols M)) M.

(** vec_matrix.h:197-199 *)
Fixpoint find_pivot (M : matrix) (j row fuel : nat) : nat :=
  match fuel with
  | O => row
  | S f => if (mget M row j =? 0)%N then find_pivot M j (S row) f else row
  end.
(** vec_matrix.h:195-211, one column. *)
Definition ref_column (s : matrix * nat) (j : nat) : matrix * nat :=
  let '(M, num) := s in
  if num <? m_rows M then
    let p := find_pivot M j num (m_rows M - num) in
    if p =? m_rows M then (M, num)
    else
      let M1 := swap_rows M num p in
      let M2 := mul_row M1 num (gdiv 1%N (mget M1 num j)) in
      (fold_left (fun M i => add_rows M num i (g_neg G (mget M i j))) (seq (S num) (m_rows M2 - S num)) M2, S num)
  else s.
(** vec_matrix.h:216-220 *)
Fixpoint find_pivot_col (M : matrix) (i col fuel : nat) : nat :=
  match fuel with
  | O => col
  | S f => if (mget M i col =? 0)%N then find_pivot_col M i (S col) f else col
  end.
(** vec_matrix.h:214-226, one row. *)
Definition rref_row (M : matrix) (i : nat) : matrix :=
  let c := find_pivot_col M i 0 (m_cols M) in
  if c =? m_cols M then M
  else fold_left (fun M j => add_rows M i j (g_neg G (mget M j c))) (rev (seq 0 i)) M.
(** vec_matrix.h:188-227 *)
Definition reduced_row_echelon_form (M : matrix) : matrix :=
  let '(M1, num) := fold_left ref_column (seq 0 (m_cols M)) (M, 0) in
  fold_left rref_row (rev (seq 0 num)) M1.

(** vec_matrix.h:233-265.  [None]: failed assertion, [Some None]: the exception DomainError.  The test of line 254 reads
    [(get(i, j) != (i == j)) ? 1 : 0]. *)
Definition minv (junk : N) (M : matrix) : option (option matrix) :=
  if m_rows M =? m_cols M then
    let n := m_rows M in
    let tmp0 := new_matrix junk n (m_cols M * 2) in
    let tmp1 := fold_left (fun t i => fold_left (fun t j =>
                    mset (mset t i j (mget M i j)) i (j + m_cols M) (delta i j)) (seq 0 (m_cols M)) t) (seq 0 n) tmp0 in
    let tmp := reduced_row_echelon_form tmp1 in
    if forallb (fun i => forallb (fun j => (mget tmp i j =? delta i j)%N) (seq 0 (m_cols M))) (seq 0 n)
    then Some (Some (fill M (fun i j => mget tmp i (j + m_cols M))))
    else Some None
  else None.

(** vec_matrix.h:267-280 *)
Definition row_is_identity (M : matrix) (row : nat) : bool :=
  forallb (fun j => (mget M row j =? delta j row)%N) (seq 0 (m_cols M)).
(** vec_matrix.h:282-292 *)
Definition vandermonde (M : matrix) : matrix := fill M (fun i j => g_exp G (N.of_nat i) (N.of_nat j)).
(** vec_matrix.h:297-310 *)
Definition ec_transform1 (M : matrix) (i : nat) : matrix :=
  let f := g_inv G (mget M i i) in
  fold_left (fun M k => mset M k i (g_mul G f (mget M k i))) (seq 0 (m_rows M)) M.
(** vec_matrix.h:315-328 *)
Definition ec_transform2 (M : matrix) (i j : nat) : matrix :=
  let f := mget M i j in
  fold_left (fun M k => mset M k j (g_sub G (mget M k j) (g_mul G f (mget M k i)))) (seq 0 (m_rows M)) M.
(** vec_matrix.h:345-374, one row. *)
Definition ec_row (t : matrix) (i : nat) : matrix :=
  if row_is_identity t i then t
  else
    let t1 := if (1 =? mget t i i)%N then t else ec_transform1 t i in
    fold_left (fun t j => if i =? j then t else if (0 =? mget t i j)%N then t else ec_transform2 t i j) (seq 0 (m_cols t1)) t1.
(** vec_matrix.h:333-385 *)
Definition vandermonde_suitable_for_ec (junk : N) (M : matrix) : matrix :=
  let tmp := vandermonde (new_matrix junk (m_rows M + m_cols M) (m_cols M)) in
  let tmp := fold_left ec_row (seq 0 (m_cols M)) tmp in
  fill M (fun i j => mget tmp (m_cols M + i) j).

(** vec_matrix.h:387-404.  [None]: failed assertion. *)
Definition mmul (M : matrix) (output v : list N) : option (list N) :=
  if (m_cols M =? length v) && (m_rows M =? length output) then
    Some (fold_left (fun out i => fold_left (fun out j =>
        let x := g_mul G (mget M i j) (get 0%N v j) in
        if 0 =? j then set out i x else set out i (g_add G (get 0%N out i) x)) (seq 0 (m_cols M)) out) (seq 0 (m_rows M)) output)
  else None.

(** vec_matrix.h:406-430 *)
Definition cauchy (M : matrix) : matrix :=
  let M1 := fill M (fun i j => g_inv G (g_add G (N.of_nat i) (N.of_nat (j + m_rows M)))) in
  let M2 := fold_left (fun M j => fold_left (fun M i => mset M i j (gdiv (mget M i j) (mget M 0 j))) (seq 0 (m_rows M)) M)
              (seq 0 (m_cols M1)) M1 in
  fold_left (fun M i => fold_left (fun M j => mset M i j (gdiv (mget M i j) (mget M i 0))) (seq 0 (m_cols M)) M)
    (seq 1 (m_rows M2 - 1)) M2.

(** ** fec_rs_gf2n.h *)

(** fec_rs_gf2n.h:84-98.  [vdm]: the type of the matrix. *)
Definition code_matrix (junk : N) (vdm : bool) (k m : nat) : matrix :=
  let M := new_matrix junk m k in if vdm then vandermonde_suitable_for_ec junk M else cauchy M.
(** fec_rs_gf2n.h:105-112 *)
Definition rs_encode (mat : matrix) (output words : list N) : option (list N) := mmul mat output words.
(** fec_rs_gf2n.h:114-122 *)
Definition decode_add_data (cols : nat) (D : matrix) (idx row : nat) : matrix :=
  fold_left (fun D j => mset D idx j (delta row j)) (seq 0 cols) D.
(** fec_rs_gf2n.h:124-130 *)
Definition decode_add_parities (mat D : matrix) (idx row : nat) : matrix :=
  fold_left (fun D j => mset D idx j (mget mat row j)) (seq 0 (m_cols mat)) D.

(** fec_base.h:583-611 and 924-954: rows for the available data, then for the available parities until there are enough.
    [data] and [par] tell which fragments are there; the result counts the rows. *)
Definition add_all_data (k : nat) (data : nat -> bool) (D : matrix) : matrix * nat :=
  fold_left (fun s i => let '(D, idx) := s in if data i then (decode_add_data k D idx i, S idx) else s) (seq 0 k) (D, 0).
Definition add_all_parities (mat : matrix) (k m : nat) (par : nat -> bool) (s : matrix * nat) : matrix * nat :=
  fold_left (fun s i => let '(D, idx) := s in
      if idx <? k then (if par i then (decode_add_parities mat D idx i, S idx) else s) else s) (seq 0 m) s.
(** The decision taken: all the data present, nothing is written (fec_base.h:590-593, 932-935); not enough fragments
    (613-615, 957-959); the exception of [inv]; or a decoding matrix. *)
Inductive decision := Clear | TooFew | Thrown | Decode (D : matrix).
(** fec_base.h:583-620 with fec_rs_gf2n.h:132-135.  [D0]: contents left in decode_mat.  [None]: failed assertion. *)
Definition decode_build (junk : N) (mat D0 : matrix) (k m : nat) (data par : nat -> bool) : option decision :=
  let '(D, idx) := add_all_data k data D0 in
  if idx =? k then Some Clear
  else
    let '(D, idx) := add_all_parities mat k m par (D, idx) in
    if idx <? k then Some TooFew
    else match minv junk D with None => None | Some None => Some Thrown | Some (Some B) => Some (Decode B) end.
(** fec_base.h:583-611, 638-660: the fragments in use, data first, positions of parities after those of data. *)
Definition used_ids (k m : nat) (data par : nat -> bool) : list nat :=
  let d := filter data (seq 0 k) in
  d ++ map (fun i => k + i) (firstn (k - length d) (filter par (seq 0 m))).
(** fec_rs_gf2n.h:137-145 *)
Definition rs_decode (D : matrix) (output words : list N) : option (list N) := mmul D output words.
End Mat.
