(** Numerals and dumps, as texts. *)
From Coq Require Import List NArith.
Import ListNotations.
Open Scope N_scope.

(** The value of a numeral in base 10. *)
Definition decimal_value (s : list N) : N := fold_left (fun a c => 10 * a + (c - 48)) s 0.
(** The numeral of [v]: digits, their value, no zero at the start but for 0 itself. *)
Definition numeral (s : list N) (v : N) : Prop :=
  s <> [] /\ Forall (fun c => 48 <= c <= 57) s /\ decimal_value s = v /\ (hd 0 s = 48 -> s = [48]).

(** Two digits in base 16 and a space. *)
Definition hex_char (upper : bool) (d : N) : N :=
  nth (N.to_nat d) (if upper then [48;49;50;51;52;53;54;55;56;57;65;66;67;68;69;70] else [48;49;50;51;52;53;54;55;56;57;97;98;99;100;101;102]) 0.
Definition hex_text (upper : bool) (c : N) : list N := [hex_char upper (c / 16); hex_char upper (c mod 16); 32].
(** The characters from the space to the tilde as they are, the others as dots. *)
Definition shown (c : N) : N := if (c <? 32) then 46 else if (126 <? c) then 46 else c.
(** A line of at most 32 bytes. *)
Definition line_text (upper show : bool) (l : list N) : list N :=
  flat_map (hex_text upper) l ++
  (if show then flat_map (fun _ => [32; 32; 32]) (seq 0 (32 - length l)) ++ [32; 124; 32] ++ map shown l else []) ++ [10].
(** Bytes cut in lines of 32, the last one possibly shorter, none empty. *)
Fixpoint cut (lines : list (list N)) : Prop :=
  match lines with
  | [] => True
  | [l] => (0 < length l <= 32)%nat
  | l :: lines => length l = 32%nat /\ cut lines
  end.
