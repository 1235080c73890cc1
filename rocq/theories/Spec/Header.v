(** Specification of the binary header of records, as bytes of memory. *)
From Coq Require Import List NArith.
Import ListNotations.
Open Scope N_scope.

(** A 32-bit number, most significant byte first. *)
Definition be32 (v : N) : list N := [v / 2 ^ 24 mod 256; v / 2 ^ 16 mod 256; v / 2 ^ 8 mod 256; v mod 256].

(** A 32-bit word in the memory of the machine (least significant byte first). *)
Definition le32 (v : N) : list N := [v mod 256; v / 2 ^ 8 mod 256; v / 2 ^ 16 mod 256; v / 2 ^ 24 mod 256].

(** The memory of an array of words. *)
Definition memory (ws : list N) : list N := flat_map le32 ws.

(** "FNT1" *)
Definition magic : list N := [70; 78; 84; 49].

(** The header of a list of locations: magic, count, locations. *)
Definition header (locs : list N) : list N := magic ++ be32 (N.of_nat (length locs)) ++ flat_map be32 locs.

(** The number four bytes stand for, most significant first; the number a word of an array stands for when read so. *)
Definition be_value (l : list N) : N := fold_left (fun a b => 256 * a + b) l 0.
Definition net_value (w : N) : N := be_value (le32 w).
