(** Linear arithmetic with division and modulo by constants, without touching the global hooks of [lia]. *)
From Coq Require Export ZArith Lia ZifyNat ZifyN ZifyBool.
Ltac dlia := zify; Z.div_mod_to_equations; lia.
Ltac dnia := zify; Z.div_mod_to_equations; nia.
