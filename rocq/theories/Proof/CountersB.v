(** The transform on buffers runs the layers of the one on vectors, for any symbols. *)
Set Warnings "-notation-overridden,-ambiguous-paths".
From Coq Require Import NArith Arith Lia.
From Coq Require List.
From mathcomp Require Import all_ssreflect zify.
From Verif.Model Require Import Common Arith Ring Fft2n.
From Verif.Proof Require Import Fft2nP.

Lemma buf_layers C T (S : symops C T) dC L t W v : (t <= L)%coq_nat -> List.length v = Nat.pow 2 L ->
  (let '(m, v') := two_layers S dC (Nat.pow 2 L) (Nat.pow 2 L) W (Nat.pow 2 t) v in
   if Nat.ltb m (Nat.pow 2 L) then
     List.fold_left (fun v j => butterfly_ct_step S (Nat.pow 2 L) (get dC W j) j m (Nat.pow 2 L) v) (List.seq 0 m) v'
   else v') = ct_layers S dC (Nat.pow 2 L) (Nat.pow 2 L) W (Nat.pow 2 t) v.
Proof.
rewrite !powE => Ht Hv; have LL := ltn_expl L (isT : (1 < 2)%N).
by apply: (two_layers_all S dC L W (L - t)) => //; move: LL; generalize (2 ^ L)%N; lia.
Qed.
