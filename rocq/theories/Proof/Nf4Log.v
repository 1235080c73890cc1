(** Logarithms of NF4. *)
From Coq Require Import List NArith Arith Bool Lia.
From Verif.Model Require Import Common Ring Radix2 Nf4.
From Verif.Spec Require Import Nf4.
From Verif.Proof Require Import ListP Nf4L.
Import ListNotations.
Open Scope N_scope.

Lemma log_loop ex card b e : forall fuel r, card <= r + N.of_nat fuel ->
  match log_naive_loop fuel ex card b e r with
  | Some x => r <= x < card /\ ex b x = e
  | None => forall j, r <= j < card -> ex b j <> e
  end.
Proof.
  induction fuel as [|f IH]; intros r H; cbn [log_naive_loop]; [intros j Hj; lia|].
  destruct (N.ltb_spec r card); [|intros j Hj; lia]. destruct (N.eqb_spec (ex b r) e).
  - split; [lia|auto].
  - specialize (IH (r + 1) ltac:(lia)). destruct (log_naive_loop f ex card b e (r + 1)).
    + destruct IH as [? ?]. split; [lia|auto].
    + intros j Hj. destruct (N.eq_dec j r) as [->|]; [auto|]. apply IH. lia.
Qed.
Lemma log_naive_spec ex card b e :
  match log_naive ex card b e with
  | Some x => 1 <= x < card /\ ex b x = e
  | None => forall j, 1 <= j < card -> ex b j <> e
  end.
Proof. apply log_loop. rewrite N2Nat.id. lia. Qed.

Lemma all_some_spec A (l : list (option A)) :
  match all_some l with
  | Some r => Forall2 (fun o x => o = Some x) l r
  | None => In None l
  end.
Proof.
  induction l as [|o l IH]; cbn; [constructor|]. destruct o as [x|]; [|now left]. destruct (all_some l); [|now right].
  constructor; auto.
Qed.
