(** Property C05 for decode_streams_horizontal of systematic codes (src/fec_base.h 560-680 with the decode_prepare of
    src/fec_base.h 799-820): the record of a fragment is looked up under the number of the fragment, [k + q] for parity [q],
    in the table of the [m] records of the parities.  What the call does follows from the numbers of the fragments in use. *)
From Coq Require Import List NArith Arith Bool Lia.
From Verif.Model Require Import Common Arith Ring Fft2n Radix2 Poly Props Bytes Fnt Blocks Header Streams Horizontal.
From Verif.Spec Require Import Modular Code Blocks Widths Session.
From Verif.Proof Require Import BytesP BlocksP FntInst BlocksF StreamsF HorizontalP HSysP.
From Verif.Thm Require Import BlocksThm StreamsThm HorizontalThm.
Import ListNotations.
Open Scope nat_scope.

(** The fragments that a decoder uses: the first [k] of those that are not missing. *)
Definition in_use (k m : nat) (missing : list bool) : list nat := firstn k (present k m missing).

(** The streams of the fragments that are not missing have [L] bytes. *)
Definition even_streams (k m L : nat) (missing : list bool) (data par : list (list N)) : Prop :=
  (forall j, j < k -> nth j missing true = false -> length (nth j data []) = L) /\
  (forall q, q < m -> nth (k + q) missing true = false -> length (nth q par []) = L).

Theorem C05_horizontal_systematic w ws k m pkt c missing wanted data par (ps : list props) L vs junk1 junk2 old :
  fnt_object w true ws k m pkt c -> length junk1 = c_n c -> length junk2 = c_l2 c ->
  k <= length (present k m missing) -> (exists j, j < k /\ nth j missing true = true) ->
  ws <= L -> even_streams k m L missing data par ->
  length data = k -> length par = m -> length ps = m -> length old = k ->
  ((exists q, In q (in_use k m missing) /\ m <= q) <->
     decode_hstreams c junk1 junk2 vs data par ps missing wanted old = Some Ub) /\
  ((forall q, In q (in_use k m missing) -> q < m) <->
     exists outs ps', decode_hstreams c junk1 junk2 vs data par ps missing wanted old = Some (Ret (true, outs, ps'))).
Proof.
  intros HO J1 J2 Hen Hm HL (Hd & Hpar) Ld Lp Lps Lo. assert (Hw : fnt_width w ws) by apply HO. assert (Hs : fnt_sizes ws k m) by apply HO.
  assert (Hp : 0 < pkt) by apply HO. pose proof (ws_pos w ws Hw) as W0.
  destruct (object_made w true ws k m Hw Hs) as (cw & r & n & HP & _ & _ & H).
  destruct (made_parts _ _ _ _ _ _ _ _ _ (H _ _ HO)) as (CS & En & Esys & E1 & E2 & E3 & E4 & E5 & E6 & E7).
  destruct (hdecode_systematic c cw CS ltac:(lia) ltac:(lia) E5 Esys L missing wanted data par ps vs old junk1 junk2) as (A & B);
    rewrite ?E1, ?E2, ?E3; try assumption.
  assert (Ei : ids c missing = in_use k m missing) by (unfold ids, in_use, present; rewrite E2, E3; reflexivity).
  rewrite E3, Ei in A, B.
  assert (D : (exists q, In q (in_use k m missing) /\ m <= q) \/ (forall q, In q (in_use k m missing) -> q < m)).
  { generalize (in_use k m missing). induction l as [|a l [(q & Q1 & Q2)|IH]].
    - right. intros q [].
    - left. exists q. split; [now right|exact Q2].
    - destruct (Nat.lt_ge_cases a m) as [X|X]; [right; intros q [->|Q]; auto|left; exists a; split; [now left|exact X]]. }
  split; split.
  - exact A.
  - intros E. destruct D as [D|D]; [exact D|]. destruct (B D) as (o & F). rewrite F in E. discriminate.
  - intros D'. destruct (B D') as (o & F). exists o, (map props_sort ps). exact F.
  - intros (o & p & E). destruct D as [D|D]; [|exact D]. rewrite (A D) in E. discriminate.
Qed.

(** With no more parities than data no such call decodes: every one reads a record behind the table. *)
Theorem C05_horizontal_systematic_refuted w ws k m pkt c missing wanted data par (ps : list props) L vs junk1 junk2 old :
  fnt_object w true ws k m pkt c -> m <= k -> length junk1 = c_n c -> length junk2 = c_l2 c ->
  k <= length (present k m missing) -> (exists j, j < k /\ nth j missing true = true) ->
  ws <= L -> even_streams k m L missing data par ->
  length data = k -> length par = m -> length ps = m -> length old = k ->
  decode_hstreams c junk1 junk2 vs data par ps missing wanted old = Some Ub.
Proof.
  intros HO Hmk J1 J2 Hen Hm HL He Ld Lp Lps Lo.
  apply (proj1 (C05_horizontal_systematic w ws k m pkt c missing wanted data par ps L vs junk1 junk2 old HO J1 J2 Hen Hm HL He Ld Lp Lps Lo)).
  assert (X : (exists q, In q (in_use k m missing) /\ m <= q) \/ (forall q, In q (in_use k m missing) -> q < m)).
  { generalize (in_use k m missing). induction l as [|a l [(q & Q1 & Q2)|IH]].
    - right. intros q [].
    - left. exists q. split; [now right|exact Q2].
    - destruct (Nat.lt_ge_cases a m) as [X|X]; [right; intros q [->|Q]; auto|left; exists a; split; [now left|exact X]]. }
  destruct X as [X|X]; [exact X|]. exfalso. destruct Hm as (j & Hj & Hj').
  assert (N : NoDup (j :: in_use k m missing)).
  { constructor; [|apply NoDup_firstn, NoDup_filter, seq_NoDup]. intros Hi. unfold in_use in Hi.
    assert (In j (present k m missing)) as Y by (rewrite <- (firstn_skipn k); apply in_or_app; now left).
    unfold present in Y. apply filter_In in Y. destruct Y as (_ & Y). rewrite Hj' in Y. discriminate. }
  assert (I : incl (j :: in_use k m missing) (seq 0 k)).
  { intros q [->|Q]; apply in_seq; [lia|]. specialize (X q Q). lia. }
  pose proof (NoDup_incl_length N I) as Z. cbn [length] in Z. unfold in_use in Z. rewrite firstn_length, seq_length in Z. lia.
Qed.

(** Two data and two parities: data 1 and parity 1 are lost, the record of fragment 2 is read in a table of two. *)
Example C05_sys_case : present 2 2 [false; true; false; true] = [0; 2] /\
  even_streams 2 2 3 [false; true; false; true] [[1; 2; 3]; []]%N [[210; 117; 245]; []]%N /\
  decode_hstreams (case_fnt true) (repeat 7%N 4) (repeat 7%N 4) case_vs [[1; 2; 3]; []]%N
    [[210; 117; 245]; []]%N [[]; []]%N [false; true; false; true] [true; true] [[]; []] = Some Ub.
Proof.
  split; [reflexivity|]. split; [|exact C04_systematic_decode_case].
  split; intros [|[|j]] Hj; cbn; try discriminate; try reflexivity; lia.
Qed.

(** Two data and four parities with data 0 lost: fragments 1 and 2 are in use, the records read are those of parities 1 and 2
    instead of parity 0, and the call ends. *)
Definition wide_fnt : fnt :=
  match fnt_new 0 32 true 1 2 4 2 with
  | Some c => c
  | None => fnt_make 0 32 true 1 2 4 2 (prime_ops 32 257) 8 0%N no_fft no_fft []
  end.
Example C05_wide_case : length (present 2 4 [true; false; false; true; true; true]) = 2 /\
  in_use 2 4 [true; false; false; true; true; true] = [1; 2] /\
  exists outs ps', decode_hstreams wide_fnt (repeat 7%N (c_n wide_fnt)) (repeat 7%N (c_l2 wide_fnt))
    (mkVscratch (repeat 7%N 8) (repeat 7%N 8) (repeat 7%N 8)) [[]; [1; 2; 3]]%N
    [[210; 117; 245]; []; []; []]%N [[]; []; []; []]%N [true; false; false; true; true; true] [true; true] [[]; []] =
  Some (Ret (true, outs, ps')).
Proof. split; [reflexivity|]. split; [reflexivity|]. eexists _, _. vm_compute. reflexivity. Qed.

Print Assumptions C05_horizontal_systematic.
Print Assumptions C05_horizontal_systematic_refuted.
