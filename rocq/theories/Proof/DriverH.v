(** The driver with the codes that work word by word. *)
From Coq Require Import List NArith Arith Bool Lia Permutation.
From Verif.Model Require Import Common Props Bytes Streams Horizontal HCodes Header Cached Driver.
From Verif.Spec Require Import Modular Code Blocks Session HStreams.
From Verif.Proof Require Import ListP BytesP PropsP StreamsL TextP HorizontalP HCodesP DriverP.
Import ListNotations.
Open Scope nat_scope.

(** The encoder works word by word, whatever is in its memory: [F] is what it computes; a new record is for the word at hand. *)
Definition plain_encode (ws k no vo : nat) (F : list props -> N -> list N -> list N * list props) (e : vcode) : Prop :=
  (v_ws e = ws /\ v_k e = k /\ v_nout e = no /\ v_out e = vo) /\
  forall t out ps off words, length out = vo -> length ps = no -> symbols_of ws k words ->
    v_encode e t out ps off words = Some (F ps off words) /\ length (fst (F ps off words)) = vo /\ length (snd (F ps off words)) = no /\
    forall q p, In p (nth q (snd (F ps off words)) []) -> In p (nth q ps []) \/ (fst p = off /\ (snd p < 2 ^ 32)%N).

Section Plain.
Variables (ws k no vo : nat) (F : list props -> N -> list N -> list N * list props).
Hypothesis W0 : 0 < ws.
Hypothesis K0 : 0 < k.
Variables (data : list (list N)) (L : nat).
Hypothesis Hd : blocks k L data.

Lemma in_block b : In b data -> length b = L /\ Forall (fun x => (x < 256)%N) b.
Proof. intros Hb. destruct (In_nth _ _ [] Hb) as (i & Hi & <-). destruct Hd as (Ld & H). rewrite Ld in Hi. apply (H i Hi). Qed.
Lemma data_cons : data <> [].
Proof. intros E. destruct Hd as (Ld & _). rewrite E in Ld. cbn in Ld. lia. Qed.

Lemma loop_plain e e' : plain_encode ws k no vo F e -> plain_encode ws k no vo F e' -> forall fuel o output output' outs ps,
  o * ws <= L -> length output = vo -> length output' = vo -> length ps = no ->
  vencode_loop fuel e o (map (at_word ws o) data) output outs ps = vencode_loop fuel e' o (map (at_word ws o) data) output' outs ps /\
  forall r, (forall q p, In p (nth q ps []) -> (fst p < N.of_nat L /\ snd p < 2 ^ 32)%N) ->
    vencode_loop fuel e o (map (at_word ws o) data) output outs ps = Some r ->
    forall q p, In p (nth q (snd r) []) -> (fst p < N.of_nat L /\ snd p < 2 ^ 32)%N.
Proof.
  intros ((A1 & A2 & A3 & A4) & HE) ((B1 & B2 & B3 & B4) & HE'). induction fuel as [|fuel IH]; intros o output output' outs ps Ho Lo Lo' Lp;
    [split; [reflexivity|discriminate]|].
  cbn [vencode_loop]. rewrite A1, B1, A3, B3. destruct (Nat.le_gt_cases ((o + 1) * ws) L) as [Hin|Hout].
  - rewrite readw_all_some by (intros b Hb; destruct (in_block b Hb); lia).
    assert (Sy : symbols_of ws k (map (fun b => word_at ws b o) data)).
    { split; [rewrite map_length; apply Hd|]. rewrite Forall_map. apply Forall_forall. intros b Hb. apply word_at_lt. apply (in_block b Hb). }
    destruct (HE o output ps (N.of_nat o) _ Lo Lp Sy) as (-> & L1 & L2 & R). destruct (HE' o output' ps (N.of_nat o) _ Lo' Lp Sy) as (-> & _).
    destruct (F ps (N.of_nat o) (map (fun b => word_at ws b o) data)) as [cw ps1]. cbn [fst snd] in *.
    match goal with |- vencode_loop _ _ _ _ _ ?x _ = _ /\ _ => destruct (IH (o + 1) cw cw x ps1 Hin L1 L1 L2) as (E1 & E2) end. split; [exact E1|].
    intros r Hr Er. apply (E2 r); [|exact Er]. intros q p Hp. destruct (R q p Hp) as [X|(X & Y)]; [now apply (Hr q)|].
    split; [|exact Y]. rewrite X. assert (o < L) by nia. lia.
  - pose proof (readw_all_none ws o data data_cons) as E. destruct (readw_all ws (map (at_word ws o) data)) as [ins r]. cbn [snd] in E.
    rewrite E by (intros b Hb; destruct (in_block b Hb); lia). split; [reflexivity|]. intros rr Hr Er. injection Er as <-. exact Hr.
Qed.

Lemma encode_plain e e' output output' old ps : plain_encode ws k no vo F e -> plain_encode ws k no vo F e' ->
  length output = vo -> length output' = vo ->
  encode_vstreams e output data old ps = encode_vstreams e' output' data old ps /\
  forall r, encode_vstreams e output data old ps = Some r -> forall q p, In p (nth q (snd r) []) -> (fst p < N.of_nat L /\ snd p < 2 ^ 32)%N.
Proof.
  intros P P' Lo Lo'. destruct (P) as ((A1 & A2 & A3 & A4) & _). destruct (P') as ((B1 & B2 & B3 & B4) & _).
  unfold encode_vstreams. rewrite A1, A2, A3, B1, B2, B3. destruct (_ && _) eqn:E; [|split; [reflexivity|discriminate]].
  apply andb_true_iff in E. destruct E as (E & _). apply andb_true_iff in E. destruct E as (_ & E). apply Nat.eqb_eq in E.
  change (fun b => mkIs b false) with (at_word ws 0).
  destruct (loop_plain e e' P P' (S (length (get [] data 0))) 0 output output' old (map (fun _ => []) ps)) as (X & Y); auto; [lia|now rewrite map_length|].
  split; [exact X|]. intros r Er. apply (Y r); [|exact Er]. intros q p Hp. exfalso.
  clear -Hp. revert q Hp. induction ps as [|a l IH]; intros [|q] Hp; cbn in Hp; eauto.
Qed.
End Plain.

(** Decoding does not use the encoder. *)
Lemma dec_noenc ws sys k m vo e e' S b dd out data par ps missing wanted outs :
  decode_vstreams (mkVcode ws sys k m vo e S b dd) out data par ps missing wanted outs =
  decode_vstreams (mkVcode ws sys k m vo e' S b dd) out data par ps missing wanted outs.
Proof.
  assert (L : forall fuel x p o ins outp os, vdecode_loop fuel (mkVcode ws sys k m vo e S b dd) x p wanted o ins outp os =
      vdecode_loop fuel (mkVcode ws sys k m vo e' S b dd) x p wanted o ins outp os).
  { induction fuel as [|fuel IH]; intros x p o ins outp os; [reflexivity|]. cbn [vdecode_loop v_ws v_k v_decode v_state].
    destruct (readw_all ws ins) as [ins1 [words|]]; [|reflexivity]. destruct (dd x o outp p (N.of_nat o) words) as [[x1 out1]|]; [|reflexivity].
    apply IH. }
  unfold decode_vstreams. cbn [v_ws v_k v_sys v_begin]. unfold v_nout. cbn [v_sys v_m v_k]. cbv zeta.
  repeat match goal with |- (if ?x then _ else _) = _ => destruct x; try reflexivity end.
  all: destruct (b _ _ _ _) as [[x ps']|]; [|reflexivity]; now rewrite L.
Qed.
