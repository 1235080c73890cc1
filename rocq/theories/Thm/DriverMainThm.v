(** Property C68: the command line of the driver. *)
Set Warnings "-notation-overridden,-ambiguous-paths".
From Coq Require Import NArith ZArith Arith Bool Ascii String Lia.
From Coq Require List.
From Verif.Model Require Import Common Props Header Cached Gf2n Fnt DriverMain.
From Verif.Spec Require Import Widths Nf4 Gf2n DriverMain.
From Verif.Model Require Import Nf4.
From Verif.Proof Require Import TextP DriverMainP.
From Verif.Thm Require Import GfpThm.
Import List List.ListNotations.
Open Scope N_scope.

(** ** Numbers *)
Lemma drop_spaces sp r : Forall (fun c => is_space c = true) sp -> drop_space (sp ++ r) = drop_space r.
Proof. induction 1 as [|c sp Hc _ IH]; [reflexivity|]. cbn [app drop_space]. now rewrite Hc. Qed.

Lemma sign_digit (c : N) t (P : bool * list N) : is_digit c = true ->
  match c :: t with 45 :: t => (true, t) | 43 :: t => (false, t) | _ => P end = P.
Proof.
  intros H. apply digit_range in H. destruct c as [|q]; [lia|].
  do 7 (destruct q as [q|q|]; try reflexivity; try lia).
Qed.

Section numbers.
Variables (sp rest : list N) (v : N).
Hypotheses (Hsp : Forall (fun c => is_space c = true) sp) (Hr : forall c t, rest = c :: t -> is_digit c = false).

Lemma pn_head : exists c t, print_number v ++ rest = c :: t /\ is_digit c = true.
Proof.
  destruct (print_number_ok v) as (A & B & _). destruct (print_number v) as [|c t]; [now destruct B|]. inversion A; subst. now exists c, (t ++ rest).
Qed.
Lemma pn_read : read_digits 0 (print_number v ++ rest) = v.
Proof. destruct (print_number_ok v) as (A & _ & C). rewrite read_stop by assumption. exact C. Qed.

(** A number in decimal digits, with white space before it and anything but a digit after it: it is read when it is an int. *)
Theorem C68_numbers : stoi (sp ++ print_number v ++ rest) = (if v <? 2 ^ 31 then Some (Z.of_N v) else None) /\
  stoi (sp ++ [43] ++ print_number v ++ rest) = (if v <? 2 ^ 31 then Some (Z.of_N v) else None) /\
  stoi (sp ++ [45] ++ print_number v ++ rest) = (if v <=? 2 ^ 31 then Some (- Z.of_N v)%Z else None).
Proof.
  destruct pn_head as (c & t & E & Hc). pose proof pn_read as R. rewrite E in *.
  assert (B1 : ((- 2 ^ 31 <=? Z.of_N v) && (Z.of_N v <? 2 ^ 31))%Z = (v <? 2 ^ 31)).
  { apply eq_true_iff_eq. rewrite andb_true_iff, Z.leb_le, Z.ltb_lt, N.ltb_lt. lia. }
  assert (B2 : ((- 2 ^ 31 <=? - Z.of_N v) && (- Z.of_N v <? 2 ^ 31))%Z = (v <=? 2 ^ 31)).
  { apply eq_true_iff_eq. rewrite andb_true_iff, Z.leb_le, Z.ltb_lt, N.leb_le. lia. }
  unfold stoi. rewrite !(fun r => drop_spaces sp r Hsp). split; [|split].
  - cbn [drop_space]. rewrite (digit_not_space c Hc), (sign_digit c t _ Hc). cbv beta iota zeta. rewrite Hc, R, B1. reflexivity.
  - cbn [app drop_space]. change (is_space 43) with false. cbv beta iota zeta. rewrite Hc, R, B1. reflexivity.
  - cbn [app drop_space]. change (is_space 45) with false. cbv beta iota zeta. rewrite Hc, R, B2. reflexivity.
Qed.
End numbers.

(** ** The options that run a code *)
Definition type_fits (e : ecode) (w : N) (ws k : nat) : Prop :=
  match e with
  | DUndef => False
  | DFnt | DFntSys => fnt_width w ws
  | DNf4 => In w [32; 64; 128] /\ nf4_type Plain w (ws / 2)
  | DGfpFft => gfp_width w ws /\ forall nh, (nh <= 2)%nat -> gfp_build_ok nh w ws k
  | _ => supported w (8 * N.of_nat ws)
  end.

Lemma flag_in (f : opt -> bool) l o : f o = true -> In o l -> existsb f l = true.
Proof. intros E H. apply existsb_exists. now exists o. Qed.

(** main() once the options are read. *)
Lemma main_eq l s : parse l set0 = POk s -> o_e s <> DUndef ->
  main l = if negb (o_u s || o_c s || o_r s) then AUsage
    else if negb ((- 2 ^ 31 <=? o_data s + o_par s) && (o_data s + o_par s <? 2 ^ 31))%Z then AUb
    else match frag_check (o_data s + o_par s) (if o_ws s <? 2 ^ 31 then Z.of_N (o_ws s) else (Z.of_N (o_ws s) - 2 ^ 32)%Z) (o_e s) with
         | None => AUb
         | Some false => ATooBig
         | Some true =>
             match o_pfx s with
             | None => AUsage
             | Some pfx =>
                 if (o_data s =? -1)%Z || (o_par s =? -1)%Z then AUsage
                 else match pick_type (o_e s) (o_ws s) with
                      | Some w => ARun (o_e s) (o_vdm s) w (o_ws s) (o_data s) (o_par s) (o_r s) (o_t s) pfx
                      | None => if is_fntc (o_e s) then ABadWord else ANothing
                      end
             end
         end.
Proof. intros E H. unfold main. rewrite E. destruct (o_e s); [now destruct H|reflexivity..]. Qed.

Section run.
Variables (l : list opt) (name : string) (e : ecode) (mat : option bool) (aw an am pfx : text) (ws k m : nat).
Hypotheses (Hl : Forall good_opt l) (Hname : In (name, (e, mat)) driver_codes) (He : last_is arg_e l (txt name))
  (Hw : last_is arg_w l aw) (Ew : stoi aw = Some (Z.of_nat ws)) (Hn : last_is arg_n l an) (En : stoi an = Some (Z.of_nat k))
  (Hm : last_is arg_m l am) (Em : stoi am = Some (Z.of_nat m)) (Hp : last_is arg_p l pfx)
  (Hdo : In OC l \/ In OR l \/ In OU l) (Hws : In ws (code_words e)).

Lemma parsed_run : exists s, parse l set0 = POk s /\ o_data s = Z.of_nat k /\ o_par s = Z.of_nat m /\ o_u s || o_c s || o_r s = true /\
  o_e s = e /\ (forall b, mat = Some b -> o_vdm s = b) /\ o_ws s = N.of_nat ws /\ o_pfx s = Some pfx /\
  o_r s = existsb is_r l /\ o_t s = existsb is_t l.
Proof.
  assert (W : (ws <= 16)%nat) by (destruct e; cbn in Hws; lia).
  exists (mkSet (upd (num arg_n) l (o_data set0)) (upd (num arg_m) l (o_par set0)) (existsb is_c l) (existsb is_r l)
    (existsb is_u l) (upd fe l (o_e set0)) (upd fv l (o_vdm set0)) (upd fw l (o_ws set0)) (upd fp l (o_pfx set0)) (existsb is_t l)).
  split; [exact (parse_good l set0 Hl)|]. cbn [o_data o_par o_c o_r o_u o_e o_vdm o_ws o_pfx o_t].
  destruct He as (e1 & oe & e2 & De & Ee & Ne). destruct Hw as (w1 & ow & w2 & Dw & Eow & Nw).
  destruct Hn as (n1 & on & n2 & Dn & Eon & Nn). destruct Hm as (m1 & om & m2 & Dm & Eom & Nm).
  destruct Hp as (p1 & op & p2 & Dp & Eop & Np). pose proof (code_of_known _ _ Hname) as Cn.
  split; [eapply upd_last; [exact Dn|unfold num; rewrite Eon; exact En|intros o' Ho; unfold num; now rewrite (Nn o' Ho)]|].
  split; [eapply upd_last; [exact Dm|unfold num; rewrite Eom; exact Em|intros o' Ho; unfold num; now rewrite (Nm o' Ho)]|].
  split.
  { destruct Hdo as [H|[H|H]]; [rewrite (flag_in is_c l OC eq_refl H)|rewrite (flag_in is_r l OR eq_refl H)|rewrite (flag_in is_u l OU eq_refl H)];
      cbn [orb]; rewrite ?orb_true_r; reflexivity. }
  split; [eapply upd_last; [exact De|unfold fe; rewrite Ee, Cn; reflexivity|intros o' Ho; unfold fe; now rewrite (Ne o' Ho)]|].
  split.
  { intros b Eb. eapply upd_last; [exact De|unfold fv; rewrite Ee, Cn; exact Eb|intros o' Ho; unfold fv; now rewrite (Ne o' Ho)]. }
  split.
  { eapply upd_last; [exact Dw| |intros o' Ho; unfold fw, num; now rewrite (Nw o' Ho)]. unfold fw, num. rewrite Eow, Ew. cbn [option_map].
    f_equal. rewrite Z.mod_small by lia. lia. }
  split; [eapply upd_last; [exact Dp|unfold fp; now rewrite Eop|intros o' Ho; unfold fp; now rewrite (Np o' Ho)]|].
  split; reflexivity.
Qed.

(** The code is run with the numbers that were asked, on a type of integers that is right for it. *)
Theorem C68_run : (0 < k)%nat -> (0 < m)%nat -> (Z.of_nat (k + m) < 2 ^ 31)%Z ->
  ((ws < 4)%nat -> N.of_nat (k + m) <= 256 ^ N.of_nat ws) ->
  exists vdm w r t, main l = ARun e vdm w (N.of_nat ws) (Z.of_nat k) (Z.of_nat m) r t pfx /\ (forall b, mat = Some b -> vdm = b) /\
    type_fits e w ws k /\ (r = true <-> In OR l) /\ (t = true <-> In OT l).
Proof.
  intros K M Hi Hc. destruct parsed_run as (s & Ep & Ed & Em' & Eu & Ee & Ev & Es & Ex & Er & Et).
  assert (Hf : frag_check (Z.of_nat k + Z.of_nat m) (Z.of_nat ws) e = Some true).
  { unfold frag_check. destruct (Z.leb_spec 4 (Z.of_nat ws)) as [|H4]; [reflexivity|]. destruct (Z.ltb_spec (Z.of_nat ws) 0); [lia|].
    assert (C : (Z.of_nat k + Z.of_nat m <= 2 ^ (8 * Z.of_nat ws))%Z).
    { specialize (Hc ltac:(lia)). destruct ws as [|[|[|[|?]]]]; try lia; cbn in Hc |- *; lia. }
    destruct (is_fntc e); f_equal; apply Z.leb_le; lia. }
  assert (Ht : exists w, pick_type e (N.of_nat ws) = Some w /\ type_fits e w ws k).
  { clear - Hws K. assert (G : forall n w, In n [1; 2; 4; 8; 16]%nat -> In w [32; 64; 128] -> 8 * N.of_nat n <= w -> supported w (8 * N.of_nat n)).
    { intros n w In1 In2 Hle. split; [cbn in In2 |- *; tauto|]. split; [|split; [exact Hle|intros Hs; cbn in In2; lia]].
      cbn in In1. repeat (destruct In1 as [<-|In1]; [cbn; tauto|]). destruct In1. }
    destruct e; cbn [code_words] in Hws.
    - destruct Hws.
    - cbn in Hws. destruct Hws as [<-|[<-|[<-|[<-|[<-|[]]]]]]; (eexists; split; [reflexivity|apply G; [cbn; tauto|cbn; tauto|cbn; lia]]).
    - cbn in Hws. destruct Hws as [<-|[<-|[<-|[<-|[<-|[]]]]]]; (eexists; split; [reflexivity|apply G; [cbn; tauto|cbn; tauto|cbn; lia]]).
    - cbn in Hws. destruct Hws as [<-|[<-|[<-|[<-|[<-|[]]]]]]; (eexists; split; [reflexivity|apply G; [cbn; tauto|cbn; tauto|cbn; lia]]).
    - exists 64. split; [cbn in Hws; destruct Hws as [<-|[<-|[<-|[]]]]; reflexivity|]. split.
      + cbn in Hws. destruct Hws as [<-|[<-|[<-|[]]]]; [left|right; left|right; right]; cbn; tauto.
      + intros nh Hn. split; [destruct nh as [|[|[|nh]]]; [reflexivity|reflexivity|reflexivity|lia]|discriminate].
    - cbn in Hws. destruct Hws as [<-|[<-|[]]]; eexists; (split; [reflexivity|]); [left|right]; cbn; tauto.
    - cbn in Hws. destruct Hws as [<-|[<-|[]]]; eexists; (split; [reflexivity|]); [left|right]; cbn; tauto.
    - cbn in Hws. destruct Hws as [<-|[<-|[<-|[]]]]; (eexists; split; [reflexivity|split; [cbn; tauto|split; cbn; lia]]). }
  destruct Ht as (w & Ew' & Ht). exists (o_vdm s), w, (o_r s), (o_t s). split.
  - rewrite (main_eq l s Ep) by (rewrite Ee; intros E; rewrite E in Hws; destruct Hws). rewrite Ee, Eu, Ed, Em', Es, Ex.
    assert (E2 : N.of_nat ws <? 2 ^ 31 = true) by (apply N.ltb_lt; destruct e; cbn in Hws; lia). rewrite E2.
    replace (Z.of_N (N.of_nat ws)) with (Z.of_nat ws) by lia. rewrite Hf, Ew'.
    assert (E3 : negb ((- 2 ^ 31 <=? Z.of_nat k + Z.of_nat m) && (Z.of_nat k + Z.of_nat m <? 2 ^ 31))%Z = false).
    { apply negb_false_iff, andb_true_iff. split; [apply Z.leb_le|apply Z.ltb_lt]; lia. }
    rewrite E3. assert (E4 : (Z.of_nat k =? -1)%Z = false) by (apply Z.eqb_neq; lia). assert (E5 : (Z.of_nat m =? -1)%Z = false) by (apply Z.eqb_neq; lia).
    rewrite E4, E5. reflexivity.
  - split; [exact Ev|]. split; [exact Ht|]. rewrite Er, Et. split.
    + rewrite existsb_exists. split; [intros (o & Ho & E); destruct o; try discriminate; exact Ho|intros H; now exists OR].
    + rewrite existsb_exists. split; [intros (o & Ho & E); destruct o; try discriminate; exact Ho|intros H; now exists OT].
Qed.
End run.

(** ** What is run is never other than that *)
Lemma num_from f l d : (forall o a, good_opt o -> f o = Some a -> exists z, stoi a = Some z) -> Forall good_opt l -> upd (num f) l d <> d ->
  exists a, last_is f l a /\ stoi a = Some (upd (num f) l d).
Proof.
  intros Hf Hg Hd. rewrite Forall_forall in Hg. destruct (upd_from (num f) l d) as [X|(l1 & o & l2 & El & Eo & Z)]; [congruence|].
  unfold num in Eo at 1. destruct (f o) as [a|] eqn:Ea; [|discriminate]. exists a. split; [|exact Eo]. exists l1, o, l2. split; [exact El|]. split; [exact Ea|].
  intros o' Ho. specialize (Z o' Ho). unfold num in Z. destruct (f o') as [b|] eqn:Eb; [|reflexivity].
  destruct (Hf o' b) as (z & Ez); [apply Hg; rewrite El; apply in_or_app; right; now right|exact Eb|]. congruence.
Qed.

Theorem C68_only l e vdm w ws k m r t pfx : main l = ARun e vdm w ws k m r t pfx ->
  Forall good_opt l /\ e <> DUndef /\ k <> (-1)%Z /\ m <> (-1)%Z /\ (In OC l \/ In OR l \/ In OU l) /\ ws <= 16 /\ 8 * ws <= w /\
  (ws < 4 -> (k + m <= 2 ^ (8 * Z.of_N ws) + (if is_fntc e then 1 else 0))%Z) /\ (r = true <-> In OR l) /\
  last_is arg_p l pfx /\ (exists a, last_is arg_n l a /\ stoi a = Some k) /\ (exists a, last_is arg_m l a /\ stoi a = Some m) /\
  (exists name mat, last_is arg_e l (txt name) /\ In (name, (e, mat)) driver_codes) /\
  ((exists a z, last_is arg_w l a /\ stoi a = Some z /\ Z.of_N ws = (z mod 2 ^ 32)%Z) \/ ws = 0 /\ forall o, In o l -> arg_w o = None).
Proof.
  intros H. destruct (parse l set0) as [| |s] eqn:Ep; [unfold main in H; rewrite Ep in H; discriminate..|].
  pose proof (parse_only_good _ _ _ Ep) as Hg.
  assert (Hu : o_e s <> DUndef) by (intros E; unfold main in H; rewrite Ep, E in H; discriminate).
  rewrite (main_eq l s Ep Hu) in H.
  destruct (o_u s || o_c s || o_r s) eqn:Ef; cbn [negb] in H; [|discriminate].
  match type of H with (if negb ?b then _ else _) = _ => destruct b eqn:Er; cbn [negb] in H; [|discriminate] end.
  match type of H with match ?b with _ => _ end = _ => destruct b as [[|]|] eqn:Ec; [|discriminate|discriminate] end.
  destruct (o_pfx s) as [p|] eqn:Ex; [|discriminate].
  match type of H with (if ?b || ?c then _ else _) = _ => destruct b eqn:E1; [discriminate|]; destruct c eqn:E2; cbn [orb] in H; [discriminate|] end.
  destruct (pick_type (o_e s) (o_ws s)) as [w'|] eqn:Et; [|destruct (is_fntc (o_e s)); discriminate].
  injection H as <- <- <- <- <- <- <- <- <-.
  assert (Hw : o_ws s <= 16 /\ 8 * o_ws s <= w').
  { clear - Et. destruct (o_e s); cbn [pick_type] in Et;
    repeat match type of Et with (if ?a =? ?b then _ else _) = _ => destruct (N.eqb_spec a b) | (if ?a <=? ?b then _ else _) = _ => destruct (N.leb_spec a b) end;
    try discriminate; injection Et as <-; lia. }
  split; [exact Hg|]. split; [exact Hu|]. apply Z.eqb_neq in E1, E2. split; [exact E1|]. split; [exact E2|].
  rewrite (parse_good l set0 Hg) in Ep. injection Ep as Ep. 
  assert (Fc : o_c s = existsb is_c l) by (subst s; reflexivity). assert (Fr : o_r s = existsb is_r l) by (subst s; reflexivity).
  assert (Fu : o_u s = existsb is_u l) by (subst s; reflexivity). assert (Fp : o_pfx s = upd fp l None) by (subst s; reflexivity).
  assert (Fd : o_data s = upd (num arg_n) l (-1)%Z) by (subst s; reflexivity). assert (Fm : o_par s = upd (num arg_m) l (-1)%Z) by (subst s; reflexivity).
  assert (Fe : o_e s = upd fe l DUndef) by (subst s; reflexivity). assert (Fw : o_ws s = upd fw l 0) by (subst s; reflexivity). clear Ep.
  split.
  { rewrite Fc, Fr, Fu, !orb_true_iff, !existsb_exists in Ef.
    destruct Ef as [[(o & Ho & F)|(o & Ho & F)]|(o & Ho & F)]; destruct o; try discriminate; tauto. }
  split; [apply Hw|]. split; [apply Hw|]. split.
  { intros H4. revert Ec. destruct (N.ltb_spec (o_ws s) (2 ^ 31)); [|lia]. unfold frag_check.
    destruct (Z.leb_spec 4 (Z.of_N (o_ws s))); [lia|]. destruct (Z.ltb_spec (Z.of_N (o_ws s)) 0); [discriminate|].
    destruct (is_fntc (o_e s)); intros Ec; injection Ec as Ec; apply Z.leb_le in Ec; cbv iota; try rewrite Z.add_0_r; exact Ec. }
  split.
  { rewrite Fr, existsb_exists. split; [intros (o & Ho & F); destruct o; try discriminate; exact Ho|intros Ho; now exists OR]. }
  rewrite Fp in Ex. rewrite Fd, Fm in *. rewrite Fe in Hu |- *. rewrite Fw.
  split.
  { destruct (upd_from fp l None) as [X|(l1 & o & l2 & El & Eo & Z)]; [congruence|]. exists l1, o, l2. split; [exact El|].
    rewrite Ex in Eo. unfold fp in Eo, Z. split; [destruct (arg_p o); [now injection Eo as ->|discriminate]|].
    intros o' Ho. specialize (Z o' Ho). destruct (arg_p o'); [discriminate|reflexivity]. }
  split; [apply (num_from arg_n); [intros [b|b| | | | |b|b|b| |] a G E; cbn in E; try discriminate; injection E as <-; exact G|exact Hg|exact E1]|].
  split; [apply (num_from arg_m); [intros [b|b| | | | |b|b|b| |] a G E; cbn in E; try discriminate; injection E as <-; exact G|exact Hg|exact E2]|].
  rewrite Forall_forall in Hg. split.
  - destruct (upd_from fe l DUndef) as [X|(l1 & o & l2 & El & Eo & Z)]; [congruence|]. unfold fe in Eo at 1. destruct (arg_e o) as [a|] eqn:Ea; [|discriminate].
    destruct (code_of a) as [[e m]|] eqn:Ec'; [|discriminate]. destruct (code_of_some _ _ Ec') as (name & Hin & ->). exists name, m.
    cbn [option_map fst] in Eo. injection Eo as Eo. split; [|rewrite <- Eo; exact Hin]. exists l1, o, l2. split; [exact El|]. split; [exact Ea|].
    intros o' Ho. specialize (Z o' Ho). unfold fe in Z. assert (G : good_opt o') by (apply Hg; rewrite El; apply in_or_app; right; now right).
    destruct o'; try reflexivity. cbn in G, Z. destruct G as (nm & c & Hc & ->). rewrite (code_of_known _ _ Hc) in Z. discriminate.
  - assert (Nw : forall o, In o l -> fw o = None -> arg_w o = None).
    { intros o Ho Z. specialize (Hg o Ho). destruct o; try reflexivity. cbn in Hg. destruct Hg as (z & Hz). unfold fw, num in Z. cbn in Z. rewrite Hz in Z. discriminate. }
    destruct (existsb (fun o => match fw o with Some _ => true | None => false end) l) eqn:Ee.
    + left. assert (Hd : exists d, upd fw l d <> d /\ upd fw l d = upd fw l 0).
      { exists (upd fw l 0 + 1). assert (Y : upd fw l (upd fw l 0 + 1) = upd fw l 0).
        { generalize (upd fw l 0 + 1). generalize 0. clear - Ee. induction l as [|o l IH]; [discriminate|]. intros x y. rewrite !upd_cons. cbn [existsb] in Ee.
          destruct (fw o); [reflexivity|]. now apply IH. }
        rewrite Y. split; [lia|reflexivity]. }
      destruct Hd as (d & D1 & D2). rewrite <- D2. destruct (upd_from fw l d) as [X|(l1 & o & l2 & El & Eo & Z)]; [congruence|].
      unfold fw in Eo at 1. unfold num in Eo. destruct (arg_w o) as [a|] eqn:Ea; [|discriminate]. destruct (stoi a) as [z|] eqn:Ez; [|discriminate].
      exists a, z. split; [|split; [exact Ez|]].
      * exists l1, o, l2. split; [exact El|]. split; [exact Ea|]. intros o' Ho. apply Nw; [rewrite El; apply in_or_app; right; now right|now apply Z].
      * cbn [option_map] in Eo. injection Eo as Eo. rewrite <- Eo. pose proof (Z.mod_pos_bound z (2 ^ 32) ltac:(lia)). lia.
    + right. assert (Nn : forall o, In o l -> fw o = None).
      { intros o Ho. destruct (fw o) eqn:E; [|reflexivity]. exfalso. assert (X : existsb (fun o => match fw o with Some _ => true | None => false end) l = true)
          by (apply existsb_exists; exists o; split; [exact Ho|now rewrite E]). congruence. }
      split; [|intros o Ho; apply Nw; auto]. destruct (upd_from fw l 0) as [X|(l1 & o & l2 & El & Eo & _)]; [exact X|].
      rewrite (Nn o) in Eo by (rewrite El; apply in_or_app; right; now left). discriminate.
Qed.

(** A command line. *)
Definition number (z : Z) : text := if (z <? 0)%Z then 45 :: print_number (Z.to_N (- z)) else print_number (Z.to_N z).
Definition cmd (name : string) (ws k m : Z) : list opt :=
  [OC; OE (txt name); OW (number ws); ON (number k); OM (number m); OP (txt "foo")].

Lemma stoi_number z : (- 2 ^ 31 <= z < 2 ^ 31)%Z -> stoi (number z) = Some z.
Proof.
  intros H. unfold number. destruct (Z.ltb_spec z 0) as [Hz|Hz].
  - destruct (C68_numbers [] [] (Z.to_N (- z)) ltac:(constructor) ltac:(discriminate)) as (_ & _ & E). cbn [app] in E. rewrite app_nil_r in E.
    rewrite E. destruct (N.leb_spec (Z.to_N (- z)) (2 ^ 31)) as [|L]; [f_equal; lia|].
    exfalso. assert (Z.to_N (- z) <= 2 ^ 31); [|lia]. change (2 ^ 31) with (Z.to_N (2 ^ 31)). lia.
  - destruct (C68_numbers [] [] (Z.to_N z) ltac:(constructor) ltac:(discriminate)) as (E & _). cbn [app] in E. rewrite app_nil_r in E.
    rewrite E. destruct (N.ltb_spec (Z.to_N z) (2 ^ 31)) as [|L]; [f_equal; lia|].
    exfalso. assert (Z.to_N z < 2 ^ 31); [|lia]. change (2 ^ 31) with (Z.to_N (2 ^ 31)). lia.
Qed.

Definition int (z : Z) : Prop := (- 2 ^ 31 <= z < 2 ^ 31)%Z.
Lemma parse_cmd name e mat ws k m : In (name, (e, mat)) driver_codes -> int ws -> int k -> int m ->
  exists vdm, parse (cmd name ws k m) set0 = POk (mkSet k m true false false e vdm (Z.to_N (ws mod 2 ^ 32)) (Some (txt "foo")) false).
Proof.
  intros Hin Hw Hk Hm. exists (match mat with Some b => b | None => true end). unfold cmd, set0. cbn [parse].
  rewrite (code_of_known _ _ Hin), (stoi_number ws Hw), (stoi_number k Hk), (stoi_number m Hm). reflexivity.
Qed.

(** With a size that no type has, nothing is done and the driver still ends with 0. *)
Theorem C68_silent_refuted name e mat ws k m : In (name, (e, mat)) driver_codes -> is_fntc e = false -> (16 < ws < 2 ^ 31)%Z ->
  (0 < k)%Z -> (0 < m)%Z -> (k + m < 2 ^ 31)%Z -> main (cmd name ws k m) = ANothing.
Proof.
  intros Hin He Hw Hk Hm Hs. destruct (parse_cmd name e mat ws k m Hin) as (v & E); [split; lia|split; lia|split; lia|].
  rewrite (main_eq _ _ E) by (intros F; cbn in F; subst e; revert Hin; clear; unfold driver_codes; cbn; intuition discriminate).
  cbn [o_data o_par o_c o_r o_u o_e o_vdm o_ws o_pfx o_t orb negb].
  rewrite Z.mod_small by lia.
  destruct (Z.leb_spec (- 2 ^ 31) (k + m)); [|lia]. destruct (Z.ltb_spec (k + m) (2 ^ 31)); [|lia]. cbn [andb negb].
  destruct (N.ltb_spec (Z.to_N ws) (2 ^ 31)) as [_|L].
  2:{ exfalso. assert (Z.to_N ws < 2 ^ 31); [|lia]. change (2 ^ 31) with (Z.to_N (2 ^ 31)). lia. }
  unfold frag_check. destruct (Z.leb_spec 4 (Z.of_N (Z.to_N ws))); [|lia].
  destruct (Z.eqb_spec k (-1)); [lia|]. destruct (Z.eqb_spec m (-1)); [lia|]. cbn [orb].
  assert (P : pick_type e (Z.to_N ws) = None).
  { destruct e; try discriminate; cbn [pick_type]; try reflexivity;
      repeat match goal with |- context [?a <=? ?b] => destruct (N.leb_spec a b); [lia|] end; reflexivity. }
  rewrite P, He. reflexivity.
Qed.

(** A negative size is an undefined shift. *)
Theorem C68_negative_refuted name e mat ws k m : In (name, (e, mat)) driver_codes -> (- 2 ^ 31 <= ws < 0)%Z -> (0 < k)%Z -> (0 < m)%Z ->
  (k + m < 2 ^ 31)%Z -> main (cmd name ws k m) = AUb.
Proof.
  intros Hin Hw Hk Hm Hs. destruct (parse_cmd name e mat ws k m Hin) as (v & E); [split; lia|split; lia|split; lia|].
  rewrite (main_eq _ _ E) by (intros F; cbn in F; subst e; revert Hin; clear; unfold driver_codes; cbn; intuition discriminate).
  cbn [o_data o_par o_c o_r o_u o_e o_vdm o_ws o_pfx o_t orb negb].
  assert (M : (ws mod 2 ^ 32 = ws + 2 ^ 32)%Z).
  { symmetry. apply (Z.mod_unique_pos ws (2 ^ 32) (-1)); lia. }
  rewrite M. destruct (Z.leb_spec (- 2 ^ 31) (k + m)); [|lia]. destruct (Z.ltb_spec (k + m) (2 ^ 31)); [|lia]. cbn [andb negb].
  destruct (N.ltb_spec (Z.to_N (ws + 2 ^ 32)) (2 ^ 31)) as [L|_].
  { exfalso. assert (2 ^ 31 <= Z.to_N (ws + 2 ^ 32)); [|lia]. change (2 ^ 31) with (Z.to_N (2 ^ 31)). lia. }
  unfold frag_check. destruct (Z.leb_spec 4 (Z.of_N (Z.to_N (ws + 2 ^ 32)) - 2 ^ 32)); [lia|].
  destruct (Z.ltb_spec (Z.of_N (Z.to_N (ws + 2 ^ 32)) - 2 ^ 32) 0); [reflexivity|lia].
Qed.

(** Sizes that are run although there is no such field. *)
Theorem C68_word_refuted ws junk : In ws [3; 5; 6; 7; 9; 10; 11; 12; 13; 14; 15]%nat ->
  exists w, main (cmd "rs-gf2n-v" (Z.of_nat ws) 2 1) = ARun DGf2n true w (N.of_nat ws) 2 1 false false (txt "foo") /\
    new_bin_ext junk w (8 * N.of_nat ws) = None.
Proof.
  intros H. exists (if (ws <=? 4)%nat then 32 else if (ws <=? 8)%nat then 64 else 128). cbn [In] in H.
  repeat (destruct H as [<-|H]; [split; vm_compute; reflexivity|]). destruct H.
Qed.

(** The check allows one fragment more than the field of rs-fnt has, and the code cannot be made. *)
Theorem C68_fnt_limit_refuted pkt : exists k m, main (cmd "rs-fnt" 1 (Z.of_nat k) (Z.of_nat m)) =
    ARun DFnt true 16 1 (Z.of_nat k) (Z.of_nat m) false false (txt "foo") /\ fnt_new 0 16 false 1 k m pkt = None.
Proof. exists 100%nat, 157%nat. split; vm_compute; reflexivity. Qed.

(** ** Cases *)
Example C68_case_nf4 : main [OE (txt "rs-gf2n-c"); OV; OW (txt "1"); OE (txt "rs-nf4"); OW (txt " 8"); ON (txt "+5"); OM (txt "2x"); OP (txt "a"); OP (txt "b"); OR] =
  ARun DNf4 false 128 8 5 2 true false (txt "b").
Proof. reflexivity. Qed.
Example C68_case_run : exists vdm w r t, main (cmd "rs-gf2n-c" 2 5 3) = ARun DGf2n vdm w 2 5 3 r t (txt "foo") /\ vdm = false /\
  type_fits DGf2n w 2 5 /\ (r = true <-> In OR (cmd "rs-gf2n-c" 2 5 3)).
Proof.
  destruct (C68_run (cmd "rs-gf2n-c" 2 5 3) "rs-gf2n-c" DGf2n (Some false) (txt "2") (txt "5") (txt "3") (txt "foo") 2 5 3) as (v & w & r & t & A & B & C & D & _).
  - repeat constructor; cbn [good_opt].
    + exists "rs-gf2n-c"%string, (DGf2n, Some false). split; [unfold driver_codes; cbn [In]; tauto|reflexivity].
    + eexists; reflexivity.
    + eexists; reflexivity.
    + eexists; reflexivity.
  - unfold driver_codes; cbn [In]; tauto.
  - exists [OC], (OE (txt "rs-gf2n-c")), [OW (number 2); ON (number 5); OM (number 3); OP (txt "foo")].
    split; [reflexivity|]. split; [reflexivity|]. cbn [In]. intros o' H. repeat (destruct H as [<-|H]; [reflexivity|]). destruct H.
  - exists [OC; OE (txt "rs-gf2n-c")], (OW (txt "2")), [ON (number 5); OM (number 3); OP (txt "foo")].
    split; [reflexivity|]. split; [reflexivity|]. cbn [In]. intros o' H. repeat (destruct H as [<-|H]; [reflexivity|]). destruct H.
  - reflexivity.
  - exists [OC; OE (txt "rs-gf2n-c"); OW (number 2)], (ON (txt "5")), [OM (number 3); OP (txt "foo")].
    split; [reflexivity|]. split; [reflexivity|]. cbn [In]. intros o' H. repeat (destruct H as [<-|H]; [reflexivity|]). destruct H.
  - reflexivity.
  - exists [OC; OE (txt "rs-gf2n-c"); OW (number 2); ON (number 5)], (OM (txt "3")), [OP (txt "foo")].
    split; [reflexivity|]. split; [reflexivity|]. cbn [In]. intros o' H. repeat (destruct H as [<-|H]; [reflexivity|]). destruct H.
  - reflexivity.
  - exists [OC; OE (txt "rs-gf2n-c"); OW (number 2); ON (number 5); OM (number 3)], (OP (txt "foo")), [].
    split; [reflexivity|]. split; [reflexivity|]. intros o' H. destruct H.
  - left. now left.
  - cbn. tauto.
  - lia.
  - lia.
  - lia.
  - cbn. lia.
  - exists v, w, r, t. split; [exact A|]. split; [now apply B|]. split; [exact C|exact D].
Qed.
Example C68_case_only : Forall good_opt (cmd "rs-fnt" 1 3 2).
Proof. apply (C68_only (cmd "rs-fnt" 1 3 2) DFnt true 16 1 3 2 false false (txt "foo")). reflexivity. Qed.
Example C68_case_numbers : stoi (txt "  -12ab") = Some (-12)%Z /\ stoi (txt "2147483648") = None /\ stoi (txt "-2147483648x") = Some (- 2 ^ 31)%Z /\ stoi (txt "x1") = None.
Proof. vm_compute. auto. Qed.
Example C68_case_silent : main (cmd "rs-nf4" 17 3 2) = ANothing /\ main (cmd "rs-fnt" 3 3 2) = ABadWord /\ main (cmd "rs-fnt" (-1) 3 2) = AUb /\
  main (cmd "rs-gf2n-v" 1 200 57) = ATooBig /\ main (tl (cmd "rs-fnt" 1 3 2)) = AUsage /\ main [OE (txt "rs-foo")] = AUsage /\ main [ON (txt "k")] = AThrow.
Proof. vm_compute. auto 10. Qed.

Print Assumptions C68_numbers.
Print Assumptions C68_run.
Print Assumptions C68_only.
Print Assumptions C68_silent_refuted.
Print Assumptions C68_negative_refuted.
Print Assumptions C68_word_refuted.
Print Assumptions C68_fnt_limit_refuted.
