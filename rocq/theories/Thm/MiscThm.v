(** Properties C58 (printing of 128-bit integers) and C59 (hex_dump). *)
From Coq Require Import List NArith ZArith Arith Bool Lia.
From Verif.Model Require Import Common Misc.
From Verif.Spec Require Import Misc.
From Verif.Proof Require Import ListP.
Import ListNotations.
Open Scope N_scope.

(** ** Printing *)
Lemma decimal_app s c : decimal_value (s ++ [c]) = 10 * decimal_value s + (c - 48).
Proof. unfold decimal_value. rewrite fold_left_app. reflexivity. Qed.
Lemma decimal_fold s : forall a, fold_left (fun a c => 10 * a + (c - 48)) s a = a * 10 ^ N.of_nat (length s) + decimal_value s.
Proof.
  induction s as [|c s IH] using rev_ind; intros a; [cbn; lia|]. rewrite decimal_app, fold_left_app. cbn [fold_left]. rewrite IH, app_length. cbn [length].
  rewrite Nat.add_1_r, Nat2N.inj_succ, N.pow_succ_r'. lia.
Qed.
Lemma decimal_bound s : Forall (fun c => 48 <= c <= 57) s -> decimal_value s < 10 ^ N.of_nat (length s).
Proof.
  induction s as [|c s IH] using rev_ind; intros F; [reflexivity|]. apply Forall_app in F. destruct F as [F1 F2]. inversion_clear F2. specialize (IH F1).
  rewrite decimal_app, app_length. cbn [length]. rewrite Nat.add_1_r, Nat2N.inj_succ, N.pow_succ_r'. lia.
Qed.
Lemma digit_nth d : d < 10 -> nth (N.to_nat d) [48; 49; 50; 51; 52; 53; 54; 55; 56; 57] 0 = 48 + d.
Proof.
  intros H. assert (E : exists n, d = N.of_nat n) by (exists (N.to_nat d); lia). destruct E as [n ->]. rewrite Nat2N.id. do 10 (destruct n as [|n]; [reflexivity|]). lia.
Qed.
Lemma write_digits_spec : forall fuel room v acc, v < 10 ^ N.of_nat fuel -> (fuel <= room)%nat -> (0 < fuel)%nat ->
  exists s, write_digits fuel room v acc = Some ((room - length s)%nat, s ++ acc) /\ (length s <= fuel)%nat /\ numeral s v.
Proof.
  induction fuel as [|f IH]; intros room v acc Hv Hr Hf; [lia|]. destruct room as [|room]; [lia|]. cbn [write_digits]. cbv zeta.
  pose proof (N.div_mod v 10 ltac:(lia)) as DM. pose proof (N.mod_lt v 10 ltac:(lia)) as ML.
  set (q := v / 10) in *. set (r := v mod 10) in *. rewrite (digit_nth r ML). destruct (N.eqb_spec q 0) as [E|E].
  - exists [48 + r]. split; [cbn; repeat f_equal; lia|]. split; [cbn; lia|]. split; [discriminate|]. split; [constructor; [lia|constructor]|].
    split; [unfold decimal_value; cbn [fold_left]; lia|]. cbn [hd]. intros ->. reflexivity.
  - rewrite Nat2N.inj_succ, N.pow_succ_r' in Hv. destruct f as [|f]; [cbn in Hv; lia|].
    destruct (IH room q ((48 + r) :: acc)) as (s & Es & Ls & N1 & N2 & N3 & N4); [lia|lia|lia|].
    exists (s ++ [48 + r]). rewrite Es, <- app_assoc, app_length. cbn [length app]. split; [f_equal; f_equal; lia|]. split; [lia|].
    split; [now destruct s|]. split; [apply Forall_app; split; [exact N2|constructor; [lia|constructor]]|].
    split; [rewrite decimal_app; lia|]. destruct s as [|c s]; [congruence|]. cbn [app hd] in *. intros Hc. exfalso. specialize (N4 Hc).
    injection N4 as -> ->. unfold decimal_value in N3. cbn in N3. lia.
Qed.

Lemma numeral_length s v k : numeral s v -> v < 10 ^ N.of_nat k -> (0 < k)%nat -> (length s <= k)%nat.
Proof.
  intros (N1 & N2 & N3 & N4) Hv Hk. destruct s as [|c s]; [congruence|]. inversion_clear N2 as [|? ? Hc N5]. cbn [length].
  destruct (Nat.le_gt_cases (S (length s)) k) as [L|L]; [exact L|]. exfalso. cbn [hd] in N4. destruct (N.eq_dec c 48) as [E|E].
  { specialize (N4 E). injection N4 as _ ->. cbn in L. lia. }
  unfold decimal_value in N3. cbn [fold_left] in N3. rewrite decimal_fold in N3.
  assert (10 ^ N.of_nat k <= 10 ^ N.of_nat (length s)) by (apply N.pow_le_mono_r; lia). nia.
Qed.

(** ** C58 *)
(** A number printed is its numeral, after what was on the stream; the array of 128 characters is not left; the stream is bad
    exactly when it has no room. *)
Definition printed (os os' : ostream) (s : list N) : Prop :=
  o_flags os' = o_flags os /\ o_fill os' = o_fill os /\ o_width os' = o_width os /\
  match o_room os with
  | None => o_text os' = o_text os ++ s /\ o_good os' = true
  | Some r => o_text os' = o_text os ++ firstn r s /\ (o_good os' = true <-> (length s <= r)%nat)
  end.
Lemma put_printed os s : o_good os = true -> printed os (put_buffer os s) s.
Proof.
  intros G. unfold put_buffer, sputn, printed. destruct (o_room os) as [r|].
  - destruct (Nat.eqb_spec (Nat.min r (length s)) (length s)) as [E|E]; cbn [o_flags o_fill o_width o_text o_good set_bad]; (split; [reflexivity|]); (split; [reflexivity|]); (split; [reflexivity|]).
    + rewrite E, firstn_all, firstn_all2 by lia. split; [reflexivity|]. split; [lia|auto].
    + destruct (Nat.min_spec r (length s)) as [[L M]|[L M]]; [rewrite M|lia]. split; [reflexivity|]. split; [discriminate|lia].
  - rewrite Nat.eqb_refl. cbn. auto.
Qed.
Theorem C58_unsigned os v : v < 2 ^ 128 -> o_good os = true ->
  exists os' s, print_u128 os v = Some os' /\ numeral s v /\ (length s <= 39)%nat /\ printed os os' s.
Proof.
  intros Hv G. unfold print_u128. rewrite G. assert (H : v < 10 ^ N.of_nat 128) by (assert (2 ^ 128 < 10 ^ N.of_nat 128) by reflexivity; lia).
  destruct (write_digits_spec 128 128 v [] H ltac:(lia) ltac:(lia)) as (s & -> & _ & NS). rewrite app_nil_r. exists (put_buffer os s), s.
  split; [reflexivity|]. split; [exact NS|]. split; [|now apply put_printed].
  eapply numeral_length; [exact NS| |lia]. assert (2 ^ 128 < 10 ^ N.of_nat 39) by reflexivity. lia.
Qed.
(** Signed numbers: a minus sign and the numeral of the absolute value.  Missing: the smallest number. *)
Theorem C58_signed_partial os v : (- 2 ^ 127 < v < 2 ^ 127)%Z -> o_good os = true ->
  exists os' s, print_i128 os v = Some os' /\ numeral s (Z.abs_N v) /\ printed os os' (if (v <? 0)%Z then 45 :: s else s).
Proof.
  intros Hv G. unfold print_i128. rewrite G. destruct (Z.eqb_spec v (- 2 ^ 127)) as [E|_]; [lia|].
  assert (EA : Z.to_N (if v <? 0 then - v else v)%Z = Z.abs_N v) by (destruct (Z.ltb_spec v 0); lia). rewrite EA.
  assert (H : Z.abs_N v < 2 ^ 127) by (change (2 ^ 127) with (Z.to_N (2 ^ 127)); lia).
  assert (H' : Z.abs_N v < 10 ^ N.of_nat 128) by (assert (2 ^ 127 < 10 ^ N.of_nat 128) by reflexivity; lia).
  destruct (write_digits_spec 128 128 _ [] H' ltac:(lia) ltac:(lia)) as (s & -> & _ & NS). rewrite app_nil_r.
  assert (L : (length s <= 39)%nat).
  { eapply numeral_length; [exact NS| |lia]. assert (2 ^ 127 < 10 ^ N.of_nat 39) by reflexivity. lia. }
  destruct (v <? 0)%Z.
  - replace (128 - length s)%nat with (S (127 - length s)) by lia. exists (put_buffer os (45 :: s)), s. auto using put_printed.
  - exists (put_buffer os s), s. auto using put_printed.
Qed.
Theorem C58_smallest_refuted os : o_good os = true -> print_i128 os (- 2 ^ 127) = None.
Proof. intros G. unfold print_i128. now rewrite G. Qed.
(** Numerals are the only ones of their values. *)
Theorem C58_numeral_unique s s' v : numeral s v -> numeral s' v -> s = s'.
Proof.
  assert (K : forall s s' : list N, length s = length s' -> Forall (fun c => 48 <= c <= 57) s -> Forall (fun c => 48 <= c <= 57) s' ->
    decimal_value s = decimal_value s' -> s = s').
  { induction s0 as [|c t IH] using rev_ind; intros t' L F F' E.
    - now destruct t'.
    - destruct t' as [|c' t' _] using rev_ind; [rewrite app_length in L; cbn in L; lia|]. rewrite !app_length in L. cbn [length] in L.
      apply Forall_app in F, F'. destruct F as [F1 F2], F' as [F1' F2']. inversion_clear F2. inversion_clear F2'. rewrite !decimal_app in E.
      assert (c = c' /\ decimal_value t = decimal_value t') as [-> E2] by lia. f_equal. apply IH; auto. lia. }
  assert (L : forall s s' : list N, numeral s v -> numeral s' v -> (length s <= length s')%nat).
  { intros t t' A (B1 & B2 & B3 & _). apply (numeral_length _ v); [exact A| |destruct t'; [congruence|cbn; lia]]. rewrite <- B3. now apply decimal_bound. }
  intros H H'. pose proof (L s s' H H'). pose proof (L s' s H' H). destruct H as (_ & F & E & _), H' as (_ & F' & E' & _). apply K; auto; [lia|congruence].
Qed.

(** ** hex_dump *)
Section Dump.
Variables (fl : flags) (show : bool).
Hypothesis F1 : fl_showbase fl = false.
Hypothesis F2 : fl_adjust fl <> AdjLeft.
Notation up := (fl_uppercase fl).
Definition hexed (f : flags) : flags := mkFlags Hex (fl_adjust f) (fl_showbase f) (fl_uppercase f).

(** A stream on which all is well, with text [t]. *)
Definition fine (fill : N) (f : flags) (t : list N) : ostream := mkOstream t None true f fill 0.
Lemma out_string_fine fill f t s : out_string (fine fill f t) s = fine fill f (t ++ s).
Proof.
  unfold out_string, out_field, fine. cbn [o_good o_width o_fill o_flags app]. rewrite Nat.sub_0_l. cbn [repeat]. rewrite app_nil_r.
  destruct (fl_adjust f); cbn [app sputn o_room o_text]; rewrite Nat.eqb_refl; reflexivity.
Qed.
Lemma out_char_fine fill f t c : out_char (fine fill f t) c = fine fill f (t ++ [c]).
Proof. apply (out_string_fine fill f t [c]). Qed.
Lemma digits_byte c : c < 256 -> digits up 16 11 c = if c <? 16 then [hex_char up c] else [hex_char up (c / 16); hex_char up (c mod 16)].
Proof.
  assert (HC : forall d, d < 16 -> digit_char up d = hex_char up d).
  { intros d Hd. assert (E : exists n, d = N.of_nat n) by (exists (N.to_nat d); lia). destruct E as [n ->]. unfold hex_char. rewrite Nat2N.id.
    do 16 (destruct n as [|n]; [destruct up; reflexivity|]). lia. }
  intros H. change 11%nat with (S (S 9)). cbn [digits]. pose proof (N.mod_lt c 16 ltac:(lia)) as ML. pose proof (N.div_mod c 16 ltac:(lia)) as DM.
  destruct (N.ltb_spec c 16) as [L|L].
  - rewrite N.mod_small by exact L. cbn [app]. now rewrite HC.
  - assert (Q : c / 16 < 16) by (apply N.div_lt_upper_bound; lia). rewrite (proj2 (N.ltb_lt _ _) Q). cbn [app]. rewrite (N.mod_small (c / 16)) by exact Q.
    now rewrite !HC.
Qed.
Lemma byte_out f fill t w c : c < 256 -> f = fl \/ f = hexed fl ->
  out_char (out_unsigned (set_hex (set_fill (set_width (mkOstream t None true f fill w) 2) 48)) c) 32 = fine 48 (hexed fl) (t ++ hex_text up c).
Proof.
  intros H Hf. unfold set_hex, set_flags, set_fill, set_width. cbn [o_text o_room o_good o_flags o_fill o_width].
  assert (E : mkFlags Hex (fl_adjust f) (fl_showbase f) (fl_uppercase f) = hexed fl) by (destruct Hf as [->| ->]; reflexivity). rewrite E.
  unfold out_unsigned. cbv zeta. cbn [o_flags hexed fl_base fl_showbase fl_uppercase]. rewrite F1. cbn [andb]. rewrite (digits_byte c H).
  assert (G : forall s, (length s <= 2)%nat -> out_field (mkOstream t None true (hexed fl) 48 2) [] s = fine 48 (hexed fl) (t ++ repeat 48 (2 - length s) ++ s)).
  { intros s _. unfold out_field. cbn [o_good o_width o_fill o_flags app]. cbn [hexed fl_adjust]. unfold fine.
    destruct (fl_adjust fl); [| congruence|]; cbn [app sputn o_room o_text]; rewrite Nat.eqb_refl; reflexivity. }
  rewrite G by (destruct (c <? 16); cbn; lia). rewrite out_char_fine, <- !app_assoc. f_equal. f_equal. unfold hex_text. destruct (N.ltb_spec c 16) as [L|L].
  - rewrite N.div_small, N.mod_small by exact L. unfold hex_char at 2. destruct up; reflexivity.
  - reflexivity.
Qed.
Lemma c_str_app s r : Forall (fun c => c <> 0) s -> c_str (s ++ 0 :: r) = Some s.
Proof. induction 1 as [|c s Hc _ IH]; [reflexivity|]. cbn. rewrite (proj2 (N.eqb_neq _ _) Hc). now rewrite IH. Qed.
Lemma shown_isprint c : (if isprint c then c else 46) = shown c.
Proof. unfold isprint, shown. destruct (N.leb_spec 32 c), (N.ltb_spec c 32), (N.leb_spec c 126), (N.ltb_spec 126 c); cbn; lia. Qed.
Lemma shown_nz l : Forall (fun c => c <> 0) (map shown l).
Proof. apply Forall_forall. intros x Hx. apply in_map_iff in Hx. destruct Hx as (c & <- & _). unfold shown. destruct (N.ltb_spec c 32), (N.ltb_spec 126 c); lia. Qed.
Lemma set_firstn {A} (l : list A) i x : (i < length l)%nat -> firstn (S i) (set l i x) = firstn i l ++ [x].
Proof. revert i. induction l as [|y l IH]; intros [|i] H; cbn in *; [lia|lia|reflexivity|]. f_equal. apply IH. lia. Qed.
Lemma put_next rs l c : length rs = 33%nat -> (length l < 33)%nat -> firstn (length l) rs = l ->
  exists rs', put_char rs (length l) c = Some rs' /\ length rs' = 33%nat /\ firstn (S (length l)) rs' = l ++ [c].
Proof.
  intros L H E. unfold put_char. rewrite L. destruct (Nat.ltb_spec (length l) 33); [|lia]. eexists. split; [reflexivity|]. rewrite set_length.
  split; [exact L|]. rewrite set_firstn by lia. now rewrite E.
Qed.
Lemma firstn_c_str rs l : Forall (fun c => c <> 0) l -> firstn (S (length l)) rs = l ++ [0] -> c_str rs = Some l.
Proof.
  intros F E. rewrite <- (firstn_skipn (S (length l)) rs), E, <- app_assoc. cbn [app]. now apply c_str_app.
Qed.
Definition line := line_text up show.
Definition hexes := flat_map (hex_text up).

(** One more byte of a line [cur]. *)
Lemma dump_loop_spec buf : forall rest cur rs lc t f fill w, Forall (fun c => c < 256) buf -> length rs = 33%nat -> (length cur < 32)%nat ->
  firstn (length cur) rs = map shown cur -> f = fl \/ f = hexed fl ->
  lc < 2 ^ 64 -> lc + N.of_nat (length cur) = 32 \/ (N.of_nat (length buf) < lc /\ (length buf + length cur < 32)%nat) ->
  exists full last rs' f' fill' w', cur ++ buf = concat full ++ last /\ Forall (fun l => length l = 32%nat) full /\ (length last < 32)%nat /\
    dump_loop show (length buf) (buf ++ rest) lc rs (length cur) (mkOstream (t ++ hexes cur) None true f fill w) =
      Some (rs', length last, mkOstream (t ++ flat_map line full ++ hexes last) None true f' fill' w') /\
    length rs' = 33%nat /\ firstn (length last) rs' = map shown last /\ (f' = fl \/ f' = hexed fl) /\
    (buf = [] /\ f' = f /\ fill' = fill /\ w' = w \/ buf <> [] /\ w' = 0%nat).
Proof.
  induction buf as [|c buf IH]; intros rest cur rs lc t f fill w HB HR HC HS HF HL HI.
  - exists [], cur, rs, f, fill, w. rewrite app_nil_r. cbn [concat flat_map app length dump_loop]. repeat split; auto.
  - inversion_clear HB as [|? ? Hc HB']. cbn [length app dump_loop]. rewrite (byte_out f fill _ w c Hc HF). rewrite shown_isprint.
    assert (LM : length (map shown cur) = length cur) by apply map_length.
    destruct (put_next rs (map shown cur) (shown c) HR) as (rs1 & E1 & L1 & S1); [lia|now rewrite LM|]. rewrite LM in E1, S1. rewrite E1.
    assert (LW : Common.wrap 64 (lc + 2 ^ 64 - 1) = lc - 1).
    { unfold Common.wrap. assert (1 <= lc) by (destruct HI as [HI|[HI _]]; lia). replace (lc + 2 ^ 64 - 1) with ((lc - 1) + 1 * 2 ^ 64) by lia.
      rewrite N.mod_add by discriminate. apply N.mod_small. lia. }
    rewrite LW. assert (EC : map shown cur ++ [shown c] = map shown (cur ++ [c])) by now rewrite map_app.
    assert (LC : length (cur ++ [c]) = S (length cur)) by (rewrite app_length; cbn; lia).
    assert (EH : (t ++ hexes cur) ++ hex_text up c = t ++ hexes (cur ++ [c])).
    { unfold hexes. rewrite flat_map_app. cbn [flat_map]. now rewrite app_nil_r, app_assoc. }
    rewrite EH. destruct (N.eqb_spec (lc - 1) 0) as [E0|E0].
    + (* the line is full *)
      assert (L32 : length (cur ++ [c]) = 32%nat) by (cbn [length] in HI; destruct HI as [HI|[HI _]]; lia).
      assert (LM2 : length (map shown (cur ++ [c])) = 32%nat) by now rewrite map_length.
      destruct (put_next rs1 (map shown (cur ++ [c])) 0 L1) as (rs2 & E2 & L2 & S2); [lia|rewrite LM2, <- L32, LC, S1; exact EC|].
      rewrite LM2 in E2. rewrite <- LC, L32, E2.
      set (T := (if show then _ else _)).
      assert (ET : T = Some (fine 48 (hexed fl) (t ++ hexes (cur ++ [c]) ++ (if show then [32; 124; 32] ++ map shown (cur ++ [c]) else [])))).
      { unfold T. destruct show.
        - rewrite (firstn_c_str rs2 _ (shown_nz _) S2). rewrite !out_string_fine. unfold bar. now rewrite <- !app_assoc.
        - now rewrite app_nil_r. }
      rewrite ET. rewrite out_char_fine.
      destruct (IH rest [] rs2 (N.min (N.of_nat maxline) (N.of_nat (S (length buf)))) (t ++ line (cur ++ [c])) (hexed fl) 48 0%nat HB' L2) as
        (full & last & rs' & f' & fill' & w' & A1 & A2 & A3 & A4 & A5 & A6 & A7 & A8); [cbn; lia|reflexivity|now right|unfold maxline; lia| |].
      { cbn [length]. unfold maxline. change (N.of_nat 32) with 32. destruct (Nat.le_gt_cases 32 (length buf)); [left; lia|right; lia]. }
      exists ((cur ++ [c]) :: full), last, rs', f', fill', w'. cbn [app] in A1. split; [|split; [|split; [exact A3|split; [|split; [exact A5|split; [exact A6|split; [exact A7|]]]]]]].
      * cbn [concat]. rewrite <- !app_assoc. cbn [app]. now rewrite A1.
      * constructor; auto.
      * cbn [length hexes flat_map] in A4. rewrite app_nil_r in A4. cbn [flat_map]. replace (t ++ (line (cur ++ [c]) ++ flat_map line full) ++ hexes last) with ((t ++ line (cur ++ [c])) ++ flat_map line full ++ hexes last) by now rewrite <- !app_assoc.
        rewrite <- A4. unfold fine. f_equal. f_equal.
        unfold line, line_text. rewrite L32. cbn [Nat.sub seq flat_map app]. rewrite <- !app_assoc. reflexivity.
      * right. split; [discriminate|]. destruct A8 as [(_ & _ & _ & A8)|[_ A8]]; exact A8.
    + destruct (IH rest (cur ++ [c]) rs1 (lc - 1) t (hexed fl) 48 0%nat HB' L1) as
        (full & last & rs' & f' & fill' & w' & A1 & A2 & A3 & A4 & A5 & A6 & A7 & A8); [rewrite LC; cbn [length] in HI; lia|now rewrite LC, S1|now right|lia| |].
      { rewrite LC. cbn [length] in HI. lia. }
      rewrite <- LC. exists full, last, rs', f', fill', w'. rewrite <- app_assoc in A1. cbn [app] in A1. repeat (split; [assumption|]).
      right. split; [discriminate|]. destruct A8 as [(_ & _ & _ & A8)|[_ A8]]; exact A8.
Qed.
Lemma pad_line_fine k : forall fill f t, pad_line k (fine fill f t) = fine fill f (t ++ flat_map (fun _ => [32; 32; 32]) (seq 0 k)).
Proof.
  induction k as [|k IH]; intros fill f t; [cbn; now rewrite app_nil_r|]. cbn [pad_line]. rewrite out_string_fine, IH, <- app_assoc.
  do 2 f_equal. cbn [seq flat_map]. rewrite <- seq_shift. generalize (seq 0 k). intros l. f_equal. induction l; cbn; congruence.
Qed.
Lemma cut_app full last : Forall (fun l => length l = 32%nat) full -> (0 < length last < 32)%nat -> cut (full ++ [last]).
Proof.
  intros H L. induction H as [|l full Hl H IH]; [cbn; lia|]. cbn [app]. destruct (full ++ [last]) eqn:E; [now destruct full|]. cbn in *. auto.
Qed.
Lemma cut_full full : Forall (fun l => length l = 32%nat) full -> cut full.
Proof. induction 1 as [|l full Hl H IH]; [exact I|]. cbn [cut]. destruct full; [lia|auto]. Qed.

(** A dump is its lines, after what was on the stream; its flags and its fill character are as before, its width is 0 (unless there
    was nothing to dump); renderString is not left. *)
Lemma hex_dump_spec bytes rest rs0 os : Forall (fun c => c < 256) bytes -> length rs0 = 33%nat ->
  o_room os = None -> o_good os = true -> o_flags os = fl ->
  exists lines, concat lines = bytes /\ cut lines /\
    hex_dump os (Some (bytes ++ rest)) (length bytes) show rs0 =
      Some (mkOstream (o_text os ++ flat_map line lines) None true fl (o_fill os) (match bytes with [] => o_width os | _ => 0%nat end)).
Proof.
  intros HB HR R G F. destruct os as [t room good f fill w]. cbn in R, G, F. subst room good f. cbn [o_text o_fill o_width].
  destruct (dump_loop_spec bytes rest [] rs0 32 t fl fill w HB HR) as (full & last & rs' & f' & fill' & w' & A1 & A2 & A3 & A4 & A5 & A6 & A7 & A8);
    [cbn; lia|reflexivity|now left|reflexivity|now left|].
  cbn [hexes flat_map length app] in A1, A4. rewrite app_nil_r in A4. unfold hex_dump. cbn [o_flags o_fill]. change (N.of_nat maxline) with 32. rewrite A4.
  destruct last as [|x last].
  - rewrite app_nil_r in A1. exists full. split; [now rewrite A1|]. split; [now apply cut_full|]. cbn [length Nat.eqb hexes flat_map]. rewrite app_nil_r.
    unfold set_flags, set_fill. cbn. do 2 f_equal. destruct A8 as [(-> & _ & _ & ->)|[N ->]]; [reflexivity|]. now destruct bytes.
  - set (l := x :: last) in *. assert (Ll : (0 < length l)%nat) by (unfold l; cbn; lia).
    assert (W0 : w' = 0%nat /\ match bytes with [] => w | _ => 0%nat end = 0%nat).
    { destruct A8 as [(-> & _)|[N ->]]; [|split; [reflexivity|now destruct bytes]]. exfalso. symmetry in A1. apply app_eq_nil in A1. now destruct A1. }
    destruct W0 as [-> ->].
    exists (full ++ [l]). split; [rewrite concat_app; cbn [concat]; now rewrite app_nil_r, A1|]. split; [apply cut_app; auto|].
    destruct (Nat.eqb_spec (length l) 0) as [E|_]; [lia|]. change (mkOstream (t ++ flat_map line full ++ hexes l) None true f' fill' 0) with (fine fill' f' (t ++ flat_map line full ++ hexes l)).
    rewrite flat_map_app. cbn [flat_map]. rewrite app_nil_r. change (line l) with (line_text up show l). unfold line_text. destruct show.
    + assert (LM : length (map shown l) = length l) by apply map_length.
      destruct (put_next rs' (map shown l) 0 A5) as (rs2 & E2 & L2 & S2); [lia|now rewrite LM|]. rewrite LM in E2. rewrite E2.
      rewrite (firstn_c_str rs2 _ (shown_nz _) S2). rewrite pad_line_fine, !out_string_fine, out_char_fine. unfold fine, set_flags, set_fill. cbn [o_text o_room o_good o_width].
      do 2 f_equal. unfold bar. change (maxline + 1 - S (length l))%nat with (32 - length l)%nat. unfold hexes. rewrite <- !app_assoc. reflexivity.
    + rewrite out_char_fine. unfold fine, set_flags, set_fill. cbn [o_text o_room o_good o_width]. do 2 f_equal. cbn [app]. unfold hexes. now rewrite <- !app_assoc.
Qed.
End Dump.

(** ** C59 *)
(** For streams that do not show bases nor adjust to the left. *)
Theorem C59_hex_dump_partial os bytes rest show rs0 : Forall (fun c => c < 256) bytes -> length rs0 = 33%nat ->
  o_room os = None -> o_good os = true -> fl_showbase (o_flags os) = false -> fl_adjust (o_flags os) <> AdjLeft ->
  exists lines os', concat lines = bytes /\ cut lines /\ hex_dump os (Some (bytes ++ rest)) (length bytes) show rs0 = Some os' /\
    o_text os' = o_text os ++ flat_map (line_text (fl_uppercase (o_flags os)) show) lines /\ o_good os' = true /\
    o_flags os' = o_flags os /\ o_fill os' = o_fill os.
Proof.
  intros HB HR R G F1 F2. destruct (hex_dump_spec (o_flags os) show F1 F2 bytes rest rs0 os HB HR R G eq_refl) as (lines & L1 & L2 & E).
  exists lines. eexists. split; [exact L1|]. split; [exact L2|]. split; [exact E|]. cbn. auto.
Qed.
(** The cut is unique, so is the text. *)
Theorem C59_cut_unique : forall lines lines', cut lines -> cut lines' -> concat lines = concat lines' -> lines = lines'.
Proof.
  assert (C : forall l lines, cut (l :: lines) -> (0 < length l <= 32)%nat /\ cut lines /\ (lines <> [] -> length l = 32%nat)).
  { intros l [|l2 lines]; cbn; [intuition congruence|]. intros [-> H]. repeat split; auto; lia. }
  induction lines as [|l lines IH]; intros [|l' lines'] H H' E.
  - reflexivity.
  - apply C in H'. destruct l'; [cbn in H'; lia|discriminate].
  - apply C in H. destruct l; [cbn in H; lia|discriminate].
  - apply C in H, H'. destruct H as (A1 & A2 & A3), H' as (B1 & B2 & B3). cbn [concat] in E.
    assert (EL : length l = length l').
    { apply (f_equal (@length N)) in E as EL. rewrite !app_length in EL. destruct lines as [|x lines], lines' as [|x' lines'].
      - cbn in EL. lia.
      - rewrite B3 in * by discriminate. cbn [concat length] in EL. apply C in B2. rewrite app_length in EL. lia.
      - rewrite A3 in * by discriminate. cbn [concat length] in EL. apply C in A2. rewrite app_length in EL. lia.
      - rewrite A3, B3 by discriminate. reflexivity. }
    assert (l = l') as ->.
    { apply (f_equal (firstn (length l))) in E. rewrite firstn_app, Nat.sub_diag, firstn_all, EL, firstn_app, Nat.sub_diag, firstn_all in E. cbn in E. now rewrite !app_nil_r in E. }
    apply app_inv_head in E. f_equal. now apply IH.
Qed.
(** The null pointer. *)
Theorem C59_null os bufsize show rs0 : hex_dump os None bufsize show rs0 = Some os.
Proof. reflexivity. Qed.
(** Missing: with [std::left] the bytes 1 and 16 have the same dump; with [std::showbase] a byte below 16 takes more than two characters. *)
Definition demo_stream (a : adjust) (b : bool) : ostream := mkOstream [62] None true (mkFlags Dec a b false) 42 7.
Theorem C59_left_refuted : exists os, o_good os = true /\ o_room os = None /\ fl_adjust (o_flags os) = AdjLeft /\
  forall rs0, length rs0 = 33%nat -> hex_dump os (Some [1]) 1 false rs0 = hex_dump os (Some [16]) 1 false rs0 /\ hex_dump os (Some [1]) 1 false rs0 <> None.
Proof.
  exists (demo_stream AdjLeft false). repeat split; try reflexivity; destruct rs0; try discriminate; cbn; congruence.
Qed.
Theorem C59_showbase_refuted : exists os, o_good os = true /\ o_room os = None /\ fl_showbase (o_flags os) = true /\
  forall rs0, length rs0 = 33%nat -> exists os', hex_dump os (Some [10]) 1 false rs0 = Some os' /\ o_text os' = o_text os ++ [48; 120; 97; 32; 10].
Proof.
  exists (demo_stream AdjRight true). repeat split; try reflexivity; intros rs0 H; (destruct rs0; [discriminate|]). eexists. split; reflexivity.
Qed.

(** Examples *)
Example C58_case : option_map o_text (print_u128 (demo_stream AdjRight false) (2 ^ 128 - 1)) =
  Some ([62] ++ [51;52;48;50;56;50;51;54;54;57;50;48;57;51;56;52;54;51;52;54;51;51;55;52;54;48;55;52;51;49;55;54;56;50;49;49;52;53;53]) /\
  option_map o_text (print_i128 (demo_stream AdjRight false) (-120)) = Some [62; 45; 49; 50; 48].
Proof. split; vm_compute; reflexivity. Qed.
Example C59_case : option_map (fun os => length (o_text os)) (hex_dump (demo_stream AdjRight false) (Some (map N.of_nat (seq 60 70))) 65 true (repeat 7 33)) = Some 366%nat /\
  option_map (fun os => skipn 1 (o_text os)) (hex_dump (demo_stream AdjRight false) (Some [10; 65; 200]) 2 false (repeat 7 33)) = Some [48; 97; 32; 52; 49; 32; 10].
Proof. split; vm_compute; reflexivity. Qed.

Print Assumptions C58_unsigned.
Print Assumptions C58_signed_partial.
Print Assumptions C58_smallest_refuted.
Print Assumptions C58_numeral_unique.
Print Assumptions C59_hex_dump_partial.
Print Assumptions C59_cut_unique.
Print Assumptions C59_left_refuted.
Print Assumptions C59_showbase_refuted.
