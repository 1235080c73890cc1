(** The Reed-Solomon code with a multiplicative transform over prime fields: property C42. *)
Set Warnings "-notation-overridden,-ambiguous-paths".
From Coq Require Import NArith ZArith Arith.
From Coq Require List Sorted.
From Verif.Model Require Import Common Arith Ring Fft2n Radix2 Poly Props Simd Views Gf2n Packets MixedFft Fnt FftCodes.
From Verif.Spec Require Import Primes.
From Verif.Proof Require Import ListP ArithP PrimeP CodeLenP Smooth FntInst Build PacketsP.
From mathcomp Require Import all_ssreflect ssralg finalg poly.
From mathcomp Require Import zify.
From Verif.Proof Require Import Pres FieldP BigPrime FftC GfpB.
From Verif.Thm Require Import FftCodesThm.
Import GRing.Theory.
Local Open Scope ring_scope.

(** ** Sessions *)

(** A word to encode: its offset, its symbols, and the contents of the memory of the transform and of the output before. *)
Record eword := EWord { e_off : N; e_words : list N; e_pv : nat -> N; e_out : list N }.
(** Encoding words one after the other, with the records of the values out of range. *)
Fixpoint enc_session (c : fcode) (l : list eword) (ps : list props) : option (list (list N) * list props) :=
  match l with
  | nil => Some (nil, ps)
  | (e :: t)%SEQ =>
      match gfp_encode c (e_pv e) (e_out e) (e_words e) ps (e_off e) with
      | None => None
      | Some (cw, ps) => match enc_session c t ps with Some (cws, ps) => Some (cw :: cws, ps)%SEQ | None => None end
      end
  end.

(** A word to decode: its offset, the symbols received, and the contents of the memory of the three transforms before. *)
Record dword := DWord { d_off : N; d_words : list N; d_pv1 : nat -> N; d_pv2 : nat -> N; d_pv3 : nat -> N }.
(** Decoding words one after the other, from the cursors [cur] in the records. *)
Fixpoint dec_session (c : fcode) (x : ctx) (ps : list props) (l : list dword) (cur : list nat) (vs : vscratch) : option (list (list N)) :=
  match l with
  | nil => Some nil
  | (d :: t)%SEQ =>
      match gfp_decode c x (d_pv1 d) (d_pv2 d) (d_pv3 d) vs ps (d_off d) cur (d_words d) with
      | None => None
      | Some (cur, vs, o) => match dec_session c x ps t cur vs with Some r => Some (o :: r)%SEQ | None => None end
      end
  end.

(** ** One word *)
Lemma forall2_inv (A B : Type) (R : A -> B -> Prop) a b l l' : List.Forall2 R (a :: l) (b :: l') -> R a b /\ List.Forall2 R l l'.
Proof. by inversion 1. Qed.
Lemma ltS_ne (i t : nat) : i <> t -> (i < t.+1)%N = (i < t)%N.
Proof. by move=> ne; rewrite ltnS leq_eqVlt; case: eqP. Qed.

Section Post.
Variables (c : fcode) (offset : N).
Notation lim := (f_limit c).
Definition mark (v : N) : props := if (lim <=? v)%num then [:: (offset, OOR_MARK)] else [::].

Lemma gfp_post_spec o ps : (f_len c <= size o)%N -> size ps = f_len c -> exists o' ps', [/\ gfp_post c offset o ps = (o', ps'),
  size o' = size o, size ps' = f_len c &
  forall i, (i < f_len c)%N -> List.nth i o' 0%num = (if (lim <=? List.nth i o 0)%num then (List.nth i o 0 mod lim)%num else List.nth i o 0%num) /\
     List.nth i ps' [::] = (List.nth i ps [::] ++ mark (List.nth i o 0%num))%SEQ].
Proof.
  move=> So Sp.
  have X t : (t <= f_len c)%N -> exists o' ps', [/\
     List.fold_left (fun st i => let '(o, ps) := st in
      if (lim <=? get 0 o i)%num then (Common.set o i (get 0 o i mod lim)%num, Common.set ps i (props_add (get [::] ps i) offset OOR_MARK))
      else (o, ps)) (List.seq 0 t) (o, ps) = (o', ps'), size o' = size o, size ps' = f_len c &
     forall i, (i < f_len c)%N -> if (i < t)%N then 
       List.nth i o' 0%num = (if (lim <=? List.nth i o 0)%num then (List.nth i o 0 mod lim)%num else List.nth i o 0%num) /\
       List.nth i ps' [::] = (List.nth i ps [::] ++ mark (List.nth i o 0%num))%SEQ
      else List.nth i o' 0%num = List.nth i o 0%num /\ List.nth i ps' [::] = List.nth i ps [::]].
    elim: t => [|t IH] Ht; first by exists o, ps; split.
    have [o1 [ps1 [E S1 S2 H]]] := IH (ltnW Ht).
    rewrite List.seq_S List.fold_left_app E /=.
    have := H t Ht; rewrite ltnn /get => -[E1 E2]; rewrite E1.
    case L: (lim <=? _)%num.
    - exists (Common.set o1 t (List.nth t o 0 mod lim)%num), (Common.set ps1 t (props_add (List.nth t ps1 [::]) offset OOR_MARK)).
      split=> //; rewrite -?[size _]/(length _) ?set_length -?[length _]/(size _) //.
      move=> i Hi; have := H i Hi; case: (Nat.eq_dec i t) => [->|ne].
        by rewrite ltnn leqnn !nth_set_eq -?[length _]/(size _) ?S1 ?S2 ?E2 ?L ?/mark ?L //; lia.
      by rewrite !nth_set_neq //; [rewrite (ltS_ne _ _ ne)|..].
    - exists o1, ps1; split=> // i Hi; have := H i Hi; case: (Nat.eq_dec i t) => [->|ne].
        by rewrite ltnn leqnn L /mark L cats0.
      by rewrite (ltS_ne _ _ ne).
  have [o' [ps' [E S1 S2 H]]] := X (f_len c) (leqnn _).
  by exists o', ps'; split=> // i Hi; have := H i Hi; rewrite Hi.
Qed.

(** Restoring the values of the fragments [ids]. *)
Lemma gfp_prepare_spec ids ps cur words : size ids = f_k c -> List.NoDup ids -> (forall i, List.In i ids -> (i < size cur)%N) ->
  size words = f_k c -> (forall i j, List.In i ids -> props_is_marked (List.nth i ps [::]) j offset -> props_marker (List.nth i ps [::]) j = OOR_MARK) ->
  exists cur' words', [/\ gfp_prepare c ids ps offset cur words = (cur', words'), size cur' = size cur, size words' = f_k c &
  forall i, (i < f_k c)%N -> let q := List.nth i ids 0%N in let b := props_is_marked (List.nth q ps [::]) (List.nth q cur 0%N) offset in
     List.nth i words' 0%num = (if b then Common.wrap (f_w c) (List.nth i words 0 + lim)%num else List.nth i words 0%num) /\
     List.nth q cur' 0%N = (List.nth q cur 0 + b)%N].
Proof.
  move=> Si ND Hi Sw Hm.
  have X t : (t <= f_k c)%N -> exists cur' words', [/\
     List.fold_left (fun st i => let '(cur, words) := st in let j := get 0%N ids i in
      if props_is_marked (get [::] ps j) (get 0%N cur j) offset then
        (Common.set cur j (get 0%N cur j + 1)%coq_nat,
         if N.eqb (props_marker (get [::] ps j) (get 0%N cur j)) OOR_MARK
         then Common.set words i (Common.wrap (f_w c) (get 0 words i + lim)%num) else words)
      else (cur, words)) (List.seq 0 t) (cur, words) = (cur', words'), size cur' = size cur, size words' = f_k c &
     forall i, (i < f_k c)%N -> let q := List.nth i ids 0%N in let b := props_is_marked (List.nth q ps [::]) (List.nth q cur 0%N) offset in
      if (i < t)%N then 
       List.nth i words' 0%num = (if b then Common.wrap (f_w c) (List.nth i words 0 + lim)%num else List.nth i words 0%num) /\
       List.nth q cur' 0%N = (List.nth q cur 0 + b)%N
      else List.nth i words' 0%num = List.nth i words 0%num /\ List.nth q cur' 0%N = List.nth q cur 0%N].
    elim: t => [|t IH] Ht; first by exists cur, words; split.
    have [c1 [w1 [E S1 S2 H]]] := IH (ltnW Ht).
    rewrite List.seq_S List.fold_left_app E /=.
    have := H t Ht; rewrite ltnn /get; set qt := List.nth t ids 0%N => -[E1 E2]; rewrite E2 E1.
    have It : List.In qt ids by apply: List.nth_In; rewrite -[length _]/(size _) Si; apply/ltP.
    have ne_q i : (i < f_k c)%N -> i <> t -> List.nth i ids 0%N <> qt.
      move=> Hik ne e; apply: ne; apply: (proj1 (List.NoDup_nth ids 0%N) ND) => //; by rewrite -[length _]/(size _) Si; apply/ltP.
    case L: (props_is_marked _ _ _).
    - rewrite (Hm qt _ It L) /=.
      eexists _, _; split; first reflexivity; rewrite -?[size _]/(length _) ?set_length -?[length _]/(size _) //.
      move=> i Hik; have := H i Hik; case: (Nat.eq_dec i t) => [->|ne].
        by rewrite ltnn leqnn -/qt L !nth_set_eq -?[length _]/(size _) ?S1 ?S2 //; [have := Hi qt It; lia|lia].
      rewrite !nth_set_neq //; first last.
      + by move=> e; apply: (ne_q i Hik ne).
      by rewrite (ltS_ne _ _ ne).
    - exists c1, w1; split=> // i Hik; have := H i Hik; case: (Nat.eq_dec i t) => [->|ne].
        by rewrite ltnn leqnn -/qt L addn0.
      by rewrite (ltS_ne _ _ ne).
  have [o' [ps' [E S1 S2 H]]] := X (f_k c) (leqnn _).
  by exists o', ps'; split=> // i Hik; have := H i Hik; rewrite Hik.
Qed.
End Post.

(** ** Sessions over any field *)
Section Session.
Variables (F : fieldType) (phi : N -> F) (c : fcode) (r r2 : F).
Hypothesis ok : fcode_ok F phi c r r2.
Notation G := (f_G c).
Notation k := (f_k c).
Notation lim := (f_limit c).
Hypothesis l0 : (0 < lim)%num.
Hypothesis lc : (lim <= g_card G)%num.
Hypothesis cl : (g_card G <= 2 * lim)%num.
Hypothesis cw2 : (g_card G <= 2 ^ f_w c)%num.
Variable ids : list nat.
Hypothesis Si : size ids = k.
Hypothesis ND : List.NoDup ids.
Hypothesis Hb : forall i, List.In i ids -> (i < f_len c)%N.

(** The offset, the values and the symbols of a word. *)
Definition trace : Type := (N * list N * list N)%type.
Notation off t := (fst (fst t)).
Notation val t := (snd (fst t)).
Notation cwd t := (snd t).
Definition traced (e : eword) (t : trace) : Prop :=
  [/\ off t = e_off e, f_transform c (e_pv e) (e_out e) (e_words e) = Some (val t), size (cwd t) = f_n c &
   forall i, (i < f_len c)%N -> List.nth i (cwd t) 0%num =
     (if (lim <=? List.nth i (val t) 0)%num then List.nth i (val t) 0 - lim else List.nth i (val t) 0)%num].
Definition marks (q : nat) (l : list trace) : props := List.flat_map (fun t => mark c (off t) (List.nth q (val t) 0%num)) l.
Definition word_ok (e : eword) : Prop :=
  [/\ size (e_words e) = k, List.Forall (fun s => (s < lim)%num) (e_words e) & size (e_out e) = f_n c].

Lemma els_of e : word_ok e -> els G (e_words e).
Proof.
  case=> _ H _; apply: (forall_els F phi c r r2 ok); apply: List.Forall_impl H => a; move: lc; clear; lia.
Qed.

Lemma transform_some e : word_ok e -> exists v, [/\ f_transform c (e_pv e) (e_out e) (e_words e) = Some v, size v = f_n c & els G v].
Proof.
  move=> We; have [S1 _ S2] := We; have V := els_of e We.
  pose Q : {poly F} := \poly_(j < k) phi (List.nth j (e_words e) 0%num).
  have sQ : (size Q <= k)%N by exact: size_poly.
  have Qj j : (j < k)%N -> phi (List.nth j (e_words e) 0%num) = Q`_j by move=> Hj; rewrite coef_poly Hj.
  have [cw [E [Sc Vc Ec]]] := f_transform_ok F phi c r r2 ok (e_pv e) (e_out e) (e_words e) Q sQ S2 S1 V Qj.
  by exists cw.
Qed.

Lemma mod_sub v : (v < g_card G)%num -> (if lim <=? v then v mod lim else v)%num = (if lim <=? v then v - lim else v)%num.
Proof.
  move=> Hv; case: N.leb_spec => // L; have [H1 H2] := (l0, cl); rewrite {1}(_ : v = v - lim + 1 * lim)%num; last by lia.
  by rewrite N.mod_add ?N.mod_small //; lia.
Qed.

Lemma enc_ok l : forall ps, List.Forall word_ok l -> size ps = f_len c -> exists h ps',
  [/\ enc_session c l ps = Some (List.map (fun t : trace => cwd t) h, ps'), List.Forall2 traced l h, size ps' = f_len c,
   List.Forall (fun t : trace => forall i, (i < f_len c)%N -> (List.nth i (cwd t) 0 < lim)%num) h &
   forall q, (q < f_len c)%N -> List.nth q ps' [::] = (List.nth q ps [::] ++ marks q h)%SEQ].
Proof.
  elim: l => [|e l IH] ps W Sp; first by exists nil, ps; split=> // q _; rewrite cats0.
  have We := List.Forall_inv W; have Wl := List.Forall_inv_tail W.
  have [v [Ev Sv Vv]] := transform_some e We.
  have kn := fk_n _ _ _ _ _ ok.
  have Lv : (f_len c <= size v)%N by rewrite Sv.
  have [cw [ps1 [E1 S1 S2 H1]]] := gfp_post_spec c (e_off e) v ps Lv Sp.
  have [h [ps' [E2 F2 S3 L3 H2]]] := IH ps1 Wl S2.
  have Nc i : (i < f_len c)%N -> List.nth i cw 0%num = (if (lim <=? List.nth i v 0)%num then List.nth i v 0 - lim else List.nth i v 0)%num.
    by move=> Hi; have [-> _] := H1 i Hi; apply: mod_sub; exact: Vv.
  exists ((e_off e, v, cw) :: h), ps'; split=> //.
  - by rewrite /= /gfp_encode Ev /= E1 E2.
  - by constructor=> //; split=> //=; rewrite S1.
  - constructor=> // i Hi /=; rewrite Nc //; have := Vv i; rewrite /gvalid; case: N.leb_spec; have [? ?] := (l0, cl); lia.
  - by move=> q Hq; rewrite H2 //; have [_ ->] := H1 q Hq; rewrite -catA.
Qed.

(** The next record is that of this word, if there is one. *)
Lemma marks_head q t h d : List.Forall (fun u : trace => (off t < off u)%num) h ->
  props_is_marked (d ++ marks q (t :: h))%SEQ (size d) (off t) = (lim <=? List.nth q (val t) 0)%num.
Proof.
  move=> H; rewrite /props_is_marked List.nth_error_app2 // -[length d]/(size d) Nat.sub_diag /= /mark.
  case: (N.leb_spec lim) => L /=; first exact: N.eqb_refl.
  elim: h H => //= u h IH H; have Hu := List.Forall_inv H.
  by rewrite /mark; case: N.leb_spec => L' /=; [apply/N.eqb_neq; move: Hu; clear; lia|apply: IH; exact: List.Forall_inv_tail H].
Qed.

Variable x : ctx.
Hypothesis Xi : x_ids x = ids.
Hypothesis Hx : forall pv out words, size words = k -> els G words -> size out = f_n c ->
  exists cw, [/\ f_transform c pv out words = Some cw, size cw = f_n c, els G cw &
  forall pv3 pv4 pv5 vs, vs_len c vs ->
  exists vs', fdecode_apply c x pv3 pv4 pv5 vs (pick ids cw) = Some (vs', words) /\ vs_len c vs'].

Lemma dec_ok l : forall h ds ps (dn : nat -> props) cur vs, List.Forall word_ok l -> List.Forall2 traced l h ->
  List.Forall2 (fun (t : trace) d => d_off d = off t /\ d_words d = pick ids (cwd t)) h ds ->
  Sorted.StronglySorted (fun a b : trace => (off a < off b)%num) h -> vs_len c vs -> size cur = f_len c ->
  (forall q, List.In q ids -> List.nth q ps [::] = (dn q ++ marks q h)%SEQ /\ List.nth q cur 0%N = size (dn q) /\
     List.Forall (fun m => snd m = OOR_MARK) (List.nth q ps [::])) ->
  dec_session c x ps ds cur vs = Some (List.map e_words l).
Proof.
  elim: l => [|e l IH] h ds ps dn cur vs W T D So Hv Sc Hq.
    by case: h T D {So Hq} => [|t h'] T D; [case: ds D => [|d ds'] D //; inversion D|inversion T].
  case: h T D So Hq => [|t h'] T D So Hq; first by inversion T.
  case: ds D => [|d ds'] D; first by inversion D.
  have [Te Tl] := forall2_inv _ _ _ _ _ _ _ T; have [[Do Dw] Dl] := forall2_inv _ _ _ _ _ _ _ D.
  have [So' Sh] := Sorted.StronglySorted_inv So.
  have We := List.Forall_inv W; have Wl := List.Forall_inv_tail W; have [S1 Vl S2] := We.
  have [v [Ev Sv Vv Rv]] := Hx (e_pv e) (e_out e) (e_words e) S1 (els_of e We) S2.
  have [To Tv Ts Tc] := Te; have Ev' : val t = v by move: Tv; rewrite Ev => -[].
  have Hcur i : List.In i ids -> (i < size cur)%N by move=> /Hb; rewrite Sc.
  have [||cur' [words' [Ep Sc' Sw' Hp]]] := gfp_prepare_spec c (off t) ids ps cur (pick ids (cwd t)) Si ND Hcur _ _.
  - by rewrite size_map.
  - move=> i j /Hq [_ [_ Hm]]; rewrite /props_is_marked /props_marker; case En: (List.nth_error _ j) => [m|//] _.
    by have := proj1 (List.Forall_forall _ _) Hm m (List.nth_error_In _ _ En).
  have Hmark q : List.In q ids -> props_is_marked (List.nth q ps [::]) (List.nth q cur 0%N) (off t) = (lim <=? List.nth q v 0)%num.
    by move=> Iq; have [-> [-> _]] := Hq q Iq; rewrite marks_head // Ev'.
  have Np (cv : list N) i : (i < k)%N -> List.nth i (pick ids cv) 0%num = List.nth (List.nth i ids 0%N) cv 0%num.
    move=> Hi; rewrite /pick (List.nth_indep _ 0%num (List.nth 0 cv 0%num)); last by rewrite List.map_length -[length _]/(size _) Si; apply/ltP.
    exact: (List.map_nth (fun i => List.nth i cv 0%num)).
  have Iid i : (i < k)%N -> List.In (List.nth i ids 0%N) ids by move=> Hi; apply: List.nth_In; rewrite -[length _]/(size _) Si; apply/ltP.
  have Ew : words' = pick ids v.
    apply: (List.nth_ext _ _ 0%num 0%num); first by rewrite List.map_length -![length _]/(size _) Sw' Si.
    move=> i; rewrite -[length _]/(size _) Sw' => /ltP Hi; have [-> _] := Hp i Hi; rewrite !Np //.
    have Iq := Iid i Hi; rewrite (Hmark _ Iq) Tc ?Ev' //; last exact: Hb.
    case: N.leb_spec => L //.
    have := Vv (List.nth i ids 0%N); rewrite /gvalid => Vi.
    by rewrite N.sub_add // /Common.wrap N.mod_small //; apply: (N.lt_le_trans _ _ _ Vi).
  have [vs' [Er Hv']] := Rv (d_pv1 d) (d_pv2 d) (d_pv3 d) vs Hv.
  rewrite /= /gfp_decode Xi Do Dw Ep Ew Er.
  have E2 : dec_session c x ps ds' cur' vs' = Some (List.map e_words l).
    apply: (IH h' ds' ps (fun q => dn q ++ mark c (off t) (List.nth q v 0%num))%SEQ cur' vs') => //; first by rewrite Sc' Sc.
    move=> q Iq; have [Q1 [Q2 Q3]] := Hq q Iq; split; [|split=> //].
      by rewrite Q1 /= Ev' catA.
    have [i [/ltP Hi Ei]] := List.In_nth ids q 0%N Iq; have [_] := Hp i ltac:(by rewrite -Si).
    rewrite Ei Hmark // => ->; rewrite Q2 size_cat /mark.
    by case: (N.leb_spec lim).
  by rewrite E2.
Qed.

(** A session of encoding followed by one of decoding. *)
Lemma session l : List.Forall word_ok l -> Sorted.StronglySorted N.lt (List.map e_off l) ->
  exists cws ps, [/\ enc_session c l (List.repeat [::] (f_len c)) = Some (cws, ps),
    List.Forall (fun cw => size cw = f_n c /\ forall i, (i < f_len c)%N -> (List.nth i cw 0 < lim)%num) cws &
  forall ds vs, List.map d_off ds = List.map e_off l -> List.map d_words ds = List.map (pick ids) cws -> vs_len c vs ->
    dec_session c x ps ds (List.repeat 0%N (f_len c)) vs = Some (List.map e_words l)].
Proof.
  move=> W So; have [h [ps [E T Sp Lh Hp]]] := enc_ok l _ W (List.repeat_length [::] (f_len c)).
  exists (List.map (fun t : trace => cwd t) h), ps; split=> //.
    apply/List.Forall_map; elim: T Lh {E Hp So W} => [|e t l' h' Te Tl IH] L; first by constructor.
    by constructor; [case: Te => _ _ -> _; split=> //; exact: (List.Forall_inv L)|apply: IH; exact: List.Forall_inv_tail L].
  move=> ds vs Eo Ew Hv.
  have Eh : List.map (fun t : trace => off t) h = List.map e_off l.
    by elim: T {E Lh Hp So W Ew Eo} => //= e t l' h' [-> _ _ _] _ ->.
  apply: (dec_ok l h ds ps (fun=> nil)) => //.
  - rewrite -Eh in Eo; elim: h ds Ew Eo {E T Lh Hp Eh} => [|t h IH] [|d ds] //=.
    by move=> [E1 E2] [E3 E4]; constructor=> //; apply: IH.
  - rewrite -Eh in So; elim: h So {E T Lh Hp Eh Ew} => [|t h IH] /= So; first by constructor.
    inversion So; subst; constructor; first exact: IH.
    by apply/List.Forall_map.
  - exact: List.repeat_length.
  - move=> q /Hb Hq; rewrite !Hp // !List.nth_repeat /=; split=> //; split=> //.
    elim: h {E T Lh Hp Eh Ew} => [|t h IH] /=; first by constructor.
    by apply/List.Forall_app; split=> //; rewrite /mark; case: N.leb_spec => _ //; constructor.
Qed.
End Session.

(** ** C42 *)

(** Types and sizes of words for which the constructor accepts the field. *)
Definition gfp_width (w : N) (ws : nat) : Prop :=
  (ws = 1%N /\ List.In w [:: 16; 32; 64]%num) \/ (ws = 2%N /\ List.In w [:: 32; 64]%num) \/ (ws = 4%N /\ w = 64%num).
(** Sizes: what the group allows for one or two bytes; for four bytes at most 4096 data symbols, and a length of the
    transform that an int can hold: the next length after 23994368 is 2 ^ 32 + 24576. *)
Definition gfp_sizes (ws k m : nat) : Prop :=
  [/\ (0 < k)%N, (0 < m)%N &
   if (ws < 4)%N then (N.of_nat (k + m) <= 2 ^ (8 * N.of_nat ws))%num /\ (N.of_nat (2 * k) <= 2 ^ (8 * N.of_nat ws))%num
   else (N.of_nat (k + m) <= 23994368)%num /\ (N.of_nat (2 * k) <= 8192)%num].

(** Builds: [nh] is 0 without SIMD, 1 with registers of 16 bytes, 2 with registers of 32.  The last condition leaves out the
    codes over GF(257) in uint32_t, when the product of the vectors fills a register, see [C42_simd_refuted]. *)
Definition gfp_build_ok (nh : nat) (w : N) (ws k : nat) : Prop :=
  (nh <= 2)%N /\ (w = 32%num -> ws = 1%N -> (nh = 0%N) \/ (k <= nh)%N).

Lemma els_pok G n v : size v = n -> els G v -> pok G n v.
Proof. by move=> S H; split=> //; apply/List.Forall_nth => i d Hi; rewrite (List.nth_indep _ d 0%num) //; exact: H. Qed.

(** The product of the vectors, for the field of these words. *)
Lemma gfp_had nh w ws k p n x y : gfp_build_ok nh w ws k -> gfp_width w ws -> (n < 4 * k)%N \/ ws <> 1%N ->
  p = (if (ws < 4)%N then 2 ^ (8 * N.of_nat ws) + 1 else big)%num ->
  size x = n -> size y = n -> els (prime_ops w p) x -> els (prime_ops w p) y ->
  ring_hadamard nh w p (prime_ops w p) x y = map2 (g_mul (prime_ops w p)) x y.
Proof.
  move=> [Hn Hb] Hw Hk Ep Sx Sy Vx Vy; apply: (ring_hadamard_ok _ _ _ n).
  - split; first by apply/leP. case: (nh =P 0%N) => [->|n0]; [by left|right] => e.
    case: Hw => [[E Hw]|[[E Hw]|[E ->]]] //; rewrite {}E in Hb Hk Ep *.
    + case: Hw => [Ew|[Ew|[Ew|[]]]]; subst w => // -[<-]; first by left; rewrite Ep.
      right; have kn : (k <= nh)%N by case: (Hb erefl erefl).
      have {}Hk : (n < 4 * k)%N by case: Hk.
      have -> : Simd.countof 4 nh = (4 * nh)%N by rewrite /Simd.countof; move: Hn; clear; case: nh => [|[|[|]]].
      by apply/ltP; move: Hk kn; clear; lia.
    + by case: Hw => [Ew|[Ew|[]]]; subst w => // -[<-]; left; rewrite Ep.
  - rewrite Ep; case: Hw => [[-> Hw]|[[-> Hw]|[-> ->]]] //.
    + by case: Hw => [<-|[<-|[<-|[]]]].
    + by case: Hw => [<-|[<-|[]]].
  - exact: els_pok.
  - exact: els_pok.
Qed.

Lemma gfp_build nh w ws k m : gfp_build_ok nh w ws k -> gfp_width w ws -> gfp_sizes ws k m -> exists c, [/\ gfp_new nh w ws k m = Some c,
  exists (F : fieldType) (h : N -> F) r r2, fcode_ok F h c r r2,
  [/\ f_k c = k, f_len c = (k + m)%N & f_limit c = (2 ^ (8 * N.of_nat ws))%num] &
  [/\ (f_limit c <= g_card (f_G c))%num, (g_card (f_G c) <= 2 * f_limit c)%num & (g_card (f_G c) <= 2 ^ f_w c)%num]].
Proof.
  move=> Hb Hw [k0 m0 Hs]; have Hh n x y := gfp_had nh w ws k _ n x y Hb Hw.
  have Fin p w' lim : (exists c, [/\ gfp_new nh w ws k m = Some c,
      exists r r2, fcode_ok (FieldP.Fpp p) (FieldP.phi p) c r r2 &
      [/\ f_k c = k, f_len c = (k + m)%N, f_w c = w', g_card (f_G c) = p & f_limit c = lim]]) ->
      lim = (2 ^ (8 * N.of_nat ws))%num -> (lim <= p <= 2 * lim)%num -> (p <= 2 ^ w')%num -> exists c, [/\ gfp_new nh w ws k m = Some c,
      exists (F : fieldType) (h : N -> F) r r2, fcode_ok F h c r r2,
      [/\ f_k c = k, f_len c = (k + m)%N & f_limit c = (2 ^ (8 * N.of_nat ws))%num] &
      [/\ (f_limit c <= g_card (f_G c))%num, (g_card (f_G c) <= 2 * f_limit c)%num & (g_card (f_G c) <= 2 ^ f_w c)%num]].
    move=> [c [Ec [r [r2 ok]] [H1 H2 H3 H4 H5]]] El [L1 L2] L3; exists c; split=> //.
    - by exists (FieldP.Fpp p), (FieldP.phi p), r, r2.
    - by split=> //; rewrite H5.
    - by rewrite H3 H4 H5.
  have Ferm h t p lim : w = (2 * h)%num -> (0 < h)%num -> (t < 31)%num -> (ws < 4)%N -> p = (2 ^ t + 1)%num -> lim = (2 ^ t)%num ->
      (2 ^ t = 2 ^ (8 * N.of_nat ws))%num -> primeN p -> (2 * p <= 2 ^ (2 * h))%num ->
      Common.wrap w (2 ^ (8 * N.of_nat ws) + 1)%num = p -> Common.wrap w (2 ^ (8 * N.of_nat ws))%num = lim -> (p / 2 < lim)%num ->
      find_primitive_root (2 * h) (prime_ops (2 * h) p) = Some 3%num -> jacobi 100 3 (Z.of_N p) = Some (-1)%Z ->
      exists c, [/\ gfp_new nh w ws k m = Some c,
      exists r r2, fcode_ok (FieldP.Fpp p) (FieldP.phi p) c r r2 &
      [/\ f_k c = k, f_len c = (k + m)%N, f_w c = (2 * h)%num, g_card (f_G c) = p & f_limit c = lim]].
    move=> Ew h0 t31 ws4 Ep El Et pp pw W1 W2 Lp Er Ej; move: Hs; rewrite ws4 => -[s1 s2].
    have ws4' : Nat.ltb ws 4 = true by apply/Nat.ltb_spec0/ltP.
    have [] := gfp_fermat h t p k m h0 t31 Ep pp pw k0 m0 ltac:(by rewrite Et) ltac:(by rewrite Et) (ring_hadamard nh w p (prime_ops w p)) lim 3%num _ Er.
      by move=> n x y /andP [_ Ln]; rewrite -Ew; apply: Hh; [left|rewrite ws4 Ep Et].
    move=> c [Ec ok H]; exists c; split=> //; rewrite (gfp_new_eq nh w ws k m p lim 3) ?ws4' //; first by move: Ec; rewrite -Ew.
    - by lia.
    - by rewrite Ep El; lia.
    - by rewrite Ew.
  case: Hw => [[Ews Hw]|[[Ews Hw]|[Ews Hw]]].
  - have [h [Ew h0 [Wc Wl Er]]] : exists h, [/\ w = (2 * h)%num, (0 < h)%num & [/\ (9 <= w)%num, (2 * 257 <= 2 ^ w)%num &
        find_primitive_root w (prime_ops w 257) = Some 3%num]].
      by exists (w / 2)%num; case: Hw => [<-|[<-|[<-|[]]]]; split=> //; split=> //; vm_compute.
    have W : (257 < 2 ^ w)%num by lia.
    apply: (Fin 257%num w 256%num); [|by rewrite Ews|by []|by lia].
    rewrite {2}Ew; apply: (Ferm h 8%num 257%num 256%num Ew h0); rewrite -?Ew ?Ews //; [exact: prime257|..].
    + by rewrite /Common.wrap N.mod_small.
    + by rewrite /Common.wrap N.mod_small //; change (256 < 2 ^ w)%num; lia.
  - have [h [Ew h0 [Wc Wl Er]]] : exists h, [/\ w = (2 * h)%num, (0 < h)%num & [/\ (9 <= w)%num, (2 * 65537 <= 2 ^ w)%num &
        find_primitive_root w (prime_ops w 65537) = Some 3%num]].
      by exists (w / 2)%num; case: Hw => [<-|[<-|[]]]; split=> //; split=> //; vm_compute.
    have W : (65537 < 2 ^ w)%num by lia.
    apply: (Fin 65537%num w 65536%num); [|by rewrite Ews|by []|by lia].
    rewrite {2}Ew; apply: (Ferm h 16%num 65537%num 65536%num Ew h0); rewrite -?Ew ?Ews //; [exact: prime65537|..].
    + by rewrite /Common.wrap N.mod_small.
    + by rewrite /Common.wrap N.mod_small //; change (65536 < 2 ^ w)%num; lia.
  - have [s1 s2] : (N.of_nat (k + m) <= 23994368)%num /\ (N.of_nat (2 * k) <= 8192)%num by move: Hs; rewrite Ews.
    have [h [Ew h0 Wc]] : exists h, [/\ w = (2 * h)%num, (0 < h)%num & w = 64%num \/ w = 128%num].
      by exists (w / 2)%num; rewrite Hw; split=> //; auto.
    have pw : (2 * big <= 2 ^ (2 * h))%num by rewrite -Ew; case: Wc => ->.
    have Er := root_big w Wc.
    apply: (Fin big w 4294967296%num); [|by rewrite Ews|by []|by rewrite Ew; lia].
    have [] := gfp_big h k m h0 pw k0 m0 s1 s2 (ring_hadamard nh w big (prime_ops w big)) 4294967296%num 3%num _ ltac:(by rewrite -Ew).
      by move=> n x y; rewrite -Ew; apply: Hh; [right; rewrite Ews|rewrite Ews].
    move=> c [Ec ok H]; exists c; split=> //; last by rewrite Ew.
    rewrite (gfp_new_eq nh w ws k m big 4294967296%num 3) ?Ews //; first by move: Ec; rewrite -Ew.
    + by case: Wc => ->.
    + by case: Wc => ->.
Qed.

(** Any words, encoded at increasing offsets, are decoded from any [k] of the [k + m] fragments; every symbol of the
    fragments fits in a word of [ws] bytes.  Missing: the sizes left out by [gfp_sizes], see [C42_word3_refuted] and
    [C42_long_data_refuted], and the builds left out by [gfp_build_ok]. *)
Theorem C42_rs_gfp_fft_partial nh w ws k m : gfp_build_ok nh w ws k -> gfp_width w ws -> gfp_sizes ws k m ->
  exists c, [/\ gfp_new nh w ws k m = Some c, f_k c = k, (k + m <= f_n c)%N &
  forall ids pv1 out1 pv2 out2, size ids = k -> List.NoDup ids -> (forall i, List.In i ids -> (i < k + m)%N) ->
    size out1 = f_n c -> size out2 = f_l2 c ->
  exists x, fctx_new c ids pv1 out1 pv2 out2 = Some x /\
  forall l, List.Forall (fun e => symbols (8 * ws) k (e_words e) /\ size (e_out e) = f_n c) l ->
    Sorted.StronglySorted N.lt (List.map e_off l) ->
  exists cws ps, [/\ enc_session c l (List.repeat [::] (k + m)) = Some (cws, ps),
    List.Forall (fun cw => size cw = f_n c /\ forall i, (i < k + m)%N -> (List.nth i cw 0 < 2 ^ N.of_nat (8 * ws))%num) cws &
  forall ds vs, List.map d_off ds = List.map e_off l -> List.map d_words ds = List.map (pick ids) cws -> vs_len c vs ->
    dec_session c x ps ds (List.repeat 0%N (k + m)) vs = Some (List.map e_words l)]].
Proof.
  move=> Bb Hw Hs; have [c [Ec [F [h [r [r2 ok]]]] [ck cl clim] [L1 L2 L3]]] := gfp_build nh w ws k m Bb Hw Hs.
  have kn := fk_n _ _ _ _ _ ok; rewrite cl in kn.
  exists c; split; [exact: Ec|exact: ck|exact: kn|]; clear Ec => ids pv1 out1 pv2 out2 Si ND Hb S1 S2.
  have Si' : size ids = f_k c by rewrite ck.
  have Hb' i : List.In i ids -> (i < f_len c)%N by move=> /Hb; rewrite cl.
  have Hb2 i : List.In i ids -> (i < f_n c)%N by move=> /Hb; move: kn; clear; lia.
  have [x [Ex Xi Hx]] := recover F h c r r2 ok ids pv1 out1 pv2 out2 Si' ND Hb2 S1 S2.
  exists x; split; [exact: Ex|]; clear Ex => l W So.
  have E8 : (2 ^ (8 * N.of_nat ws) = 2 ^ N.of_nat (8 * ws))%num by congr (_ ^ _)%num; lia.
  have l0 : (0 < f_limit c)%num by rewrite clim; have := N.pow_nonzero 2 (8 * N.of_nat ws); lia.
  have W' : List.Forall (word_ok c) l.
    by apply: List.Forall_impl W => e [[A B] C]; split=> //; rewrite ?ck // clim E8.
  have [cws [ps [E Fc D]]] := session F h c r r2 ok l0 L1 L2 L3 ids Si' ND Hb' x Xi Hx l W' So.
  by rewrite -cl; exists cws, ps; split=> //; rewrite -E8 -clim.
Qed.

(** ** What fails *)
(** Words of three bytes: [2 ^ 24 + 1] is not a prime, and the constructor throws for any sizes. *)
Theorem C42_word3_refuted : forall nh w, List.In w [:: 32; 64]%num -> forall k m, gfp_new nh w 3 k m = None.
Proof.
  move=> nh w Hw k m; rewrite /gfp_new [Nat.ltb 4 3]/= [Nat.ltb 3 4]/=.
  have -> : Common.wrap w (2 ^ (8 * N.of_nat 3) + 1)%num = 16777217%num by case: Hw => [<-|[<-|[]]].
  have -> : Common.wrap w (2 ^ (8 * N.of_nat 3))%num = 16777216%num by case: Hw => [<-|[<-|[]]].
  rewrite [(_ && _)%bool]/=.
  have -> : find_primitive_root w (prime_ops w 16777217) = Some 2%num.
    rewrite /find_primitive_root [g_card _]/=.
    have -> : factor_prime w (16777217 - 1) = Some [:: (2, 24)]%num by case: Hw => [<-|[<-|[]]]; vm_compute.
    have [n ->] : exists n, N.to_nat (16777217 - 1) = n.+1 by exists (N.to_nat (16777217 - 2)); lia.
    cbv beta iota zeta; set l := get_proper_divisors_of _ _.
    have l2 : is_primitive_root (prime_ops w 16777217) l 2 = true by case: Hw => [<-|[<-|[]]]; vm_compute.
    by rewrite /find_root_loop -/find_root_loop l2.
  by have -> : jacobi 100 (Z.of_N 2) (Z.of_N 16777217) = Some 1%Z by vm_compute.
Qed.

(** Words of four bytes: no code has more than 4096 data symbols, though the field has [2 ^ 32] elements. *)
Lemma factors_count l : List.Forall primeN l -> (length l <= N.to_nat (list_prod l))%N.
Proof.
  move=> H; suff : (N.of_nat (length l) < list_prod l)%num by lia.
  elim: H => [|f l' [f1 _] _ IH] //; rewrite -[list_prod (f :: l')]/(f * list_prod l')%num -[length (f :: l')]/(length l').+1; nia.
Qed.
Theorem C42_long_data_refuted : forall nh k m, (4096 < N.of_nat k)%num -> gfp_new nh 64 4 k m = None.
Proof.
  move=> nh k m Hk; have [w Hw] : exists w, w = 64%num by exists 64%num.
  rewrite -Hw.
  have [h [Ew h0 Wc]] : exists h, [/\ w = (2 * h)%num, (0 < h)%num & w = 64%num \/ w = 128%num].
    by exists (w / 2)%num; rewrite Hw; split=> //; auto.
  rewrite (gfp_new_eq nh w 4 k m big 4294967296%num 3 isT); first last.
  - exact: jac_big.
  - exact: root_big.
  - by [].
  - by [].
  - by case: Wc => ->.
  - by case: Wc => ->.
  have Eb : exists q, q = big /\ (q = 4294991873)%num by exists big.
  have pw : (big <= 2 ^ w)%num by case: Wc => ->.
  case: Eb pw => q [<- Eq] pw.
  have oE : (q - 1 = 8192 * 524291)%num by rewrite Eq.
  rewrite /fcode_make [g_card _]/= -[(k + m)%coq_nat]/(k + m)%N -[(2 * k)%coq_nat]/(2 * k)%N.
  case: (ring_code_len_high_compo w q (N.of_nat (k + m))) => [n|//].
  case: (N.le_gt_cases (N.of_nat (2 * k)) (q - 1)) => Hn; last first.
    by rewrite /ring_code_len_high_compo; case: N.ltb_spec => //; lia.
  have [r [El [nr [rq [_ rB]]]]] := code_len_smooth h (q - 1) 2 8192 524291 h0 ltac:(rewrite -Ew; lia) ltac:(lia) oE
     smooth_small smooth_large (N.of_nat (2 * k)) ltac:(lia) Hn.
  have [f [Pf [Df Lf]]] := rB ltac:(lia).
  have Eo : (q - 1 + 1 = q)%num by lia.
  rewrite Eo -Ew in El; rewrite El; case: (int_len n) => [n'|//]; rewrite /int_len; case: N.ltb_spec => // r31.
  have -> : is_power_of_2 (N.of_nat (N.to_nat r)) = false.
    apply/negP => /Ceil2P.is_power_of_2_spec [e]; rewrite Nnat.N2Nat.id => Ee.
    move: Df; rewrite Ee => /(prime_divides_pow _ _ _ Pf) D2.
    by have := N.divide_pos_le f 2 _ D2; move: Lf; clear; lia.
  rewrite tc_no_factor; first by case: (if _ then _ else _).
  rewrite Nnat.N2Nat.id Ew; have [l [-> [Pl [El' _]]]] := get_prime_factors_spec h h0 r ltac:(lia) ltac:(rewrite -Ew; have := N.divide_pos_le _ _ _ rq; lia).
  by rewrite -El'; exact: factors_count.
Qed.

(** GF(257) in uint32_t, in a build with SIMD: the product of the vectors is modulo 65537 in the registers (simd_ring.h:123-146),
    whatever the field, and the data decoded from two (three) fragments are not those that were encoded. *)
Theorem C42_simd_refuted : forall nh, List.In nh [:: 1; 2]%N -> exists k m ids e d,
  [/\ gfp_width 32 1, gfp_sizes 1 k m, k = nh.+1, size ids = k & List.NoDup ids /\ (forall i, List.In i ids -> (i < k + m)%N)] /\
  match gfp_new nh 32 1 k m with
  | Some c => [/\ symbols 8 k (e_words e), size (e_out e) = f_n c &
    match fctx_new c ids (fun _ => 0%num) (List.repeat 0%num (f_n c)) (fun _ => 0%num) (List.repeat 0%num (f_l2 c)),
          enc_session c [:: e] (List.repeat [::] (k + m)) with
    | Some x, Some ([:: cw], ps) => d_words d = pick ids cw /\ d_off d = e_off e /\
        match dec_session c x ps [:: d] (List.repeat 0%N (k + m))
          (mkVscratch (List.repeat 0%num (f_n c)) (List.repeat 0%num (f_l2 c)) (List.repeat 0%num (f_l2 c))) with
        | Some [:: o] => size o = k /\ o <> e_words e | _ => False end
    | _, _ => False end]
  | None => False end.
Proof.
  have W : gfp_width 32 1 by left; split=> //=; auto.
  move=> nh [<-|[<-|[]]].
  - exists 2%N, 2%N, [:: 3; 0]%N, (EWord 0 [:: 17; 1]%num (fun _ => 0%num) (List.repeat 0%num 4)),
      (DWord 0 [:: 33; 18]%num (fun _ => 0%num) (fun _ => 0%num) (fun _ => 0%num)); split.
    + split=> //; split; first by do ! constructor; case=> // -[].
      by move=> i [<-|[<-|[]]].
    + by vm_compute; do ! split; [do ! constructor|].
  - exists 3%N, 2%N, [:: 1; 2; 0]%N, (EWord 0 [:: 255; 1; 3]%num (fun _ => 0%num) (List.repeat 0%num 8)),
      (DWord 0 [:: 14; 236; 2]%num (fun _ => 0%num) (fun _ => 0%num) (fun _ => 0%num)); split.
    + split=> //; split; first by do ! constructor; case=> // -[] // [].
      by move=> i [<-|[<-|[<-|[]]]].
    + by vm_compute; do ! split; [do ! constructor|].
Qed.

(** ** Cases *)
(** Two data and two parities over GF(257).  The second word has a value out of range, 256, in the fragment 0. *)
Example C42_case : gfp_build_ok 2 32 1 2 /\ gfp_width 32 1 /\ gfp_sizes 1 2 2 /\ match gfp_new 2 32 1 2 2 with
  | Some c => f_n c = 4%N /\ f_l2 c = 4%N /\
    let e o ws := EWord o ws (fun _ => 5%num) (List.repeat 6%num 4) in
    let d o ws := DWord o ws (fun _ => 8%num) (fun _ => 9%num) (fun _ => 4%num) in
    match fctx_new c [:: 3; 0]%N (fun _ => 9%num) (List.repeat 1%num 4) (fun _ => 3%num) (List.repeat 2%num 4),
          enc_session c [:: e 0%num [:: 17; 1]%num; e 7%num [:: 255; 1]%num] (List.repeat [::] 4) with
    | Some x, Some (cws, ps) => cws = [:: [:: 18; 1; 16; 33]; [:: 0; 239; 254; 14]]%num /\
        ps = [:: [:: (7, 1)]; [::]; [::]; [::]]%num /\
        dec_session c x ps [:: d 0%num [:: 33; 18]%num; d 7%num [:: 14; 0]%num] (List.repeat 0%N 4)
          (mkVscratch (List.repeat 1%num 4) (List.repeat 2%num 4) (List.repeat 3%num 4)) =
            Some [:: [:: 17; 1]; [:: 255; 1]]%num
    | _, _ => False end
  | None => False end.
Proof. split; [by split=> //; right|split; [by left; split=> //=; auto|split; [by []|by vm_compute; do ! split]]]. Qed.

Print Assumptions C42_rs_gfp_fft_partial.
Print Assumptions C42_word3_refuted.
Print Assumptions C42_long_data_refuted.
Print Assumptions C42_simd_refuted.
