(** Matrices over a field and the matrix codes: properties C34, C35 and C36. *)
Set Warnings "-notation-overridden,-ambiguous-paths".
From Coq Require Import NArith Arith.
From Coq Require List.
From Verif.Model Require Import Common Arith Ring Gf2n Matrix.
From Verif.Proof Require Import MatrixL.
From mathcomp Require Import all_ssreflect ssralg finalg poly zmodp matrix mxalgebra.
From mathcomp Require Import zify.
From Verif.Spec Require Import Primes Gf2n Matrix.
From Verif.Proof Require Import Pres FieldP Gf2nF MatrixI MatrixC MatrixK MatrixB MatrixE.
Import GRing.Theory.
Local Open Scope ring_scope.

(** ** C34: inversion *)

(** The result for a square matrix [M] of [n] rows: an inverse on both sides, or the exception and then no matrix is an
    inverse of [M]. *)
Definition inverts (F : fieldType) (h : N -> F) (q : N) (n : nat) (M : Matrix.matrix) (r : option (option Matrix.matrix)) : Prop :=
  match r with
  | Some (Some B) => mat_ok q n n B /\ cells F h n M *m cells F h n B = 1%:M /\ cells F h n B *m cells F h n M = 1%:M
  | Some None => forall C : 'M[F]_n, cells F h n M *m C <> 1%:M
  | None => False
  end.

Lemma inverts_pres (F : fieldType) (G : gfops) (h : N -> F) gdiv : gf_pres F G h ->
  (forall a b, gvalid G a -> gvalid G b -> b <> 0%num -> gvalid G (gdiv a b) /\ h (gdiv a b) = h a / h b) ->
  forall junk n M, mat_ok (g_card G) n n M -> inverts F h (g_card G) n M (minv G gdiv junk M).
Proof.
  move=> Pr Hd junk n M OK; have V := mat_ok_mvd G n n M OK.
  have [o [-> H]] := minv_spec F G h gdiv Pr Hd n junk M (proj1 OK) V.
  rewrite /inverts (cells_mx F h n M (proj1 (proj2 OK))).
  case: o H => [B [VB [H1 H2]]|nu C e].
    have OB := mvd_mat_ok G n n B VB.
    by rewrite (cells_mx F h n B (proj1 (proj2 OB))).
  by move/mulmx1_unit: e => [u _]; rewrite u in nu.
Qed.

Theorem C34_bin junk w n X : supported w n -> new_bin_ext junk w n = Some X ->
  exists (F : finFieldType) (h : N -> F), gf_pres F (bin_ops X) h /\
    forall junk' r M, mat_ok (2 ^ n) r r M ->
      inverts F h (2 ^ n) r M (minv (bin_ops X) (fun a b => odef (x_div X a b)) junk' M).
Proof.
  move=> sup EX; have [F [h [Pr cq Hd _ _]]] := bin_all junk w n X sup EX.
  by exists F, h; split=> // junk' r M; rewrite -cq; apply: inverts_pres.
Qed.

Theorem C34_prime w p : primeN p -> (2 * p <= 2 ^ w)%num -> forall junk r M, mat_ok p r r M ->
  inverts _ (fun a => (N.to_nat a)%:R : 'F_(N.to_nat p)) p r M (minv (prime_ops w p) (ring_div w p) junk M).
Proof.
  move=> Hp Hw; exact: (inverts_pres _ _ _ _ (FieldP.prime_pres w p Hp Hw) (prime_div w p Hp Hw)).
Qed.

(** Cases: a matrix over 256 elements with its inverse, needing an exchange of rows; a singular one; and one over
    the integers modulo 17. *)
Example C34_case : match new_bin_ext 0 16 8 with
  | Some X => let inv l := option_map (option_map m_mem) (minv (bin_ops X) (fun a b => odef (x_div X a b)) 0 (mkMat 2 2 l)) in
      inv [:: 0; 1; 2; 3]%num = Some (Some [:: 0x8f; 0x8e; 1; 0]%num) /\ inv [:: 1; 2; 2; 4]%num = Some None
  | None => False end.
Proof. by vm_compute. Qed.
Example C34_case17 : option_map (option_map m_mem) (minv (prime_ops 32 17) (ring_div 32 17) 0 (mkMat 2 2 [:: 0; 1; 2; 3]%num)) =
  Some (Some [:: 7; 9; 1; 0]%num).
Proof. by vm_compute. Qed.

(** ** C35 and C36: the codes of fec_rs_gf2n.h *)

(** [d ++ p]: all the fragments of the data [d], data then parities.  What decoding does with the ones told by [data]
    and [par]: nothing to do, not enough, or a matrix that gives back [d]. *)
Definition decodes (G : gfops) (gdiv : N -> N -> N) (junk : N) (mat D0 : Matrix.matrix) (k m : nat) (d p out : list N)
    (data par : nat -> bool) : Prop :=
  if (present k data == k)%N then decode_build G gdiv junk mat D0 k m data par = Some Clear
  else if (present k data + present m par < k)%N then decode_build G gdiv junk mat D0 k m data par = Some TooFew
  else exists B, decode_build G gdiv junk mat D0 k m data par = Some (Decode B) /\
         rs_decode G B out (List.map (fun id => List.nth id (List.app d p) 0%num) (used_ids k m data par)) = Some d.

(** The fragments in use are distinct and present, and there are [k] of them when there are enough. *)
Theorem C35_fragments k m data par : let ids := used_ids k m data par in
  List.NoDup ids /\
  (forall id, List.In id ids -> (id < k /\ data id) \/ (k <= id < k + m /\ par (id - k)))%N /\
  ((k <= present k data + present m par)%N -> length ids = k).
Proof.
  move=> ids; split; first exact (used_NoDup k m data par).
  split; last exact (used_enough k m data par).
  by move=> id /used_valid [[H1 H2]|[H1 H2]]; [left|right]; split=> //; lia.
Qed.

Lemma all_cases (F : fieldType) (G : gfops) (h : N -> F) gdiv (k m : nat) mat junk D0 d p out data par : gf_pres F G h ->
  (forall a b, gvalid G a -> gvalid G b -> b <> 0%num -> gvalid G (gdiv a b) /\ h (gdiv a b) = h a / h b) ->
  (0 < k)%N -> mvd G m k mat -> mwf k k D0 -> valid_data G k d -> length out = k ->
  (forall id, (id < k + m)%N -> List.nth id (List.app d p) 0%num = frag G k mat d id) ->
  (length (List.filter data (List.seq 0 k)) <> k -> length (used_ids k m data par) = k ->
    exists B, decode_build G gdiv junk mat D0 k m data par = Some (Decode B)) ->
  decodes G gdiv junk mat D0 k m d p out data par.
Proof.
  move=> Pr Hd k0 V W0 Vd Lo Hf HB; rewrite /decodes.
  have [B1 [B2 _]] := build_spec k m mat (proj1 V) G gdiv junk D0 data par W0.
  case: eqP => [e|ne]; first exact: B1.
  case: ltnP => H.
    by apply: B2 => //; apply/ltP; apply: used_few.
  have [B EB] := HB ne (used_enough k m data par H); exists B; split=> //.
  rewrite (used_frag G k m mat d p data par Hf).
  exact: (dec_sound F G h gdiv Pr Hd k m mat k0 V data par junk D0).
Qed.

Section Codes.
Variables (junk w n : N) (X : bin_ext).
Hypothesis sup : supported w n.
Hypothesis EX : new_bin_ext junk w n = Some X.
Notation G := (bin_ops X).
Notation gdiv := (fun a b => odef (x_div X a b)).
Variables (k m : nat) (junk' : N).
Hypothesis k0 : (0 < k)%N.
Hypothesis km : (N.of_nat (k + m) <= 2 ^ n)%num.

(** Whatever words are encoded, whatever fragments are lost and whatever is left in the matrix and the output, the
    code built from the Vandermonde matrix gives the data back from any [k] fragments. *)
Theorem C35_code d out : length d = k -> List.Forall (fun a => (a < 2 ^ n)%num) d -> length out = m ->
  exists p, rs_encode G (code_matrix G gdiv junk' true k m) out d = Some p /\
    length p = m /\ List.Forall (fun a => (a < 2 ^ n)%num) p /\
    forall D0 out' data par, mat_ok (2 ^ n) k k D0 -> length out' = k ->
      decodes G gdiv junk' (code_matrix G gdiv junk' true k m) D0 k m d p out' data par.
Proof.
  move=> Ld Vd Lo; have [F [h [Pr cq Hd _ _]]] := bin_all junk w n X sup EX; have km' := km; rewrite -cq in km' Vd *.
  have HV := proj1 (vdm_spec F G h Pr k m k0 km' junk' junk').
  have [p [Ep [Lp [Vp Hp]]]] := encode_spec F G h Pr k m _ k0 HV d out Ld Vd Lo.
  exists p; do 3 split=> //; move=> D0 out' data par OD Lo'.
  have [W0 _] := mat_ok_mvd G k k D0 OD.
  apply: (all_cases F G h) => //; first exact: valid_ok.
  by move=> ne en; apply: (vdm_decode F G h _ Pr Hd k m k0 km' junk' junk').
Qed.

(** What the parities are: the values at the points [k], [k + 1], ... of the polynomial of degree less than [k] whose
    values at the points 0, 1, ... are the data. *)
Theorem C35_encoding : exists (F : finFieldType) (h : N -> F), gf_pres F G h /\
  forall d out p, length d = k -> List.Forall (fun a => (a < 2 ^ n)%num) d -> length out = m ->
    rs_encode G (code_matrix G gdiv junk' true k m) out d = Some p ->
    exists P : {poly F}, (size P <= k)%N /\
      forall id, (id < k + m)%N -> h (List.nth id (List.app d p) 0%num) = P.[h (N.of_nat id)].
Proof.
  have [F [h [Pr cq Hd _ _]]] := bin_all junk w n X sup EX; exists F, h; split=> // d out p.
  have km' := km; rewrite -cq in km' * => Ld Vd Lo Ep.
  have HV := proj1 (vdm_spec F G h Pr k m k0 km' junk' junk').
  have [p' [Ep' [_ [_ Hp]]]] := encode_spec F G h Pr k m _ k0 HV d out Ld Vd Lo.
  move: Ep' Ep => -> [?]; subst p'.
  have [P [Hs HP]] := vdm_interp F G h Pr k m k0 km' junk' junk' (fun j => h (List.nth j d 0%num)).
  exists P; split=> // id Hid; rewrite Hp // -HP //.
  by case: (frag_F F G h Pr k m _ k0 HV d id (valid_ok G k d Ld Vd) Hid).
Qed.

Hypothesis m0 : (0 < m)%N.

(** With the Cauchy matrix: the data come back unless the erasures are [undecodable].  Missing: these, see [C36_undecodable]
    and [C36_refuted]. *)
Theorem C36_partial d out : length d = k -> List.Forall (fun a => (a < 2 ^ n)%num) d -> length out = m ->
  exists p, rs_encode G (code_matrix G gdiv junk' false k m) out d = Some p /\
    length p = m /\ List.Forall (fun a => (a < 2 ^ n)%num) p /\
    forall D0 out' data par, mat_ok (2 ^ n) k k D0 -> length out' = k -> undecodable k m data par = false ->
      decodes G gdiv junk' (code_matrix G gdiv junk' false k m) D0 k m d p out' data par.
Proof.
  move=> Ld Vd Lo; have [F [h [Pr cq Hd opp hx]]] := bin_all junk w n X sup EX; have km' := km; rewrite -cq in km' Vd *.
  have HV := proj1 (cauchy_F F G h gdiv Pr Hd opp k m junk' k0 m0 km').
  have [p [Ep [Lp [Vp Hp]]]] := encode_spec F G h Pr k m _ k0 HV d out Ld Vd Lo.
  exists p; do 3 split=> //; move=> D0 out' data par OD Lo' Good.
  have [W0 _] := mat_ok_mvd G k k D0 OD.
  apply: (all_cases F G h) => //; first exact: valid_ok.
  move=> ne en; apply: (dec_complete F G h gdiv Pr Hd k m _ k0 HV data par junk' D0 W0 en ne) => v.
  exact: (kernel_exact F G h gdiv Pr Hd opp hx k m junk' k0 m0 km' data par en v Good).
Qed.

(** These erasures cannot be decoded, though there are enough fragments: [inv] throws. *)
Theorem C36_undecodable D0 data par : mat_ok (2 ^ n) k k D0 -> (k <= present k data + present m par)%N -> undecodable k m data par ->
  decode_build G gdiv junk' (code_matrix G gdiv junk' false k m) D0 k m data par = Some Thrown.
Proof.
  have [F [h [Pr cq Hd opp hx]]] := bin_all junk w n X sup EX; have km' := km; rewrite -cq in km' *.
  move=> OD En Ud; have [W0 _] := mat_ok_mvd G k k D0 OD; have en := used_enough k m data par En.
  have HV := proj1 (cauchy_F F G h gdiv Pr Hd opp k m junk' k0 m0 km').
  have [v [v0 Hv]] := kernel_stuck F G h gdiv Pr Hd opp hx k m junk' k0 m0 km' data par en Ud.
  apply: (dec_singular F G h gdiv Pr Hd k m _ k0 HV data par junk' D0 v W0 en) => //; last by exists 0%N.
  move=> e; move: Ud => /andP [/andP [d0 _] _].
  have : 0%N \in missing k data by rewrite mem_filter d0 mem_iota.
  have := size_missing k data; rewrite e; case: (missing k data) => // a s /= H; lia.
Qed.

(** At most two data lost, or parity 0 not in use, or data 0 there. *)
Theorem C36_decodable data par : (k <= present k data + present m par)%N ->
  (k <= present k data + 2)%N \/ ~ List.In k (used_ids k m data par) \/ data 0%N -> undecodable k m data par = false.
Proof.
  have [F [h [Pr cq Hd opp hx]]] := bin_all junk w n X sup EX; have km' := km; rewrite -cq in km' *.
  move=> En Good; have en := used_enough k m data par En; apply/negP => Ud.
  have [v [v0 Hv]] := kernel_stuck F G h gdiv Pr Hd opp hx k m junk' k0 m0 km' data par en Ud; apply: v0.
  apply: (kernel_zero F G h gdiv Pr Hd opp hx k m junk' k0 m0 km' data par v en) => //.
  case: Good => [Hs|[Hn|H0]]; [left|right; left|right; right=> //].
    by have := size_missing k data; rewrite /present in Hs; lia.
  apply/negP => H0; apply: Hn; rewrite usedE; apply: In_mem; rewrite mem_cat; apply/orP; right; apply/mapP; exists 0%N; rewrite ?addn0 //.
Qed.

(** Whichever matrix is in use, what is decoded is the data: a pattern outside the ones above raises the exception
    of [inv] and never gives wrong data. *)
Theorem C36_sound vdm d out p D0 out' data par B : length d = k -> List.Forall (fun a => (a < 2 ^ n)%num) d -> length out = m ->
  rs_encode G (code_matrix G gdiv junk' vdm k m) out d = Some p -> mat_ok (2 ^ n) k k D0 -> length out' = k ->
  decode_build G gdiv junk' (code_matrix G gdiv junk' vdm k m) D0 k m data par = Some (Decode B) ->
  rs_decode G B out' (List.map (fun id => List.nth id (List.app d p) 0%num) (used_ids k m data par)) = Some d.
Proof.
  have [F [h [Pr cq Hd opp hx]]] := bin_all junk w n X sup EX; have km' := km; rewrite -cq in km' *.
  move=> Ld Vd Lo Ep OD Lo' EB; have [W0 _] := mat_ok_mvd G k k D0 OD.
  have HV : mvd G m k (code_matrix G gdiv junk' vdm k m).
    rewrite /code_matrix; case: vdm {Ep EB}; first exact: (proj1 (vdm_spec F G h Pr k m k0 km' junk' junk')).
    exact: (proj1 (cauchy_F F G h gdiv Pr Hd opp k m junk' k0 m0 km')).
  have [p' [Ep' [_ [_ Hp]]]] := encode_spec F G h Pr k m _ k0 HV d out Ld Vd Lo.
  move: Ep' Ep => -> [?]; subst p'.
  rewrite (used_frag G k m _ d p data par Hp).
  by apply: (dec_sound F G h gdiv Pr Hd k m _ k0 HV data par junk' D0 d out' B W0 (valid_ok G k d Ld Vd) Lo' EB).
Qed.
End Codes.

(** 4 data, 3 parities, 256 elements: without data 0, 1 and 3 the code cannot decode though the 3 parities and data 2
    are there. *)
Definition lost_013 (i : nat) : bool := (i == 2)%N.
Theorem C36_refuted : exists X k m data par, new_bin_ext 0 32 8 = Some X /\ supported 32 8 /\
  (0 < k)%N /\ (N.of_nat (k + m) <= 2 ^ 8)%num /\ (present k data + present m par = k)%N /\
  decode_build (bin_ops X) (fun a b => odef (x_div X a b)) 0
    (code_matrix (bin_ops X) (fun a b => odef (x_div X a b)) 0 false k m) (new_matrix 0 k k) k m data par = Some Thrown.
Proof.
  case E: (new_bin_ext 0 32 8) => [X|]; last by vm_compute in E.
  exists X, 4%N, 3%N, lost_013, xpredT.
  have H : match new_bin_ext 0 32 8 with
           | Some X => match decode_build (bin_ops X) (fun a b => odef (x_div X a b)) 0
                (code_matrix (bin_ops X) (fun a b => odef (x_div X a b)) 0 false 4 3) (new_matrix 0 4 4) 4 3 lost_013 xpredT with
                       | Some Thrown => true | _ => false end
           | None => false end by vm_compute.
  split; first exact: erefl.
  split; first by rewrite /supported /=; lia.
  do 3 (split; first by clear).
  move: H; rewrite E; clear; case: (decode_build _ _ _ _ _ _ _ _ _) => [[| | |B]|] //.
Qed.

(** The same from the rule: 1 xor 2 xor (3 + 1) xor (3 + 3) = 1.  With data 2 lost instead of data 1 the rule does not
    apply. *)
Example C36_undecodable_case : undecodable 4 3 lost_013 xpredT /\ undecodable 4 3 (fun i => i == 1%N) xpredT = false /\
  (4 <= present 4 lost_013 + present 3 xpredT)%N.
Proof. by []. Qed.

(** Cases: with 3 data and 2 parities over 256 elements, the parities, and the data back from fragments 1, 3 and 4. *)
Example C35_case : match new_bin_ext 0 16 8 with
  | Some X => let G := bin_ops X in let gdiv := fun a b => odef (x_div X a b) in
      let run vdm := let mat := code_matrix G gdiv 7 vdm 3 2 in
        match rs_encode G mat [:: 9; 9]%num [:: 5; 200; 77]%num,
              decode_build G gdiv 7 mat (new_matrix 1 3 3) 3 2 (fun i => i == 1%N) xpredT with
        | Some p, Some (Decode B) => Some (p, used_ids 3 2 (fun i => i == 1%N) xpredT,
            rs_decode G B [:: 9; 9; 9]%num (List.map (fun id => List.nth id ([:: 5; 200; 77] ++ p)%num 0%num) [:: 1; 3; 4]%N))
        | _, _ => None
        end in
      run true = Some ([:: 128; 142]%num, [:: 1; 3; 4]%N, Some [:: 5; 200; 77]%num) /\
      run false = Some ([:: 128; 131]%num, [:: 1; 3; 4]%N, Some [:: 5; 200; 77]%num)
  | None => False end.
Proof. by vm_compute. Qed.

Print Assumptions C34_bin.
Print Assumptions C34_prime.
Print Assumptions C35_fragments.
Print Assumptions C35_code.
Print Assumptions C35_encoding.
Print Assumptions C36_partial.
Print Assumptions C36_undecodable.
Print Assumptions C36_decodable.
Print Assumptions C36_sound.
Print Assumptions C36_refuted.
