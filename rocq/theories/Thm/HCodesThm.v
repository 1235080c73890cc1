(** Horizontal streams with the codes other than the Fermat-field one: property C54. *)
Set Warnings "-notation-overridden,-ambiguous-paths".
From Coq Require Import NArith ZArith Arith.
From Coq Require List Sorted Permutation.
From Verif.Model Require Import Common Arith Ring Radix2 Poly Gf2n Props Fnt Matrix MixedFft FftCodes Additive AddCode Nf4 HCodes.
From Verif.Spec Require Import Session HStreams.
From Verif.Proof Require Import HCodesP HCodesW.
From mathcomp Require Import all_ssreflect.
From mathcomp Require Import zify.
From Verif.Spec Require Import Gf2n Matrix.
From Verif.Proof Require Import FftC.
From Verif.Thm Require Import MatrixThm FftCodesThm AddCodeThm.
Set Implicit Arguments.
Unset Strict Implicit.
Unset Printing Implicit Defensive.

Lemma pow_bytes ws : (256 ^ N.of_nat ws = 2 ^ N.of_nat (8 * ws))%num.
Proof. by rewrite -[256%num]/(2 ^ 8)%num -N.pow_mul_r; congr (_ ^ _)%num; lia. Qed.

Lemma symbols_bytes ws k l : symbols_of ws k l <-> FftCodesThm.symbols (8 * ws) k l.
Proof. by rewrite /symbols_of /FftCodesThm.symbols pow_bytes. Qed.

Lemma sup_words w ws : supported w (8 * N.of_nat ws) -> word_size_ok ws = true.
Proof.
  by move/ws_cases => [->|[->|[->|[->|->]]]].
Qed.

(** ** RsGf2nFft *)
Section Gf2n.
Variables (junk w : N) (ws k m : nat).
Hypothesis sup : supported w (8 * N.of_nat ws).
Hypothesis Hk : (0 < k)%N.
Hypothesis Hm : (0 < m)%N.

Definition dmem_ok (c : fcode) (dm : dmem) : Prop :=
  [/\ size (dm_out1 dm) = f_n c, size (dm_out2 dm) = f_l2 c & vs_len c (dm_vs dm)].

Theorem C54_rs_gf2n_fft : (N.of_nat (k + m) <= smooth_part ws)%num -> (N.of_nat (2 * k) <= smooth_part ws)%num ->
  exists c, gf2n_new junk w ws k m = Some c /\ forall epv,
  let D := fun d => exists dm, dmem_ok c dm /\ d = gf2n_v c ws m epv dm in
  forall e, D e -> streams_back false ws k m e D (fun _ => True) /\ forall d, D d -> streams_too_few false k m d.
Proof.
  move=> H1 H2; have [c [Ec ck kn H]] := C43_rs_gf2n_fft_partial junk w ws k m sup Hk Hm H1 H2.
  exists c; split; [exact: Ec|clear Ec => epv D e De].
  apply: (streams_of_words false ws k m e D _ (fun _ _ => True)) => //; first by lia.
    exact: sup_words sup.
  move=> d [dm [[O1 O2 V] ->]]; case: De => dm' [_ ->].
  do 4 (split; first by rewrite /= ?ck); split=> //; split; last exact: encode_ext.
  apply: memoryless => [t out words ps off /= So /symbols_bytes Sw|data par rps Li La _].
  - have Si : size (List.seq 0 k) = k by rewrite -[size _]/(length _) List.seq_length.
    have [|x [_ X]] := H (List.seq 0 k) (dm_pv1 dm) (dm_out1 dm) (dm_pv2 dm) (dm_out2 dm) Si (List.seq_NoDup k 0) _ O1 O2.
      by move=> i /List.in_seq; lia.
    have [cw [E [Sc Vc] _]] := X (epv t) out words ltac:(by rewrite -ck) So.
    exists cw; rewrite E; split=> //; split=> // q Hq; rewrite pow_bytes.
    by move/List.Forall_forall: Vc; apply; apply: List.nth_In; rewrite -[length _]/(size _) Sc; move: Hq; rewrite /v_nout /= ck; lia.
  - set dd := gf2n_v _ _ _ _ _ in Li La *; have Es : v_sys dd = false by [].
    rewrite ns_ids // in Li *.
    have [||x [Ex X]] := H (v_ap dd data par) (dm_pv1 dm) (dm_out1 dm) (dm_pv2 dm) (dm_out2 dm) _ (v_ap_NoDup dd data par) _ O1 O2.
    + by rewrite -ck.
    + by move=> i /v_ap_lt; rewrite /v_nout /= ck; lia.
    exists (x, dm_vs dm), (List.map props_sort rps), (fun st => st.1 = x /\ vs_len c st.2); split; first by rewrite /= Ex.
    split=> // -[x1 vs] t out1 p1 o1 words cw p2 t' out' ps off [/= -> Hv] /symbols_bytes Sw So.
    case E: (f_transform c (epv t) out1 words) => [cw'|] //= -[<- _] Lo'.
    have [cw2 [E2 _ Y]] := X (epv t) out1 words ltac:(by rewrite -ck) So.
    move: E2; rewrite E => -[?]; subst cw2.
    rewrite ns_recv // ns_ids //.
    case: (dm_pv dm t') => [[p3 p4] p5]; have [vs' [-> Hv']] := Y p3 p4 p5 vs Hv.
    by exists (x, vs').
Qed.
End Gf2n.

(** ** RsGf2nFftAdd *)
Section Add.
Variables (junk w : N) (ws k m : nat).
Hypothesis sup : supported w (8 * N.of_nat ws).
Hypothesis Hk : (0 < k)%N.
Hypothesis Hm : (0 < m)%N.
Hypothesis Hn : (N.of_nat (k + m) <= 2 ^ (8 * N.of_nat ws))%num.

Theorem C54_rs_gf2n_fft_add : (2 * N.of_nat k <= 2 ^ (8 * N.of_nat ws) - 1)%num ->
  exists c, acode_new junk w ws k m = Some c /\
  let D := fun d => exists out0 pS, [/\ size out0 = a_n c, size (p_buf pS) = k & d = add_v junk c ws m out0 pS] in
  forall e, D e -> streams_back false ws k m e D (fun _ => True) /\ forall d, D d -> streams_too_few false k m d.
Proof.
  move=> H2; have [c [Ec ck [ex [Ex Hex]] H]] := C44_rs_gf2n_fft_add junk w ws k m sup Hk Hm Hn H2.
  exists c; split; [exact: Ec|clear Ec => D e De].
  have kn : (k + m <= a_n c)%N by rewrite Ex; lia.
  apply: (streams_of_words false ws k m e D _ (fun _ _ => True)) => //; first by lia.
    exact: sup_words sup.
  move=> d [out0 [pS [So SS ->]]]; case: De => out0' [pS' [_ _ ->]].
  do 4 (split; first by rewrite /= ?ck); split=> //; split; last exact: encode_ext.
  apply: memoryless => [t out words ps off /= Sout /symbols_bytes Sw|data par rps Li La _].
  - have Si : size (List.seq 0 k) = k by rewrite -[size _]/(length _) List.seq_length.
    have [|x [_ X]] := H (List.seq 0 k) out0 Si (List.seq_NoDup k 0) _ So.
      by move=> i /List.in_seq; lia.
    have [cw [E [Sc Vc] _]] := X words out ltac:(by rewrite -ck) Sout.
    exists cw; rewrite E; split=> //; split=> // q Hq; rewrite pow_bytes.
    by move/List.Forall_forall: Vc; apply; apply: List.nth_In; rewrite -[length _]/(size _) Sc; move: Hq; rewrite /v_nout /= ck; lia.
  - set dd := add_v _ _ _ _ _ _ in Li La *; have Es : v_sys dd = false by [].
    rewrite ns_ids // in Li *.
    have [||x [Ex' X]] := H (v_ap dd data par) out0 _ (v_ap_NoDup dd data par) _ So.
    + by rewrite -ck.
    + by move=> i /v_ap_lt; rewrite /v_nout /= ck; lia.
    exists (x, pS), (List.map props_sort rps), (fun st => st.1 = x /\ size (p_buf st.2) = k); split; first by rewrite /= Ex'.
    split=> // -[x1 q] t out1 p1 o1 words cw p2 t' out' ps off [/= -> Hv] /symbols_bytes Sw Sout.
    case E: (aencode junk c out1 words) => [cw'|] //= -[<- _] Lo'.
    have [cw2 [E2 _ Y]] := X words out1 ltac:(by rewrite -ck) Sout.
    move: E2; rewrite E => -[?]; subst cw2.
    rewrite ns_recv // ns_ids //.
    have [q' [-> Hq']] := Y q Hv.
    by exists (x, q').
Qed.
End Add.

(** ** RsGf2n *)
Section Mat.
Variables (junk w : N) (ws k m : nat) (X : bin_ext) (junk' : N).
Hypothesis sup : supported w (8 * N.of_nat ws).
Hypothesis EX : new_bin_ext junk w (8 * N.of_nat ws) = Some X.
Hypothesis Hk : (0 < k)%N.
Hypothesis Hm : (0 < m)%N.
Hypothesis Hn : (N.of_nat (k + m) <= 2 ^ (8 * N.of_nat ws))%num.
Notation gdiv := (fun a b => odef (x_div X a b)).

(** The fragments from which the code built on the Cauchy matrix decodes, see C36. *)
Definition cauchy_pattern (missing : list bool) : Prop :=
  undecodable k m (fun i => negb (List.nth i missing true)) (fun i => negb (List.nth (k + i) missing true)) = false.

Lemma recv_ids G B jk sz D0 data par (d p : list N) : size d = k ->
  List.map (fun id => List.nth id (List.app d p) 0%num) (used_ids k m data par) =
  v_recv (mat_v G gdiv jk sz k m B D0) data par d p.
Proof.
  move=> Sd; rewrite /used_ids List.map_app /v_recv; congr List.app.
    apply: List.map_ext_in => i /List.filter_In [/List.in_seq Hi _]; apply: List.app_nth1; rewrite -[length _]/(size _); lia.
  rewrite List.map_map; apply: List.map_ext => i; rewrite List.app_nth2 -[length d]/(size d) Sd; [congr List.nth|]; lia.
Qed.

Theorem C54_rs_gf2n vdm :
  let D := fun d => exists D0, mat_ok (2 ^ (8 * N.of_nat ws)) k k D0 /\
    d = mat_v (bin_ops X) gdiv junk' ws k m (code_matrix (bin_ops X) gdiv junk' vdm k m) D0 in
  forall e, D e -> streams_back true ws k m e D (fun missing => if vdm then True else cauchy_pattern missing) /\
    forall d, D d -> streams_too_few true k m d.
Proof.
  move=> D e De.
  pose patf (data par : nat -> bool) := if vdm then True else undecodable k m data par = false.
  apply: (streams_of_words true ws k m e D _ patf) => //; first by lia.
  - exact: sup_words sup.
  move=> d [D0 [O0 ->]]; case: De => D0' [_ ->].
  do 5 (split; first by []); split; last exact: encode_ext.
  have Code dd out : length dd = k -> List.Forall (fun a => (a < 2 ^ (8 * N.of_nat ws))%num) dd -> length out = m ->
    exists p, [/\ rs_encode (bin_ops X) (code_matrix (bin_ops X) gdiv junk' vdm k m) out dd = Some p, length p = m,
      List.Forall (fun a => (a < 2 ^ (8 * N.of_nat ws))%num) p &
      forall out' data par, length out' = k -> patf data par ->
      decodes (bin_ops X) gdiv junk' (code_matrix (bin_ops X) gdiv junk' vdm k m) D0 k m dd p out' data par].
    rewrite /patf => Ld Fd Lo; case: (vdm).
    - have [p [E1 [E2 [E3 E4]]]] := C35_code junk w _ X sup EX k m junk' Hk Hn dd out Ld Fd Lo.
      by exists p; split=> // out' data par Lo' _; apply: E4.
    - have [p [E1 [E2 [E3 E4]]]] := C36_partial junk w _ X sup EX k m junk' Hk Hn Hm dd out Ld Fd Lo.
      by exists p; split=> // out' data par Lo' P; apply: E4.
  have E8 : (256 ^ N.of_nat ws = 2 ^ (8 * N.of_nat ws))%num by rewrite pow_bytes; congr (_ ^ _)%num; lia.
  apply: memoryless => [t out words ps off /= Sout [Sw Vw]|data par rps Li La Pt].
  - rewrite E8 in Vw *; have [p [-> Lp Vp _]] := Code words out Sw Vw Sout.
    exists p; split=> //; split=> // q Hq.
    by move/List.Forall_forall: Vp; apply; apply: List.nth_In; rewrite Lp.
  - set c := mat_v _ _ _ _ _ _ _ _ in Li La *.
    have Lid : length (used_ids k m data par) = k by exact: Li.
    have Lad : (length (List.filter data (List.seq 0 k)) < k)%coq_nat by exact: La.
    have Step words out1 out' : symbols_of ws k words -> length out1 = m -> length out' = k ->
        exists p B, [/\ rs_encode (bin_ops X) (code_matrix (bin_ops X) gdiv junk' vdm k m) out1 words = Some p,
          decode_build (bin_ops X) gdiv junk' (code_matrix (bin_ops X) gdiv junk' vdm k m) D0 k m data par = Some (Decode B) &
          rs_decode (bin_ops X) B out' (v_recv c data par words p) = Some words].
      move=> [Sw Vw] Lo1 Lo'; rewrite E8 in Vw; have [p [E1 _ _ E4]] := Code words out1 Sw Vw Lo1.
      have := E4 out' data par Lo' Pt; rewrite /decodes.
      have -> : (Matrix.present k data == k) = false by apply/eqP; rewrite /Matrix.present; lia.
      have -> : (Matrix.present k data + Matrix.present m par < k)%N = false.
        move: Lid; rewrite /used_ids List.app_length List.map_length List.firstn_length /Matrix.present; lia.
      by move=> [B [EB ED]]; exists p, B; split=> //; rewrite -recv_ids.
    have Zs : symbols_of ws k (List.repeat 0%num k).
      split; first by rewrite List.repeat_length.
      by apply/List.Forall_forall => z Hz; rewrite (List.repeat_spec k 0%num z Hz); have := N.pow_nonzero 256 (N.of_nat ws); lia.
    have [p0 [B [_ EB _]]] := Step _ (List.repeat 0%num m) (List.repeat 0%num k) Zs (List.repeat_length _ _) (List.repeat_length _ _).
    exists B, rps, (fun b => b = B); split; first by rewrite /= EB.
    split=> // x t out1 p1 o1 words cw p2 t' out' ps off -> Sw Lo1 Enc Lo'.
    have [p [B' [E1 E2 E3]]] := Step words out1 out' Sw Lo1 Lo'.
    move: E2; rewrite EB => -[?]; subst B'; move: Enc; rewrite /= E1 /= => -[<- _].
    by exists B; rewrite /= E3.
Qed.
End Mat.

(** ** Cases *)
(** Three streams of two bytes; the fragments 1 and 3 are lost, and all the data are wanted but the last. *)
Example C54_gf2n_case : supported 32 (8 * 1) /\ match gf2n_new 7 32 1 3 2 with
  | Some c =>
      let dm := mkDmem (fun _ => 9%num) (List.repeat 1%num 5) (fun _ => 3%num) (List.repeat 2%num 15)
        (mkVscratch (List.repeat 1%num 5) (List.repeat 2%num 15) (List.repeat 3%num 15))
        (fun _ => (fun _ => 8%num, fun _ => 9%num, fun _ => 4%num)) in
      let v := gf2n_v c 1 2 (fun _ _ => 5%num) dm in
      dmem_ok c dm /\ match encode_vstreams v (List.repeat 6%num 5) [:: [:: 17; 1]; [:: 200; 0]; [:: 3; 255]]%num (List.repeat [::] 5)
          (List.repeat [::] 5) with
      | Some (frags, ps) => frags <> List.repeat [::] 5 /\
          option_map fst (decode_vstreams v [:: 0; 0; 0]%num [::] frags ps [:: false; true; false; true; false] [:: true; true; false]
            [:: [:: 7]; [::]; [:: 8]]%num) = Some (true, [:: [:: 7; 17; 1]; [:: 200; 0]; [:: 8]]%num)
      | None => False end
  | None => False end.
Proof. split; [by rewrite /supported /=; lia|by vm_compute; do ! split]. Qed.

Example C54_add_case : supported 32 (8 * 1) /\ match acode_new 7 32 1 3 2 with
  | Some c =>
      let v := add_v 7 c 1 2 (List.repeat 9%num 8) (poly_zero 3) in
      match encode_vstreams v (List.repeat 6%num 8) [:: [:: 17; 1]; [:: 200; 0]; [:: 3; 255]]%num (List.repeat [::] 5)
          (List.repeat [::] 5) with
      | Some (frags, ps) => List.map (fun f => List.nth 0 f 0%num) frags = [:: 17; 144; 38; 167; 218]%num /\
          option_map fst (decode_vstreams v [:: 0; 0; 0]%num [::] frags ps [:: false; true; false; true; false] [:: true; true; false]
            [:: [:: 7]; [::]; [:: 8]]%num) = Some (true, [:: [:: 7; 17; 1]; [:: 200; 0]; [:: 8]]%num)
      | None => False end
  | None => False end.
Proof. split; [by rewrite /supported /=; lia|by vm_compute; do ! split]. Qed.

(** The systematic code: the data 0 and 2 are lost. *)
Example C54_mat_case : match new_bin_ext 0 16 8 with
  | Some X => let gdiv := fun a b => odef (x_div X a b) in let G := bin_ops X in
      let run vdm := let v := mat_v G gdiv 7 1 3 2 (code_matrix G gdiv 7 vdm 3 2) (new_matrix 1 3 3) in
        match encode_vstreams v [:: 9; 9]%num [:: [:: 5; 1]; [:: 200; 0]; [:: 77; 255]]%num (List.repeat [::] 2) (List.repeat [::] 2) with
        | Some (frags, ps) =>
            Some (List.map (fun f => List.nth 0 f 0%num) frags,
              option_map fst (decode_vstreams v [:: 9; 9; 9]%num [:: [::]; [:: 200; 0]; [::]]%num frags ps
                [:: true; false; true; false; false] [:: true; false; true] [:: [:: 7]; [::]; [:: 8]]%num))
        | None => None end in
      run true = Some ([:: 128; 142]%num, Some (true, [:: [:: 7; 5; 1]; [::]; [:: 8; 77; 255]]%num)) /\
      run false = Some ([:: 128; 131]%num, Some (true, [:: [:: 7; 5; 1]; [::]; [:: 8; 77; 255]]%num))
  | None => False end.
Proof. by vm_compute. Qed.

Print Assumptions C54_rs_gf2n_fft.
Print Assumptions C54_rs_gf2n_fft_add.
Print Assumptions C54_rs_gf2n.
