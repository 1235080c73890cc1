(** Cases of C65: one object writes the fragments, another one of another type and with other memory reads them. *)
Set Warnings "-notation-overridden,-ambiguous-paths".
From Coq Require Import NArith ZArith Arith Lia Bool.
From Coq Require List.
From Verif.Model Require Import Common Arith Ring Radix2 Poly Gf2n Props Fnt Nf4 Matrix MixedFft FftCodes Additive AddCode HCodes Header Cached Driver.
From Verif.Spec Require Import Primes Session HStreams Inter.
From Verif.Thm Require Import GfpThm HCodesThm HCodesGfpThm DriverThm DriverHThm DriverCodesThm DriverNf4Thm DriverGfpThm.
Import List List.ListNotations.
Open Scope nat_scope.

(** [v] writes, [v'] writes the same files, and brings back from three fragments all that [v] wrote. *)
Definition i_case (sys : bool) (v v' : vcode) (l : list nat) : Prop :=
  let run u junk := run_fec u u (repeat junk 3) (repeat junk (v_out u)) h_pfx in
  let fs1 := run v 6%N false h_data in
  let no := n_outs sys 3 2 in
  h_show no (run v' 8%N false h_data) = h_show no fs1 /\
  fragments sys h_pfx 3 2 (h_only (h_kept sys l) fs1) = 3 /\
  h_show no (run v' 8%N true (h_only (h_kept sys l) fs1)) = h_show no fs1 /\
  nth 0 (h_show no fs1) None = Some [17; 1]%N.

Definition i_dm (n l2 : nat) (a : N) : dmem := mkDmem (fun _ => a) (repeat a n) (fun _ => a) (repeat a l2)
  (mkVscratch (repeat a n) (repeat a l2) (repeat a l2)) (fun _ => (fun _ => a, fun _ => a, fun _ => a)).

Example C65_gf2n_case : match gf2n_new 7 32 1 3 2, gf2n_new 9 64 1 3 2 with
  | Some c, Some c' => i_case false (gf2n_v c 1 2 (fun _ _ => 5%N) (i_dm 5 15 1)) (gf2n_v c' 1 2 (fun _ _ => 4%N) (i_dm 5 15 2)) [0; 2; 4]
  | _, _ => False end.
Proof. vm_compute. repeat split. Qed.

Example C65_add_case : match acode_new 7 32 1 3 2, acode_new 200 64 1 3 2 with
  | Some c, Some c' => i_case false (add_v 7 c 1 2 (repeat 9%N 8) (Poly.poly_zero 3)) (add_v 200 c' 1 2 (repeat 1%N 8) (Poly.poly_zero 3)) [0; 2; 4]
  | _, _ => False end.
Proof. vm_compute. repeat split. Qed.

Example C65_mat_case : match new_bin_ext 0 16 8, new_bin_ext 3 64 8 with
  | Some X, Some X' =>
      let v X junk vdm := let gdiv := fun a b => match x_div X a b with Some q => q | None => 0%N end in
        mat_v (bin_ops X) gdiv junk 1 3 2 (code_matrix (bin_ops X) gdiv junk vdm 3 2) (new_matrix 1 3 3) in
      i_case true (v X 7%N true) (v X' 8%N true) [0; 1] /\ i_case true (v X 7%N false) (v X' 8%N false) [0; 1]
  | _, _ => False end.
Proof. vm_compute. repeat split. Qed.

(** Here the fragment 0 has a record. *)
Definition i_case2 (v v' : vcode) (data : files) : Prop :=
  let run u junk := run_fec u u (repeat junk 2) (repeat junk (v_out u)) q_pfx in
  let fs1 := run v 6%N false data in
  q_show (run v' 8%N false data) = q_show fs1 /\ fragments false q_pfx 2 2 (q_only q_kept fs1) = 2 /\
  q_show (run v' 8%N true (q_only q_kept fs1)) = q_show fs1 /\ nth 6 (q_show fs1) None <> Some [].

Example C65_gfp_case : gfp_build_ok 2 32 1 2 /\ gfp_build_ok 0 64 1 2 /\ match gfp_new 2 32 1 2 2, gfp_new 0 64 1 2 2 with
  | Some c, Some c' => i_case2 (gfp_v c 1 2 (fun _ _ => 5%N) (i_dm 4 4 1)) (gfp_v c' 1 2 (fun _ _ => 4%N) (i_dm 4 4 2)) p_data
  | _, _ => False end.
Proof.
  split; [split; [reflexivity|intros _ _; right; reflexivity]|]. split; [split; [reflexivity|intros _ _; left; reflexivity]|].
  vm_compute. repeat split. discriminate.
Qed.

Example C65_nf4_case : match nf4_new Plain 32 2 2 2, nf4_new (Wide 1 (fun _ => repeat 7%N 16)) 128 2 2 2 with
  | Some c, Some c' =>
      let v c a := nf4_v c 2 2 (repeat a (nf_n c)) (repeat a (nf_l2 c)) (mkVscratch (repeat a (nf_n c)) (repeat a (nf_l2 c)) (repeat a (nf_l2 c))) in
      i_case2 (v c 1%N) (v c' 2%N) q_data
  | _, _ => False end.
Proof. vm_compute. repeat split. discriminate. Qed.
