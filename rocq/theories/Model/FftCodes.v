(** Model of src/fec_rs_gf2n_fft.h and src/fec_rs_gfp_fft.h, the Reed-Solomon codes with a multiplicative transform over
    GF(2^n) and over prime fields, on vectors, with the parts of src/fec_context.h and src/fec_base.h that they use.
    Proof-free.  [None]: failed assertion, exception or undefined behaviour.
    The vectors of a code do not overlap: every transform is run on a memory made of the vectors that belong to the
    transform, the output and the input.  Lengths are [unsigned], [int] or [T]: those of 2^31 or more are not modelled. *)
From Coq Require Import List NArith ZArith Arith Bool.
From Verif.Model Require Import Common Arith Ring Fft2n Radix2 Poly Props Simd Views Gf2n Packets MixedFft Fnt.
Import ListNotations.
Open Scope nat_scope.

(** ** Transforms *)

(** A Radix2, or a CooleyTukey with its [inv_n_mod_p] and the number of cells of its vectors [G]. *)
Inductive tfm := TR (r : radix2) | TC (o : ct) (inv_n : N) (h : nat).

Section Transform.
Variables (w : N) (G : gfops).

(** The elements of a vector. *)
Definition elements (m : memory) (v : vect) : list N :=
  map (fun i => match vget w m v i with Some x => x | None => 0%N end) (seq 0 (get_n v)).

(** A call.  [pv]: contents of the private cells of the transform before it; [out]: those of the output; [inp]: those of
    the vector that is the input, seen through [view]. *)
Definition t_call (rad : radix2 -> list N -> list N -> list N) (cot : ct -> N -> memory -> vect -> vect -> option memory)
    (t : tfm) (pv : nat -> N) (out inp : list N) (view : vect -> vect) : option (list N) :=
  match t with
  | TR r => Some (rad r out (elements inp (view (new_plain 0 (length inp)))))
  | TC o inv_n h =>
      match cot o inv_n (map pv (seq 0 h) ++ out ++ inp) (new_plain h (length out))
              (view (new_plain (h + length out) (length inp))) with
      | Some m => Some (firstn (length out) (skipn h m))
      | None => None
      end
  end.
(** fft: fft_2n.h:269-306, fft_ct.h:213-251 *)
Definition t_fft : tfm -> (nat -> N) -> list N -> list N -> (vect -> vect) -> option (list N) :=
  t_call (r2_fft_vec (sym_vec G)) (fun o _ => ct_fft w G o false).
(** fft_inv: fft_2n.h:321-342, fft_ct.h:253-269 *)
Definition t_fft_inv : tfm -> (nat -> N) -> list N -> list N -> (vect -> vect) -> option (list N) :=
  t_call (r2_fft_inv_vec (sym_vec G)) (fun o _ => ct_fft w G o true).
(** ifft: fft_2n.h:344-353, fft_ct.h:271-283 *)
Definition t_ifft : tfm -> (nat -> N) -> list N -> list N -> (vect -> vect) -> option (list N) :=
  t_call (r2_ifft_vec G) (fun o inv_n => ct_ifft w G o inv_n).

(** CooleyTukey(gf, n, id), which allocates its vectors from the cell 0 on. *)
Definition new_tc (p root : N) (id n : nat) : option tfm :=
  match new_cooley_tukey w G p root id 0 n with Some (o, inv_n, h) => Some (TC o inv_n h) | None => None end.
(** Radix2(gf, n, data_len) *)
Definition new_tr (p root : N) (n data_len : nat) : option tfm := option_map TR (radix2_new G p root n data_len).
End Transform.

(** ** Codes *)

(** Members of the two classes: the width of [T], [gf], its characteristic, [n_data], [code_len] = [n_data + n_parities],
    [n], the length of [fft_2k], [fft], [fft_2k], [r_powers] and [limit_value] (fec_base.h:91-105, 240-259;
    fec_rs_gfp_fft.h:205).  [inv_r_powers] is not used after the constructor.  [f_had]: the function hadamard_mul of the field. *)
Record fcode := mkFcode { f_w : N; f_G : gfops; f_p : N; f_k : nat; f_len : nat; f_n : nat; f_l2 : nat; f_fft : tfm;
  f_fft2k : tfm; f_rpow : list N; f_limit : N; f_had : list N -> list N -> list N }.

Definition int_len (n : N) : option nat := if (n <? 2 ^ 31)%N then Some (N.to_nat n) else None.

(** init_fft and init_others: fec_rs_gf2n_fft.h:69-103 and fec_rs_gfp_fft.h:113-158 for the constructors [t_n] and [t_2k] of
    [fft] and [fft_2k]. *)
Definition fcode_make (w : N) (G : gfops) (p limit : N) (had : list N -> list N -> list N) (root : N) (k m : nat) (t_n t_2k : nat -> option tfm) : option fcode :=
  match ring_code_len_high_compo w (g_card G) (N.of_nat (k + m)), ring_code_len_high_compo w (g_card G) (N.of_nat (2 * k)) with
  | Some n, Some l2 =>
      match int_len n, int_len l2 with
      | Some n, Some l2 =>
          let r := get_nth_root G root (N.of_nat n) in
          match t_n n, t_2k l2 with
          | Some f, Some f2 =>
              Some (mkFcode w G p k (k + m) n l2 f f2 (map (fun i => g_exp G r (N.of_nat i)) (seq 0 n)) limit had)
          | _, _ => None
          end
      | _, _ => None
      end
  | _, _ => None
  end.

(** RsGf2nFft: fec_rs_gf2n_fft.h:50-103.  There is no [limit_value]; hadamard_mul is gf_bin_ext.h:585-594. *)
Definition gf2n_new (junk w : N) (ws k m : nat) : option fcode :=
  if 16 <? ws then None
  else match new_bin_ext junk w (8 * N.of_nat ws) with
  | None => None
  | Some X =>
      let G := bin_ops X in
      match find_primitive_root w G with
      | Some root => fcode_make w G 2 0 (map2 (g_mul G)) root k m (new_tc w G 2 root 0) (new_tc w G 2 root 0)
      | None => None
      end
  end.

(** RsGfpFft: fec_rs_gfp_fft.h:80-158.  [fft_2k] has the length as third argument too (lines 131-138): for a CooleyTukey
    that is the index of the first factor.
    [nh]: the build, see Packets.v. *)
Definition gfp_new (nh : nat) (w : N) (ws k m : nat) : option fcode :=
  if 4 <? ws then None
  else
    let p := wrap w (if (ws <? 4)%nat then 2 ^ (8 * N.of_nat ws) + 1 else 4294991873)%N in
    let limit := wrap w (if (ws <? 4)%nat then 2 ^ (8 * N.of_nat ws) else 4294967296)%N in
    if (limit <=? p)%N && (p / 2 <? limit)%N then
      let G := prime_ops w p in
      match find_primitive_root w G with
      | None => None
      | Some root =>
          match jacobi 100 (Z.of_N root) (Z.of_N p) with
          | Some (-1)%Z =>
              fcode_make w G p limit (ring_hadamard nh w p G) root k m
                (fun n => if is_power_of_2 (N.of_nat n) then new_tr G p root n 0 else new_tc w G p root 0 n)
                (fun n => if is_power_of_2 (N.of_nat n) then new_tr G p root n n else new_tc w G p root n n)
          | _ => None
          end
      end
    else None.

(** The transform of [encode]: fec_rs_gf2n_fft.h:114-122, fec_rs_gfp_fft.h:172-181. *)
Definition f_transform (c : fcode) (pv : nat -> N) (out words : list N) : option (list N) :=
  t_fft (f_w c) (f_G c) (f_fft c) pv out words (fun v => new_zero_ext v (f_n c)).

(** init_context_dec (fec_base.h:758-793) and DecodeContext (fec_context.h:64-107, 232-274).  [pv1], [out1], [pv2], [out2]:
    contents of the memory before the two transforms. *)
Definition fctx_new (c : fcode) (ids : list nat) (pv1 : nat -> N) (out1 : list N) (pv2 : nat -> N) (out2 : list N) : option ctx :=
  let G := f_G c in
  let vx := map (get 0%N (f_rpow c)) ids in
  match ctx_A G (f_n c) vx with
  | None => None
  | Some A =>
      match poly_derivative G (f_p c) A with
      | None => None
      | Some A' =>
          match t_fft (f_w c) G (f_fft c) pv1 out1 (p_buf A') (fun v => v),
                t_fft (f_w c) G (f_fft2k c) pv2 out2 (p_buf A) (fun v => new_zero_ext v (f_l2 c)) with
          | Some Afft, Some A2 =>
              Some (mkCtx ids (map (fun jx => g_inv G (g_mul G (get 0%N Afft (fst jx)) (snd jx))) (combine ids vx)) A2)
          | _, _ => None
          end
      end
  end.

(** decode_apply: fec_base.h:831-878.  [pv1], [pv2], [pv3]: private cells of the transforms before the three calls; [vs]:
    vectors of the context, as in Fnt.v. *)
Definition fdecode_apply (c : fcode) (x : ctx) (pv1 pv2 pv3 : nat -> N) (vs : vscratch) (words : list N)
  : option (vscratch * list N) :=
  let G := f_G c in
  let n1 := shuffle 0%N (x_ids x) (f_n c) (map2 (g_mul G) words (x_invA x)) in
  match t_fft_inv (f_w c) G (f_fft c) pv1 (v_n2 vs) n1 (fun v => v) with
  | None => None
  | Some n2 =>
      match t_fft (f_w c) G (f_fft2k c) pv2 (v_2k1 vs) n2 (fun v => new_zero_ext (new_slice v (f_k c) 0) (f_l2 c)) with
      | None => None
      | Some q =>
          let a := f_had c q (x_A2k x) in
          match t_ifft (f_w c) G (f_fft2k c) pv3 (v_2k2 vs) a (fun v => v) with
          | None => None
          | Some b =>
              let b := map (g_neg G) b in
              Some (mkVscratch n2 a b, firstn (f_k c) b)
          end
      end
  end.

(** ** RsGfpFft: symbols out of range *)

(** encode_post_process: fec_rs_gfp_fft.h:183-196. *)
Definition gfp_post (c : fcode) (offset : N) (output : list N) (ps : list props) : list N * list props :=
  fold_left (fun st i =>
      let '(o, ps) := st in
      if (f_limit c <=? get 0%N o i)%N
      then (set o i (get 0%N o i mod f_limit c)%N, set ps i (props_add (get [] ps i) offset OOR_MARK))
      else (o, ps))
    (seq 0 (f_len c)) (output, ps).
Definition gfp_encode (c : fcode) (pv : nat -> N) (out words : list N) (ps : list props) (offset : N)
  : option (list N * list props) :=
  option_map (fun o => gfp_post c offset o ps) (f_transform c pv out words).

(** decode_prepare: fec_rs_gfp_fft.h:211-231.  [cur] is [props_indices]. *)
Definition gfp_prepare (c : fcode) (ids : list nat) (ps : list props) (offset : N) (cur : list nat) (words : list N)
  : list nat * list N :=
  fold_left (fun st i =>
      let '(cur, words) := st in
      let j := get 0 ids i in
      if props_is_marked (get [] ps j) (get 0 cur j) offset then
        (set cur j (get 0 cur j + 1),
         if N.eqb (props_marker (get [] ps j) (get 0 cur j)) OOR_MARK
         then set words i (wrap (f_w c) (get 0%N words i + f_limit c)) else words)
      else (cur, words))
    (seq 0 (f_k c)) (cur, words).
(** decode: fec_base.h:740-753. *)
Definition gfp_decode (c : fcode) (x : ctx) (pv1 pv2 pv3 : nat -> N) (vs : vscratch) (ps : list props) (offset : N)
    (cur : list nat) (words : list N) : option (list nat * vscratch * list N) :=
  let '(cur', words') := gfp_prepare c (x_ids x) ps offset cur words in
  match fdecode_apply c x pv1 pv2 pv3 vs words' with Some (vs', out) => Some (cur', vs', out) | None => None end.
