(** Model of the Reed-Solomon code over Fermat fields: src/fec_rs_fnt.h, src/fec_context.h and the packet functions of
    src/fec_base.h.  Proof-free. *)
From Coq Require Import List NArith ZArith Arith Bool.
From Verif.Model Require Import Common Arith Ring Fft2n Radix2 Poly Props Simd.
Import ListNotations.
Open Scope nat_scope.

(** Members used by the code: fec_base.h:91-105, 240-259 and fec_rs_fnt.h:53-66.
    [c_rpow] is [r_powers]; [inv_r_powers] is computed by the constructor but never read.
    The last three are the functions that have SIMD specialisations: transforms on buffers, RingModN::hadamard_mul,
    RsFnt::encode_post_process on buffers (number of fragments, threshold, offset, packets). *)
Record fnt := mkFnt {
  c_sys : bool;
  c_ws : nat;
  c_k : nat;
  c_m : nat;
  c_pkt : nat;
  c_G : gfops;
  c_n : nat;
  c_r : N;
  c_fft : radix2;
  c_fft2k : radix2;
  c_rpow : list N;
  c_K : kernels (list N);
  c_had : list N -> list N -> list N;
  c_post : nat -> N -> N -> list (list N) -> list props -> list props
}.

(** [len_2k], fec_rs_fnt.h:121 and fec_context.h:88 (the same computation). *)
Definition c_l2 (c : fnt) : nat := r_n (c_fft2k c).
(** fec_context.h:89 *)
Definition c_max (c : fnt) : nat := Nat.max (c_n c) (c_l2 c).
(** [n_outputs], fec_base.h:312-313. *)
Definition c_nout (c : fnt) : nat := if c_sys c then c_m c else c_k c + c_m c.
(** get_n_outputs(), fec_rs_fnt.h:165-168: the number of buffers given to [encode]. *)
Definition c_outlen (c : fnt) : nat := if c_sys c then c_m c else c_n c.
(** card - 1 *)
Definition c_h (c : fnt) : N := (g_card (c_G c) - 1)%N.

(** One packet of encode_post_process, fec_rs_fnt.h:262-267. *)
Fixpoint scan (thres : N) (offset : N) (chunk : list N) : props :=
  match chunk with
  | [] => []
  | v :: t =>
      (if (N.land v thres =? 0)%N then [] else [(offset, OOR_MARK)]) ++ scan thres (offset + 1) t
  end.

(** encode_post_process on Buffers without SIMD, fec_rs_fnt.h:253-269. *)
Definition plain_post (nout : nat) (thres offset : N) (output : list (list N)) (ps : list props) : list props :=
  map (fun i => get [] ps i ++ scan thres offset (get [] output i)) (seq 0 nout).

(** [nh] is the build: 0 without SIMD, 1 with simd_128.h, 2 with simd_256.h (simd.h:55-60). *)
Definition fnt_make (nh : nat) (w : N) (sys : bool) (ws k m pkt : nat) (G : gfops) (n : nat) (r : N) (f f2 : radix2)
    (rpow : list N) : fnt :=
  match nh, simd_size w with
  | S _, Some e =>
      mkFnt sys ws k m pkt G n r f f2 rpow (simd_kernels e nh G pkt) (simd_hadamard e nh (g_card G))
        (simd_post e nh pkt)
  | _, _ =>
      mkFnt sys ws k m pkt G n r f f2 rpow (plain (sym_pkt G pkt)) (map2 (g_mul G)) plain_post
  end.

(** Constructor: fec_rs_fnt.h:69-163, fec_base.h:298-316 and 261-268.  [w] is the number of bits of [T],
    [nh] the build.
    [None]: a failed assertion or an exception. *)
Definition fnt_new (nh : nat) (w : N) (sys : bool) (ws k m pkt : nat) : option fnt :=
  if 4 <=? ws then None
  else
    let p := wrap w (2 ^ (8 * N.of_nat ws) + 1)%N in
    let G := prime_ops w p in
    match find_primitive_root w G with
    | None => None
    | Some root =>
      match jacobi 100 (Z.of_N root) (Z.of_N p) with
      | Some (-1)%Z =>
        match ring_code_len_high_compo w p (N.of_nat (k + m)), ceil2 (N.of_nat k) with
        | Some n, Some dl =>
          let r := get_nth_root G root n in
          if (p <=? 2 * N.of_nat k)%N then None
          else
            match radix2_new G p root (N.to_nat n) (N.to_nat dl), ring_code_len_high_compo w p (2 * N.of_nat k) with
            | Some f, Some l2 =>
              match radix2_new G p root (N.to_nat l2) (N.to_nat l2) with
              | Some f2 =>
                  Some (fnt_make nh w sys ws k m pkt G (N.to_nat n) r f f2
                          (map (fun i => g_exp G r (N.of_nat i)) (seq 0 (N.to_nat n))))
              | None => None
              end
            | _, _ => None
            end
        | _, _ => None
        end
      | _ => None
      end
    end.

(** ** Decoding context: fec_context.h *)

(** What the context holds and never changes: the indices of the fragments, 1/(x_i A'(x_i)) and FFT_2k(A). *)
Record ctx := mkCtx { x_ids : list nat; x_invA : list N; x_A2k : list N }.

(** fec_context.h:235-243: the product of the [X - x_i]. *)
Definition ctx_A (G : gfops) (n : nat) (vx : list N) : option poly :=
  fold_left (fun o x => match o with
                        | Some q => poly_mul_to_x_plus_coef G q (g_sub G 0%N x)
                        | None => None
                        end) vx (poly_set G (poly_zero n) 0 1%N).

(** init_context_dec (fec_base.h:758-793) and DecodeContext::init (fec_context.h:232-274).  [junk1] and [junk2] are the
    contents of the freshly allocated vectors [_A_fft] and [A_fft_2k]. *)
Definition ctx_new (c : fnt) (ids : list nat) (junk1 junk2 : list N) : option ctx :=
  let G := c_G c in
  let vx := map (get 0%N (c_rpow c)) ids in
  match ctx_A G (c_n c) vx with
  | None => None
  | Some A =>
    match poly_derivative G (g_card G) A with
    | None => None
    | Some A' =>
        let Afft := r2_fft_vec (sym_vec G) (c_fft c) junk1 (p_buf A') in
        let inv := map (fun jx => g_inv G (g_mul G (get 0%N Afft (fst jx)) (snd jx))) (combine ids vx) in
        let A2 := map (get 0%N (p_buf A)) (seq 0 (c_l2 c)) in
        Some (mkCtx ids inv (r2_fft_vec (sym_vec G) (c_fft2k c) junk2 A2))
    end
  end.

(** ** Packet functions, for symbols of type [T] *)
(** vec_buffers.h:299-327: buffers at the places given by the map, the zero buffer elsewhere.  (Case [vec_n < n], the
    only one that occurs: [n >= k + m > k].) *)
Definition shuffle {T} (z : T) (ids : list nat) (n : nat) (src : list T) : list T :=
  fold_left (fun v i => set v (get 0 ids i) (get z src i)) (seq 0 (length ids)) (repeat z n).

Section Packets.
Context {T : Type}.
Variable K : kernels T.
Notation S := (k_sym K).
Notation z := (s_zero S).

(** fec_base.h:1438-1447 and fec_rs_fnt.h:225-233.  [b1] is [buf1_2k], [mx] is [buf_max_n_2k] whose first [k] buffers
    are those of [output]. *)
Definition decode_tail (c : fnt) (x : ctx) (b1 mx : list T) : list T * list T :=
  let b2 := k_fft K (c_fft2k c) b1 (firstn (c_k c) mx) in
  let b3 := mul_vec_to_vecp S (c_h c) (x_A2k x) b2 b2 in
  let mx2 := r2_ifft_buf K (c_h c) (c_fft2k c) (firstn (c_l2 c) mx) b3 ++ skipn (c_l2 c) mx in
  (b3, neg_bufs S (firstn (c_k c) mx2) ++ skipn (c_k c) mx2).

(** FecCode::decode_apply, fec_base.h:1418-1448.  [buf1_k] is the first [k] buffers of [buf1_2k], [buf1_n] the shuffled
    ones, [buf2_n] the first [n] buffers of [buf_max_n_2k] (fec_context.h:120-139). *)
Definition decode_apply (c : fnt) (x : ctx) (b1 mx words : list T) : list T * list T :=
  let b1a := mul_vec_to_vecp S (c_h c) (x_invA x) words b1 in
  let mx1 := k_fft_inv K (c_fft c) (firstn (c_n c) mx) (shuffle z (x_ids x) (c_n c) (firstn (c_k c) b1a))
             ++ skipn (c_n c) mx in
  decode_tail c x b1a mx1.

(** RsFnt::decode_data, fec_rs_fnt.h:204-234. *)
Definition decode_data (c : fnt) (x : ctx) (b1 mx words : list T) : list T * list T :=
  let b1a := mul_vec_to_vecp S (c_h c) (x_invA x) words b1 in
  let mx1 := k_fft_inv K (c_fft c) (firstn (c_n c) mx) (firstn (c_k c) b1a) ++ skipn (c_n c) mx in
  decode_tail c x b1a mx1.

(** Buffers that live in the code object between two calls of [encode] (systematic code only): those of the encoding
    context and [suffix_words]. *)
Record escratch := mkEscratch { e_b1 : list T; e_mx : list T; e_suffix : list T }.

(** Transform part of RsFnt::encode, fec_rs_fnt.h:236-249; returns also the words, which the systematic encoder
    overwrites. *)
Definition encode_words (c : fnt) (xe : ctx) (es : escratch) (output words : list T) : escratch * list T * list T :=
  if c_sys c then
    let '(b1, mx) := decode_data c xe (e_b1 es) (e_mx es) words in
    let all := k_fft K (c_fft c) (words ++ output ++ e_suffix es) (firstn (c_k c) mx) in
    (mkEscratch b1 mx (skipn (c_k c + c_m c) all), firstn (c_m c) (skipn (c_k c) all), firstn (c_k c) all)
  else (es, k_fft K (c_fft c) output words, words).

(** Buffers that live between two calls of [decode]: those of the context and [dec_inter_codeword]. *)
Record dscratch := mkDscratch { d_b1 : list T; d_mx : list T; d_inter : list T }.

(** FecCode::decode after decode_prepare, fec_base.h:1346-1355. *)
Definition decode_words (c : fnt) (x : ctx) (ds : dscratch) (words : list T) : dscratch :=
  let '(b1, mx) := decode_apply c x (d_b1 ds) (d_mx ds) words in
  if c_sys c then
    let inter := k_fft K (c_fft c) (d_inter ds) (firstn (c_k c) mx) in
    mkDscratch b1 (firstn (c_k c) inter ++ skipn (c_k c) mx) inter
  else mkDscratch b1 mx (d_inter ds).

End Packets.
Arguments escratch : clear implicits.
Arguments dscratch : clear implicits.

(** ** Special values *)

(** RsFnt::encode on Buffers, fec_rs_fnt.h:236-251. *)
Definition encode_pkt (c : fnt) (xe : ctx) (es : escratch (list N)) (output words : list (list N)) (ps : list props)
    (offset : N) : escratch (list N) * list (list N) * list (list N) * list props :=
  let '(es', out', words') := encode_words (c_K c) c xe es output words in
  (es', out', words', c_post c (c_nout c) (c_h c) offset out' ps).

(** Inner loop of decode_prepare on Buffers, fec_base.h:1382-1402; [i] is the cursor of the fragment. *)
Fixpoint restore (fuel : nat) (ps : props) (thres mn mx : N) (i : nat) (chunk : list N) : nat * list N :=
  match fuel with
  | O => (i, chunk)
  | S f =>
      if props_in_range ps i mn mx then
        let j := N.to_nat (props_location ps i - mn) in
        let chunk' := if (props_marker ps i =? OOR_MARK)%N then set chunk j thres else chunk in
        restore f ps thres mn mx (i + 1) chunk'
      else (i, chunk)
  end.

(** decode_prepare on Buffers, fec_base.h:1361-1404: new cursors and words. *)
Definition decode_prepare (c : fnt) (ids : list nat) (ps : list props) (offset : N)
    (cur : list nat) (words : list (list N)) : list nat * list (list N) :=
  fold_left (fun st i =>
      let '(cur, words) := st in
      let frag := get 0 ids i in
      if c_sys c && (frag <? c_k c) then (cur, words)
      else
        let q := if c_sys c then frag - c_k c else frag in
        let pq := get [] ps q in
        let '(i', chunk) := restore (S (length pq)) pq (c_h c) offset (offset + N.of_nat (c_pkt c))
                              (get 0 cur q) (get [] words i) in
        (set cur q i', set words i chunk))
    (seq 0 (c_k c)) (cur, words).

(** FecCode::decode on Buffers, fec_base.h:1336-1355. *)
Definition decode_pkt (c : fnt) (x : ctx) (ds : dscratch (list N)) (ps : list props) (offset : N) (cur : list nat)
    (words : list (list N)) : list nat * dscratch (list N) :=
  let '(cur', words') := decode_prepare c (x_ids x) ps offset cur words in
  (cur', decode_words (c_K c) c x ds words').

(** ** Vector functions, used word by word by the horizontal stream functions *)

(** encode_post_process on a Vector, fec_rs_fnt.h:188-202: a special symbol is recorded and replaced by 0. *)
Definition post_process_vec (c : fnt) (offset : N) (output : list N) (ps : list props) : list N * list props :=
  fold_left (fun st i =>
      let '(o, ps) := st in
      if (N.land (get 0%N o i) (c_h c) =? 0)%N then (o, ps)
      else (set o i 0%N, set ps i (props_add (get [] ps i) offset OOR_MARK)))
    (seq 0 (c_nout c)) (output, ps).

(** RsFnt::encode on Vectors, fec_rs_fnt.h:178-186. *)
Definition encode_vec (c : fnt) (output : list N) (ps : list props) (offset : N) (words : list N) : list N * list props :=
  post_process_vec c offset (r2_fft_vec (sym_vec (c_G c)) (c_fft c) output words) ps.

(** Vectors of the context that live between two calls (fec_context.h:109-118): [vec2_n], [vec1_2k], [vec2_2k].
    ([vec1_n] is filled with zeros at every call.) *)
Record vscratch := mkVscratch { v_n2 : list N; v_2k1 : list N; v_2k2 : list N }.

(** decode_apply on Vectors, fec_base.h:831-878: the new vectors and the output.  Vector::neg (vec_vector.h:434-439) has no
    SIMD version. *)
Definition decode_apply_vec (c : fnt) (x : ctx) (vs : vscratch) (words : list N) : vscratch * list N :=
  let G := c_G c in
  let S := sym_vec G in
  let n1 := shuffle 0%N (x_ids x) (c_n c) (map2 (g_mul G) words (x_invA x)) in
  let n2 := r2_fft_inv_vec S (c_fft c) (v_n2 vs) n1 in
  let q := firstn (c_k c) n2 ++ repeat 0%N (c_l2 c - c_k c) in
  let a := c_had c (r2_fft_vec S (c_fft2k c) (v_2k1 vs) q) (x_A2k x) in
  let b := map (g_neg G) (r2_ifft_vec G (c_fft2k c) (v_2k2 vs) a) in
  (mkVscratch n2 a b, firstn (c_k c) b).
