(** Model of src/gf_nf4.h and src/gf_nf4.cpp, the field NF4 of words made of [n] elements of GF(65537), each in 32 bits, of
    src/simd_nf4.h, and of src/fec_rs_nf4.h, the Reed-Solomon code over that field.  Proof-free.  [None]: failed assertion
    or exception.  [w] is the number of bits of the unsigned type [T] (32, 64 or 128), [n] the number of elements of a word.
    Indices of the scratch arrays go beyond [size()] of vectors that have only been reserved (gf_nf4.h:130-131); they are
    taken to be arrays of [n] elements. *)
From Coq Require Import List NArith ZArith Arith Bool.
From Verif.Model Require Import Common Arith Ring Fft2n Radix2 Poly Props Bytes Simd Fnt.
Import ListNotations.
Open Scope N_scope.

(** The sub-field: gf_nf4.h:119. *)
Definition F4 : gfops := prime_ops 32 65537.

(** The generic functions, or the specialisations for __uint128_t of gf_nf4.cpp with registers of [nh] halves of 128 bits.
    [hi x]: the contents, not defined, of the upper half of a register of 256 bits in which the word [x] has been loaded
    (simd_nf4.h:162-171). *)
Inductive build := Plain | Wide (nh : nat) (hi : N -> list N).

(** ** Elements of a word *)

(** [narrow_cast<uint32_t>(a)], then [a = (a >> 16) >> 16], as the loops of gf_nf4.h:215-331 read a word. *)
Fixpoint split32 (n : nat) (a : N) : list N :=
  match n with O => [] | S m => wrap 32 a :: split32 m (N.shiftr (N.shiftr a 16) 16) end.
(** [a & MASK16], then [a >> 16], as in gf_nf4.h:355-382; [_mm_extract_epi16] in simd_nf4.h:125-157. *)
Fixpoint split16 (n : nat) (a : N) : list N :=
  match n with O => [] | S m => N.land a 65535 :: split16 m (N.shiftr a 16) end.

Section Word.
Variables (B : build) (w : N) (n : nat).

(** Words and registers of bytes: simd_nf4.h:40-49, 160-176, 257-262. *)
Definition word_bytes (a : N) : list N := bytes_of_word 16 a.
Definition bytes_word (l : list N) : N := word_of_bytes (firstn 16 l).
(** _mm_set_epi32 and _mm_set_epi16, from the least significant element, 16 or 32 bits wide; the other elements are 0. *)
Definition set_epi (bytes : nat) (l : list N) : N := bytes_word (unpack_buf bytes l ++ repeat 0 (16 - bytes * length l)).
(** simd_nf4.h:178-202, 265-290 *)
Definition simd_op (nh : nat) (hi : N -> list N) (f : list N -> list N -> list N) (a b : N) : N :=
  let load x := word_bytes x ++ (if Nat.eqb nh 2 then hi x else []) in
  bytes_word (f (load a) (load b)).

(** gf_nf4.h:151-158.  [arr[n - 1]] is read first; starting from 0 gives the same.  SIMD: simd_nf4.h:52-61. *)
Definition expand16 (arr : list N) : N :=
  match B with
  | Plain => fold_right (fun x c => N.lor (wrap w (N.shiftl c 16)) x) 0 arr
  | Wide _ _ => set_epi 2 (firstn 4 arr)
  end.
(** gf_nf4.h:161-168 and simd_nf4.h:63-72 *)
Definition expand32 (arr : list N) : N :=
  match B with
  | Plain => fold_right (fun x c => N.lor (wrap w (N.shiftl (wrap w (N.shiftl c 16)) 16)) x) 0 arr
  | Wide _ _ => set_epi 4 (firstn 4 arr)
  end.

(** gf_nf4.h:181-188 *)
Definition replicate (a : N) : N :=
  Nat.iter (n - 1) (fun b => N.lor (wrap w (N.shiftl (wrap w (N.shiftl b 16)) 16)) a) a.

(** [card()] and [card_minus_one()]: gf_nf4.h:127-128, 191-200 *)
Definition nf4_q : N := replicate 65537.
Definition nf4_h : N := replicate 65536.
(** gf_nf4.h:126, 203-206 *)
Definition nf4_unit : N := replicate 1.

Definition lanewise (f : N -> N -> N) (a b : N) : N := expand32 (map2 f (split32 n a) (split32 n b)).

(** gf_nf4.h:215-229: the sum of [uint32_t].  SIMD: gf_nf4.cpp:50-55, simd_nf4.h:178-185. *)
Definition lane_add (a b : N) : N := wrap 32 (a + b) mod 65537.
Definition nf4_add (a b : N) : N :=
  match B with Plain => lanewise lane_add a b | Wide nh hi => simd_op nh hi (mod_add 4 nh) a b end.
(** gf_nf4.h:232-250.  SIMD: gf_nf4.cpp:57-61, simd_nf4.h:187-194. *)
Definition lane_sub (a b : N) : N := if b <=? a then a - b else wrap 32 (65537 + a + 2 ^ 32 - b).
Definition nf4_sub (a b : N) : N :=
  match B with Plain => lanewise lane_sub a b | Wide nh hi => simd_op nh hi (mod_sub 4 nh) a b end.
(** gf_nf4.h:253-271: the product is a [uint64_t].  SIMD: gf_nf4.cpp:63-67, simd_nf4.h:196-203. *)
Definition lane_mul (a b : N) : N := if (a =? 65536) && (b =? 65536) then 1 else wrap 64 (a * b) mod 65537.
Definition nf4_mul (a b : N) : N :=
  match B with Plain => lanewise lane_mul a b | Wide nh hi => simd_op nh hi (mod_mul_safe 4 nh) a b end.
(** gf_nf4.h:209-212 *)
Definition nf4_neg (a : N) : N := nf4_sub 0 a.
(** gf_nf4.h:274-287 *)
Definition nf4_div : N -> N -> N := lanewise (ring_div 32 65537).
(** gf_nf4.h:290-300 *)
Definition nf4_inv (a : N) : N := expand32 (map (g_inv F4) (split32 n a)).
(** gf_nf4.h:303-316 *)
Definition nf4_exp : N -> N -> N := lanewise (g_exp F4).
(** gf_nf4.h:319-332.  [None]: NoSolution in one of the elements. *)
Fixpoint all_some {A} (l : list (option A)) : option (list A) :=
  match l with
  | [] => Some []
  | o :: t => match o, all_some t with Some x, Some r => Some (x :: r) | _, _ => None end
  end.
Definition nf4_log (a b : N) : option N :=
  option_map expand32 (all_some (map2 (log_naive (g_exp F4) 65537) (split32 n a) (split32 n b))).

(** gf_nf4.h:458-461 *)
Definition nf4_check (a : N) : bool := a <? nf4_q.

Definition nf4_ops : gfops := Gfops nf4_q nf4_add nf4_sub nf4_mul nf4_neg nf4_inv nf4_exp.

(** Vector::hadamard_mul: gf_nf4.h:484-489.  SIMD: gf_nf4.cpp:69-73, simd_nf4.h:345-365, where registers of [nh] words are
    followed by the words left over (225-235). *)
Definition nf4_hadamard (x y : list N) : list N :=
  match B with
  | Plain => map2 nf4_mul x y
  | Wide nh hi =>
      let vec := Nat.div (length x) nh in
      let reg l i := unpack_buf 16 (slice l (i * nh) nh) in
      flat_map (fun i => pack_buf 16 nh (mod_mul_safe 4 nh (reg x i) (reg y i))) (seq 0 vec)
        ++ map2 nf4_mul (skipn (vec * nh) x) (skipn (vec * nh) y)
  end.

(** The words of 16-bit numbers are read by [n] (gf_nf4.h), or always by 4 (simd_nf4.h). *)
Definition n16 : nat := match B with Plain => n | Wide _ _ => 4%nat end.
(** gf_nf4.h:355-366, simd_nf4.h:125-135 *)
Definition pack (a : N) : N := expand32 (split16 n16 a).
(** gf_nf4.h:372-384, simd_nf4.h:137-157: [flag >>= 1] at every turn. *)
Fixpoint flagged (flag : N) (l : list N) : list N :=
  match l with [] => [] | x :: t => (if N.odd flag then 65536 else x) :: flagged (N.shiftr flag 1) t end.
Definition pack_flag (a flag : N) : N := expand32 (flagged flag (split16 n16 a)).

(** gf_nf4.h:391-446, both versions: the values and the flag.  The elements become [uint16_t].  In simd_nf4.h:74-123 the flag
    is made of the upper halves [ai[1]], [ai[3]], ... of the elements and the values of their lower halves. *)
Fixpoint flag_of (i : N) (l : list N) : N :=
  match l with [] => 0 | x :: t => N.lor (if x =? 65536 then N.shiftl 1 i else 0) (flag_of (i + 1) t) end.
Definition unpack (a : N) : N * N :=
  match B with
  | Plain =>
      let l := split32 n a in
      (expand16 (map (fun x => if x =? 65536 then 0 else wrap 16 x) l), flag_of 0 l)
  | Wide _ _ =>
      let ai := get 0 (split16 8 a) in
      let bit i := if ai i =? 0 then 0 else 1 in
      (set_epi 2 [ai 0%nat; ai 2%nat; ai 4%nat; ai 6%nat],
       N.lor (N.lor (N.lor (ai 1%nat) (N.shiftl (bit 3%nat) 1)) (N.shiftl (bit 5%nat) 2)) (N.shiftl (bit 7%nat) 3))
  end.

(** ** Roots and powers *)

(** gf_nf4.h:450-455; [root] is the primitive root of the sub-field. *)
Definition nf4_nth_root (root d : N) : N := replicate (get_nth_root F4 root (wrap 32 d)).
(** gf_nf4.h:470-475 *)
Definition nf4_omegas (len : nat) (r : N) : list N := map (fun i => nf4_exp r (replicate (N.of_nat i))) (seq 0 len).
(** gf_nf4.h:135-138 with gf_base.h:116-119, whose [inv] is that of NF4 and whose modulus is 65537. *)
Definition nf4_inv_n (d : N) : N := replicate (nf4_inv d mod 65537).

(** The constructor's search of a primitive root (gf_ring.h:625-660, called by gf::alloc): [RingModN::exp] with the product
    and the [card_minus_one] of NF4.  The result is not used. *)
Definition nf4_search : option N :=
  find_primitive_root w (Gfops (nf4_h + 1) nf4_add nf4_sub nf4_mul nf4_neg nf4_inv (exp_quick nf4_mul)).

(** NF4(n): gf_nf4.h:116-132, 145-148 *)
Definition nf4_field : bool :=
  (N.of_nat n <=? w / 32) && match nf4_search with Some _ => true | None => false end.

(** Radix2 over NF4: fft_2n.h:176-208 with fft_base.h:94-113; [get_p()] is 65537. *)
Definition nf4_radix2 (root : N) (len data_len : nat) : option radix2 :=
  if Nat.ltb len data_len then None
  else if negb (65536 mod N.of_nat len =? 0) then None
  else
    let r := nf4_nth_root root (N.of_nat len) in
    let inv_r := nf4_inv r in
    Some (mkRadix2 len (if Nat.ltb 0 data_len then data_len else len) r inv_r
            (nf4_omegas len r) (nf4_omegas len inv_r) (init_bitrev len) (nf4_inv_n (N.of_nat len))).

(** vec_poly.h:151-160 *)
Definition poly_derivative_nf4 (q : poly) : option poly :=
  if (p_deg q <? 0)%Z then None
  else
    let d := Z.to_nat (p_deg q) in
    let b := fold_left (fun b i => set b (i - 1) (nf4_mul (replicate (N.of_nat i mod 65537)) (get 0 b i)))
               (seq 1 d) (p_buf q) in
    Some (mkPoly (set b d 0) (p_deg q - 1)).
End Word.

(** ** The code *)
Open Scope nat_scope.

(** Members: the build, the width of [T], [gf_n], [n_data], [code_len], [n], [r], [fft] and [fft_2k].  The vectors
    [r_powers] and [inv_r_powers] (fec_rs_nf4.h:98-113) are only tested for being there. *)
Record nf4code := mkNf4code { nf_B : build; nf_w : N; nf_e : nat; nf_k : nat; nf_len : nat; nf_n : nat; nf_r : N;
  nf_fft : radix2; nf_fft2k : radix2 }.
Definition nf_G (c : nf4code) : gfops := nf4_ops (nf_B c) (nf_w c) (nf_e c).
(** [len_2k]: fec_rs_nf4.h:93 and fec_context.h:88 *)
Definition nf_l2 (c : nf4code) : nat := r_n (nf_fft2k c).

(** fec_rs_nf4.h:50-96.  [wrap 32]: [len_2k] is [unsigned]. *)
Definition nf4_new (B : build) (w : N) (ws k m : nat) : option nf4code :=
  if (ws <? 2) || (8 <? ws) then None
  else
    let e := ws / 2 in
    match find_primitive_root 32 F4 with
    | None => None
    | Some root =>
        if nf4_field B w e then
          match ring_code_len_high_compo 32 65537 (N.of_nat (k + m)), ceil2 (N.of_nat k),
                ring_code_len_high_compo w (nf4_h w e + 1) (N.of_nat (2 * k)) with
          | Some n, Some dl, Some l2 =>
              let n := N.to_nat n in
              let l2 := N.to_nat (wrap 32 l2) in
              match nf4_radix2 B w e root n (N.to_nat dl), nf4_radix2 B w e root l2 l2 with
              | Some f, Some f2 => Some (mkNf4code B w e k (k + m) n (nf4_nth_root w e root (N.of_nat n)) f f2)
              | _, _ => None
              end
          | _, _, _ => None
          end
        else None
    end.

Section Code.
Variable c : nf4code.
Notation B := (nf_B c).
Notation w := (nf_w c).
Notation e := (nf_e c).
Notation G := (nf_G c).

(** encode_post_process: fec_rs_nf4.h:143-162. *)
Definition nf4_post (offset : N) (output : list N) (ps : list props) : list N * list props :=
  fold_left (fun st i =>
      let '(o, ps) := st in
      let '(v, flag) := unpack B w e (get 0%N o i) in
      (set o i v, if (0 <? flag)%N then set ps i (props_add (get [] ps i) offset flag) else ps))
    (seq 0 (nf_len c)) (output, ps).
(** encode: fec_rs_nf4.h:128-141: the words are replaced by packed ones. *)
Definition nf4_encode (out : list N) (ps : list props) (offset : N) (words : list N) : list N * list props :=
  nf4_post offset (r2_fft_vec (sym_vec G) (nf_fft c) out (map (pack B w e) words)) ps.

(** fec_context.h:233-243 *)
Definition nf4_ctx_A (vx : list N) : option poly :=
  fold_left (fun o x => match o with
                        | Some q => poly_mul_to_x_plus_coef G q (g_sub G 0%N x)
                        | None => None
                        end) vx (poly_set G (poly_zero (nf_n c)) 0 (replicate w e 1)).
(** init_context_dec (fec_rs_nf4.h:176-216) and DecodeContext (fec_context.h:64-107, 232-274). *)
Definition nf4_ctx (ids : list nat) (junk1 junk2 : list N) : option ctx :=
  let vx := map (fun i => nf4_exp B w e (nf_r c) (replicate w e (N.of_nat i))) ids in
  match nf4_ctx_A vx with
  | None => None
  | Some A =>
      match poly_derivative_nf4 B w e A with
      | None => None
      | Some A' =>
          let Afft := r2_fft_vec (sym_vec G) (nf_fft c) junk1 (p_buf A') in
          let inv := map (fun jx => g_inv G (g_mul G (get 0%N Afft (fst jx)) (snd jx))) (combine ids vx) in
          let A2 := map (get 0%N (p_buf A)) (seq 0 (nf_l2 c)) in
          Some (mkCtx ids inv (r2_fft_vec (sym_vec G) (nf_fft2k c) junk2 A2))
      end
  end.

(** decode_prepare: fec_rs_nf4.h:218-238.  [cur] is [props_indices]. *)
Definition nf4_prepare (ids : list nat) (ps : list props) (offset : N) (cur : list nat) (words : list N)
  : list nat * list N :=
  fold_left (fun st i =>
      let '(cur, words) := st in
      let j := get 0 ids i in
      if props_is_marked (get [] ps j) (get 0 cur j) offset then
        (set cur j (get 0 cur j + 1),
         set words i (pack_flag B w e (get 0%N words i) (props_marker (get [] ps j) (get 0 cur j))))
      else (cur, set words i (pack B w e (get 0%N words i))))
    (seq 0 (nf_k c)) (cur, words).

(** FecCode::decode_apply on Vectors: fec_base.h:831-878. *)
Definition nf4_apply (x : ctx) (vs : vscratch) (words : list N) : vscratch * list N :=
  let S := sym_vec G in
  let n1 := shuffle 0%N (x_ids x) (nf_n c) (map2 (g_mul G) words (x_invA x)) in
  let n2 := r2_fft_inv_vec S (nf_fft c) (v_n2 vs) n1 in
  let q := firstn (nf_k c) n2 ++ repeat 0%N (nf_l2 c - nf_k c) in
  let a := nf4_hadamard B w e (r2_fft_vec S (nf_fft2k c) (v_2k1 vs) q) (x_A2k x) in
  let b := map (g_neg G) (r2_ifft_vec G (nf_fft2k c) (v_2k2 vs) a) in
  (mkVscratch n2 a b, firstn (nf_k c) b).

(** decode: fec_base.h:740-753 with fec_rs_nf4.h:240-251. *)
Definition nf4_decode (x : ctx) (vs : vscratch) (ps : list props) (offset : N) (cur : list nat) (words : list N)
  : list nat * vscratch * list N :=
  let '(cur', words') := nf4_prepare (x_ids x) ps offset cur words in
  let '(vs', out) := nf4_apply x vs words' in
  (cur', vs', map (fun a => fst (unpack B w e a)) out).
End Code.
