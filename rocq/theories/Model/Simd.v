(** Model of the SIMD builds: src/simd_128.h, src/simd_256.h, src/simd_fnt.h, src/simd_ring.h, src/simd_radix2_fft.h,
    and the specialisations for uint16_t and uint32_t of src/fft_2n.cpp, src/gf_ring.cpp, src/fec_vectorisation.cpp.
    Registers are lists of bytes.  Proof-free. *)
From Coq Require Import List NArith Arith Bool.
From Verif.Model Require Import Common Arith Ring Fft2n Radix2 Props Bytes.
Import ListNotations.
Open Scope nat_scope.

Section Simd.
Variable e : nat.    (* sizeof(T): 2 or 4 *)
Variable nh : nat.   (* 128-bit halves of a register: 1 (simd_128.h, SSE4.1) or 2 (simd_256.h, AVX2) *)

Definition reg : Type := list N.
(** Bits of an element; elements in a register: simd/simd.h:48-56. *)
Definition wbits : N := (8 * N.of_nat e)%N.
Definition countof : nat := 16 * nh / e.

(** ** Instructions: simd_128.h:39-178, simd_256.h:51-192 *)

(** The elements of a register, least significant byte first, and back. *)
Definition lanes (r : reg) : list N := pack_buf e countof r.
Definition of_lanes (l : list N) : reg := unpack_buf e l.
Definition lane2 (f : N -> N -> N) (x y : reg) : reg := of_lanes (map2 f (lanes x) (lanes y)).

Definition set_one (v : N) : reg := of_lanes (repeat v countof).                        (* set1 *)
Definition r_zero : reg := repeat 0%N (16 * nh).                                        (* setzero *)
Definition r_add : reg -> reg -> reg := lane2 (fun a b => wrap wbits (a + b)).          (* add *)
Definition r_sub : reg -> reg -> reg := lane2 (fun a b => wrap wbits (a + 2 ^ wbits - b)). (* sub *)
Definition r_mul : reg -> reg -> reg := lane2 (fun a b => wrap wbits (a * b)).          (* mullo *)
Definition r_min : reg -> reg -> reg := lane2 N.min.                                    (* min_epu *)
Definition r_cmpeq : reg -> reg -> reg :=                                               (* cmpeq *)
  lane2 (fun a b => if (a =? b)%N then (2 ^ wbits - 1)%N else 0%N).
Definition bit_and : reg -> reg -> reg := map2 N.land.                                  (* and *)

(** Byte shift to the right inside every 128-bit half (srli_si128, srli_si256). *)
Definition shiftr (x : reg) (i : nat) : reg :=
  flat_map (fun h => skipn i (slice x (16 * h) 16) ++ repeat 0%N i) (seq 0 nh).
(** blendv_epi8: bytes of [y] where the mask byte has its top bit. *)
Definition blend8 (x y mask : reg) : reg :=
  map (fun i => if N.testbit (get 0%N mask i) 7 then get 0%N y i else get 0%N x i) (seq 0 (16 * nh)).
(** blend_epi16: 16-bit units of [y] where the immediate has a 1, the same for every half. *)
Definition blend16 (x y : reg) (imm : N) : reg :=
  map (fun i => if N.testbit imm (N.of_nat (i mod 16 / 2)) then get 0%N y i else get 0%N x i) (seq 0 (16 * nh)).
(** set1_epi16(0x80): simd_128.h:62, simd_256.h:75. *)
Definition MASK8_LO : reg := unpack_buf 2 (repeat 128%N (8 * nh)).
(** movemask_epi8 *)
Definition msb8_mask (x : reg) : N := fold_right (fun b d => (N.b2n (N.testbit b 7) + 2 * d)%N) 0%N x.
(** testz, and testc of the zero register *)
Definition and_is_zero (x y : reg) : bool := forallb (fun b => (b =? 0)%N) (bit_and x y).
Definition is_zero (x : reg) : bool := forallb (fun b => (b =? 0)%N) x.

(** ** simd_fnt.h *)

(** simd_fnt.h:38-63: the modulus is fixed by the type. *)
Definition vcard : N := if e =? 2 then 257%N else 65537%N.
Definition card_reg : reg := set_one vcard.
Definition card_minus_one_reg : reg := set_one (vcard - 1).
(** simd_fnt.h:65 *)
Definition I_MASK8_LO : N := 85%N.

(** simd_fnt.h:67-91 *)
Definition get_low_half (x : reg) : reg :=
  if e =? 2 then blend8 r_zero x MASK8_LO else blend16 r_zero x I_MASK8_LO.
Definition get_high_half (x : reg) : reg :=
  if e =? 2 then blend8 r_zero (shiftr x 1) MASK8_LO else blend16 r_zero (shiftr x 2) I_MASK8_LO.

(** simd_fnt.h:102-107, 116-121, 129-134 *)
Definition mod_add (x y : reg) : reg := let res := r_add x y in r_min res (r_sub res card_reg).
Definition mod_sub (x y : reg) : reg := let res := r_sub x y in r_min res (r_add res card_reg).
Definition mod_neg (x : reg) : reg := let res := r_sub card_reg x in r_min res (r_sub res card_reg).

(** simd_fnt.h:146-153 *)
Definition mod_mul (x y : reg) : reg :=
  let res := r_mul x y in mod_sub (get_low_half res) (get_high_half res).

(** simd_fnt.h:164-178 *)
Definition mod_mul_safe (x y : reg) : reg :=
  let res := mod_mul x y in
  let cmp := bit_and (r_cmpeq x card_minus_one_reg) (r_cmpeq y card_minus_one_reg) in
  if is_zero cmp then res else r_add res (bit_and (set_one 1) cmp).

(** ** simd_radix2_fft.h: butterflies on registers *)

Inductive ct_gs_case := SIMPLE | NORMAL | EXTREME.

(** simd_radix2_fft.h:47-57; [q] is the cardinal of the field, not that of the type. *)
Definition get_case (r q : N) : ct_gs_case :=
  if (r =? 1)%N then SIMPLE else if (r <? q - 1)%N then NORMAL else EXTREME.

(** simd_radix2_fft.h:72-92 *)
Definition reg_ct (cs : ct_gs_case) (c x y : reg) : reg * reg :=
  match cs with
  | SIMPLE => (mod_add x y, mod_sub x y)
  | EXTREME => (mod_sub x y, mod_add x y)
  | NORMAL => let z := mod_mul c y in (mod_add x z, mod_sub x z)
  end.

(** simd_radix2_fft.h:105-123 *)
Definition reg_gs (cs : ct_gs_case) (c x y : reg) : reg * reg :=
  (mod_add x y,
   match cs with
   | SIMPLE => mod_sub x y
   | EXTREME => mod_sub y x
   | NORMAL => mod_mul c (mod_sub x y)
   end).

(** simd_radix2_fft.h:135-148 *)
Definition reg_gss (cs : ct_gs_case) (c x : reg) : reg :=
  match cs with EXTREME => mod_neg x | NORMAL => mod_mul c x | SIMPLE => x end.

(** ** Rows: packets in memory *)

(** Register [j] of a packet, and the store of a register (aligned accesses). *)
Definition load (row : list N) (j : nat) : reg := of_lanes (map (get 0%N row) (seq (j * countof) countof)).
Definition store (row : list N) (j : nat) (r : reg) : list N :=
  fold_left (fun v t => set v (j * countof + t) (get 0%N (lanes r) t)) (seq 0 countof) row.

(** One turn on registers [j] of several packets: all loads, then the operation, then all stores. *)
Definition reg_turn (F : list reg -> list reg) (rows : list (list N)) (j : nat) : list (list N) :=
  map2 (fun row r => store row j r) rows (F (map (fun row => load row j) rows)).
(** A turn on registers [j] and [j + 1], stored at the end of the turn: simd_radix2_fft.h:186-200, 242-271. *)
Definition reg_turn2 (F : list reg -> list reg) (rows : list (list N)) (j : nat) : list (list N) :=
  let r1 := F (map (fun row => load row j) rows) in
  let r2 := F (map (fun row => load row (j + 1)) rows) in
  map2 (fun row r => store row (j + 1) r) (map2 (fun row r => store row j r) rows r1) r2.
(** [len] registers, two at a time, then the last one: simd_radix2_fft.h:184-211, 239-288 ([end] is [len - 1] in
    natural subtraction). *)
Definition reg_loop (F : list reg -> list reg) (len : nat) (rows : list (list N)) : list (list N) :=
  let js := steps len 0 (len - 1) 2 in
  fold_left (reg_turn F) (seq (2 * length js) (len - 2 * length js)) (fold_left (reg_turn2 F) js rows).

(** [len] registers of [dst] computed from those of [src] and [dst], one at a time. *)
Definition dst_loop (F : reg -> reg -> reg) (js : list nat) (src dst : list N) : list N :=
  fold_left (fun d j => store d j (F (load src j) (load d j))) js dst.
(** Registers visited four at a time, then one at a time: simd_ring.h:56-66, simd_radix2_fft.h:453-489. *)
Definition by_four (len : nat) : list nat :=
  let js := steps len 0 (len - 3) 4 in
  flat_map (fun j => [j; j + 1; j + 2; j + 3]) js ++ seq (4 * length js) (len - 4 * length js).

(** ** simd_ring.h.  [card] is that of the field; the last elements are computed as without SIMD. *)

Definition vec_len (n : nat) : nat := n / countof.
Definition tail_len (n : nat) : nat := n - vec_len n * countof.
Definition tail (n : nat) : list nat := seq (vec_len n * countof) (tail_len n).

Section Ring.
Variable card : N.

(** simd_ring.h:45-74; the product of the tail is taken in a type of double size. *)
Definition mul_coef_to_buf (a : N) (src dst : list N) (n : nat) : list N :=
  let d := dst_loop (fun x _ => mod_mul (set_one a) x) (by_four (vec_len n)) src dst in
  fold_left (fun d t => set d t (wrap wbits (a * get 0%N src t mod card))) (tail n) d.

(** simd_ring.h:76-95; the sum of the tail is taken in T. *)
Definition add_two_bufs (src dst : list N) (n : nat) : list N :=
  let d := dst_loop mod_add (seq 0 (vec_len n)) src dst in
  fold_left (fun d t => let tmp := wrap wbits (get 0%N src t + get 0%N d t) in
                        set d t (if (card <=? tmp)%N then (tmp - card)%N else tmp)) (tail n) d.

(** simd_ring.h:97-122, [res] different from both sources or equal to [bufb]. *)
Definition sub_two_bufs (bufa bufb res : list N) (n : nat) : list N :=
  let d := fold_left (fun d j => store d j (mod_sub (load bufa j) (load bufb j))) (seq 0 (vec_len n)) res in
  fold_left (fun d t => let a := get 0%N bufa t in let b := get 0%N bufb t in
                        set d t (if (b <=? a)%N then (a - b)%N else (card - (b - a))%N)) (tail n) d.

(** simd_ring.h:124-144 *)
Definition mul_two_bufs (src dst : list N) (n : nat) : list N :=
  let d := dst_loop mod_mul_safe (seq 0 (vec_len n)) src dst in
  fold_left (fun d t => set d t (wrap wbits (get 0%N src t * get 0%N d t mod card))) (tail n) d.

(** simd_ring.h:148-166 *)
Definition simd_neg (n : nat) (buf : list N) : list N :=
  let d := fold_left (fun d j => store d j (mod_neg (load d j))) (seq 0 (vec_len n)) buf in
  fold_left (fun d t => set d t (if (get 0%N d t =? 0)%N then 0%N else card - get 0%N d t)%N) (tail n) d.
End Ring.

(** RingModN<T>::hadamard_mul, gf_ring.cpp:106-118: the product goes to [x]. *)
Definition simd_hadamard (card : N) (x y : list N) : list N := mul_two_bufs card y x (length x).

(** ** Packets of [pkt] elements of the field [G], and lists of packets *)
Section Packets.
Variable G : gfops.
Variable pkt : nat.
Notation q := (g_card G).

(** A list of [pkt] elements.  Packets in memory have that many; only the arbitrary lists that stand for old contents may
    differ, and are cut or padded. *)
Definition row (l : list N) : list N := firstn pkt l ++ repeat 0%N (pkt - length l).

Definition pair_of (l : list (list N)) : list N * list N := (get [] l 0, get [] l 1).

(** Vector part of one Cooley-Tukey butterfly: simd_radix2_fft.h:180-212. *)
Definition vec_ct (r : N) (a b : list N) : list N * list N :=
  let F regs := let '(x, y) := reg_ct (get_case r q) (set_one r) (get [] regs 0) (get [] regs 1) in [x; y] in
  pair_of (reg_loop F (vec_len pkt) [row a; row b]).

(** Scalar part: fft_2n.h:489-500 from [simd_offset] on. *)
Definition slow_ct (r : N) (a b : list N) : list N * list N :=
  fold_left (fun ab t => let '(a, b) := ab in
                         let x := g_mul G r (get 0%N b t) in
                         (set a t (g_add G (get 0%N a t) x), set b t (g_sub G (get 0%N a t) x))) (tail pkt) (row a, row b).

(** simd_radix2_fft.h:374-387 *)
Definition vec_gs (r : N) (a b : list N) : list N * list N :=
  let F regs := let '(x, y) := reg_gs (get_case r q) (set_one r) (get [] regs 0) (get [] regs 1) in [x; y] in
  pair_of (fold_left (reg_turn F) (seq 0 (vec_len pkt)) [row a; row b]).

(** fft_2n.h:598-608 *)
Definition slow_gs (r : N) (a b : list N) : list N * list N :=
  fold_left (fun ab t => let '(a, b) := ab in
                         let x := g_sub G (get 0%N a t) (get 0%N b t) in
                         (set a t (g_add G (get 0%N a t) (get 0%N b t)), set b t (g_mul G r x))) (tail pkt) (row a, row b).

(** simd_radix2_fft.h:421-432: only [b] is written. *)
Definition vec_gss (r : N) (a b : list N) : list N :=
  dst_loop (fun x _ => reg_gss (get_case r q) (set_one r) x) (seq 0 (vec_len pkt)) (row a) (row b).
(** fft_2n.h:619-627 *)
Definition slow_gss (r : N) (a b : list N) : list N :=
  fold_left (fun b t => set b t (g_mul G r (get 0%N a t))) (tail pkt) (row b).

(** Vector part of two layers on four packets: simd_radix2_fft.h:215-289. *)
Definition vec_ct4 (r1 r2 r3 : N) (a b c d : list N) : list (list N) :=
  let F regs :=
    let '(x, y) := reg_ct (get_case r1 q) (set_one r1) (get [] regs 0) (get [] regs 1) in
    let '(u, v) := reg_ct (get_case r1 q) (set_one r1) (get [] regs 2) (get [] regs 3) in
    let '(x', u') := reg_ct (get_case r2 q) (set_one r2) x u in
    let '(y', v') := reg_ct (get_case r3 q) (set_one r3) y v in
    [x'; y'; u'; v'] in
  reg_loop F (vec_len pkt) [row a; row b; row c; row d].

(** A pair of packets of a list replaced, and the loop over the pairs. *)
Definition on_pair (F : list N -> list N -> list N * list N) (m : nat) (v : list (list N)) (i : nat) : list (list N) :=
  let '(a, b) := F (get (repeat 0%N pkt) v i) (get (repeat 0%N pkt) v (i + m)) in set (set v i a) (i + m) b.
Definition pairs (F : list N -> list N -> list N * list N) (n start m step : nat) (v : list (list N)) : list (list N) :=
  fold_left (on_pair F m) (steps n start n step) v.
Definition on_quad (F : list N -> list N -> list N -> list N -> list (list N)) (m : nat) (v : list (list N)) (i : nat) :
    list (list N) :=
  let at_ k := get (repeat 0%N pkt) v (i + k * m) in
  let l := F (at_ 0) (at_ 1) (at_ 2) (at_ 3) in
  set (set (set (set v i (get [] l 0)) (i + m) (get [] l 1)) (i + 2 * m) (get [] l 2)) (i + 3 * m) (get [] l 3).

(** Radix2<T>::butterfly_ct_step, fft_2n.cpp:66-81, 138-153; the vector part runs over the packets of the list
    (simd_radix2_fft.h:178-180), the scalar one over [n] (fft_2n.h:490). *)
Definition simd_ct_step (n : nat) (r : N) (start m step : nat) (v : list (list N)) : list (list N) :=
  let v1 := pairs (vec_ct r) (length v) start m step v in
  if tail_len pkt =? 0 then v1 else pairs (slow_ct r) n start m step v1.

(** Radix2<T>::butterfly_gs_step, fft_2n.cpp:83-98, 155-170; nothing is done by the vector part when there is no whole register
    (simd_radix2_fft.h:365-367); its step is [2 m]. *)
Definition simd_gs_step (n : nat) (r : N) (start m step : nat) (v : list (list N)) : list (list N) :=
  let v1 := if vec_len pkt =? 0 then v else pairs (vec_gs r) (length v) start m (2 * m) v in
  if tail_len pkt =? 0 then v1 else pairs (slow_gs r) n start m step v1.

(** Radix2<T>::butterfly_gs_step_simple, fft_2n.cpp:100-115, 172-187. *)
Definition simd_gss_step (n : nat) (r : N) (start m step : nat) (v : list (list N)) : list (list N) :=
  let on F v i := set v (i + m) (F (get (repeat 0%N pkt) v i) (get (repeat 0%N pkt) v (i + m))) in
  let v1 := if vec_len pkt =? 0 then v
            else fold_left (on (vec_gss r)) (steps (length v) start (length v) (2 * m)) v in
  if tail_len pkt =? 0 then v1 else fold_left (on (slow_gss r)) (steps n start n step) v1.

(** Radix2<T>::butterfly_ct_two_layers_step, fft_2n.cpp:45-64, 117-136; simd_radix2_fft.h:320-340. *)
Definition simd_two_layers_step (n : nat) (W : list N) (m : nat) (v : list (list N)) (start : nat) : list (list N) :=
  let ci := start * n / m / 2 in
  let r1 := get 0%N W ci in
  let r2 := get 0%N W (ci / 2) in
  let r3 := get 0%N W (ci / 2 + n / 4) in
  let v1 := if vec_len pkt =? 0 then v
            else fold_left (on_quad (vec_ct4 r1 r2 r3) m) (steps (length v) start (length v) (4 * m)) v in
  if tail_len pkt =? 0 then v1
  else
    let s1 := get 0%N W (start * n / m / 2) in
    let v2 := pairs (slow_ct s1) n start m (4 * m) v1 in
    let v3 := pairs (slow_ct s1) n (start + 2 * m) m (4 * m) v2 in
    let v4 := pairs (slow_ct (get 0%N W (start * n / m / 4))) n start (2 * m) (4 * m) v3 in
    pairs (slow_ct (get 0%N W ((start + m) * n / m / 4))) n (start + m) (2 * m) (4 * m) v4.

(** The loops of Radix2::fft (fft_2n.h:389-407) and Radix2::fft_inv (fft_2n.h:539-560), which call these steps. *)
Fixpoint simd_two_layers (fuel n : nat) (W : list N) (m : nat) (v : list (list N)) : nat * list (list N) :=
  match fuel with
  | O => (m, v)
  | S f =>
      if m <? n / 2 then simd_two_layers f n W (4 * m) (fold_left (simd_two_layers_step n W m) (seq 0 m) v)
      else (m, v)
  end.

Definition simd_gs_layer (n : nat) (inv_W : list N) (m : nat) (v : list (list N)) : list (list N) :=
  fold_left (fun v j => simd_gs_step n (get 0%N inv_W (j * n / (2 * m))) j m (2 * m) v) (seq 0 m) v.
Fixpoint simd_gs_layers (fuel n : nat) (inv_W : list N) (m : nat) (v : list (list N)) : list (list N) :=
  match fuel with
  | O => v
  | S f => if 1 <=? m then simd_gs_layers f n inv_W (m / 2) (simd_gs_layer n inv_W m v) else v
  end.

Definition simd_gss_layer (n : nat) (inv_W : list N) (m : nat) (v : list (list N)) : list (list N) :=
  fold_left (fun v j => simd_gss_step n (get 0%N inv_W (j * n / (2 * m))) j m (2 * m) v) (seq 0 m) v.
Fixpoint simd_gss_layers (fuel n input_len : nat) (inv_W : list N) (m : nat) (v : list (list N)) : nat * list (list N) :=
  match fuel with
  | O => (m, v)
  | S f =>
      if input_len <=? m then simd_gss_layers f n input_len inv_W (m / 2) (simd_gss_layer n inv_W m v) else (m, v)
  end.

(** Operations on packets as the other functions use them: butterflies of one pair, product by a coefficient
    (gf_ring.cpp:52-60, 79-87), negation (gf_ring.cpp:40-50). *)
Definition sym_simd : symops N (list N) :=
  Symops (repeat 0%N pkt)
    (fun r a b => let '(a1, b1) := vec_ct r a b in slow_ct r a1 b1)
    (fun r a b => let '(a1, b1) := vec_gs r a b in slow_gs r a1 b1)
    (fun r a b => slow_gss r a (vec_gss r a b))
    (fun r a b => mul_coef_to_buf q r (row a) (row b) pkt)
    (fun a => simd_neg q pkt (row a)).

(** Radix2::fft on buffers, fft_2n.h:361-407. *)
Definition simd_fft (f : radix2) (out input : list (list N)) : list (list N) :=
  let n := r_n f in
  let '(m, v) := simd_two_layers n n (r_W f) (group_len n (r_data_len f) (length input))
                   (fft_scatter sym_simd n (r_data_len f) (r_rev f) input out) in
  if m <? n then fold_left (fun v j => simd_ct_step n (get 0%N (r_W f) j) j m n v) (seq 0 m) v else v.

(** Radix2::fft_inv on buffers, fft_2n.h:516-561. *)
Definition simd_fft_inv (f : radix2) (out input : list (list N)) : list (list N) :=
  let n := r_n f in
  let z := repeat 0%N pkt in
  let v := fft_inv_load sym_simd n input (bit_rev_permute z n (r_rev f) out) in
  let '(m, v') :=
    if length input <? n then simd_gss_layers n n (length input) (r_inv_W f) (n / 2) v else (n / 2, v) in
  bit_rev_permute z n (r_rev f) (simd_gs_layers n n (r_inv_W f) m v').

Definition simd_kernels : kernels (list N) := Kernels sym_simd simd_fft simd_fft_inv.
End Packets.

(** ** Special values *)

(** Number of trailing zeros (__builtin_ctz). *)
Fixpoint ctz_pos (p : positive) : nat := match p with xO p' => S (ctz_pos p') | _ => 0 end.
Definition ctz (d : N) : nat := match d with N0 => 0 | Npos p => ctz_pos p end.

(** The loop of add_props, simd_fnt.h:201-207. *)
Fixpoint mask_loop (fuel : nat) (d offset : N) (ps : props) : props :=
  match fuel with
  | O => ps
  | S f =>
      if (d =? 0)%N then ps
      else
        let b := ctz d in
        mask_loop f (N.lxor d (N.shiftl 1 (N.of_nat b))) offset (props_add ps (offset + N.of_nat (b / e)) OOR_MARK)
  end.

(** simd_fnt.h:189-208 *)
Definition add_props (threshold mask symb : reg) (offset : N) (ps : props) : props :=
  mask_loop (S (16 * nh)) (msb8_mask (bit_and mask (r_cmpeq threshold symb))) offset ps.

(** One fragment of the vector part, simd_radix2_fft.h:449-490. *)
Definition vec_scan (thres offset : N) (len : nat) (chunk : list N) (ps : props) : props :=
  let t := set_one thres in
  let mask_hi := set_one (N.shiftl 1 (wbits - 1)) in
  fold_left (fun ps j => let a := load chunk j in
               if and_is_zero a t then ps else add_props t mask_hi a (offset + N.of_nat (j * countof)) ps)
            (by_four len) ps.

(** RsFnt<T>::encode_post_process, fec_vectorisation.cpp:46-69, 71-94: the vector part of all fragments, then the last
    elements of all fragments. *)
Definition simd_post (pkt : nat) (nout : nat) (thres offset : N) (output : list (list N)) (ps : list props) : list props :=
  let ps1 := map (fun i => vec_scan thres offset (vec_len pkt) (get [] output i) (get [] ps i)) (seq 0 nout) in
  if tail_len pkt =? 0 then ps1
  else map (fun i => fold_left (fun p j => if (get 0%N (get [] output i) j =? thres)%N
                                           then props_add p (offset + N.of_nat j) OOR_MARK else p)
                               (tail pkt) (get [] ps1 i)) (seq 0 nout).
End Simd.

(** Size in bytes of the type of [w] bits when it has SIMD specialisations (fft_2n.cpp, gf_ring.cpp,
    fec_vectorisation.cpp are for uint16_t and uint32_t). *)
Definition simd_size (w : N) : option nat := if (w =? 16)%N then Some 2 else if (w =? 32)%N then Some 4 else None.
