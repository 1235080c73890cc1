(** Model of encode_streams_horizontal and decode_streams_horizontal of src/fec_base.h for the codes RsGfpFft, RsGf2nFft,
    RsGf2nFftAdd, RsGf2n and RsNf4.  Proof-free.  (Horizontal.v has them for the Fermat-field code.) *)
From Coq Require Import List NArith ZArith Arith Bool.
From Verif.Model Require Import Common Arith Ring Radix2 Poly Gf2n Props Bytes Fnt Streams Horizontal Matrix MixedFft FftCodes
  Additive AddCode Nf4.
Import ListNotations.
Open Scope nat_scope.

(** What the two functions use of a code: the members of fec_base.h:96-127, and the virtual functions that work on one word
    of each fragment.  The number given to the last two functions counts the calls: the private memory of the transforms may
    hold anything at each call.  [None]: a failed assertion or an exception.
    - [v_out]: get_n_outputs()
    - [v_encode turn output props offset words]: the output and the records
    - [v_begin data par ids props]: the calls of decode_add_data and decode_add_parities, decode_build and init_context_dec,
      for the data and the parities that are there and the fragments in use; the records are those left by the context
    - [v_decode state turn output props offset words] *)
Record vcode := mkVcode {
  v_ws : nat; v_sys : bool; v_k : nat; v_m : nat; v_out : nat;
  v_encode : nat -> list N -> list props -> N -> list N -> option (list N * list props);
  v_state : Type;
  v_begin : (nat -> bool) -> (nat -> bool) -> list nat -> list props -> option (v_state * list props);
  v_decode : v_state -> nat -> list N -> list props -> N -> list N -> option (v_state * list N) }.
(** fec_base.h:312-313 *)
Definition v_nout (c : vcode) : nat := if v_sys c then v_m c else v_k c + v_m c.
(** readw and writew, fec_base.h:318-383: no assertion fails. *)
Definition word_size_ok (ws : nat) : bool := existsb (Nat.eqb ws) [1; 2; 4; 8; 16].

(** The loop, fec_base.h:433-459.  [None]: fuel exhausted, or a call failed. *)
Fixpoint vencode_loop (fuel : nat) (c : vcode) (offset : nat) (ins : list istream) (output : list N)
    (outs : list (list N)) (ps : list props) : option (list (list N) * list props) :=
  match fuel with
  | O => None
  | S f =>
      let '(ins, r) := readw_all (v_ws c) ins in
      match r with
      | None => Some (outs, ps)
      | Some words =>
          match v_encode c offset output ps (N.of_nat offset) words with
          | None => None
          | Some (output, ps) =>
              let outs := map (fun i => get [] outs i ++ bytes_of_word (v_ws c) (get 0%N output i)) (seq 0 (v_nout c)) in
              vencode_loop f c (offset + 1) ins output outs ps
          end
      end
  end.

(** encode_streams_horizontal, fec_base.h:409-460.  [output]: contents of the vector allocated by the function. *)
Definition encode_vstreams (c : vcode) (output : list N) (data outs : list (list N)) (ps : list props)
  : option (list (list N) * list props) :=
  if (length data =? v_k c) && (length outs =? v_nout c) && (length ps =? v_nout c) && word_size_ok (v_ws c) then
    vencode_loop (S (length (get [] data 0))) c 0 (map (fun b => mkIs b false) data) output outs (map (fun _ => []) ps)
  else None.

(** The loop, fec_base.h:638-678; the streams are those of the fragments in use.  [words] has code_len symbols if the code is
    not systematic; those after the first n_data are 0 and are not read. *)
Fixpoint vdecode_loop (fuel : nat) (c : vcode) (x : v_state c) (ps : list props) (wanted : list bool) (offset : nat)
    (ins : list istream) (output : list N) (outs : list (list N)) : option (list (list N)) :=
  match fuel with
  | O => None
  | S f =>
      let '(ins, r) := readw_all (v_ws c) ins in
      match r with
      | None => Some outs
      | Some words =>
          match v_decode c x offset output ps (N.of_nat offset) words with
          | None => None
          | Some (x, output) =>
              let outs := map (fun i => if get false wanted i
                                        then get [] outs i ++ bytes_of_word (v_ws c) (get 0%N output i)
                                        else get [] outs i) (seq 0 (v_k c)) in
              vdecode_loop f c x ps wanted (offset + 1) ins output outs
          end
      end
  end.

(** decode_streams_horizontal, fec_base.h:560-680.  [missing]: null pointers among the data and the parities; [wanted]:
    non-null pointers among the outputs.  The result: the returned value, the output streams, the records. *)
Definition decode_vstreams (c : vcode) (output : list N) (data par : list (list N)) (ps : list props)
    (missing wanted : list bool) (outs : list (list N)) : option (bool * list (list N) * list props) :=
  if (negb (v_sys c) || (length data =? v_k c)) && (length par =? v_nout c) && (length ps =? v_nout c)
     && (length outs =? v_k c) && word_size_ok (v_ws c) then
    let isd := fun i => negb (get true missing i) in
    let isp := fun i => negb (get true missing (if v_sys c then v_k c + i else i)) in
    let ad := if v_sys c then filter isd (seq 0 (v_k c)) else [] in
    if v_sys c && (length ad =? v_k c) then Some (true, outs, ps)
    else
      let ap := firstn (v_k c - length ad) (filter isp (seq 0 (v_nout c))) in
      if length ad + length ap <? v_k c then Some (false, outs, ps)
      else
        let ids := ad ++ (if v_sys c then map (fun i => v_k c + i) ap else ap) in
        match v_begin c isd isp ids ps with
        | None => None
        | Some (x, ps') =>
            let ins := map (fun b => mkIs b false) (map (get [] data) ad ++ map (get [] par) ap) in
            match vdecode_loop (S (length (is_rest (get (mkIs [] true) ins 0)))) c x ps' wanted 0 ins output outs with
            | None => None
            | Some outs' => Some (true, outs', ps')
            end
        end
  else None.

(** ** The codes *)

(** What the allocator gives to a context and to the transforms during the decoding. *)
Record dmem := mkDmem {
  dm_pv1 : nat -> N; dm_out1 : list N; dm_pv2 : nat -> N; dm_out2 : list N; dm_vs : vscratch;
  dm_pv : nat -> (nat -> N) * (nat -> N) * (nat -> N) }.

(** fec_rs_gfp_fft.h:159-231; DecodeContext sorts the records and sets its cursors to 0 (fec_context.h:76-107). *)
Definition gfp_v (c : fcode) (ws m : nat) (epv : nat -> nat -> N) (dm : dmem) : vcode :=
  mkVcode ws false (f_k c) m (f_n c)
    (fun t out ps off words => gfp_encode c (epv t) out words ps off)
    (ctx * vscratch * list nat)
    (fun _ _ ids ps => match fctx_new c ids (dm_pv1 dm) (dm_out1 dm) (dm_pv2 dm) (dm_out2 dm) with
                       | Some x => Some ((x, dm_vs dm, repeat 0 (length ps)), map props_sort ps)
                       | None => None end)
    (fun st t out ps off words =>
       let '(x, vs, cur) := st in
       let '(p1, p2, p3) := dm_pv dm t in
       match gfp_decode c x p1 p2 p3 vs ps off cur words with
       | Some (cur, vs, o) => Some ((x, vs, cur), o)
       | None => None end).

(** fec_rs_gf2n_fft.h:104-141 *)
Definition gf2n_v (c : fcode) (ws m : nat) (epv : nat -> nat -> N) (dm : dmem) : vcode :=
  mkVcode ws false (f_k c) m (f_n c)
    (fun t out ps off words => option_map (fun o => (o, ps)) (f_transform c (epv t) out words))
    (ctx * vscratch)
    (fun _ _ ids ps => match fctx_new c ids (dm_pv1 dm) (dm_out1 dm) (dm_pv2 dm) (dm_out2 dm) with
                       | Some x => Some ((x, dm_vs dm), map props_sort ps)
                       | None => None end)
    (fun st t out ps off words =>
       let '(x, vs) := st in
       let '(p1, p2, p3) := dm_pv dm t in
       match fdecode_apply c x p1 p2 p3 vs words with
       | Some (vs, o) => Some ((x, vs), o)
       | None => None end).

(** fec_rs_gf2n_fft_add.h:91-230.  [pS]: the polynomial of the new context, [out0]: as for [actx_new]. *)
Definition add_v (junk : N) (c : acode) (ws m : nat) (out0 : list N) (pS : poly) : vcode :=
  mkVcode ws false (a_k c) m (a_n c)
    (fun t out ps off words => option_map (fun o => (o, ps)) (aencode junk c out words))
    (actx * poly)
    (fun _ _ ids ps => match actx_new junk c ids out0 with
                       | Some x => Some ((x, pS), map props_sort ps)
                       | None => None end)
    (fun st t out ps off words =>
       let '(x, q) := st in
       match adecode c x q words with
       | Some (q, o) => Some ((x, q), o)
       | None => None end).

(** fec_rs_gf2n.h:99-156: the context is empty and the records are not touched.  [D0]: contents left in decode_mat. *)
Definition mat_v (G : gfops) (gdiv : N -> N -> N) (junk : N) (ws k m : nat) (mat D0 : matrix) : vcode :=
  mkVcode ws true k m m
    (fun t out ps off words => option_map (fun o => (o, ps)) (rs_encode G mat out words))
    matrix
    (fun data par _ ps => match decode_build G gdiv junk mat D0 k m data par with
                          | Some (Decode B) => Some (B, ps)
                          | _ => None end)
    (fun B t out ps off words => option_map (fun o => (B, o)) (rs_decode G B out words)).

(** fec_rs_nf4.h:115-251 *)
Definition nf4_v (c : nf4code) (ws m : nat) (junk1 junk2 : list N) (vs : vscratch) : vcode :=
  mkVcode ws false (nf_k c) m (nf_n c)
    (fun t out ps off words => Some (nf4_encode c out ps off words))
    (ctx * vscratch * list nat)
    (fun _ _ ids ps => match nf4_ctx c ids junk1 junk2 with
                       | Some x => Some ((x, vs, repeat 0 (length ps)), map props_sort ps)
                       | None => None end)
    (fun st t out ps off words =>
       let '(x, vs, cur) := st in
       let '(cur, vs, o) := nf4_decode c x vs ps off cur words in Some ((x, vs, cur), o)).
