(** What a Reed-Solomon code over packets must do, independently of transforms: a map from columns of data symbols to
    codeword symbols.  Plain definitions used to state and to compose the results about the code. *)
From Coq Require Import List NArith Arith.
From Verif.Model Require Import Common Fft2n Radix2 Ring Fnt.
Import ListNotations.

(** [pkts rows pkt f]: [rows] packets of [pkt] symbols, symbol [t] of packet [i] is [f i t]. *)
Definition pkts (rows pkt : nat) (f : nat -> nat -> N) : list (list N) :=
  map (fun i => map (f i) (seq 0 pkt)) (seq 0 rows).

(** Sizes of the working buffers, as allocated by fec_rs_fnt.h:150-162 and fec_context.h:120-139. *)
Definition es_ok {T} (c : fnt) (es : escratch T) : Prop :=
  length (e_b1 es) = c_l2 c /\ length (e_mx es) = c_max c /\ length (e_suffix es) = c_n c - c_k c - c_m c.
Definition ds_ok {T} (c : fnt) (ds : dscratch T) : Prop :=
  length (d_b1 ds) = c_l2 c /\ length (d_mx ds) = c_max c /\ length (d_inter ds) = c_n c.

(** The same for the vectors of the context (fec_context.h:109-118). *)
Definition vs_ok (c : fnt) (vs : vscratch) : Prop :=
  length (v_n2 vs) = c_n c /\ length (v_2k1 vs) = c_l2 c /\ length (v_2k2 vs) = c_l2 c.

(** Codeword position of output fragment [i]. *)
Definition out_pos (c : fnt) (i : nat) : nat := if c_sys c then c_k c + i else i.

(** Fragments given to a decoder: [k] different codeword positions. *)
Definition frags (c : fnt) (ids : list nat) : Prop :=
  length ids = c_k c /\ NoDup ids /\ forall i, In i ids -> i < c_n c.

(** [cw col i] is the symbol at position [i] of the codeword of the column [col] of data symbols. *)
Record code_spec (c : fnt) (cw : (nat -> N) -> nat -> N) : Prop := CodeSpec {
  cs_k : 0 < c_k c;
  cs_m : 0 < c_m c;
  cs_n : c_k c + c_m c <= c_n c;
  cs_ext : forall col col' i, (forall j, j < c_k c -> col j = col' j) -> cw col i = cw col' i;
  cs_lt : forall col i, (cw col i < g_card (c_G c))%N;
  cs_zero : forall i, cw (fun _ => 0%N) i = 0%N;
  cs_sys : c_sys c = true -> forall col i, (forall j, j < c_k c -> (col j < g_card (c_G c))%N) -> i < c_k c ->
    cw col i = col i;
  cs_ctx : forall ids junk1 junk2, frags c ids -> length junk1 = c_n c -> length junk2 = c_l2 c ->
    exists x, ctx_new c ids junk1 junk2 = Some x;
  cs_enc : forall xe junk1 junk2 es out f,
    ctx_new c (seq 0 (c_k c)) junk1 junk2 = Some xe -> length junk1 = c_n c -> length junk2 = c_l2 c ->
    es_ok c es -> length out = c_outlen c ->
    (forall j t, j < c_k c -> t < c_pkt c -> (f j t < g_card (c_G c))%N) ->
    exists es', es_ok c es' /\
     encode_words (c_K c) c xe es out (pkts (c_k c) (c_pkt c) f) =
       (es', pkts (c_outlen c) (c_pkt c) (fun i t => cw (fun j => f j t) (out_pos c i)), pkts (c_k c) (c_pkt c) f);
  cs_dec : forall x ids junk1 junk2 ds f,
    ctx_new c ids junk1 junk2 = Some x -> frags c ids -> length junk1 = c_n c -> length junk2 = c_l2 c -> ds_ok c ds ->
    (forall j t, j < c_k c -> t < c_pkt c -> (f j t < g_card (c_G c))%N) ->
    x_ids x = ids /\
    let ds' := decode_words (c_K c) c x ds
                 (pkts (c_k c) (c_pkt c) (fun i t => cw (fun j => f j t) (nth i ids 0))) in
    ds_ok c ds' /\ firstn (c_k c) (d_mx ds') = pkts (c_k c) (c_pkt c) f;
  cs_post : forall offset output ps,
    (forall i, i < c_nout c -> length (nth i output []) = c_pkt c /\ Forall (fun a => (a < g_card (c_G c))%N) (nth i output [])) ->
    c_post c (c_nout c) (c_h c) offset output ps = plain_post (c_nout c) (c_h c) offset output ps;
  cs_onto : forall ids g, frags c ids -> (forall i, i < c_k c -> (g i < g_card (c_G c))%N) ->
    exists col, (forall j, j < c_k c -> (col j < g_card (c_G c))%N) /\
      forall i, i < c_k c -> cw col (nth i ids 0) = g i;
  cs_venc : c_sys c = false -> forall out col, length out = c_n c -> (forall j, j < c_k c -> (col j < g_card (c_G c))%N) ->
    r2_fft_vec (sym_vec (c_G c)) (c_fft c) out (map col (seq 0 (c_k c))) = map (cw col) (seq 0 (c_n c));
  cs_vdec : c_sys c = false -> forall x ids junk1 junk2 vs col,
    ctx_new c ids junk1 junk2 = Some x -> frags c ids -> length junk1 = c_n c -> length junk2 = c_l2 c -> vs_ok c vs ->
    (forall j, j < c_k c -> (col j < g_card (c_G c))%N) ->
    let r := decode_apply_vec c x vs (map (fun i => cw col (nth i ids 0)) (seq 0 (c_k c))) in
    vs_ok c (fst r) /\ snd r = map col (seq 0 (c_k c))
}.
