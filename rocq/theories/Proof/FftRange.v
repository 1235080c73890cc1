(** When the accesses of Radix2::fft stay inside its vectors, and when its result is the DFT. *)
From Coq Require Import List NArith Arith Bool Lia.
From Verif.Model Require Import Common Arith Ring Fft2n Radix2 FftIndex.
From Verif.Spec Require Import Primes Modular.
From Verif.Proof Require Import ListP ConvP BitRev Fft2nL ParamO FftRangeA Lanes.
Import ListNotations.
Open Scope nat_scope.

Lemma pow2_pos k : 0 < 2 ^ k.
Proof. pose proof (Nat.pow_nonzero 2 k). lia. Qed.
Lemma pow2_split a b : a <= b -> 2 ^ b = 2 ^ (b - a) * 2 ^ a.
Proof. intros H. rewrite <- Nat.pow_add_r. f_equal. lia. Qed.

(** ** One layer *)
Lemma layer_in L t : t < L -> Forall (fun i => i < 2 ^ L) (layer_touched (2 ^ L) (2 ^ t)).
Proof.
  intros H. pose proof (pow2_pos t) as Pt. apply Forall_forall. intros k Hk. unfold layer_touched in Hk.
  apply in_flat_map in Hk. destruct Hk as (j & Hj & Hk). apply in_seq in Hj.
  apply in_flat_map in Hk. destruct Hk as (i & Hi & Hk).
  rewrite steps_spec in Hi by (pose proof (pow2_pos L); nia). destruct Hi as (Hi & b & Eb).
  rewrite (pow2_split (S t) L) in * by lia. cbn [Nat.pow] in *. set (q := 2 ^ (L - S t)) in *. set (m := 2 ^ t) in *.
  assert (b < q) by nia. cbn [In] in Hk. destruct Hk as [<-|[<-|[]]]; nia.
Qed.

Lemma powers_in L t : t < L -> Forall (fun i => i < 2 ^ L) (layer_powers (2 ^ L) (2 ^ t)).
Proof.
  intros H. pose proof (pow2_pos t) as Pt. apply Forall_forall. intros k Hk. unfold layer_powers in Hk.
  apply in_map_iff in Hk. destruct Hk as (j & <- & Hj). apply in_seq in Hj.
  rewrite (pow2_split (S t) L) by lia. replace (2 * 2 ^ t) with (2 ^ S t) by reflexivity.
  rewrite Nat.div_mul by (pose proof (pow2_pos (S t)); lia). cbn [Nat.pow]. pose proof (pow2_pos (L - S t)). nia.
Qed.

Lemma layers_in layer L fuel : (forall t, t < L -> Forall (fun i => i < 2 ^ L) (layer (2 ^ L) (2 ^ t))) ->
  forall t, Forall (fun i => i < 2 ^ L) (layers_of layer fuel (2 ^ L) (2 ^ t)).
Proof.
  intros H. induction fuel as [|f IH]; intros t; cbn [layers_of]; [constructor|].
  destruct (Nat.ltb_spec (2 ^ t) (2 ^ L)) as [A|A]; [|constructor]. apply Nat.pow_lt_mono_r_iff in A; [|lia].
  apply Forall_app. split; [now apply H|exact (IH (S t))].
Qed.

Lemma layer_out n m : 0 < m -> m < n -> ~ Nat.divide (2 * m) n -> exists k, In k (layer_touched n m) /\ n <= k.
Proof.
  intros Hm Hn Hd. pose proof (Nat.div_mod n (2 * m)) as E. pose proof (Nat.mod_upper_bound n (2 * m)) as B.
  set (b := n / (2 * m)) in *. set (r := n mod (2 * m)) in *.
  assert (R : 0 < r). { destruct r; [|lia]. exfalso. apply Hd. exists b. lia. }
  set (j := Nat.min (r - 1) (m - 1)). exists (j + b * (2 * m) + m). split; [|unfold j; lia].
  apply in_flat_map. exists j. split; [apply in_seq; unfold j; lia|].
  apply in_flat_map. exists (j + b * (2 * m)). split; [|cbn [In]; auto].
  apply steps_spec; [lia|nia|]. split; [unfold j; lia|]. now exists b.
Qed.

(** ** The scattering *)
Definition glen (L D len : nat) : nat := 2 ^ L / Nat.max D len.
Lemma group_lenE L D len : group_len (2 ^ L) D len = glen L D len.
Proof. unfold group_len, glen. destruct (Nat.ltb_spec D len); f_equal; lia. Qed.

Lemma glen_bound L D len k : 0 < D -> Nat.max D len <= 2 ^ L -> glen L D len = 2 ^ k -> k <= L /\ Nat.max D len <= 2 ^ (L - k).
Proof.
  unfold glen. intros HD HM E. set (M := Nat.max D len) in *. assert (0 < M) by (unfold M; lia).
  pose proof (Nat.mul_div_le (2 ^ L) M ltac:(lia)) as A. rewrite E in A.
  assert (K : k <= L). { apply (Nat.pow_le_mono_r_iff 2); [lia|]. nia. }
  split; [exact K|]. rewrite (pow2_split k L K) in A. pose proof (pow2_pos k). nia.
Qed.

Lemma groups_in L D len k : L < 32 -> 0 < D -> Nat.max D len <= 2 ^ L -> glen L D len = 2 ^ k ->
  forall idx, idx < Nat.max D len -> Forall (fun i => i < 2 ^ L) (group_touched (init_bitrev (2 ^ L)) (2 ^ k) idx).
Proof.
  intros HL HD HM E idx Hi. destruct (glen_bound L D len k HD HM E) as (K & B).
  destruct (rev_groups L (L - k) HL ltac:(lia)) as (r & R). destruct (R idx) as (R1 & R2 & R3); [lia|].
  unfold group_touched, get. rewrite R3. replace (L - (L - k)) with k by lia. apply Forall_forall. intros i Hin. apply in_seq in Hin.
  rewrite (pow2_split k L K). nia.
Qed.

Lemma forallb_lt n l : forallb (fun i => i <? n) l = true <-> Forall (fun i => i < n) l.
Proof.
  rewrite forallb_forall, Forall_forall. split; intros H i Hi; specialize (H i Hi); now apply Nat.ltb_lt.
Qed.

Section Obj.
Context {T : Type} (S : symops N T).
Variables (f : radix2) (L : nat).
Hypothesis HL : L < 32.
Hypothesis Hn : r_n f = 2 ^ L.
Hypothesis HD : 0 < r_data_len f <= 2 ^ L.
Hypothesis Hrev : r_rev f = init_bitrev (2 ^ L).
Hypothesis HW : length (r_W f) = 2 ^ L.

Lemma checked_pow out input : length out = 2 ^ L -> length input <= 2 ^ L ->
  (r2_fft_checked S f out input <> None <-> exists k, glen L (r_data_len f) (length input) = 2 ^ k).
Proof.
  intros Ho Hi. unfold r2_fft_checked. rewrite Hn, Hrev, HW, Ho. rewrite (proj1 (init_bitrev_spec L HL)).
  set (D := r_data_len f) in *. set (len := length input) in *.
  unfold fft_touched, fft_powers. rewrite !group_lenE. set (g := glen L D len).
  assert (Eg : g = 2 ^ L / Nat.max D len) by reflexivity. split.
  - intros H. destruct (forallb _ (_ ++ _)) eqn:Ef; [|now exfalso; apply H]. clear H. apply forallb_lt in Ef.
    apply Forall_app in Ef. destruct Ef as (_ & Ef). apply Forall_app in Ef. destruct Ef as (_ & Ef).
    assert (G0 : 0 < g) by (rewrite Eg; apply Nat.div_str_pos; lia).
    destruct (Nat.lt_ge_cases g (2 ^ L)) as [Gn|Gn].
    + destruct (Nat.eq_dec ((2 ^ L) mod (2 * g)) 0) as [Z|Z].
      * assert (Dv : Nat.divide g (2 ^ L)).
        { apply Nat.mod_divide in Z; [|lia]. destruct Z as (q & Z). exists (q * 2). lia. }
        destruct (pow2_divide g L Dv) as (k & _ & ->). now exists k.
      * exfalso. destruct (layer_out (2 ^ L) g G0 Gn) as (k & Hk & Hk').
        { intros Dv. apply Z. now apply Nat.mod_divide; [lia|]. }
        pose proof (pow2_pos L) as PL. destruct (2 ^ L) as [|n'] eqn:En; [lia|]. cbn [layers_of] in Ef.
        destruct (Nat.ltb_spec g (Datatypes.S n')) as [A|A]; [|lia]. apply Forall_app in Ef. destruct Ef as (Ef & _).
        rewrite Forall_forall in Ef. specialize (Ef k Hk). lia.
    + exists L. assert (g <= 2 ^ L) by (rewrite Eg; apply Nat.div_le_upper_bound; [lia|]; nia). lia.
  - intros (k & Ek). 
    assert (E1 : forallb (fun i => i <? 2 ^ L) (flat_map (group_touched (init_bitrev (2 ^ L)) g) (seq 0 len) ++
        flat_map (group_touched (init_bitrev (2 ^ L)) g) (seq len (D - len)) ++ layers_of layer_touched (2 ^ L) (2 ^ L) g) = true).
    { assert (GI := groups_in L D len k HL ltac:(lia) ltac:(lia) Ek). fold g in Ek. rewrite Ek in *. apply forallb_lt. rewrite !Forall_app. repeat split.
      - apply Forall_forall. intros i Hin. apply in_flat_map in Hin. destruct Hin as (idx & Hx & Hin). apply in_seq in Hx.
        assert (X := GI idx ltac:(lia)). rewrite Forall_forall in X. now apply X.
      - apply Forall_forall. intros i Hin. apply in_flat_map in Hin. destruct Hin as (idx & Hx & Hin). apply in_seq in Hx.
        assert (X := GI idx ltac:(lia)). rewrite Forall_forall in X. now apply X.
      - apply layers_in. apply layer_in. }
    assert (E2 : forallb (fun i => i <? 2 ^ L) (layers_of layer_powers (2 ^ L) (2 ^ L) g) = true).
    { fold g in Ek. rewrite Ek. apply forallb_lt, layers_in, powers_in. }
    rewrite E1, E2. destruct (Nat.leb_spec (Nat.max D len) (2 ^ L)); [discriminate|lia].
Qed.

Lemma checked_some out input res : r2_fft_checked S f out input = Some res -> res = r2_fft_vec S f out input.
Proof. unfold r2_fft_checked. destruct (_ && _); congruence. Qed.

(** ** Old contents that the transform takes for further inputs *)
Lemma fill_id (v : list T) start len a : (forall k, start <= k < start + len -> k < length v -> nth k v (s_zero S) = a) ->
  fill v start len a = v.
Proof.
  intros H. destruct (fill_spec T (s_zero S) v start len a) as (F1 & F2 & F3). apply (list_ext _ (s_zero S)); [exact F1|].
  intros i Hi. rewrite F1 in Hi. destruct (Nat.le_gt_cases start i) as [A|A]; [|apply F3; lia].
  destruct (Nat.lt_ge_cases i (start + len)) as [B|B]; [|apply F3; lia]. rewrite F2 by lia. symmetry. apply H; lia.
Qed.
Lemma fold_id {B} (g : list T -> B -> list T) v l : (forall b, In b l -> g v b = v) -> fold_left g l v = v.
Proof. induction l as [|b l IH]; intros H; [reflexivity|]. cbn [fold_left]. rewrite H by (left; reflexivity). apply IH. intros; apply H; now right. Qed.

Lemma scatter_stale k input x out0 : let D := r_data_len f in
  glen L D (length input) = 2 ^ k -> length input <= 2 ^ L -> length out0 = 2 ^ L ->
  length x = 2 ^ (L - k) -> (forall i, i < Nat.max D (length input) -> nth i x (s_zero S) = nth i input (s_zero S)) ->
  let out := fft_scatter S (2 ^ L) D (init_bitrev (2 ^ L)) x out0 in
  length out = 2 ^ L /\ r2_fft_vec S f out input = r2_fft_vec S f out0 x /\ r2_fft_buf S f out input = r2_fft_buf S f out0 x.
Proof.
  intros D E Hi Ho Hx Hp out. destruct (glen_bound L D (length input) k ltac:(unfold D; lia) ltac:(unfold D; lia) E) as (K & B).
  destruct (rev_groups L (L - k) HL ltac:(lia)) as (r & R). replace (L - (L - k)) with k in R by lia.
  assert (MX : Nat.max D (length x) = 2 ^ (L - k)) by lia.
  destruct (scatter_spec N T S (2 ^ L) D (init_bitrev (2 ^ L)) x out0 r (2 ^ k) (2 ^ (L - k)) ltac:(lia) (pow2_pos _)
     ltac:(rewrite Nat.mul_comm; symmetry; now apply pow2_split) Ho R) as (LO & V). fold out in LO, V. split; [exact LO|].
  assert (GX : group_len (2 ^ L) D (length x) = 2 ^ k).
  { rewrite group_lenE. unfold glen. rewrite MX, (pow2_split (L - k) L) by lia. replace (L - (L - k)) with k by lia.
    apply Nat.div_mul. pose proof (pow2_pos (L - k)). lia. }
  assert (FI : forall idx a, idx < Nat.max D (length input) -> a = nth idx input (s_zero S) ->
     fill out (get 0 (init_bitrev (2 ^ L)) idx) (2 ^ k) a = out).
  { intros idx a Hidx ->. destruct (R idx) as (R1 & R2 & R3); [lia|]. unfold get. rewrite R3. apply fill_id. intros q Hq _.
    replace q with (2 ^ k * r idx + (q - 2 ^ k * r idx)) by lia. rewrite V by lia. apply Hp. exact Hidx. }
  assert (FS : fft_scatter S (2 ^ L) D (init_bitrev (2 ^ L)) input out = out).
  { unfold fft_scatter at 1. rewrite group_lenE, E. rewrite (fold_id _ out (seq 0 (length input))).
    - apply fold_id. intros idx Hin. apply in_seq in Hin. apply FI; [lia|]. rewrite nth_overflow by lia. reflexivity.
    - intros idx Hin. apply in_seq in Hin. apply FI; [lia|reflexivity]. }
  unfold r2_fft_vec, fft_vec, r2_fft_buf, fft_buf. rewrite Hn, Hrev. fold D. rewrite GX, group_lenE, E, FS. split; reflexivity.
Qed.
End Obj.

(** A vector of [M] zeros followed by a one, and its transform at 0. *)
Definition one_at (M len : nat) : list N := repeat 0%N M ++ 1%N :: repeat 0%N (len - M - 1).
Lemma one_at_length M len : M < len -> length (one_at M len) = len.
Proof. intros H. unfold one_at. rewrite app_length. cbn [length]. rewrite !repeat_length. lia. Qed.
Lemma one_at_low M len i : i < M -> nth i (one_at M len) 0%N = 0%N.
Proof. intros H. unfold one_at. rewrite app_nth1 by (rewrite repeat_length; lia). apply nth_repeat. Qed.
Lemma one_at_bound M len p : (1 < p)%N -> Forall (fun a => (a < p)%N) (one_at M len).
Proof.
  intros H. unfold one_at. apply Forall_app. split; [|constructor; [lia|]];
  apply Forall_forall; intros a Ha; apply repeat_spec in Ha; subst; lia.
Qed.
Lemma one_at_dft p w n M len : (1 < p)%N -> M < len <= n -> dft_mod p w n (one_at M len) 0 = 1%N.
Proof.
  intros Hp H. unfold dft_mod. replace n with (M + (1 + (n - M - 1))) by lia.
  rewrite sumN_app, sumN_app, (sumN_0 _ M), (sumN_0 _ (n - M - 1)).
  - cbn [sumN]. rewrite Nat.add_0_r. unfold one_at. rewrite app_nth2 by (rewrite repeat_length; lia).
    rewrite repeat_length, Nat.sub_diag, Nat.mul_0_r. cbn [nth]. apply N.mod_small. cbn. lia.
  - intros q Hq. unfold one_at. rewrite app_nth2 by (rewrite repeat_length; lia). rewrite repeat_length.
    replace (M + (1 + q) - M) with (S q) by lia. cbn [nth].
    destruct (Nat.lt_ge_cases q (len - M - 1)); [rewrite nth_repeat|rewrite nth_overflow by (rewrite repeat_length; lia)]; reflexivity.
  - intros q Hq. rewrite one_at_low by lia. reflexivity.
Qed.
Lemma zeros_dft p w n l : (1 < p)%N -> dft_mod p w n (repeat 0%N l) 0 = 0%N.
Proof.
  intros Hp. unfold dft_mod. rewrite sumN_0; [apply N.mod_0_l; lia|]. intros q _.
  destruct (Nat.lt_ge_cases q l); [rewrite nth_repeat|rewrite nth_overflow by (rewrite repeat_length; lia)]; reflexivity.
Qed.

Lemma object_parts G p r L dl f : L < 32 -> radix2_new G p r (2 ^ L) dl = Some f ->
  r_n f = 2 ^ L /\ r_data_len f = (if 0 <? dl then dl else 2 ^ L) /\ 0 < r_data_len f <= 2 ^ L /\
  r_rev f = init_bitrev (2 ^ L) /\ length (r_W f) = 2 ^ L.
Proof.
  intros HL. unfold radix2_new. destruct (Nat.ltb_spec (2 ^ L) dl) as [A|A]; [discriminate|].
  destruct (negb _); [discriminate|]. intros H. injection H as <-. cbn [r_n r_data_len r_rev r_W].
  split; [reflexivity|]. split; [reflexivity|]. split.
  - pose proof (pow2_pos L). destruct (Nat.ltb_spec 0 dl); lia.
  - split; [reflexivity|]. unfold compute_omegas. now rewrite map_length, seq_length.
Qed.
