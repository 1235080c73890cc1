(** Property C73: what is printed of vectors, polynomials, matrices and buffers. *)
From Coq Require Import List NArith ZArith Arith Bool Lia.
From Verif.Model Require Import Common Misc Views Poly Matrix Buffers Dump.
From Verif.Spec Require Import Dump.
From Verif.Proof Require Import ListP DumpP.
From Verif.Thm Require Import BuffersThm.
Import ListNotations.
Open Scope nat_scope.

Lemma flat_single {A B} (f : A -> B) l : flat_map (fun x => [f x]) l = map f l.
Proof. induction l as [|a l IH]; cbn; [reflexivity|now rewrite IH]. Qed.
Lemma seq_nth_id (l : list N) : map (fun i => nth i l 0%N) (seq 0 (length l)) = l.
Proof.
  induction l as [|a l IH]; [reflexivity|]. cbn [length seq map nth]. f_equal. rewrite <- seq_shift, map_map. exact IH.
Qed.
Lemma nth_printable l i : Forall (fun x => x < 2 ^ 128)%N l -> i < length l -> printable (nth i l 0%N).
Proof. intros F H. unfold printable. rewrite Forall_forall in F. apply F. now apply nth_In. Qed.
Lemma nth_error_skipn {A} k : forall (l : list A) i, nth_error (skipn k l) i = nth_error l (k + i).
Proof. induction k as [|k IH]; intros l i; [reflexivity|]. destruct l; [now destruct i|]. cbn. apply IH. Qed.
Lemma nth_error_firstn_lt {A} k : forall (l : list A) i, i < k -> nth_error (firstn k l) i = nth_error l i.
Proof. induction k as [|k IH]; intros l i Hi; [lia|]. destruct l; [reflexivity|]. destruct i; [reflexivity|]. cbn. apply IH. lia. Qed.
Lemma line_cons c a : c <> 10%N -> one_line a -> one_line (c :: a).
Proof. now constructor. Qed.
Lemma line_app a c : one_line a -> one_line c -> one_line (a ++ c).
Proof. intros. now apply Forall_app. Qed.

(** The line of a vector of any class has its elements, and there are no other lines. *)
Theorem C73_vector w m v l : map (vget w m v) (seq 0 (get_n v)) = map Some l -> Forall (fun x => x < 2 ^ 128)%N l ->
  exists t, vec_dump false w m v = Some t /\ table t = [l; []].
Proof.
  intros E F. assert (L : get_n v = length l). { apply (f_equal (@length _)) in E. now rewrite !map_length, seq_length in E. }
  assert (G : forall i, i < length l -> vget w m v i = Some (nth i l 0%N)).
  { intros i Hi. apply (f_equal (fun k => nth_error k i)) in E. rewrite !nth_error_map, nth_error_seq in E by lia. rewrite (nth_error_nth' l 0%N Hi) in E. cbn in E. congruence. }
  unfold vec_dump. rewrite (cat_loop_spec _ (fun i => num false (nth i l 0%N) ++ [32%N])).
  - eexists. split; [reflexivity|]. rewrite L.
    replace ([40; 32]%N ++ flat_map (fun i => num false (nth i l 0%N) ++ [32%N]) (seq 0 (length l)) ++ [41; 10]%N)
      with (([40; 32]%N ++ flat_map (fun i => num false (nth i l 0%N) ++ [32%N]) (seq 0 (length l)) ++ [41%N]) ++ 10%N :: [])
      by (rewrite <- !app_assoc; reflexivity).
    rewrite table_nl.
    + cbn [app]. rewrite !numbers_skip by reflexivity. rewrite (flat_ends _ (fun i => [nth i l 0%N])).
      * rewrite flat_single, seq_nth_id. rewrite numbers_skip by reflexivity. cbn. now rewrite app_nil_r.
      * intros i t Hi. apply in_seq in Hi. rewrite <- app_assoc. rewrite numbers_num; [|apply nth_printable; [exact F|lia]|reflexivity].
        cbn [app]. now rewrite numbers_skip.
    + cbn [app]. do 2 (apply line_cons; [discriminate|]). apply line_app; [|repeat constructor; discriminate]. apply flat_line.
      intros i Hi. apply in_seq in Hi. apply line_app; [apply num_line, nth_printable; [exact F|lia]|repeat constructor; discriminate].
  - intros i Hi. rewrite G by lia. reflexivity.
Qed.

(** The line of a polynomial has its coefficients up to the degree, each with its exponent. *)
Theorem C73_poly q : (-1 <= p_deg q < Z.of_nat (length (p_buf q)))%Z -> (p_deg q < 2 ^ 31)%Z -> Forall (fun x => x < 2 ^ 128)%N (p_buf q) ->
  exists t, poly_dump false q = Some t /\
    table t = [flat_map (fun i => [nth i (p_buf q) 0%N; N.of_nat i]) (seq 0 (Z.to_nat (p_deg q + 1))); []].
Proof.
  intros D D31 F. unfold poly_dump. set (k := Z.to_nat (p_deg q + 1)). assert (K : k <= length (p_buf q)) by lia.
  assert (K31 : forall i, i < k -> printable (N.of_nat i)). { intros i Hi. apply index_printable. lia. }
  set (item i := num false (nth i (p_buf q) 0%N) ++ [32; 120; 94]%N ++ num false (N.of_nat i)).
  set (g i := (if i =? 0 then [] else [32; 43; 32]%N) ++ item i).
  assert (P : forall i, i < k -> printable (nth i (p_buf q) 0%N)). { intros i Hi. apply nth_printable; [exact F|lia]. }
  assert (I : forall i t, i < k -> stops t -> numbers (item i ++ t) = [nth i (p_buf q) 0%N; N.of_nat i] ++ numbers t).
  { intros i t Hi St. unfold item. rewrite <- !app_assoc. rewrite numbers_num; [|now apply P|reflexivity]. cbn [app].
    rewrite !numbers_skip by reflexivity. rewrite numbers_num; [reflexivity|now apply K31|exact St]. }
  assert (IL : forall i, i < k -> one_line (item i)).
  { intros i Hi. unfold item. apply line_app; [now apply num_line, P|]. apply line_app; [repeat constructor; discriminate|now apply num_line, K31]. }
  rewrite (cat_loop_spec _ g).
  - eexists. split; [reflexivity|]. rewrite table_nl.
    + f_equal. destruct k as [|k']; [reflexivity|]. cbn [seq flat_map].
      destruct (flat_begins g (fun i => [nth i (p_buf q) 0%N; N.of_nat i]) (seq 1 k') []) as [E S]; [exact Logic.I| | |].
      * intros i t Hi St. apply in_seq in Hi. unfold g. destruct (Nat.eqb_spec i 0); [lia|]. rewrite <- app_assoc. cbn [app].
        rewrite !numbers_skip by reflexivity. apply I; [lia|exact St].
      * intros i Hi. apply in_seq in Hi. unfold g. destruct (Nat.eqb_spec i 0); [lia|]. split; [discriminate|reflexivity].
      * rewrite !app_nil_r in E. rewrite !app_nil_r in S. unfold g at 1. cbn [Nat.eqb app]. rewrite I by (try lia; exact S).
        rewrite E. reflexivity.
    + apply flat_line. intros i Hi. apply in_seq in Hi. unfold g. apply line_app; [|apply IL; lia].
      destruct (i =? 0); repeat constructor; discriminate.
  - intros i Hi. rewrite (nth_error_nth' (p_buf q) 0%N) by lia. reflexivity.
Qed.

(** Matrices: one line for each row, after a line of dashes. *)
Definition row_of (M : matrix) (i : nat) : list N := firstn (m_cols M) (skipn (i * m_cols M) (m_mem M)).
Lemma row_spec M i : length (m_mem M) = m_rows M * m_cols M -> i < m_rows M -> Forall (fun x => x < 2 ^ 128)%N (m_mem M) ->
  exists a, row_text false M i = Some (a ++ [10%N]) /\ one_line a /\ numbers a = row_of M i.
Proof.
  intros L Hi F. set (c := m_cols M). assert (B : forall j, j < c -> i * c + j < length (m_mem M)). { intros j Hj. rewrite L. fold c. nia. }
  assert (P : forall j, j < c -> printable (nth (i * c + j) (m_mem M) 0%N)). { intros j Hj. apply nth_printable; [exact F|now apply B]. }
  exists (flat_map (fun j => 32%N :: num false (nth (i * c + j) (m_mem M) 0%N)) (seq 0 c)). split; [|split].
  - unfold row_text. fold c. rewrite (cat_loop_spec _ (fun j => 32%N :: num false (nth (i * c + j) (m_mem M) 0%N))); [reflexivity|].
    intros j Hj. rewrite (nth_error_nth' (m_mem M) 0%N) by (apply B; lia). reflexivity.
  - apply flat_line. intros j Hj. apply in_seq in Hj. apply line_cons; [discriminate|]. apply num_line, P. lia.
  - destruct (flat_begins (fun j => 32%N :: num false (nth (i * c + j) (m_mem M) 0%N)) (fun j => [nth (i * c + j) (m_mem M) 0%N]) (seq 0 c) []) as [E _].
    + exact Logic.I.
    + intros j t Hj St. apply in_seq in Hj. cbn [app]. rewrite numbers_skip by reflexivity. rewrite numbers_num; [reflexivity|apply P; lia|exact St].
    + intros j _. split; [discriminate|reflexivity].
    + rewrite !app_nil_r in E. rewrite E, flat_single. unfold row_of. fold c.
      assert (LR : length (firstn c (skipn (i * c) (m_mem M))) = c).
      { rewrite firstn_length, skipn_length, L. fold c. assert (i * c + c <= m_rows M * c) by nia. lia. }
      rewrite <- (seq_nth_id (firstn c (skipn (i * c) (m_mem M)))), LR. apply map_ext_in. intros j Hj. apply in_seq in Hj.
      symmetry. apply nth_error_nth. rewrite nth_error_firstn_lt by lia. rewrite nth_error_skipn. apply nth_error_nth'. apply B. lia.
Qed.
Theorem C73_matrix M : length (m_mem M) = m_rows M * m_cols M -> Forall (fun x => x < 2 ^ 128)%N (m_mem M) ->
  exists t, matrix_dump false M = Some t /\ table t = [] :: map (row_of M) (seq 0 (m_rows M)) ++ [[]].
Proof.
  intros L F. unfold matrix_dump.
  set (a i := match row_text false M i with Some t => removelast t | None => [] end).
  assert (A : forall i, i < m_rows M -> row_text false M i = Some (a i ++ [10%N]) /\ one_line (a i) /\ numbers (a i) = row_of M i).
  { intros i Hi. destruct (row_spec M i L Hi F) as (x & E & O & N). unfold a. rewrite E. rewrite removelast_last. auto. }
  rewrite (cat_loop_spec _ (fun i => a i ++ [10%N])).
  - eexists. split; [reflexivity|].
    change (table ([45; 45]%N ++ 10%N :: flat_map (fun i => a i ++ [10%N]) (seq 0 (m_rows M))) = [] :: map (row_of M) (seq 0 (m_rows M)) ++ [[]]).
    rewrite table_nl by (repeat constructor; discriminate). f_equal. rewrite <- (app_nil_r (flat_map _ _)), flat_lines.
    + f_equal. apply map_ext_in. intros i Hi. apply in_seq in Hi. now apply A.
    + intros i Hi. apply in_seq in Hi. now apply A.
  - intros i Hi. apply A. lia.
Qed.
Theorem C73_row M i : length (m_mem M) = m_rows M * m_cols M -> Forall (fun x => x < 2 ^ 128)%N (m_mem M) ->
  if i <? m_rows M then exists t, dump_row false M i = Some t /\ table t = [row_of M i; []] else dump_row false M i = None.
Proof.
  intros L F. unfold dump_row. destruct (Nat.ltb_spec i (m_rows M)) as [Hi|]; [|reflexivity].
  destruct (row_spec M i L Hi F) as (x & E & O & N). exists (x ++ [10%N]). split; [exact E|]. rewrite table_nl by exact O. now rewrite N.
Qed.

(** Buffers that are not of size 0: a line for each, with its index and its elements. *)
Theorem C73_buffers h b xs : sound h b -> map (buf_at h b) (seq 0 (b_n b)) = map Some xs -> Forall (Forall (fun x => x < 2 ^ 128)%N) xs ->
  b_n b = 0 \/ 0 < b_size b -> (N.of_nat (b_n b) < 2 ^ 31)%N -> (N.of_nat (b_size b) < 2 ^ 64)%N ->
  exists t, buf_dump false h b = Some t /\ table t = [] :: map (fun i => N.of_nat i :: nth i xs []) (seq 0 (b_n b)) ++ [[]; []].
Proof.
  intros [_ S] E F Z N31 S64.
  assert (L : b_n b = length xs). { apply (f_equal (@length _)) in E. now rewrite !map_length, seq_length in E. }
  assert (G : forall i, i < b_n b -> buf_at h b i = Some (nth i xs []) /\ length (nth i xs []) = b_size b /\ Forall printable (nth i xs [])).
  { intros i Hi. assert (Q : buf_at h b i = Some (nth i xs [])).
    { assert (Hx : i < length xs) by lia. apply (f_equal (fun k => nth_error k i)) in E. rewrite !nth_error_map, nth_error_seq in E by lia. rewrite (nth_error_nth' xs [] Hx) in E. cbn in E. congruence. }
    split; [exact Q|]. destruct (S i Hi) as (x & Ex & Lx). split; [congruence|]. rewrite Forall_forall in F. apply F. apply nth_In. lia. }
  set (k := b_size b - 1).
  set (g i := [9%N] ++ num false (N.of_nat i) ++ [58; 32]%N ++ flat_map (fun a => num false a ++ [45%N]) (firstn k (nth i xs [])) ++ num false (nth k (nth i xs []) 0%N)).
  assert (PI : forall i, i < b_n b -> printable (N.of_nat i)). { intros i Hi. apply index_printable. lia. }
  assert (PK : forall i, i < b_n b -> Forall printable (firstn k (nth i xs [])) /\ printable (nth k (nth i xs []) 0%N)).
  { intros i Hi. destruct (G i Hi) as (_ & Lx & Fx). split.
    - rewrite <- (firstn_skipn k (nth i xs [])) in Fx. now apply Forall_app in Fx.
    - rewrite Forall_forall in Fx. apply Fx. apply nth_In. lia. }
  unfold buf_dump. rewrite (cat_loop_spec _ (fun i => 10%N :: g i)).
  - eexists. split; [reflexivity|].
    change (table ([] ++ flat_map (fun i => 10%N :: g i) (seq 0 (b_n b)) ++ 10%N :: [41; 10]%N) =
            [] :: map (fun i => N.of_nat i :: nth i xs []) (seq 0 (b_n b)) ++ [[]; []]).
    rewrite flat_lines_before; [|constructor|].
    + f_equal. f_equal. apply map_ext_in. intros i Hi. apply in_seq in Hi. destruct (PK i ltac:(lia)) as [P1 P2]. destruct (G i ltac:(lia)) as (_ & Lx & _).
      unfold g. cbn [app]. rewrite numbers_skip by reflexivity. rewrite numbers_num; [|apply PI; lia|reflexivity]. f_equal.
      rewrite !numbers_skip by reflexivity. rewrite (flat_ends _ (fun a => [a])).
      * rewrite flat_single, map_id. rewrite <- (app_nil_r (num false _)). rewrite numbers_num; [|exact P2|exact Logic.I].
        change (numbers []) with (@nil N). set (x := nth i xs []) in *.
        assert (Q : skipn k x = [nth k x 0%N]).
        { destruct (skipn k x) as [|a [|a' r]] eqn:Ek; apply (f_equal (@length _)) in Ek as Lk; rewrite skipn_length in Lk; cbn [length] in Lk; try lia.
          f_equal. symmetry. apply nth_error_nth. rewrite <- (Nat.add_0_r k), <- nth_error_skipn, Ek. reflexivity. }
        rewrite <- Q. apply firstn_skipn.
      * intros a t Ha. rewrite Forall_forall in P1. rewrite <- app_assoc. rewrite numbers_num; [|now apply P1|reflexivity]. cbn [app]. now rewrite numbers_skip.
    + intros i Hi. apply in_seq in Hi. destruct (PK i ltac:(lia)) as [P1 P2]. unfold g. apply line_cons; [discriminate|].
      apply line_app; [apply num_line, PI; lia|]. do 2 (apply line_cons; [discriminate|]). apply line_app; [|now apply num_line].
      apply flat_line. intros a Ha. rewrite Forall_forall in P1. apply line_app; [now apply num_line, P1|repeat constructor; discriminate].
  - intros i Hi. destruct (G i ltac:(lia)) as (Q & Lx & _). rewrite Q.
    replace ((2 ^ 64 + N.of_nat (b_size b) - 1) mod 2 ^ 64)%N with (N.of_nat k).
    + rewrite dashes_spec by lia. unfold last_text. destruct (b_size b) as [|s] eqn:Es; [lia|]. replace s with k by lia.
      rewrite (nth_error_nth' _ 0%N) by lia. reflexivity.
    + replace (2 ^ 64 + N.of_nat (b_size b) - 1)%N with (N.of_nat k + 1 * 2 ^ 64)%N by lia. rewrite N.mod_add by discriminate.
      symmetry. apply N.mod_small. lia.
Qed.

(** ** What does not hold *)
(** Buffers of size 0: [size - 1] is 2^64 - 1, and elements that are not there are read. *)
Theorem C73_empty_refuted h b : sound h b -> b_size b = 0 -> 0 < b_n b -> buf_dump false h b = None.
Proof.
  intros [_ S] Z N. unfold buf_dump. rewrite cat_loop_none; [reflexivity|exact N|]. destruct (S 0 N) as (x & E & L). rewrite E.
  destruct x; [|cbn in L; lia]. rewrite Z. reflexivity.
Qed.
(** Bytes are printed as characters: two different buffers, and a line that has not the numbers of the buffer. *)
Theorem C73_bytes_refuted : exists h b t, sound h b /\ b_size b = 2 /\ buf_at h b 0 = Some [49; 10]%N /\ buf_dump true h b = Some t /\
  table t = [[]; [0; 1]; []; []; []]%N.
Proof.
  exists [[49; 10]%N], (new_wrap 1 2 [0]). eexists. split; [|split; [reflexivity|split; [reflexivity|split; [reflexivity|reflexivity]]]].
  split; [reflexivity|]. intros i Hi. cbn in Hi. destruct i as [|i]; [|lia]. eexists. split; reflexivity.
Qed.

(** Concrete cases. *)
Example C73_case_buffers : let h := [[1; 20]; [300; 0]]%N in let b := new_wrap 2 2 [1; 0] in sound h b /\
  exists t, buf_dump false h b = Some t /\ t = [10; 9; 48; 58; 32; 51; 48; 48; 45; 48; 10; 9; 49; 58; 32; 49; 45; 50; 48; 10; 41; 10]%N /\
  table t = [[]; [0; 300; 0]; [1; 1; 20]; []; []]%N.
Proof.
  split; [split; [reflexivity|]; intros i Hi; cbn in Hi; destruct i as [|[|i]]; try lia; eexists; split; reflexivity|].
  eexists. split; [reflexivity|]. split; reflexivity.
Qed.
Example C73_case_empty : sound [[]] (new_wrap 1 0 [0]) /\ b_size (new_wrap 1 0 [0]) = 0 /\ 0 < b_n (new_wrap 1 0 [0]).
Proof. split; [split; [reflexivity|]; intros i Hi; cbn in Hi; destruct i as [|i]; [|lia]; eexists; split; reflexivity|]. split; [reflexivity|cbn; lia]. Qed.
Example C73_case_others :
  vec_dump false 32 [5; 60; 7]%N (new_plain 1 2) = Some [40; 32; 54; 48; 32; 55; 32; 41; 10]%N /\
  poly_dump false (mkPoly [3; 0; 12; 9]%N 2) =
    Some [51; 32; 120; 94; 48; 32; 43; 32; 48; 32; 120; 94; 49; 32; 43; 32; 49; 50; 32; 120; 94; 50; 10]%N /\
  matrix_dump false (mkMat 2 2 [1; 2; 3; 40]%N) = Some [45; 45; 10; 32; 49; 32; 50; 10; 32; 51; 32; 52; 48; 10]%N /\
  dump_row false (mkMat 2 2 [1; 2; 3; 40]%N) 1 = Some [32; 51; 32; 52; 48; 10]%N.
Proof. repeat split. Qed.

Print Assumptions C73_vector.
Print Assumptions C73_poly.
Print Assumptions C73_matrix.
Print Assumptions C73_row.
Print Assumptions C73_buffers.
Print Assumptions C73_empty_refuted.
Print Assumptions C73_bytes_refuted.
