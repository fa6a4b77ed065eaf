(** * Lemmas on the sparsity pattern of a domain: rows, columns, positions and the CSR format *)
From Coq Require Import List Arith Bool Lia Sorted Permutation.
From Verif Require Import Base M_Indexing S_Order S_Assembly M_Assembly M_Utils L_Utils L_Dual2 L_TotalFeti L_Numbering L_Pattern L_Pattern2.
Import ListNotations.
Local Open Scope out_scope.

Lemma store_inner (indices : list nat) (n m : nat) : forall b (row col : list nat), b + m <= length indices ->
  foldM (fun st i => x <- rd indices i ;; Ok (fst st ++ [n], snd st ++ [x])) (seq b m) (row, col) = Ok (row ++ repeat n m, col ++ slice b (b + m) indices).
Proof.
  induction m as [|m IH]; intros b row col H; cbn [seq foldM repeat]. { rewrite Nat.add_0_r, slice_nil, !app_nil_r; auto. }
  rewrite (rd_ok _ _ 0) by lia; cbn [obind fst snd]. rewrite IH by lia. rewrite <- !app_assoc; cbn [app]. do 3 f_equal.
  rewrite (slice_app b (S b)) by lia. rewrite (slice_one 0) by lia. replace (S b + m) with (b + S m) by lia. auto.
Qed.

Section Stored.
  Variables (size : nat) (prow : nat -> list nat).
  Definition rowptr (i : nat) : nat := length (flat_map prow (seq 0 i)).
  Definition all_rows : list nat := flat_map (fun i => repeat i (length (prow i))) (seq 0 size).
  Definition all_columns : list nat := flat_map prow (seq 0 size).
  Lemma rowptr_S i : rowptr (S i) = rowptr i + length (prow i).
  Proof. unfold rowptr. rewrite seq_S, flat_map_app, app_length. simpl. rewrite app_nil_r; auto. Qed.
  Lemma rowptr_mono i j : i <= j -> rowptr i <= rowptr j.
  Proof. induction 1; auto. rewrite rowptr_S; lia. Qed.
  Lemma columns_split i : i < size -> all_columns = flat_map prow (seq 0 i) ++ prow i ++ flat_map prow (seq (S i) (size - S i)).
  Proof. intros H; unfold all_columns. replace size with (i + S (size - S i)) at 1 by lia. rewrite seq_app, flat_map_app. auto. Qed.
  Lemma columns_nth i q : i < size -> q < length (prow i) -> nth (rowptr i + q) all_columns 0 = nth q (prow i) 0.
  Proof. intros H Hq. rewrite (columns_split i H). unfold rowptr. rewrite app_nth2_plus. rewrite app_nth1 by auto; auto. Qed.
  Lemma rows_prefix n : length (flat_map (fun i => repeat i (length (prow i))) (seq 0 n)) = rowptr n.
  Proof. induction n; [auto|]. rewrite seq_S, flat_map_app, app_length, IHn, rowptr_S. simpl. rewrite app_nil_r, repeat_length; auto. Qed.
  Lemma rows_nth i q : i < size -> q < length (prow i) -> nth (rowptr i + q) all_rows 0 = i.
  Proof.
    intros H Hq. unfold all_rows. replace size with (i + S (size - S i)) by lia. rewrite seq_app, flat_map_app. rewrite <- (rows_prefix i), app_nth2_plus. cbn [seq flat_map]. rewrite app_nth1 by (rewrite repeat_length; auto). apply nth_repeat_lt; auto.
  Qed.
  Lemma columns_length : length all_columns = rowptr size.
  Proof. reflexivity. Qed.
  Lemma rows_length : length all_rows = rowptr size.
  Proof. apply rows_prefix. Qed.
  Lemma locate n c : c < rowptr n -> exists i q, i < n /\ q < length (prow i) /\ c = rowptr i + q.
  Proof.
    induction n; intros H; [cbn in H; lia|]. rewrite rowptr_S in H. destruct (Nat.lt_ge_cases c (rowptr n)) as [Q|Q].
    - destruct (IHn Q) as (i & q & Hi & Hq & E). exists i, q; repeat split; auto.
    - exists n, (c - rowptr n); repeat split; auto; lia.
  Qed.

  (** ** storing the rows *)
  Variables (begin fin indices : list nat).
  Hypothesis begin_len : length begin = size + 1.
  Hypothesis fin_len : length fin = size + 1.
  Hypothesis fin_nth : forall i, i < size -> nth i fin 0 = nth i begin 0 + length (prow i).
  Hypothesis row_slice : forall i, i < size -> slice (nth i begin 0) (nth i begin 0 + length (prow i)) indices = prow i.
  Hypothesis in_range : forall i, i < size -> nth i begin 0 + length (prow i) <= length indices.
  Lemma store_rows_ok : foldM (store_row begin fin indices) (seq 0 size) ([], [], [], 0) = Ok (all_rows, all_columns, map rowptr (seq 0 size), rowptr size).
  Proof.
    assert (G : forall n, n <= size -> foldM (store_row begin fin indices) (seq 0 n) ([], [], [], 0) = Ok (flat_map (fun i => repeat i (length (prow i))) (seq 0 n), flat_map prow (seq 0 n), map rowptr (seq 0 n), rowptr n)).
    { induction n; intros H; [reflexivity|]. rewrite seq_S, foldM_app, IHn by lia; cbn [obind foldM]. unfold store_row. cbn [Nat.add].
      rewrite (rd_ok begin _ 0), (rd_ok fin _ 0) by lia; cbn [obind]. rewrite fin_nth by lia. replace (nth n begin 0 + length (prow n) - nth n begin 0) with (length (prow n)) by lia.
      rewrite store_inner by (apply in_range; lia); cbn [obind]. rewrite row_slice by lia. rewrite !flat_map_app, map_app, rowptr_S. simpl. rewrite !app_nil_r. auto. }
    apply G; auto.
  Qed.

  (** ** finding a position *)
  Hypothesis sorted_rows : forall i, StronglySorted lt (prow i).
  Lemma ss_nth l : StronglySorted lt l -> forall i j, i < j < length l -> nth i l 0 < nth j l 0.
  Proof.
    induction 1 as [|x l S IH F]; intros i j H; simpl in *; [lia|]. rewrite Forall_forall in F. destruct j; [lia|]. destruct i; [apply F, nth_In; lia | apply IH; lia].
  Qed.
  Lemma search_ok i j : i < size -> In j (prow i) -> forall fuel c, c <= index_of j (prow i) -> index_of j (prow i) - c <= fuel -> search fuel indices (nth i begin 0) j c = Ok (index_of j (prow i)).
  Proof.
    intros Hi Hj. pose proof (index_of_lt _ _ Hj) as Hl. pose proof (index_of_in _ _ Hj) as Hn. apply nth_error_nth with (d := 0) in Hn.
    assert (V : forall c, c < length (prow i) -> nth (nth i begin 0 + c) indices 0 = nth c (prow i) 0).
    { intros c Hc. pose proof (f_equal (fun l => nth c l 0) (row_slice i Hi)) as W; cbn beta in W. rewrite nth_slice in W by lia. auto. }
    pose proof (in_range i Hi). induction fuel; intros c Hc Hf; cbn [search]; rewrite (rd_ok _ _ 0), V by lia; cbn [obind].
    - assert (c = index_of j (prow i)) by lia; subst c. rewrite Hn, Nat.ltb_irrefl. auto.
    - destruct (Nat.eq_dec c (index_of j (prow i))) as [->|Q]; [rewrite Hn, Nat.ltb_irrefl; auto|].
      pose proof (ss_nth _ (sorted_rows i) c (index_of j (prow i)) ltac:(lia)). rewrite Hn in H0. rewrite (proj2 (Nat.ltb_lt _ _) H0). apply IHfuel; lia.
  Qed.
  Definition pos (i j : nat) : nat := rowptr i + index_of j (prow i).
  Lemma find_ok i j : i < size -> In j (prow i) -> find_position begin (map rowptr (seq 0 size)) indices i j = Ok (pos i j).
  Proof.
    intros Hi Hj. unfold find_position. rewrite (rd_ok begin _ 0) by lia; cbn [obind]. rewrite search_ok; auto; try lia.
    2: { pose proof (index_of_lt _ _ Hj). pose proof (in_range i Hi). lia. }
    cbn [obind]. rewrite (rd_ok _ _ 0) by (rewrite map_length, seq_length; auto). rewrite nth_indep with (d' := rowptr 0) by (rewrite map_length, seq_length; auto). rewrite map_nth, seq_nth by auto. auto.
  Qed.
  Lemma pos_inj i j i' j' : i < size -> i' < size -> In j (prow i) -> In j' (prow i') -> pos i j = pos i' j' -> i = i' /\ j = j'.
  Proof.
    intros Hi Hi' Hj Hj' E. unfold pos in E. pose proof (index_of_lt _ _ Hj). pose proof (index_of_lt _ _ Hj').
    assert (i = i'). { destruct (Nat.lt_trichotomy i i') as [Q|[Q|Q]]; auto; [pose proof (rowptr_mono (S i) i' Q) as M | pose proof (rowptr_mono (S i') i Q) as M]; rewrite rowptr_S in M; lia. }
    subst i'; split; auto. assert (Q : index_of j (prow i) = index_of j' (prow i)) by lia. pose proof (index_of_in _ _ Hj) as A. pose proof (index_of_in _ _ Hj') as A'. rewrite Q in A. congruence.
  Qed.
  Lemma pos_lt i j : i < size -> In j (prow i) -> pos i j < rowptr size.
  Proof. intros Hi Hj. pose proof (index_of_lt _ _ Hj). pose proof (rowptr_mono (S i) size Hi) as M. rewrite rowptr_S in M. unfold pos; lia. Qed.
End Stored.

(** ** the CSR format *)
Section Csr.
  Variables (size : nat) (prow : nat -> list nat) (P : pattern).
  Local Notation rowptr := (rowptr prow).
  Local Notation all_rows := (all_rows size prow).
  Local Notation all_columns := (all_columns size prow).
  Hypothesis p_size_ok : p_size P = size.
  Hypothesis p_row_ok : p_row P = all_rows.
  Hypothesis p_column_ok : p_column P = all_columns.
  Hypothesis nonempty : forall i, i < size -> prow i <> [].
  Hypothesis positive : 0 < size.
  Lemma prow_pos i : i < size -> 0 < length (prow i).
  Proof. intros H; specialize (nonempty i H). destruct (prow i); [congruence | simpl; lia]. Qed.

  Definition csr_state (c : nat) (st : list nat * list nat * nat) : Prop :=
    let '(rows, cols, r) := st in
    length rows = size + 1 /\ length cols = rowptr size /\
    (exists i q, i < size /\ q < length (prow i) /\ c = S (rowptr i + q) /\ r = i + 1 /\ forall i', i' <= i -> nth i' rows 0 = rowptr i' + Indexing_CSR) /\
    forall c', c' < c -> nth c' cols 0 = nth c' all_columns 0 + Indexing_CSR.
  Lemma csr_step c st : 0 < c < rowptr size -> csr_state c st -> exists st', set_column P st c = Ok st' /\ csr_state (S c) st'.
  Proof.
    destruct st as [[rows cols] r]. intros Hc (L1 & L2 & (i & q & Hi & Hq & Ec & Er & Hr) & HC). unfold set_column. rewrite p_column_ok, p_row_ok.
    rewrite (rd_ok all_columns _ 0) by (rewrite columns_length; lia); cbn [obind]. rewrite wr_ok by lia; cbn [obind].
    rewrite !(rd_ok all_rows _ 0) by (rewrite rows_length; lia); cbn [obind].
    assert (E1 : nth (c - 1) all_rows 0 = i). { rewrite Ec. replace (S (rowptr i + q) - 1) with (rowptr i + q) by lia. apply rows_nth; auto. }
    rewrite E1.
    assert (HC' : forall c', c' < S c -> nth c' (upd cols c (nth c all_columns 0 + Indexing_CSR)) 0 = nth c' all_columns 0 + Indexing_CSR).
    { intros c' H. rewrite nth_upd by lia. destruct (Nat.eqb_spec c c'); [subst; auto | apply HC; lia]. }
    destruct (Nat.eq_dec (S q) (length (prow i))) as [Q|Q].
    - assert (Ec' : c = rowptr (S i) + 0) by (rewrite rowptr_S; lia).
      assert (Hi' : S i < size). { destruct (Nat.eq_dec (S i) size) as [W|W]; [|lia]. rewrite W in Ec'; lia. }
      assert (E2 : nth c all_rows 0 = S i). { rewrite Ec'. apply rows_nth; auto. apply prow_pos; auto. }
      rewrite E2. replace (S i =? i) with false by (symmetry; apply Nat.eqb_neq; lia). rewrite wr_ok by lia; cbn [obind].
      eexists; split; [reflexivity|]. split; [rewrite upd_length; auto|]. split; [rewrite upd_length; auto|]. split; auto.
      exists (S i), 0. split; auto. split; [apply prow_pos; auto|]. split; [lia|]. split; [lia|]. intros i' H. rewrite nth_upd by lia. destruct (Nat.eqb_spec r i'); [subst r i'; replace (i + 1) with (S i) by lia; lia | apply Hr; lia].
    - assert (E2 : nth c all_rows 0 = i). { replace c with (rowptr i + S q) by lia. apply rows_nth; auto; lia. }
      rewrite E2, Nat.eqb_refl. eexists; split; [reflexivity|]. split; auto. split; [rewrite upd_length; auto|]. split; auto.
      exists i, (S q). repeat split; auto; lia.
  Qed.
  Lemma set_matrix_ok alloc : (forall n, length (alloc n) = n) -> exists rows cols, set_matrix alloc P = Ok (rows, cols) /\ length rows = size + 1 /\ length cols = rowptr size /\
    (forall i, i <= size -> nth i rows 0 = rowptr i + Indexing_CSR) /\ forall c, c < rowptr size -> nth c cols 0 = nth c all_columns 0 + Indexing_CSR.
  Proof.
    intros HA. unfold set_matrix. rewrite p_size_ok, p_row_ok, p_column_ok, rows_length, columns_length.
    assert (Hz : 0 < rowptr size). { pose proof (prow_pos 0 positive). pose proof (rowptr_mono prow 1 size positive) as M. rewrite rowptr_S in M. lia. }
    rewrite wr_ok by (rewrite HA; lia); cbn [obind]. rewrite (rd_ok all_columns _ 0) by (rewrite columns_length; lia); cbn [obind]. rewrite wr_ok by (rewrite HA; lia); cbn [obind].
    destruct (foldM_seq_inv (set_column P) csr_state 1 (rowptr size - 1) (upd (alloc (size + 1)) 0 Indexing_CSR, upd (alloc (rowptr size)) 0 (nth 0 all_columns 0 + Indexing_CSR), 1)) as ([[rows cols] r] & E & L1 & L2 & (i & q & Hi & Hq & Ec & Er & Hr) & HC).
    - split; [rewrite upd_length; auto|]. split; [rewrite upd_length; auto|]. split.
      + exists 0, 0. split; auto. split; [apply prow_pos; auto|]. split; [reflexivity|]. split; auto. intros i' H. assert (i' = 0) by lia; subst. rewrite nth_upd by (rewrite HA; lia). auto.
      + intros c' H. assert (c' = 0) by lia; subst. rewrite nth_upd by (rewrite HA; lia). auto.
    - intros c st Hc I. apply csr_step; auto; lia.
    - rewrite E; cbn [obind].
      assert (S i = size). { destruct (Nat.eq_dec (S i) size); auto. pose proof (rowptr_mono prow (S (S i)) size ltac:(lia)) as M. rewrite !rowptr_S in M. pose proof (prow_pos (S i) ltac:(lia)). lia. }
      rewrite wr_ok by lia; cbn [obind]. eexists; eexists; split; [reflexivity|]. split; [rewrite upd_length; auto|]. split; auto. split.
      + intros i' H'. rewrite nth_upd by lia. destruct (Nat.eqb_spec r i'); [subst r; replace i' with size by lia; auto | apply Hr; lia].
      + intros c Hc; apply HC; lia.
  Qed.
  Lemma csr_rows rows cols : length rows = size + 1 -> length cols = rowptr size -> (forall i, i <= size -> nth i rows 0 = rowptr i + Indexing_CSR) -> (forall c, c < rowptr size -> nth c cols 0 = nth c all_columns 0 + Indexing_CSR) ->
    forall i, i < size -> csr_row rows cols i = prow i.
  Proof.
    intros L1 L2 R C i Hi. unfold csr_row. rewrite !R by lia. replace (i + 1) with (S i) by lia. rewrite rowptr_S. pose proof (rowptr_mono prow (S i) size Hi) as M. rewrite rowptr_S in M.
    replace (rowptr i + Indexing_CSR - Indexing_CSR) with (rowptr i) by lia. replace (rowptr i + length (prow i) + Indexing_CSR - Indexing_CSR) with (rowptr i + length (prow i)) by lia.
    apply nth_ext with (d := 0) (d' := 0). { rewrite map_length, slice_length; lia. }
    intros q Hq. rewrite map_length, slice_length in Hq by lia. rewrite nth_indep with (d' := 0 - Indexing_CSR) by (rewrite map_length, slice_length; lia). rewrite (map_nth (fun c => c - Indexing_CSR) _ 0). rewrite nth_slice by lia. rewrite C by lia. rewrite columns_nth by (auto; lia). lia.
  Qed.
End Csr.
