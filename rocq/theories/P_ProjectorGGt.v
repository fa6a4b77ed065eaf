(** * Properties of the matrix G G^T of the projector: C98 *)
From Coq Require Import List Arith ZArith Lia Bool Reals Lra.
From Verif Require Import Base M_Indexing M_Nb S_Nb S_Mpi M_Mpi S_Comm M_Comm L_Coll P_Comm M_Exchange P_Exchange M_Distribute M_Scan S_Scan P_Scan M_Dual S_Dual L_Dual L_Dual2 L_Dual4 P_Dual M_DualGraph S_DualGraph L_DualGraph3 L_DualGraph4 P_DualGraph S_Equality L_Equality6 M_TotalFeti S_Feti L_TotalFeti
  P_TotalFeti M_Projector S_Projector L_Projector2 L_Projector3 M_ProjectorG S_ProjectorG L_ProjectorG L_ProjectorG2 L_ProjectorG3 P_ProjectorG M_ProjectorRanks M_ProjectorGGt S_ProjectorGGt L_ProjectorGGt L_ProjectorGGt2 L_ProjectorGGt3 L_ProjectorGGt4 L_ProjectorGGt5.
Import ListNotations.
Local Open Scope out_scope.

Section GGt.
  Variables (n : nat) (first : nat -> nat) (L : list (list nat)) (nb cmap : nat -> list nat) (ksize : nat -> nat).
  Hypothesis HC : consistent n first L nb cmap.
  Hypothesis Hn : 0 < n.
  Local Notation K := (length (kernel_list n first ksize)).
  Local Notation kidx := (kidx ksize).
  Local Notation all := (all_of n first).
  Local Notation ulens := (ulens n first L ksize).
  Local Notation ucols := (ucols n first L ksize).
  Local Notation upto i := (kidx (seq (first 0) (first i - first 0))).

  Definition off_of (r : nat) : nat := list_sum (ulens (upto r)).
  Definition cnt_of (r : nat) : nat := list_sum (ulens (kidx (own first r))).
  Definition nnz_of : nat := list_sum (ulens (kidx all)).
  Definition GGt_stored (vals : list R) (r : nat) : ggt R := {| gg_rows := psums Indexing_CSR (ulens (kidx all)); gg_cols := ucols (kidx all); gg_vals := vals; gg_offset := off_of r; gg_size := cnt_of r |}.
  Lemma off_next r : r < n -> off_of r + cnt_of r = off_of (r + 1).
  Proof. intros Hr. unfold off_of, cnt_of. rewrite (upto_S n first L nb cmap ksize HC) by auto. rewrite ulens_app, list_sum_app. reflexivity. Qed.
  Lemma off_le r : r <= n -> off_of r <= nnz_of.
  Proof. intros Hr. apply (upto_le n first L nb cmap ksize HC r Hr). Qed.

  Lemma set_GGt_runs u (vs : nat -> smap vertex) (es : nat -> smap (list nat)) (nrows : nat -> nat) (alloc : nat -> nat -> list nat * list nat * list R) :
    (forall r, r < n -> graph_ok n first L nb ksize r (vs r, es r)) ->
    (forall r, r < n -> nrows r = length (kernel_vector ksize (own first r) (fun _ _ => 0%R))) ->
    (forall r nz, let '(rows, cols, vals) := alloc r nz in length rows = K + 1 /\ length cols = nz /\ length vals = nz) ->
    (Z.of_nat (length (upper_pairs n first L ksize)) < 2 ^ 31 - 1)%Z ->
    run_set_GGt n (decomposed first nb) vs es (fun r => first_kernel first ksize (first r)) nrows u alloc (fun r => GGt_stored (snd (alloc r nnz_of)) r).
  Proof.
    intros HG HR HA HN. unfold GGt_stored, off_of, cnt_of, nnz_of in *. set (off := fun r => list_sum (ulens (upto r))) in *. set (cnt := fun r => list_sum (ulens (kidx (own first r)))) in *. set (nnz := list_sum (ulens (kidx all))) in *.
    assert (O1 : forall r, r < n -> off r + cnt r = off (r + 1)) by exact off_next.
    assert (ON : forall r, r <= n -> off r <= nnz) by exact off_le.
    rewrite upper_pairs_length in HN. fold nnz in HN. change (kernel_list n first ksize) with (kidx all) in HA.
    assert (HX : exscan (Unsigned 64) u (map (fun r => Z.of_nat (cnt r)) (seq 0 n)) = Ok (map (fun i => (Z.of_nat (off i), Z.of_nat nnz)) (seq 0 n))).
    { rewrite exscan_sums; rewrite map_length, seq_length; [| |intros; exact I].
      - f_equal. apply map_ext_in. intros i Hi. apply in_seq in Hi. unfold cnt, off. rewrite !(counts_upto n first L nb cmap ksize HC) by lia. reflexivity.
      - intros i Hi. unfold cnt. rewrite (counts_upto n first L nb cmap ksize HC) by auto. specialize (ON i Hi). unfold off in ON. unfold representable. lia. }
    set (arr := fun r => alloc r nnz). set (fill := fun r => fill_GGt (decomposed first nb r) (vs r) (es r) (first_kernel first ksize (first r)) (off r) (fst (fst (arr r))) (snd (fst (arr r)))).
    assert (FO : forall r, r < n -> exists rpre rpost cpre cpost, fill r = Ok (rpre ++ psums (off r + Indexing_CSR) (ulens (kidx (own first r))) ++ rpost, cpre ++ ucols (kidx (own first r)) ++ cpost) /\
        length rpre = first_kernel first ksize (first r) /\ firstn 1 (rpre ++ psums (off r + Indexing_CSR) (ulens (kidx (own first r))) ++ rpost) = [Indexing_CSR] /\ length rpre + (length (kidx (own first r)) + 1) + length rpost = length (kidx all) + 1 /\
        length cpre = off r /\ length cpre + cnt r + length cpost = nnz).
    { intros r Hr. specialize (HA r nnz). unfold fill, arr. destruct (alloc r nnz) as ((rows, cols), vals). destruct HA as (A1 & A2 & A3). cbn [fst snd].
      destruct (fill_ok n first L nb cmap ksize HC r (vs r) (es r) Hr (HG r Hr) (off r) rows cols A1) as (rpre & rpost & cpre & cpost & F1 & F2 & F3 & F4 & F5 & F6).
      - fold (cnt r). rewrite (O1 r Hr). rewrite A2. apply ON. lia.
      - intros Z0. unfold off. rewrite first_kernel_length in Z0. destruct (upto r); [reflexivity|discriminate].
      - exists rpre, rpost, cpre, cpost. split; auto. split; auto. split; auto. split; [lia|]. split; auto. unfold cnt. lia. }
    set (rows := fun r => match fill r with Ok (rows, _) => rows | _ => [] end). set (cols := fun r => match fill r with Ok (_, cols) => cols | _ => [] end).
    assert (RC : forall r, r < n -> fill r = Ok (rows r, cols r)). { intros r Hr. destruct (FO r Hr) as (? & ? & ? & ? & E & _). unfold rows, cols. rewrite E. reflexivity. }
    assert (KT : forall i, i < n -> first_kernel first ksize (first (i + 1)) = first_kernel first ksize (first i) + length (kidx (own first i))).
    { intros i Hi. rewrite !first_kernel_length, (upto_S n first L nb cmap ksize HC) by auto. apply app_length. }
    assert (NR : forall r, r < n -> nrows r = length (kidx (own first r))) by (intros r Hr; rewrite HR by auto; apply kernel_vector_length).
    exists cnt. eexists. exists rows, cols. split; [intros r Hr; apply (count_ok n first L nb cmap ksize HC r (vs r) (es r) Hr (HG r Hr))|]. split; [exact HX|].
      assert (EO : forall r, r < n -> Z.to_nat (fst (nth r (map (fun i => (Z.of_nat (off i), Z.of_nat nnz)) (seq 0 n)) (0, 0)%Z)) = off r) by (intros r Hr; rewrite nth_of_seq by auto; cbn [fst]; apply Nat2Z.id).
      assert (EN : forall r, r < n -> Z.to_nat (snd (nth r (map (fun i => (Z.of_nat (off i), Z.of_nat nnz)) (seq 0 n)) (0, 0)%Z)) = nnz) by (intros r Hr; rewrite nth_of_seq by auto; cbn [snd]; apply Nat2Z.id).
      cbv zeta. split; [intros r Hr; rewrite EO, EN by auto; apply RC, Hr|]. exists (fun _ => psums Indexing_CSR (ulens (kidx all))), (fun _ => ucols (kidx all)). split; [|split].
      + unfold gather_all. pose proof (all_gather_inplace_at n 1 (length (kidx all) + 1) (row_part n first L ksize) rows Hn) as C. rewrite (rows_offset n first L nb cmap ksize HC) in C by auto.
        assert (FN : first_kernel first ksize (first n) = length (kidx all)) by apply first_kernel_length.
        assert (LRW : forall i, i < n -> length (rows i) = length (kidx all) + 1).
        { intros i Hi. destruct (FO i Hi) as (rpre & rpost & cpre & cpost & E & F2 & F3 & F4 & _). rewrite RC in E by auto. injection E as E _. rewrite E, !app_length, psums_length. unfold L_ProjectorGGt2.ulens. rewrite map_length. lia. }
        specialize (C ltac:(lia) LRW).
        rewrite (map_ext_in _ (fun i => all_gather_inplace n i (rows i) (1 + S_Comm.offset (row_part n first L ksize) i) (length (row_part n first L ksize i)) (fun x => Ret x))).
        2: { intros i Hi. apply in_seq in Hi. rewrite (rows_offset n first L nb cmap ksize HC), row_part_length, NR by lia. f_equal. lia. }
        rewrite (map_ext_in (fun _ => psums Indexing_CSR (ulens (kidx all))) (fun i => firstn 1 (rows i) ++ gathered (row_part n first L ksize) 0 n ++ skipn (1 + first_kernel first ksize (first n)) (rows i))).
        * apply C. intros i Hi. rewrite !(rows_offset n first L nb cmap ksize HC) by lia. destruct (FO i Hi) as (rpre & rpost & cpre & cpost & E & F2 & F3 & F4 & _). rewrite RC in E by auto. injection E as E _. rewrite E.
          rewrite KT by auto. rewrite <- F2. unfold slice. rewrite skipn_app. rewrite skipn_all2 by lia. cbn [app]. replace (1 + length rpre - length rpre) with 1 by lia. unfold row_part. fold (off i).
          assert (LT : length (tl (psums (off i + Indexing_CSR) (ulens (kidx (own first i))))) = length (kidx (own first i))) by apply row_part_length.
          destruct (psums (off i + Indexing_CSR) (ulens (kidx (own first i)))) as [|x l] eqn:EP; [pose proof (psums_length (off i + Indexing_CSR) (ulens (kidx (own first i)))) as Q; rewrite EP in Q; discriminate|]. cbn [app skipn tl] in *. replace (1 + (length rpre + length (kidx (own first i))) - (1 + length rpre)) with (length l) by lia.
          rewrite firstn_app, Nat.sub_diag, firstn_all. cbn [firstn]. apply app_nil_r.
        * intros i Hi. apply in_seq in Hi. destruct (FO i ltac:(lia)) as (rpre & rpost & cpre & cpost & E & F2 & F3 & F4 & _). rewrite RC in E by lia. injection E as E _. rewrite E at 1. rewrite F3. rewrite (gathered_rows n first L nb cmap ksize HC) by auto.
          rewrite skipn_all2 by (rewrite LRW; lia). rewrite app_nil_r. change (upto n) with (kidx all). destruct (ulens (kidx all)); reflexivity.
      + unfold gather_all. pose proof (all_gather_inplace_concat n nnz (fun r => ucols (kidx (own first r))) cols Hn) as C.
        assert (GC : forall i, i <= n -> gathered (fun r => ucols (kidx (own first r))) 0 i = ucols (upto i)) by (intros i Hi; apply (gathered_concat n first L nb cmap ksize HC (L_ProjectorGGt2.ucols n first L ksize)); auto; apply ucols_app).
        assert (OC : forall i, i <= n -> S_Comm.offset (fun r => ucols (kidx (own first r))) i = off i) by (intros i Hi; unfold S_Comm.offset; rewrite GC, ucols_length by auto; reflexivity).
        assert (LCW : forall i, i < n -> length (cols i) = nnz).
        { intros i Hi. destruct (FO i Hi) as (rpre & rpost & cpre & cpost & E & F2 & F3 & F4 & F5 & F6). rewrite RC in E by auto. injection E as _ E. rewrite E, !app_length, ucols_length. fold (cnt i). lia. }
        rewrite OC in C by auto. specialize (C (ON n (le_n _)) LCW).
        rewrite (map_ext_in _ (fun i => all_gather_inplace n i (cols i) (S_Comm.offset (fun r => ucols (kidx (own first r))) i) (length (ucols (kidx (own first i)))) (fun x => Ret x))).
        2: { intros i Hi. apply in_seq in Hi. rewrite EO, OC, ucols_length by lia. reflexivity. }
        rewrite (map_ext_in (fun _ => ucols (kidx all)) (fun i => gathered (fun r => ucols (kidx (own first r))) 0 n ++ skipn (off n) (cols i))).
        * apply C. intros i Hi. rewrite !OC by lia. destruct (FO i Hi) as (rpre & rpost & cpre & cpost & E & F2 & F3 & F4 & F5 & F6). rewrite RC in E by auto. injection E as _ E. rewrite E. rewrite <- O1 by auto. rewrite <- F5. unfold slice. rewrite skipn_app, skipn_all, Nat.sub_diag. cbn [app skipn].
          replace (length cpre + cnt i - length cpre) with (length (ucols (kidx (own first i)))) by (rewrite ucols_length; unfold cnt; lia). rewrite firstn_app, firstn_all, Nat.sub_diag. cbn [firstn]. apply app_nil_r.
        * intros i Hi. apply in_seq in Hi. rewrite GC by auto. rewrite skipn_all2; [now rewrite app_nil_r|]. rewrite LCW by lia. reflexivity.
      + intros r Hr. rewrite EO, EN by auto. reflexivity.
  Qed.
  Definition GGt_values len row Rk : nat -> ggt R := GGt_stored (uvals n first L ksize len row Rk (kidx all)).
  Lemma values_run (vs : nat -> smap vertex) (es : nat -> smap (list nat)) len row Rk G (old : nat -> list R) : entries_ok L len row ->
    (forall r, r < n -> graph_ok n first L nb ksize r (vs r, es r)) -> (forall r, r < n -> G_ok n first L len row ksize Rk r (vs r) (G r)) -> (forall r, r < n -> length (old r) = nnz_of) ->
    run_values 0%R Rplus Rmult n (decomposed first nb) vs es G (fun r => GGt_stored (old r) r) (GGt_values len row Rk) /\
    forall r, r < n -> upper_csr K (GGt_of n first L len row ksize Rk) (gg_rows (GGt_values len row Rk r)) (gg_cols (GGt_values len row Rk r)) (gg_vals (GGt_values len row Rk r)).
  Proof.
      intros HB HG HO LO. unfold GGt_values, GGt_stored, off_of, cnt_of, nnz_of in *. set (off := fun r => list_sum (ulens (upto r))) in *. set (cnt := fun r => list_sum (ulens (kidx (own first r)))) in *. set (nnz := list_sum (ulens (kidx all))) in *.
      assert (O1 : forall r, r < n -> off r + cnt r = off (r + 1)) by exact off_next.
      assert (ON : forall r, r <= n -> off r <= nnz) by exact off_le.
      set (uv := uvals n first L ksize len row Rk).
      set (vals := fun r => firstn (off r) (old r) ++ uv (kidx (own first r)) ++ skipn (off r + cnt r) (old r)).
      split.
      + exists vals, (fun _ => uv (kidx all)). split; [|split; [|intros; reflexivity]].
        * intros r Hr. pose proof (ON (r + 1) ltac:(lia)) as OL. rewrite <- O1 in OL by auto. apply (values_ok n first L nb cmap ksize len row Rk HC HB r (vs r) (es r) (G r) Hr (HG r Hr) (HO r Hr)) with (junk := firstn (cnt r) (skipn (off r) (old r))); cbn [gg_rows gg_vals with_values]; auto.
          -- rewrite (Nat.add_comm (off r)), <- skipn_skipn, !firstn_skipn. reflexivity.
          -- rewrite (upto_firstn n first L nb cmap ksize HC) by lia. rewrite firstn_length, LO by auto. fold (off r). lia.
          -- rewrite firstn_length, skipn_length, LO by auto. fold (cnt r). lia.
        * unfold gather_all. cbn [gg_offset gg_size with_values]. pose proof (all_gather_inplace_concat n nnz (fun r => uv (kidx (own first r))) vals Hn) as C.
          assert (GC : forall i, i <= n -> gathered (fun r => uv (kidx (own first r))) 0 i = uv (upto i)) by (intros i Hi; apply (gathered_concat n first L nb cmap ksize HC uv); auto; apply uvals_app).
          assert (OC : forall i, i <= n -> S_Comm.offset (fun r => uv (kidx (own first r))) i = off i) by (intros i Hi; unfold S_Comm.offset; rewrite GC by auto; apply uvals_length).
          assert (LCW : forall i, i < n -> length (vals i) = nnz).
          { intros i Hi. pose proof (ON (i + 1) ltac:(lia)) as OL. rewrite <- O1 in OL by auto. unfold vals, uv. rewrite !app_length, uvals_length, firstn_length, skipn_length, LO by auto. fold (cnt i). lia. }
          rewrite OC in C by auto. specialize (C (ON n (le_n _)) LCW).
          rewrite (map_ext_in _ (fun i => all_gather_inplace n i (vals i) (S_Comm.offset (fun r => uv (kidx (own first r))) i) (length (uv (kidx (own first i)))) (fun x => Ret x))).
          2: { intros i Hi. apply in_seq in Hi. rewrite OC by lia. unfold uv. rewrite uvals_length. reflexivity. }
          rewrite (map_ext_in (fun _ => uv (kidx all)) (fun i => gathered (fun r => uv (kidx (own first r))) 0 n ++ skipn (off n) (vals i))).
          -- apply C. intros i Hi. pose proof (ON i ltac:(lia)) as OL. rewrite !OC by lia. rewrite <- O1 by auto. unfold vals, slice. rewrite skipn_app. rewrite skipn_all2 by (rewrite firstn_length; lia). cbn [app]. rewrite firstn_length, LO by auto. replace (off i - Nat.min (off i) nnz) with 0 by lia. cbn [skipn].
             replace (off i + cnt i - off i) with (length (uv (kidx (own first i)))) by (unfold uv; rewrite uvals_length; unfold cnt; lia). rewrite firstn_app, firstn_all, Nat.sub_diag. cbn [firstn]. apply app_nil_r.
          -- intros i Hi. apply in_seq in Hi. rewrite GC by auto. rewrite skipn_all2; [now rewrite app_nil_r|]. rewrite LCW by lia. reflexivity.
      + intros r Hr. cbn [gg_rows gg_cols gg_vals]. apply (upper_ok n first L ksize len row Rk HB).
  Qed.

  (** C98: the pattern of G G^T is made once from the graph of domains.  Whatever values are in the matrices, with any entries of the multipliers
      and any kernels every execution of the update ends and every rank has the upper triangle of the whole matrix G G^T, stored in the same
      way: the elements that are not stored are zero.  [u]: the undefined buffer of MPI_Exscan on rank 0; the indices of the matrix are of the type int *)
  Theorem projector_GGt_exact u (vs : nat -> smap vertex) (es : nat -> smap (list nat)) (nrows : nat -> nat) (alloc : nat -> nat -> list nat * list nat * list R) :
    (forall r, r < n -> graph_ok n first L nb ksize r (vs r, es r)) ->
    (forall r, r < n -> nrows r = length (kernel_vector ksize (own first r) (fun _ _ => 0%R))) ->
    (forall r nz, let '(rows, cols, vals) := alloc r nz in length rows = K + 1 /\ length cols = nz /\ length vals = nz) ->
    (Z.of_nat (length (upper_pairs n first L ksize)) < 2 ^ 31 - 1)%Z ->
    exists M0, run_set_GGt n (decomposed first nb) vs es (fun r => first_kernel first ksize (first r)) nrows u alloc M0 /\
    forall len row Rk G old, entries_ok L len row -> (forall r, r < n -> G_ok n first L len row ksize Rk r (vs r) (G r)) ->
    (forall r, r < n -> length (old r) = length (gg_vals (M0 r))) ->
    exists M, run_values 0%R Rplus Rmult n (decomposed first nb) vs es G (fun r => with_values (M0 r) (old r)) M /\
    (forall r, r < n -> upper_csr K (GGt_of n first L len row ksize Rk) (gg_rows (M r)) (gg_cols (M r)) (gg_vals (M r))) /\
    forall r s, gg_rows (M r) = gg_rows (M s) /\ gg_cols (M r) = gg_cols (M s) /\ gg_vals (M r) = gg_vals (M s).
  Proof.
    intros HG HR HA HN. exists (fun r => GGt_stored (snd (alloc r nnz_of)) r). split; [now apply set_GGt_runs|]. intros len row Rk G old HB HO HL. exists (GGt_values len row Rk). split; [|split].
    - apply (values_run vs es len row Rk G old); auto. intros r Hr. rewrite HL by auto. cbn [gg_vals GGt_stored]. specialize (HA r nnz_of). destruct (alloc r nnz_of) as ((?, ?), ?). apply HA.
    - apply (values_run vs es len row Rk G old); auto. intros r Hr. rewrite HL by auto. cbn [gg_vals GGt_stored]. specialize (HA r nnz_of). destruct (alloc r nnz_of) as ((?, ?), ?). apply HA.
    - intros r s. cbn [gg_rows gg_cols gg_vals GGt_values GGt_stored]. auto.
  Qed.
End GGt.

(** the case of [projector_G_ex]: seven kernels on three ranks *)
Definition pgg_alloc (r nz : nat) : list nat * list nat * list R := (repeat 9 8, repeat r nz, repeat 5%R nz).
Example projector_GGt_ex : exists vs es G M0 M,
  run_set_GGt 3 (decomposed ex_first ex_nbs) vs es (fun r => nth r [0; 3; 6] 0) (fun r => nth r [3; 3; 1] 0) 77%Z pgg_alloc M0 /\
  run_values 0%R Rplus Rmult 3 (decomposed ex_first ex_nbs) vs es G (fun r => with_values (M0 r) (gg_vals (M0 r))) M /\
  forall r, r < 3 -> G_ok 3 ex_first ex_L (fun _ => 3) tf_row ex_ksize pg_R r (vs r) (G r) /\ upper_csr 7 (GGt_of 3 ex_first ex_L (fun _ => 3) tf_row ex_ksize pg_R) (gg_rows (M r)) (gg_cols (M r)) (gg_vals (M r)).
Proof.
  destruct dual_graph_ex as (g & G1 & G2). destruct (projector_G_exact 3 20 ex_first ex_L ex_nbs ex_cmap ex_ksize ex_consistent g pg_alloc G2) as (vs & M0 & S1 & SG & S2).
  { intros r nr nz. cbn. rewrite !repeat_length. auto. }
  destruct (S2 (fun _ => 3) tf_row pg_R (fun r => g_vals (M0 r)) (proj1 tf_entries) (fun _ _ => eq_refl)) as (M & U1 & U2).
  { intros r H. cases_lt r H; cbn; lia. }
  destruct (projector_GGt_exact 3 ex_first ex_L ex_nbs ex_cmap ex_ksize ex_consistent ltac:(lia) 77%Z vs (fun r => snd (g r)) (fun r => nth r [3; 3; 1] 0) pgg_alloc) as (N0 & V1 & V2).
  - intros r Hr. apply SG, Hr.
  - intros r Hr. cases_lt r Hr; reflexivity.
  - intros r nz. cbn [pgg_alloc]. rewrite !repeat_length. auto.
  - vm_compute. reflexivity.
  - destruct (V2 (fun _ => 3) tf_row pg_R M (fun r => gg_vals (N0 r)) (proj1 tf_entries) U2 (fun _ _ => eq_refl)) as (N & W1 & W2 & _). exists vs, (fun r => snd (g r)), M, N0, N. split; [|split; auto].
    destruct V1 as (cnt & offs & rows & cols & A1 & A2 & A3 & rows' & cols' & A4 & A5 & A6). exists cnt, offs, rows, cols. split; auto. split; auto. split.
    + intros r Hr. rewrite <- A3 by auto. cases_lt r Hr; reflexivity.
    + exists rows', cols'. split; [|auto]. exact A4.
Qed.
(** the pattern: domains 0, 1 (kernels 0 .. 2), domain 2 (kernels 3 .. 5) and domain 4 (kernel 6) *)
Example projector_GGt_meaning : length (kernel_list 3 ex_first ex_ksize) = 7 /\ nth 4 (kernel_list 3 ex_first ex_ksize) (0, 0) = (2, 1) /\
  map (fun i => map snd (filter (fun p => fst p =? i) (upper_pairs 3 ex_first ex_L ex_ksize))) (seq 0 7) =
  [[0; 1; 2; 3; 4; 5]; [1; 2]; [2]; [3; 4; 5; 6]; [4; 5; 6]; [5; 6]; [6]].
Proof. repeat split. Qed.

Print Assumptions projector_GGt_exact.
