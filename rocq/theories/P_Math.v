(** * C51: symmetric permutations of sparse and dense matrices *)
From Coq Require Import List Bool Arith Permutation Sorted Lia.
From Verif Require Import Base S_Order M_Csx M_Dnx M_Math S_Csx S_Dnx S_Math L_Sort L_Utils L_Various L_Csx L_Csx2 L_Csx3 L_Dnx2 L_Math.
Import ListNotations.
Local Open Scope out_scope.

(** where the sparse version puts an entry *)
Definition sym_moved {T} (perm : list nat) (e : entry T) : entry T :=
  (Nat.min (nth (e_row e) perm 0) (nth (e_col e) perm 0), Nat.max (nth (e_row e) perm 0) (nth (e_col e) perm 0), e_val e).

Lemma foldM_snoc_map {A B} (f : A -> B) (l : list A) s : foldM (fun s e => Ok (s ++ [f e])) l s = Ok (s ++ map f l).
Proof. revert s. induction l as [|a l IH]; intros s; cbn [foldM map obind]. { now rewrite app_nil_r. } rewrite IH, <- app_assoc. reflexivity. Qed.

Lemma collect_ok {T} (m : csx T) perm : valid m -> ord m = OrdR -> nrows m = ncols m -> is_perm perm (nrows m) ->
  foldM (collect_row m perm) (seq 0 (nrows m)) [] = Ok (map (sym_moved perm) (entries m)).
Proof.
  intros V O Q P. pose proof (perm_length _ _ P) as LP.
  assert (SP : size_primary m = nrows m) by (unfold size_primary; now rewrite O).
  assert (SS : size_secdary m = ncols m) by (unfold size_secdary; now rewrite O).
  rewrite <- SP. unfold collect_row.
  rewrite (entries_loop m (collect_entry m perm) (fun s e => Ok (s ++ [sym_moved perm e])) [] V).
  - exact (foldM_snoc_map (sym_moved perm) (entries m) []).
  - intros p s i x Hp E1 E2. unfold collect_entry.
    assert (fst x < ncols m) by (rewrite <- SS; apply (v_range m V); eapply nth_error_In; eauto).
    rewrite (rd_ok perm p 0) by lia. cbn [obind]. rewrite (rd_some _ _ _ E1). cbn [obind]. rewrite (rd_ok perm (fst x) 0) by lia.
    cbn [obind]. rewrite (rd_some _ _ _ E2). cbn [obind]. rewrite O. reflexivity.
Qed.

Lemma values_perm {T} (m m' : csx T) i j : Permutation (entries m) (entries m') -> Permutation (values_at m i j) (values_at m' i j).
Proof. intros H. unfold values_at. apply Permutation_map. now apply filter_perm. Qed.

Lemma min_max_eq a b c d : Nat.min a b = Nat.min c d -> Nat.max a b = Nat.max c d -> (a = c /\ b = d) \/ (a = d /\ b = c).
Proof. lia. Qed.
Lemma le_min_max a b c d : a <= b -> (a = c /\ b = d) \/ (a = d /\ b = c) -> a = Nat.min c d /\ b = Nat.max c d.
Proof. lia. Qed.

(** The sparse version: every stored value of the upper triangle moves from (i, j) to the position of
    {p(i), p(j)} in the upper triangle; the result is again a well-formed matrix with sorted rows, and
    as a symmetric matrix B(p(i), p(j)) = A(i, j). *)
Theorem permute_csr_moves {T} sort (m : csx T) perm :
  valid m -> ord m = OrdR -> nrows m = ncols m -> is_perm perm (nrows m) -> sort_contract ijv_ltb sort ->
  upper m -> has_diagonal m ->
  exists d, permute_csr sort m perm = Ok d /\
    valid d /\ ascending d /\ upper d /\
    nrows d = nrows m /\ ncols d = ncols m /\ nnz d = nnz m /\ ord d = OrdR /\ upl d = upl m /\
    forall i j, i < nrows m -> j < nrows m ->
      Permutation (upper_values d (nth i perm 0) (nth j perm 0)) (upper_values m i j).
Proof.
  intros V O Q P SC U D. unfold permute_csr. rewrite (proj2 (Nat.eqb_eq _ _) Q). cbn [negb]. rewrite (collect_ok m perm) by auto. cbn [obind].
  set (L := map (sym_moved perm) (entries m)). destruct (SC L) as [SP SS]. set (S := sort L) in *.
  assert (PR : size_primary m = nrows m) by (unfold size_primary; now rewrite O).
  assert (SE : size_secdary m = ncols m) by (unfold size_secdary; now rewrite O).
  pose proof (valid_rep m V) as R. destruct (v_alloc m V) as (A1 & A2 & A3).
  assert (LN : length S = nnz m).
  { rewrite <- (Permutation_length SP). unfold L. rewrite map_length, (rep_entries m _ R).
    rewrite (r_nnz _ _ R). rewrite <- seq_nth_concat. clear. generalize (seq 0 (length (map (line m) (seq 0 (size_primary m))))). induction l; auto. cbn [flat_map]. rewrite !app_length, map_length. auto. }
  assert (RG : forall e, In e L -> fst (fst e) < nrows m /\ snd (fst e) < nrows m /\ fst (fst e) <= snd (fst e)).
  { intros e He. apply in_map_iff in He. destruct He as (x & <- & Hx). destruct (entry_range m x V Hx) as [X1 X2].
    unfold sym_moved. cbn [fst snd]. pose proof (perm_lt perm _ (e_row x) P X1). pose proof (perm_lt perm _ (e_col x) P ltac:(lia)). lia. }
  assert (RS : forall e, In e S -> fst (fst e) < nrows m /\ snd (fst e) < nrows m /\ fst (fst e) <= snd (fst e)).
  { intros e He. apply RG. apply (Permutation_in _ (Permutation_sym SP)). auto. }
  assert (EX : forall r, r < nrows m -> exists x, In x S /\ fst (fst x) = r).
  { intros r Hr. destruct (perm_surj perm _ r P Hr) as (i & Hi & Ei). destruct (D i Hi) as (e & He & E1 & E2).
    exists (sym_moved perm e). split. { apply (Permutation_in _ SP). apply in_map. auto. }
    unfold sym_moved. cbn [fst]. rewrite E1, E2, Ei. lia. }
  rewrite wr_ok by lia. cbn [obind].
  destruct (store_ok m S (upd (ptrs m) 0 0) (idxs m) (vals m) (nrows m)) as (r' & Er); auto.
  { intros; apply RS; auto. }
  { rewrite upd_length. lia. }
  { rewrite A2. symmetry. exact LN. }
  { rewrite A3. symmetry. exact LN. }
  { rewrite nth_upd_eq by lia. auto. }
  rewrite <- LN, Er. cbn [obind]. eexists. split; [reflexivity|].
  assert (RP := counting_rep m S (eq_sym LN) ltac:(intros; rewrite PR; apply RS; auto) ltac:(intros; rewrite SE, <- Q; apply RS; auto)).
  rewrite PR in RP. rewrite (concat_buckets_sorted S (nrows m)) in RP; auto; [|intros; apply RS; auto].
  set (d := with_data m _ _ _) in *.
  assert (ED : entries d = S).
  { rewrite (rep_entries d _ RP). change (ord d) with (ord m). rewrite O, map_length.
    replace (length (buckets S (nrows m))) with (nrows m) by (unfold buckets; now rewrite map_length, seq_length).
    transitivity (concat (buckets S (nrows m))); [|apply concat_buckets_sorted; auto; intros; apply RS; auto].
    unfold buckets. rewrite !flat_map_concat_map. f_equal. apply map_ext_in. intros r Hr. apply in_seq in Hr.
    rewrite (nth_indep _ [] (map (fun x => (snd (fst x), snd x)) (bucket S 0))) by (rewrite map_length, map_length, seq_length; lia).
    rewrite (map_nth (map (fun x : nat * nat * T => (snd (fst x), snd x)))).
    rewrite (map_nth (bucket S)), seq_nth by lia. rewrite map_map. unfold bucket. cbn [Nat.add].
    rewrite <- (map_id (filter _ S)) at 2. apply map_ext_in. intros x Hx. apply filter_In in Hx. destruct Hx as [_ Hx]. apply Nat.eqb_eq in Hx.
    unfold coords. destruct x as [[a b] c]. cbn [fst snd] in *. subst. auto. }
  split; [eapply rep_valid; eauto|]. split.
  { intros p Hp. change (size_primary d) with (size_primary m) in Hp. rewrite PR in Hp.
    rewrite (rep_line d _ p (map (fun x => (snd (fst x), snd x)) (bucket S p)) RP).
    2:{ rewrite nth_error_map, buckets_nth by auto. reflexivity. }
    rewrite map_map. unfold bucket. cbn [fst]. clear - SS. unfold sorted in *. induction SS as [|x l Hl IH HF]; cbn [filter map]; [constructor|].
    destruct (Nat.eqb_spec (fst (fst x)) p) as [E|E]; auto. cbn [map]. constructor; auto. rewrite Forall_forall in *.
    intros c Hc. apply in_map_iff in Hc. destruct Hc as (y & <- & Hy). apply filter_In in Hy. destruct Hy as [Hy Ey]. apply Nat.eqb_eq in Ey.
    specialize (HF y Hy). unfold le_of, ijv_ltb in *. rewrite Ey, E, Nat.eqb_refl in HF. exact HF. }
  split. { intros e He. rewrite ED in He. apply RS in He. unfold e_row, e_col. tauto. }
  split; [auto|]. split; [auto|]. split; [auto|]. split; [auto|]. split; [auto|].
  intros i j Hi Hj. unfold upper_values, values_at. rewrite ED.
  transitivity (map e_val (filter (fun e => (e_row e =? Nat.min (nth i perm 0) (nth j perm 0)) && (e_col e =? Nat.max (nth i perm 0) (nth j perm 0))) L)).
  { apply Permutation_map, filter_perm, Permutation_sym, SP. }
  unfold L. rewrite filter_map, map_map.
  rewrite (filter_ext_in _ (fun e => (e_row e =? Nat.min i j) && (e_col e =? Nat.max i j))).
  - apply Permutation_refl.
  - intros e He. destruct (entry_range m e V He) as [X1 X2]. rewrite <- Q in X2. pose proof (U e He) as UE.
    change (e_row (sym_moved perm e)) with (Nat.min (nth (e_row e) perm 0) (nth (e_col e) perm 0)).
    change (e_col (sym_moved perm e)) with (Nat.max (nth (e_row e) perm 0) (nth (e_col e) perm 0)).
    pose proof (perm_inj perm _ (e_row e) i P X1 Hi) as I1. pose proof (perm_inj perm _ (e_row e) j P X1 Hj) as I2.
    pose proof (perm_inj perm _ (e_col e) i P X2 Hi) as I3. pose proof (perm_inj perm _ (e_col e) j P X2 Hj) as I4.
    set (a := nth (e_row e) perm 0) in *. set (b := nth (e_col e) perm 0) in *.
    match goal with |- ?x = ?y => destruct x eqn:Ex, y eqn:Ey end; auto; exfalso.
    + apply andb_true_iff in Ex. rewrite !Nat.eqb_eq in Ex. destruct Ex as [Ea Eb].
      assert (M : e_row e = Nat.min i j /\ e_col e = Nat.max i j).
      { apply le_min_max; auto. destruct (min_max_eq _ _ _ _ Ea Eb) as [[C1 C2]|[C1 C2]]; [left|right]; split; auto. }
      destruct M as [M1 M2]. rewrite M1, M2, !Nat.eqb_refl in Ey. discriminate.
    + apply andb_true_iff in Ey. rewrite !Nat.eqb_eq in Ey. destruct Ey as [Ea Eb].
      assert (M : (a = nth i perm 0 /\ b = nth j perm 0) \/ (a = nth j perm 0 /\ b = nth i perm 0)).
      { unfold a, b. destruct (Nat.le_ge_cases i j) as [L1|L1].
        - rewrite Nat.min_l in Ea by auto. rewrite Nat.max_r in Eb by auto. rewrite Ea, Eb. auto.
        - rewrite Nat.min_r in Ea by auto. rewrite Nat.max_l in Eb by auto. rewrite Ea, Eb. auto. }
      destruct M as [[M1 M2]|[M1 M2]]; rewrite M1, M2 in Ex.
      * rewrite !Nat.eqb_refl in Ex. discriminate.
      * rewrite Nat.min_comm, Nat.max_comm, !Nat.eqb_refl in Ex. discriminate.
Qed.

(** Concrete instance: a 3 x 3 matrix, the cycle 0 -> 2 -> 1 -> 0. *)
Definition isort_ijv : list (nat * nat * nat) -> list (nat * nat * nat) := isort ijv_ltb.
Definition perm_m : csx nat := Csx 3 3 5 OrdR UploU [0; 2; 4; 5] [0; 2; 1; 2; 2] [10; 11; 12; 13; 14].
Example permute_csr_ex : permute_csr isort_ijv perm_m [2; 0; 1] =
  Ok (Csx 3 3 5 OrdR UploU [0; 2; 4; 5] [0; 1; 1; 2; 2] [12; 13; 14; 11; 10]).
Proof. vm_compute. reflexivity. Qed.
Example permute_csr_ex_hyps : valid perm_m /\ is_perm [2; 0; 1] 3 /\ upper perm_m /\ has_diagonal perm_m.
Proof.
  split; [|split; [|split]].
  - split.
    + unfold allocated. cbn. auto.
    + reflexivity.
    + reflexivity.
    + cbn. intros p Hp. destruct p as [|[|[|p]]]; cbn; lia.
    + cbn. intros c Hc. repeat (destruct Hc as [<-|Hc]; [lia|]). destruct Hc.
  - unfold is_perm. cbn. apply Permutation_sym. apply perm_trans with [0; 2; 1]; [repeat constructor|apply perm_swap].
  - intros e He. vm_compute in He. unfold e_row, e_col. repeat (destruct He as [<-|He]; [cbn; lia|]). destruct He.
  - intros i Hi. cbn in Hi. destruct i as [|[|[|i]]]; [exists (0, 0, 10)|exists (1, 1, 12)|exists (2, 2, 14)|lia]; (split; [|split]); vm_compute; auto 10.
Qed.

(** Without a stored diagonal a row of the result may be empty; its pointer then keeps a stale value and
    the matrix is no longer well-formed. *)
Theorem permute_csr_without_diagonal_refuted :
  exists (m d : csx nat) perm, valid m /\ ord m = OrdR /\ nrows m = ncols m /\ is_perm perm (nrows m) /\ upper m /\
    permute_csr isort_ijv m perm = Ok d /\ ~ valid d.
Proof.
  exists (Csx 2 2 1 OrdR UploU [0; 1; 1] [0] [7]), (Csx 2 2 1 OrdR UploU [0; 1; 2] [1] [7]), [1; 0].
  split; [|split; [reflexivity|split; [reflexivity|split; [|split; [|split]]]]].
  - split.
    + unfold allocated. cbn. auto.
    + reflexivity.
    + reflexivity.
    + cbn. intros p Hp. destruct p as [|[|p]]; cbn; lia.
    + cbn. intros c [<-|[]]. lia.
  - unfold is_perm. cbn. apply perm_swap.
  - intros e He. vm_compute in He. destruct He as [<-|[]]. cbn. lia.
  - vm_compute. reflexivity.
  - intros V. pose proof (v_last _ V). discriminate.
Qed.

(** The dense version moves in the opposite direction: B(i, j) = A(p(i), p(j)). *)
Theorem permute_dense_gathers {T} n (v : list T) perm :
  length v = n * n -> is_perm perm n ->
  exists v', permute_dense n n v perm = Ok v' /\ length v' = n * n /\
    forall i j, i < n -> j < n -> full_at n v' i j = full_at n v (nth i perm 0) (nth j perm 0).
Proof.
  intros LV P. pose proof (perm_length _ _ P) as LP. unfold permute_dense. rewrite Nat.eqb_refl. cbn [negb].
  destruct (Nat.eq_dec n 0) as [->|Hn]. { exists v. split; [reflexivity|]. split; [auto|]. intros; lia. }
  assert (V0 : exists d, In d v). { destruct v as [|d v]; [cbn [length] in LV; symmetry in LV; apply Nat.eq_mul_0 in LV; lia|]. exists d. left; auto. } destruct V0 as (d & _).
  set (L := flat_map (fun r => map (pair r) (seq 0 n)) (seq 0 n)).
  assert (IL : forall x, In x L <-> fst x < n /\ snd x < n).
  { intros [r c]. unfold L. rewrite in_flat_map. split.
    - intros (a & Ha & Hx). apply in_map_iff in Hx. destruct Hx as (b & E & Hb). inversion E; subst. apply in_seq in Ha, Hb. cbn. lia.
    - cbn. intros [H1 H2]. exists r. split; [apply in_seq; lia|]. apply in_map. apply in_seq. lia. }
  assert (B : forall a b, a < n -> b < n -> a * n + b < n * n) by (intros a b Ha Hb; pose proof (Nat.mul_le_mono_r (Datatypes.S a) n n Ha); lia).
  destruct (assign_ok (fun x => fst x * n + snd x) (fun x => nth (nth (fst x) perm 0 * n + nth (snd x) perm 0) v d) L v) as (v' & E & L' & N1 & N2).
  { intros x Hx. apply IL in Hx. rewrite LV. apply B; tauto. }
  exists v'. split; [|split; [congruence|]].
  - rewrite <- E. unfold L. rewrite <- foldM_flat_map. apply foldM_ext_in. intros w r Hr. apply in_seq in Hr. rewrite foldM_map.
    apply foldM_ext_in. intros w' c Hc. apply in_seq in Hc. cbn [fst snd]. unfold permute_dense_elem.
    pose proof (perm_lt perm n r P ltac:(lia)). pose proof (perm_lt perm n c P ltac:(lia)).
    rewrite (rd_ok perm r 0) by lia. cbn [obind]. rewrite (rd_ok perm c 0) by lia. cbn [obind].
    rewrite (rd_ok v _ d) by (rewrite LV; apply B; auto). cbn [obind]. reflexivity.
  - intros i j Hi Hj. unfold full_at. pose proof (perm_lt perm n i P Hi). pose proof (perm_lt perm n j P Hj).
    rewrite (nth_error_nth' v d) by (rewrite LV; apply B; auto).
    apply (N2 (i, j)). { apply IL. auto. }
    intros y Hy Ey. apply IL in Hy. cbn [fst snd] in *. destruct (Nat.div_mod_unique n (fst y) i (snd y) j) as [-> ->]; auto; lia.
Qed.

Example permute_dense_ex : permute_dense 3 3 [10; 1; 2; 1; 20; 3; 2; 3; 30] [2; 0; 1] = Ok [30; 2; 3; 2; 10; 1; 3; 1; 20].
Proof. vm_compute. reflexivity. Qed.

(** _getKernel hands the inverse permutation to both versions: the sparse result is then ordered by the
    permutation itself, the order in which the kernel vectors are scattered back. *)
Theorem kernel_order_sparse {T} sort sort1 sortby (m : csx T) shuffled k :
  valid m -> ord m = OrdR -> nrows m = ncols m -> is_perm shuffled (nrows m) -> k <= nrows m -> sort_contract ijv_ltb sort ->
  sort_contract Nat.ltb sort1 -> (forall key, sort_contract (fun i j => key i <? key j) (sortby key)) ->
  upper m -> has_diagonal m ->
  let pv := perm_vec sort1 k shuffled in
  is_perm pv (nrows m) /\
  exists d, permute_csr sort m (reverse_perm sortby pv) = Ok d /\
    forall a b, a < nrows m -> b < nrows m -> Permutation (upper_values d a b) (upper_values m (nth a pv 0) (nth b pv 0)).
Proof.
  intros V O Q P Hk SC S1 SB U D pv.
  assert (PV : is_perm pv (nrows m)).
  { unfold pv, perm_vec, is_perm. transitivity shuffled; auto. rewrite <- (firstn_skipn k shuffled) at 3.
    apply Permutation_app; apply Permutation_sym; apply S1. }
  split; auto. pose proof (perm_length _ _ PV) as LP.
  assert (RP : is_perm (reverse_perm sortby pv) (nrows m)).
  { unfold is_perm, reverse_perm. rewrite LP. apply Permutation_sym. apply SB. }
  (* the inverse: the sorted images are 0, 1, 2, ... *)
  assert (INV : forall i, i < nrows m -> nth (nth i (reverse_perm sortby pv) 0) pv 0 = i).
  { assert (ES : map (fun i => nth i pv 0) (reverse_perm sortby pv) = seq 0 (nrows m)).
    { destruct (SB (fun i => nth i pv 0) (seq 0 (length pv))) as [B1 B2]. fold (reverse_perm sortby pv) in B1, B2.
      apply sorted_same.
      - apply seq_NoDup.
      - clear - B2. induction B2; cbn [map]; constructor; auto. rewrite Forall_forall in *. intros x Hx. apply in_map_iff in Hx.
        destruct Hx as (y & <- & Hy). apply H. auto.
      - transitivity (map (fun i => nth i pv 0) (seq 0 (length pv))). { apply Permutation_map, Permutation_sym, B1. }
        replace (map (fun i => nth i pv 0) (seq 0 (length pv))) with pv; auto.
        apply (nth_ext _ _ 0 0). { now rewrite map_length, seq_length. }
        intros j Hj. rewrite (nth_indep (map (fun i => nth i pv 0) (seq 0 (length pv))) 0 ((fun i => nth i pv 0) 0)) by (rewrite map_length, seq_length; auto). rewrite (map_nth (fun i => nth i pv 0)), seq_nth by auto. reflexivity.
      - clear. generalize 0. generalize (nrows m). induction n; intros s; cbn [seq]; constructor; [apply IHn|]. apply Forall_forall.
        intros x Hx. apply in_seq in Hx. apply Nat.ltb_lt. lia. }
    intros i Hi. pose proof (f_equal (fun l => nth i l 0) ES) as N. cbn beta in N. rewrite seq_nth in N by auto.
    rewrite (nth_indep (map (fun i => nth i pv 0) (reverse_perm sortby pv)) 0 ((fun i => nth i pv 0) 0)) in N by (rewrite map_length, (perm_length _ _ RP); auto).
    rewrite (map_nth (fun i => nth i pv 0)) in N. exact N. }
  destruct (permute_csr_moves sort m (reverse_perm sortby pv) V O Q RP SC U D) as (d & E & _ & _ & _ & _ & _ & _ & _ & _ & M).
  exists d. split; auto. intros a b Ha Hb.
  assert (W : forall a, a < nrows m -> nth (nth a pv 0) (reverse_perm sortby pv) 0 = a).
  { intros x Hx. destruct (perm_surj _ _ x RP Hx) as (i & Hi & Ei). rewrite <- Ei at 1. rewrite INV by auto. exact Ei. }
  pose proof (M (nth a pv 0) (nth b pv 0) (perm_lt _ _ _ PV Ha) (perm_lt _ _ _ PV Hb)) as H. rewrite !W in H by auto. exact H.
Qed.

(** concrete instance: a random order 2 0 1 with one non-singular row *)
Definition sortby_nat (key : nat -> nat) : list nat -> list nat := isort (fun i j => key i <? key j).
Example kernel_order_ex : perm_vec (isort Nat.ltb) 1 [2; 1; 0] = [2; 0; 1] /\ reverse_perm sortby_nat [2; 0; 1] = [1; 2; 0] /\
  permute_csr isort_ijv perm_m [1; 2; 0] = Ok (Csx 3 3 5 OrdR UploU [0; 3; 4; 5] [0; 1; 2; 1; 2] [14; 11; 13; 10; 12]).
Proof. split; [|split]; vm_compute; reflexivity. Qed.

(** The dense version gets the same inverse permutation but gathers: the elements are then not in the
    order of the permutation, which the kernel vectors are scattered with. *)
Theorem kernel_order_dense_refuted :
  exists (v v' : list nat) n sort1 sortby shuffled k,
    length v = n * n /\ is_perm shuffled n /\ k <= n /\ sort_contract Nat.ltb sort1 /\
    (forall key, sort_contract (fun i j => key i <? key j) (sortby key)) /\
    let pv := perm_vec sort1 k shuffled in
    permute_dense n n v (reverse_perm sortby pv) = Ok v' /\
    exists a b, a < n /\ b < n /\ full_at n v' a b <> full_at n v (nth a pv 0) (nth b pv 0).
Proof.
  exists [10; 1; 2; 1; 20; 3; 2; 3; 30], [20; 3; 1; 3; 30; 2; 1; 2; 10], 3, (isort Nat.ltb), sortby_nat, [2; 1; 0], 1.
  split; [reflexivity|]. split.
  { unfold is_perm. cbn. apply perm_trans with [1; 2; 0]; [apply perm_swap|]. apply perm_trans with [1; 0; 2]; [repeat constructor|apply perm_swap]. }
  split; [lia|]. split; [apply isort_contract; apply nat_order|]. split.
  { intros key. apply isort_contract. split.
    - intros a b H. apply Nat.ltb_lt in H. apply Nat.ltb_ge. lia.
    - intros a b c. unfold le_of. rewrite !Nat.ltb_ge. lia. }
  split; [vm_compute; reflexivity|]. exists 0, 0. split; [lia|]. split; [lia|]. vm_compute. discriminate.
Qed.

Print Assumptions permute_csr_moves.
Print Assumptions permute_csr_without_diagonal_refuted.
Print Assumptions permute_dense_gathers.
Print Assumptions kernel_order_sparse.
Print Assumptions kernel_order_dense_refuted.
