(** * Windows of rows, sub-matrices, uniqueness of the arrays *)
From Coq Require Import List Bool Arith Lia Permutation Sorted.
From Verif Require Import Base S_Order M_Csx S_Csx L_Utils L_Csx L_Csx2 P_Csx P_Csx2.
Import ListNotations.
Local Open Scope out_scope.

Definition at_pos {T} (m : csx T) (b : nat) (r : list (nat * T)) : Prop :=
  forall k x, nth_error r k = Some x -> nth_error (idxs m) (b + k) = Some (fst x) /\ nth_error (vals m) (b + k) = Some (snd x).

Lemma at_pos_tail {T} (m : csx T) b x r : at_pos m b (x :: r) -> at_pos m (b + 1) r.
Proof. intros H k y E. replace (b + 1 + k) with (b + S k) by lia. apply H. auto. Qed.

Lemma skip_ok {T} (m : csx T) lo r : forall b, at_pos m b r -> sorted Nat.ltb (map fst r) ->
  exists k, skip_below (idxs m) lo (length r) b = Ok (b + k) /\ k <= length r /\
    skipn k r = filter (fun x => lo <=? fst x) r.
Proof.
  induction r as [|x r IH]; intros b H HS; simpl length.
  - exists 0. rewrite Nat.add_0_r. repeat split; auto.
  - cbn [skip_below]. destruct (H 0 x eq_refl) as [E1 E2]. rewrite Nat.add_0_r in *. rewrite (rd_some _ _ _ E1). cbn [obind].
    unfold sorted in HS. cbn [map] in HS. inversion HS; subst.
    cbn [filter]. destruct (Nat.ltb_spec (fst x) lo) as [Q|Q].
    + destruct (IH (b + 1) (at_pos_tail m b x r H)) as (k & E & HK & EK); auto.
      exists (S k). rewrite E. split; [f_equal; lia|]. split; [lia|]. destruct (Nat.leb_spec lo (fst x)); [lia|]. exact EK.
    + exists 0. rewrite Nat.add_0_r. repeat split; auto; try lia. destruct (Nat.leb_spec lo (fst x)); [|lia]. simpl. f_equal.
      symmetry. apply filter_all. intros y Hy. rewrite Forall_forall in H3. specialize (H3 (fst y) (in_map fst _ _ Hy)).
      unfold le_of in H3. apply Nat.ltb_ge in H3. apply Nat.leb_le. lia.
Qed.

Lemma while_ok {T S} (m : csx T) hi (f : S -> nat -> nat -> outcome S) (g : S -> nat * T -> outcome S) r :
  (forall s i x, nth_error (idxs m) i = Some (fst x) -> nth_error (vals m) i = Some (snd x) -> f s i (fst x) = g s x) ->
  forall b s, at_pos m b r -> sorted Nat.ltb (map fst r) ->
  while_below (idxs m) hi f (length r) b s = foldM g (filter (fun x => fst x <? hi) r) s.
Proof.
  intros Hf. induction r as [|x r IH]; intros b s H HS; auto.
  cbn [length while_below]. destruct (H 0 x eq_refl) as [E1 E2]. rewrite Nat.add_0_r in *. rewrite (rd_some _ _ _ E1). cbn [obind].
  unfold sorted in HS. cbn [map] in HS. inversion HS; subst. cbn [filter].
  destruct (Nat.ltb_spec (fst x) hi) as [Q|Q].
  - cbn [foldM]. rewrite (Hf s b x E1 E2). destruct (g s x); cbn [obind]; auto. apply IH; auto. eapply at_pos_tail; eauto.
  - rewrite filter_none; auto. intros y Hy. rewrite Forall_forall in H3. specialize (H3 (fst y) (in_map fst _ _ Hy)).
    unfold le_of in H3. apply Nat.ltb_ge in H3. apply Nat.ltb_ge. lia.
Qed.

Lemma nth_error_skip {A} k (l : list A) j : nth_error (skipn k l) j = nth_error l (k + j).
Proof. revert l. induction k; intros [|a l]; simpl; auto. now destruct j. Qed.

Definition in_range (lo hi c : nat) : bool := (lo <=? c) && (c <? hi).

Lemma sorted_skipn {A} (ltb : A -> A -> bool) k l : sorted ltb l -> sorted ltb (skipn k l).
Proof. revert l. induction k; intros [|a l] H; simpl; auto. inversion H; subst. apply IHk; auto. Qed.

Lemma window_ok {T S} (m : csx T) rs p r lo hi (f : S -> nat -> nat -> outcome S) (g : S -> nat * T -> outcome S) s :
  rep m rs -> nth_error rs p = Some r -> sorted Nat.ltb (map fst r) ->
  (forall s i x, nth_error (idxs m) i = Some (fst x) -> nth_error (vals m) i = Some (snd x) -> f s i (fst x) = g s x) ->
  window_row m lo hi f s p = foldM g (filter (fun x => in_range lo hi (fst x)) r) s.
Proof.
  intros H E HS Hf. assert (Hp : p < length rs) by (apply nth_error_Some; rewrite E; discriminate).
  unfold window_row. rewrite (r_ptrs _ _ H).
  rewrite (rd_some _ _ _ (nth_error_map_offs rs (length rs) p ltac:(lia))).
  rewrite (rd_some _ _ _ (nth_error_map_offs rs (length rs) (p + 1) ltac:(lia))). cbn [obind].
  rewrite Nat.add_1_r, (offs_S _ _ _ E). replace (offs rs p + length r - offs rs p) with (length r) by lia.
  assert (HP : at_pos m (offs rs p) r) by (intros k x K; eapply rep_pos; eauto).
  destruct (skip_ok m lo r (offs rs p) HP HS) as (k & E1 & HK & EK). rewrite E1. cbn [obind].
  replace (offs rs p + length r - (offs rs p + k)) with (length (skipn k r)) by (rewrite skipn_length; lia).
  rewrite (while_ok m hi f g (skipn k r) Hf).
  - rewrite EK. rewrite filter_filter with (h := fun x => in_range lo hi (fst x)); auto.
    intros x. unfold in_range. apply andb_comm.
  - intros j x K. rewrite nth_error_skip in K. rewrite <- Nat.add_assoc. apply HP. auto.
  - rewrite <- skipn_map. apply sorted_skipn; auto.
Qed.

(** ** Rows of a sub-matrix *)
Definition sub_line {T} (lo hi : nat) (r : list (nat * T)) : list (nat * T) :=
  map (fun x => (fst x - lo, snd x)) (filter (fun x => in_range lo hi (fst x)) r).

Definition sub_rows {T} (src : csx T) (rs : list (list (nat * T))) (w : window) : list (list (nat * T)) :=
  map (fun p => sub_line (start_sec src w) (end_sec src w) (nth (start_prim src w + p) rs []))
    (seq 0 (end_prim src w - start_prim src w)).

Definition fits {T} (src : csx T) (w : window) : Prop :=
  row_start w <= row_end w /\ row_end w <= nrows src /\ col_start w <= col_end w /\ col_end w <= ncols src.

Lemma fits_prim {T} (src : csx T) w : fits src w ->
  start_prim src w <= end_prim src w /\ end_prim src w <= size_primary src /\
  start_sec src w <= end_sec src w /\ end_sec src w <= size_secdary src.
Proof. unfold fits, start_prim, end_prim, start_sec, end_sec, size_primary, size_secdary. destruct (ord src); tauto. Qed.

Lemma prims_map {T} (src : csx T) w : prims src w = map (fun p => start_prim src w + p) (seq 0 (end_prim src w - start_prim src w)).
Proof.
  unfold prims. generalize (start_prim src w) (end_prim src w - start_prim src w). intros b n.
  assert (G : forall k, seq (b + k) n = map (fun p => b + p) (seq k n)).
  { induction n as [|n IH]; intros k; auto. simpl. f_equal. rewrite <- IH. f_equal. lia. }
  rewrite <- G, Nat.add_0_r. auto.
Qed.

Lemma setup_ok {T} (src : csx T) rs w : rep src rs -> ascending src -> fits src w ->
  submatrix_setup src w = Ok (length (concat (sub_rows src rs w))).
Proof.
  intros H HAs HF. unfold submatrix_setup. pose proof HF as (F1 & F2 & F3 & F4).
  destruct (Nat.ltb_spec (row_end w) (row_start w)); [lia|]. destruct (Nat.ltb_spec (nrows src) (row_end w)); [lia|].
  destruct (Nat.ltb_spec (col_end w) (col_start w)); [lia|]. destruct (Nat.ltb_spec (ncols src) (col_end w)); [lia|]. cbn [orb].
  destruct (fits_prim src w HF) as (P1 & P2 & P3 & P4).
  rewrite prims_map, foldM_map. unfold sub_rows.
  assert (G : forall l n, (forall p, In p l -> start_prim src w + p < size_primary src) ->
     foldM (fun n p => window_row src (start_sec src w) (end_sec src w) (fun n _ _ => Ok (n + 1)) n (start_prim src w + p)) l n =
     Ok (n + length (concat (map (fun p => sub_line (start_sec src w) (end_sec src w) (nth (start_prim src w + p) rs [])) l)))).
  { induction l as [|p l IH]; intros n HL.
    - simpl. f_equal. lia.
    - cbn [foldM]. rewrite (window_ok src rs _ _ (start_sec src w) (end_sec src w) _ (fun n _ => Ok (n + 1)) n H (rep_nth src rs _ H (HL p (or_introl eq_refl)))); auto.
      + assert (Q : forall (r : list (nat * T)) n, foldM (fun n (_ : nat * T) => Ok (n + 1)) r n = Ok (n + length r)).
        { clear. induction r as [|x r IH]; intros n; cbn [foldM length obind]; [f_equal; lia|]. rewrite IH. f_equal. lia. }
        rewrite Q. cbn [obind]. rewrite IH by (intros; apply HL; right; auto).
        cbn [map concat]. rewrite app_length. unfold sub_line at 2. rewrite map_length. f_equal. lia.
      + apply (proj1 (rep_ascending src rs H) HAs). apply nth_In. rewrite (r_len _ _ H). apply HL; left; auto. }
  rewrite G; [reflexivity|]. intros p Hp. apply in_seq in Hp. lia.
Qed.

Lemma sub_sizes_same {T} (src dst : csx T) w : ord dst = ord src ->
  nrows dst = row_end w - row_start w -> ncols dst = col_end w - col_start w ->
  size_primary dst = end_prim src w - start_prim src w /\ size_secdary dst = end_sec src w - start_sec src w.
Proof. unfold size_primary, size_secdary, end_prim, start_prim, end_sec, start_sec. intros ->. destruct (ord src); auto. Qed.

Lemma sub_sizes_diff {T} (src dst : csx T) w : ord dst <> ord src ->
  nrows dst = row_end w - row_start w -> ncols dst = col_end w - col_start w ->
  size_secdary dst = end_prim src w - start_prim src w /\ size_primary dst = end_sec src w - start_sec src w.
Proof. unfold size_primary, size_secdary, end_prim, start_prim, end_sec, start_sec. destruct (ord dst), (ord src); try congruence; auto. Qed.

Lemma sub_line_range {T} lo hi (r : list (nat * T)) x : In x (sub_line lo hi r) -> fst x < hi - lo.
Proof.
  unfold sub_line. intros Hx. apply in_map_iff in Hx. destruct Hx as (y & <- & Hy). apply filter_In in Hy. destruct Hy as [_ Hy].
  unfold in_range in Hy. apply andb_true_iff in Hy. destruct Hy as [A B]. apply Nat.leb_le in A. apply Nat.ltb_lt in B. cbn [fst]. lia.
Qed.

Lemma submatrix_same_rep {T} (src dst : csx T) rs w n : rep src rs -> ascending src -> fits src w ->
  allocated dst -> ord dst = ord src -> nrows dst = row_end w - row_start w -> ncols dst = col_end w - col_start w ->
  n = length (concat (sub_rows src rs w)) -> nnz dst = n ->
  exists d, submatrix_same src dst w n = Ok d /\ rep d (sub_rows src rs w) /\
    nrows d = nrows dst /\ ncols d = ncols dst /\ ord d = ord dst /\ nnz d = n.
Proof.
  intros H HAs HF HA HO S1 S2 Hn S3.
  destruct (fits_prim src w HF) as (P1 & P2 & P3 & P4). destruct (sub_sizes_same src dst w HO S1 S2) as (Z1 & Z2).
  set (np := end_prim src w - start_prim src w) in *.
  set (f := fun p => sub_line (start_sec src w) (end_sec src w) (nth (start_prim src w + p) rs [])).
  change (sub_rows src rs w) with (map f (seq 0 np)) in *.
  set (body := fun (st : list nat * list T * nat) p =>
     window_row src (start_sec src w) (end_sec src w) (sub_entry src (start_sec src w)) st (start_prim src w + p)).
  destruct (build_rows dst body f np Z1 HA ltac:(lia)) as (pt & st & E & L & W & O).
  { intros st W p Hp HW HL. unfold body.
    rewrite (window_ok src rs _ _ (start_sec src w) (end_sec src w) _ (fun s x => emit s (fst x - start_sec src w) (snd x)) st H
       (rep_nth src rs (start_prim src w + p) H ltac:(unfold np in *; lia))).
    - destruct (emits_ok (nnz dst) (fun s x => emit s (fst x) (snd x)) (f p) ltac:(auto) st W HW HL) as (s' & Es & Ws).
      unfold f, sub_line in Es. rewrite foldM_map in Es. eauto.
    - apply (proj1 (rep_ascending src rs H) HAs). apply nth_In. rewrite (r_len _ _ H). unfold np in *. lia.
    - intros s i x E1 E2. unfold sub_entry. rewrite (rd_some _ _ _ E2). reflexivity. }
  unfold submatrix_same. rewrite prims_map, foldM_map. fold np.
  rewrite foldM_ext_in with (g := build_step body).
  2: { intros [pt0 st0] p Hp. unfold sub_row, build_step, body. cbn [fst snd].
       replace (start_prim src w + p - start_prim src w) with p by lia. reflexivity. }
  rewrite E. cbn [obind]. rewrite S3 in *.
  pose proof (build_rep dst f np pt st Z1 ltac:(congruence) L) as HB. rewrite S3 in HB. specialize (HB W O).
  destruct st as [[ix vs] k]. cbn [fst snd] in *. rewrite Z1, wr_ok by lia. cbn [obind].
  eexists; split; [reflexivity|]. split; [|cbn; auto].
  apply HB. intros p x Hp Hx. rewrite Z2. apply (sub_line_range _ _ _ _ Hx).
Qed.

Lemma sub_items {T} (src : csx T) rs w :
  items (sub_rows src rs w) = flat_map (fun p => map (fun x => (fst x - start_sec src w, p, snd x))
    (filter (fun x => in_range (start_sec src w) (end_sec src w) (fst x)) (nth (start_prim src w + p) rs [])))
    (seq 0 (end_prim src w - start_prim src w)).
Proof.
  unfold items, sub_rows. rewrite map_length, seq_length, !flat_map_concat_map. f_equal. apply map_ext_in. intros p Hp. apply in_seq in Hp.
  rewrite nth_map_seq by lia. unfold sub_line. rewrite map_map. reflexivity.
Qed.

Lemma window_fold {T S} (src : csx T) rs w (f : nat -> S -> nat -> nat -> outcome S) (g : nat -> S -> nat * T -> outcome S) s :
  rep src rs -> ascending src -> fits src w ->
  (forall p s i x, nth_error (idxs src) i = Some (fst x) -> nth_error (vals src) i = Some (snd x) ->
     f (start_prim src w + p) s i (fst x) = g p s x) ->
  foldM (fun s ips => window_row src (start_sec src w) (end_sec src w) (f ips) s ips) (prims src w) s =
  foldM (fun s p => foldM (g p) (filter (fun x => in_range (start_sec src w) (end_sec src w) (fst x)) (nth (start_prim src w + p) rs [])) s)
    (seq 0 (end_prim src w - start_prim src w)) s.
Proof.
  intros H HAs HF Hf. destruct (fits_prim src w HF) as (P1 & P2 & P3 & P4).
  rewrite prims_map, foldM_map. apply foldM_ext_in. intros s0 p Hp. apply in_seq in Hp.
  apply (window_ok src rs); auto.
  - apply (rep_nth src); auto. lia.
  - apply (proj1 (rep_ascending src rs H) HAs). apply nth_In. rewrite (r_len _ _ H). lia.
Qed.

Lemma submatrix_diff_rep {T} (src dst : csx T) rs w : rep src rs -> ascending src -> fits src w ->
  allocated dst -> ord dst <> ord src -> nrows dst = row_end w - row_start w -> ncols dst = col_end w - col_start w ->
  nnz dst = length (concat (sub_rows src rs w)) ->
  exists d, submatrix_diff src dst w = Ok d /\ rep d (map (col (sub_rows src rs w)) (seq 0 (size_primary dst))) /\
    nrows d = nrows dst /\ ncols d = ncols dst /\ ord d = ord dst /\ nnz d = nnz dst.
Proof.
  intros H HAs HF (A1 & A2 & A3) HO S1 S2 Hn.
  destruct (fits_prim src w HF) as (P1 & P2 & P3 & P4). destruct (sub_sizes_diff src dst w HO S1 S2) as (Z1 & Z2).
  set (rs' := sub_rows src rs w) in *.
  assert (HL : length (items rs') = nnz dst) by (rewrite items_length; auto).
  assert (HK : forall x, In x (items rs') -> fst (fst x) < size_primary dst).
  { intros x Hx. apply items_in in Hx. destruct Hx as (r & _ & Hr & Hx). rewrite Z2. unfold rs', sub_rows in Hx, Hr.
    rewrite map_length, seq_length in Hr. rewrite nth_map_seq in Hx by auto. apply (sub_line_range _ _ _ _ Hx). }
  assert (HR : forall x, In x (items rs') -> snd (fst x) < size_secdary dst).
  { intros x Hx. apply items_in in Hx. destruct Hx as (r & <- & Hr & Hx). rewrite Z1. unfold rs', sub_rows in Hr.
    rewrite map_length, seq_length in Hr. auto. }
  unfold submatrix_diff. rewrite zero_ok by lia. cbn [obind].
  rewrite (window_fold src rs w (fun _ p _ iss => incr p (iss - start_sec src w)) (fun _ p x => incr p (fst x - start_sec src w))) by auto.
  assert (EC : forall s, foldM (fun s p => foldM (fun s (x : nat * T) => incr s (fst x - start_sec src w))
      (filter (fun x => in_range (start_sec src w) (end_sec src w) (fst x)) (nth (start_prim src w + p) rs [])) s)
      (seq 0 (end_prim src w - start_prim src w)) s = foldM (fun p x => incr p (fst (fst x))) (items rs') s).
  { intros s. unfold rs'. rewrite sub_items, <- foldM_flat_map. apply foldM_ext_in. intros. rewrite foldM_map. reflexivity. }
  rewrite EC, (count_ok (items rs') (size_primary dst) HK). cbn [obind].
  rewrite (cumsum_ok (items rs') (size_primary dst)). cbn [obind].
  rewrite (window_fold src rs w (sub_place src w) (fun p s x => place s (fst x - start_sec src w) p (snd x))); auto.
  2: { intros p s i x E1 E2. unfold sub_place. rewrite (rd_some _ _ _ E2). cbn [obind]. f_equal. lia. }
  assert (EP : forall s, foldM (fun s p => foldM (fun s (x : nat * T) => place s (fst x - start_sec src w) p (snd x))
      (filter (fun x => in_range (start_sec src w) (end_sec src w) (fst x)) (nth (start_prim src w + p) rs [])) s)
      (seq 0 (end_prim src w - start_prim src w)) s = foldM place_item (items rs') s).
  { intros s. unfold rs'. rewrite sub_items, <- foldM_flat_map. apply foldM_ext_in. intros. rewrite foldM_map. reflexivity. }
  rewrite EP, (fill_ok (items rs') (size_primary dst) HK) by lia. cbn [obind].
  rewrite (shift_ok (items rs') (size_primary dst)). cbn [obind].
  eexists; split; [reflexivity|]. split; [|cbn; auto].
  rewrite <- buckets_col. apply counting_rep; auto.
Qed.

(** ** The entries of a sub-matrix *)
Lemma in_window_prim {T} (src : csx T) w p (x : nat * T) :
  in_window w (coords (ord src) p x) = in_range (start_prim src w) (end_prim src w) p && in_range (start_sec src w) (end_sec src w) (fst x).
Proof.
  unfold in_window, in_range, coords, start_prim, end_prim, start_sec, end_sec, e_row, e_col.
  destruct (ord src); cbn [fst snd]; rewrite ?andb_assoc; auto.
  destruct (row_start w <=? fst x), (fst x <? row_end w), (col_start w <=? p), (p <? col_end w); auto.
Qed.

Lemma shifted_prim {T} (src : csx T) w p (x : nat * T) : p < end_prim src w - start_prim src w ->
  shifted (row_start w) (col_start w) (coords (ord src) (start_prim src w + p) x) = coords (ord src) p (fst x - start_sec src w, snd x).
Proof.
  unfold shifted, coords, start_prim, end_prim, start_sec, e_row, e_col, e_val. destruct (ord src); cbn [fst snd]; intros; f_equal; f_equal; lia.
Qed.

Lemma flat_map_nil {A B} (f : A -> list B) l : (forall a, In a l -> f a = []) -> flat_map f l = [].
Proof. induction l; simpl; auto. intros H. rewrite H by auto. apply IHl. auto. Qed.

Lemma seq_split3 a b n : a <= b -> b <= n -> seq 0 n = seq 0 a ++ seq a (b - a) ++ seq b (n - b).
Proof.
  intros. rewrite <- (seq_app (b - a) (n - b) a) at 1 || idtac.
  replace n with (a + ((b - a) + (n - b))) at 1 by lia. rewrite seq_app. f_equal. rewrite seq_app.
  cbn [Nat.add]. f_equal. f_equal. lia.
Qed.

Lemma sub_entries {T} (src : csx T) rs w : rep src rs -> fits src w ->
  flat_map (fun p => map (coords (ord src) p) (nth p (sub_rows src rs w) [])) (seq 0 (length (sub_rows src rs w))) =
  map (shifted (row_start w) (col_start w)) (filter (in_window w) (entries src)).
Proof.
  intros H HF. destruct (fits_prim src w HF) as (P1 & P2 & P3 & P4).
  rewrite (rep_entries src rs H), (r_len _ _ H).
  rewrite (seq_split3 (start_prim src w) (end_prim src w) (size_primary src) P1 P2).
  rewrite !flat_map_app, !filter_app, !filter_flat_map.
  assert (Out : forall p, in_range (start_prim src w) (end_prim src w) p = false ->
     filter (in_window w) (map (coords (ord src) p) (nth p rs [])) = []).
  { intros p Hp. rewrite filter_map. rewrite filter_none; auto. intros x _. rewrite in_window_prim, Hp. reflexivity. }
  rewrite (flat_map_nil _ (seq 0 (start_prim src w))).
  2: { intros p Hp. apply in_seq in Hp. apply Out. unfold in_range. destruct (Nat.leb_spec (start_prim src w) p); auto. lia. }
  rewrite (flat_map_nil _ (seq (end_prim src w) _)).
  2: { intros p Hp. apply in_seq in Hp. apply Out. unfold in_range. destruct (Nat.ltb_spec p (end_prim src w)); auto; [lia|apply andb_false_r]. }
  rewrite app_nil_r. cbn [app]. fold (prims src w). rewrite prims_map.
  unfold sub_rows. rewrite map_length, seq_length.
  rewrite flat_map_map. rewrite !flat_map_concat_map, map_map. f_equal. apply map_ext_in. intros p Hp. apply in_seq in Hp.
  rewrite nth_map_seq by lia. unfold sub_line. rewrite filter_map, !map_map.
  erewrite filter_ext; [apply map_ext|].
  - intros x. symmetry. apply shifted_prim. lia.
  - intros x. cbv beta. rewrite in_window_prim. unfold in_range at 2.
    destruct (Nat.leb_spec (start_prim src w) (start_prim src w + p)); [|lia].
    destruct (Nat.ltb_spec (start_prim src w + p) (end_prim src w)); [|lia]. reflexivity.
Qed.

Lemma sorted_map_sub lo hi {T} (r : list (nat * T)) : sorted Nat.ltb (map fst r) -> sorted Nat.ltb (map fst (sub_line lo hi r)).
Proof.
  unfold sub_line, sorted. induction r as [|x r IH]; intros H; [constructor|]. cbn [map] in H. inversion H; subst. cbn [filter].
  destruct (in_range lo hi (fst x)); cbn [map fst]; [|apply IH; auto]. constructor; [apply IH; auto|].
  rewrite Forall_forall in *. intros c Hc. rewrite map_map in Hc. apply in_map_iff in Hc. destruct Hc as (y & <- & Hy). cbn [fst].
  apply filter_In in Hy. destruct Hy as [Hy _]. specialize (H3 (fst y) (in_map fst _ _ Hy)). unfold le_of in *.
  apply Nat.ltb_ge in H3. apply Nat.ltb_ge. lia.
Qed.

(** ** Two matrices with the same distinct entries and ascending rows have the same arrays *)
Lemma strict_unique {T} (l l' : list (nat * T)) :
  strictly_sorted Nat.ltb (map fst l) -> strictly_sorted Nat.ltb (map fst l') -> Permutation l l' -> l = l'.
Proof.
  revert l'. induction l as [|x l IH]; intros l' H1 H2 HP.
  - apply Permutation_nil in HP. auto.
  - destruct l' as [|y l']; [apply Permutation_sym, Permutation_nil in HP; discriminate|].
    unfold strictly_sorted in *. cbn [map] in *. inversion H1; subst. inversion H2; subst. rewrite Forall_forall in *.
    assert (x = y).
    { assert (Hx : In x (y :: l')) by (eapply Permutation_in; [exact HP|left; auto]).
      assert (Hy : In y (x :: l)) by (eapply Permutation_in; [symmetry; exact HP|left; auto]).
      destruct Hx as [Hx|Hx]; auto. destruct Hy as [Hy|Hy]; auto.
      specialize (H4 (fst y) (in_map fst _ _ Hy)). specialize (H6 (fst x) (in_map fst _ _ Hx)). apply Nat.ltb_lt in H4, H6. lia. }
    subst y. f_equal. apply IH; auto. eapply Permutation_cons_inv; eauto.
Qed.

Definition prim_of {T} (o : order) (e : entry T) : nat := match o with OrdR => e_row e | OrdC => e_col e end.
Definition pair_of {T} (o : order) (e : entry T) : nat * T := match o with OrdR => (e_col e, e_val e) | OrdC => (e_row e, e_val e) end.

Lemma line_of_entries {T} (m : csx T) p : p < size_primary m ->
  line m p = map (pair_of (ord m)) (filter (fun e => prim_of (ord m) e =? p) (entries m)).
Proof.
  intros Hp. unfold entries. rewrite filter_flat_map.
  rewrite (flat_map_single _ (seq 0 (size_primary m)) p).
  - rewrite filter_map, map_map. rewrite filter_all.
    + rewrite <- (map_id (line m p)) at 1. apply map_ext. intros [a v]. unfold pair_of, coords, e_row, e_col, e_val. destruct (ord m); reflexivity.
    + intros x _. unfold prim_of, coords, e_row, e_col. destruct (ord m); cbn [fst snd]; apply Nat.eqb_refl.
  - apply seq_NoDup.
  - apply in_seq. lia.
  - intros q _ Hq. rewrite filter_map, filter_none; auto. intros x _. unfold prim_of, coords, e_row, e_col.
    destruct (ord m); cbn [fst snd]; apply Nat.eqb_neq; auto.
Qed.

Lemma filter_perm {A} (f : A -> bool) l l' : Permutation l l' -> Permutation (filter f l) (filter f l').
Proof.
  induction 1; simpl; auto.
  - destruct (f x); auto.
  - destruct (f x), (f y); auto. constructor.
  - etransitivity; eauto.
Qed.

Lemma arrays_unique {T} (a b : csx T) : valid a -> valid b -> strictly_ascending a -> strictly_ascending b ->
  ord a = ord b -> nrows a = nrows b -> ncols a = ncols b -> Permutation (entries a) (entries b) ->
  ptrs a = ptrs b /\ idxs a = idxs b /\ vals a = vals b.
Proof.
  intros Va Vb Sa Sb HO H1 H2 HP.
  assert (P : size_primary a = size_primary b) by (unfold size_primary; rewrite HO, H1, H2; auto).
  assert (E : map (line a) (seq 0 (size_primary a)) = map (line b) (seq 0 (size_primary b))).
  { rewrite P. apply map_ext_in. intros p Hp. apply in_seq in Hp. apply strict_unique; [apply Sa; lia|apply Sb; lia|].
    rewrite (line_of_entries a), (line_of_entries b) by lia. rewrite HO. apply Permutation_map, filter_perm; auto. }
  pose proof (valid_rep a Va) as Ra. pose proof (valid_rep b Vb) as Rb. rewrite E in Ra.
  rewrite (r_ptrs _ _ Ra), (r_idxs _ _ Ra), (r_vals _ _ Ra), (r_ptrs _ _ Rb), (r_idxs _ _ Rb), (r_vals _ _ Rb). auto.
Qed.
