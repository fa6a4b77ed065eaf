(** * Lemmas about compressed matrices, continued: building a matrix row by row, conversion *)
From Coq Require Import List Bool Arith Lia Permutation Sorted.
From Verif Require Import Base S_Order M_Csx S_Csx L_Utils L_Csx.
Import ListNotations.
Local Open Scope out_scope.

Lemma order_eqb_spec a b : reflect (a = b) (order_eqb a b).
Proof. destruct a, b; simpl; constructor; congruence. Qed.

Lemma same_sizes_spec {A B} (s : csx A) (d : csx B) :
  same_sizes s d = true <-> nrows d = nrows s /\ ncols d = ncols s /\ nnz d = nnz s.
Proof. unfold same_sizes. rewrite !andb_true_iff, !Nat.eqb_eq. tauto. Qed.

Lemma offs_map {A B} (f : A -> B) (rs : list (list A)) p : offs (map (map f) rs) p = offs rs p.
Proof. unfold offs. rewrite firstn_map. rewrite <- concat_map, map_length. reflexivity. Qed.

(** ** Sequential writers *)
Definition written {T} (n : nat) (s : list nat * list T * nat) (W : list (nat * T)) : Prop :=
  length (fst (fst s)) = n /\ length (snd (fst s)) = n /\ snd s = length W /\
  firstn (snd s) (fst (fst s)) = map fst W /\ firstn (snd s) (snd (fst s)) = map snd W.

Lemma firstn_upd_snoc {A} (l : list A) k a : k < length l -> firstn (k + 1) (upd l k a) = firstn k l ++ [a].
Proof.
  revert l. induction k; intros [|b l] H; simpl in *; try lia; auto. f_equal. apply IHk. lia.
Qed.

Lemma emit_ok {T} n (s : list nat * list T * nat) W a v : written n s W -> length W < n ->
  exists s', emit s a v = Ok s' /\ written n s' (W ++ [(a, v)]).
Proof.
  destruct s as [[ix vs] k]. unfold written. cbn [fst snd]. intros (H1 & H2 & H3 & H4 & H5) HW.
  unfold emit. rewrite !wr_ok by lia. cbn [obind]. eexists; split; [reflexivity|].
  cbn [fst snd]. rewrite !upd_length, app_length, !map_app. cbn [length map fst snd].
  rewrite !firstn_upd_snoc by lia. rewrite H4, H5. repeat split; auto; lia.
Qed.

Lemma emits_ok {T} n (f : list nat * list T * nat -> nat * T -> outcome (list nat * list T * nat)) l :
  (forall s x, In x l -> f s x = emit s (fst x) (snd x)) ->
  forall s W, written n s W -> length W + length l <= n ->
  exists s', foldM f l s = Ok s' /\ written n s' (W ++ l).
Proof.
  induction l as [|x l IH]; intros Hf s W HW HL; simpl.
  - exists s. rewrite app_nil_r. auto.
  - simpl in HL. rewrite Hf by (left; auto). destruct (emit_ok n s W (fst x) (snd x) HW ltac:(lia)) as (s1 & E1 & W1).
    rewrite E1. cbn [obind].
    destruct (IH (fun s y Hy => Hf s y (or_intror Hy)) s1 _ W1) as (s2 & E2 & W2).
    + rewrite app_length. simpl. lia.
    + exists s2. split; auto. rewrite <- app_assoc in W2. rewrite <- surjective_pairing in W2. exact W2.
Qed.

Lemma written_all {T} n (s : list nat * list T * nat) W : written n s W -> length W = n ->
  fst (fst s) = map fst W /\ snd (fst s) = map snd W /\ snd s = n.
Proof.
  intros (H1 & H2 & H3 & H4 & H5) HL. rewrite firstn_all2 in H4 by lia. rewrite firstn_all2 in H5 by lia.
  repeat split; auto; lia.
Qed.

Lemma written_start {T} (m : csx T) : allocated m -> written (nnz m) (idxs m, vals m, 0) [].
Proof. intros (H1 & H2 & H3). unfold written. cbn [fst snd]. repeat split; auto. Qed.

(** the loop [for p: ptrs[p] = k; <write row p>] *)
Definition build_step {T} (body : list nat * list T * nat -> nat -> outcome (list nat * list T * nat))
  (s : list nat * (list nat * list T * nat)) (p : nat) :=
  pt' <- wr (fst s) p (snd (snd s)) ;;
  st' <- body (snd s) p ;;
  Ok (pt', st').

Lemma build_rows {T} (dst : csx T) (body : list nat * list T * nat -> nat -> outcome (list nat * list T * nat))
  (r : nat -> list (nat * T)) np :
  size_primary dst = np -> allocated dst ->
  length (concat (map r (seq 0 np))) <= nnz dst ->
  (forall st W p, p < np -> written (nnz dst) st W -> length W + length (r p) <= nnz dst ->
     exists st', body st p = Ok st' /\ written (nnz dst) st' (W ++ r p)) ->
  exists pt st, foldM (build_step body) (seq 0 np) (ptrs dst, (idxs dst, vals dst, 0)) = Ok (pt, st) /\
    length pt = np + 1 /\ written (nnz dst) st (concat (map r (seq 0 np))) /\
    (forall p, p < np -> nth p pt 0 = offs (map r (seq 0 np)) p).
Proof.
  intros Hnp HA HN Hb.
  set (rs := map r (seq 0 np)) in *.
  assert (Hrs : forall p, p < np -> nth_error rs p = Some (r p)).
  { intros p Hp. unfold rs. rewrite nth_error_map, nth_error_nth' with (d := 0) by (rewrite seq_length; auto).
    rewrite seq_nth by auto. reflexivity. }
  destruct (foldM_seq_inv (build_step body)
    (fun k s => length (fst s) = np + 1 /\ written (nnz dst) (snd s) (concat (firstn k rs)) /\
      forall p, p < k -> nth p (fst s) 0 = offs rs p) 0 np (ptrs dst, (idxs dst, vals dst, 0)))
    as ([pt st] & E & H1 & H2 & H3).
  - cbn [fst snd]. split; [|split].
    + destruct HA as (H & _). lia.
    + apply written_start; auto.
    + lia.
  - intros i [pt st] Hi (H1 & H2 & H3). cbn [fst snd] in *. unfold build_step. cbn [fst snd].
    rewrite wr_ok by lia. cbn [obind].
    pose proof (offs_S _ _ _ (Hrs i ltac:(lia))) as Q. pose proof (offs_le rs (S i)) as Q2. unfold offs in Q at 2.
    destruct (Hb st (concat (firstn i rs)) i ltac:(lia) H2 ltac:(lia)) as (st' & Eb & Wb).
    rewrite Eb. cbn [obind]. eexists; split; [reflexivity|]. cbn [fst snd]. rewrite upd_length.
    split; [auto|split].
    + rewrite (firstn_S_error _ _ _ (Hrs i ltac:(lia))), concat_app. cbn [concat]. rewrite app_nil_r. exact Wb.
    + intros p Hp. rewrite nth_upd by lia. destruct (Nat.eqb_spec i p) as [Ep|Ep].
      * subst p. destruct H2 as (_ & _ & H2 & _). rewrite H2. reflexivity.
      * apply H3. lia.
  - exists pt, st. cbn [fst snd] in *. rewrite Nat.add_0_l in *. split; auto. split; auto. split; [|intros; apply H3; auto].
    rewrite firstn_all2 in H2; auto. unfold rs. rewrite map_length, seq_length. auto.
Qed.

Lemma build_rep {T} (dst : csx T) (r : nat -> list (nat * T)) np pt st :
  size_primary dst = np ->
  length (concat (map r (seq 0 np))) = nnz dst ->
  length pt = np + 1 -> written (nnz dst) st (concat (map r (seq 0 np))) ->
  (forall p, p < np -> nth p pt 0 = offs (map r (seq 0 np)) p) ->
  (forall p x, p < np -> In x (r p) -> fst x < size_secdary dst) ->
  rep (with_data dst (upd pt np (nnz dst)) (fst (fst st)) (snd (fst st))) (map r (seq 0 np)).
Proof.
  intros Hnp HN HP HW HO HR. destruct (written_all _ _ _ HW HN) as (E1 & E2 & E3).
  set (rs := map r (seq 0 np)) in *.
  assert (HL : length rs = np) by (unfold rs; now rewrite map_length, seq_length).
  split; auto.
  - rewrite HL. symmetry. exact Hnp.
  - cbn [ptrs with_data]. apply (nth_ext _ _ 0 0).
    + rewrite upd_length, map_length, seq_length. lia.
    + intros j Hj. rewrite upd_length in Hj. rewrite nth_upd by lia. rewrite nth_map_offs by lia.
      destruct (Nat.eqb_spec np j) as [Ej|Ej]; [|apply HO; lia]. rewrite offs_all by lia. auto.
  - intros row x Hr Hx. unfold rs in Hr. apply in_map_iff in Hr. destruct Hr as (p & <- & Hp). apply in_seq in Hp.
    apply (HR p); auto. lia.
Qed.

(** ** Counting sort gives a matrix *)
Lemma counting_rep {T} (dst : csx T) (L : list (nat * nat * T)) :
  nnz dst = length L ->
  (forall x, In x L -> fst (fst x) < size_primary dst) ->
  (forall x, In x L -> snd (fst x) < size_secdary dst) ->
  rep (with_data dst (map (offs (buckets L (size_primary dst))) (seq 0 (S (size_primary dst))))
         (map (fun x => snd (fst x)) (concat (buckets L (size_primary dst))))
         (map snd (concat (buckets L (size_primary dst)))))
      (map (map (fun x => (snd (fst x), snd x))) (buckets L (size_primary dst))).
Proof.
  intros HN HK HR. set (bs := buckets L (size_primary dst)).
  assert (HL : length bs = size_primary dst) by (unfold bs, buckets; now rewrite map_length, seq_length).
  split.
  - rewrite map_length. exact HL.
  - cbn [ptrs with_data]. rewrite map_length, HL. apply map_ext. intros. now rewrite offs_map.
  - cbn [idxs with_data]. rewrite <- concat_map, map_map. reflexivity.
  - cbn [vals with_data]. rewrite <- concat_map, map_map. reflexivity.
  - cbn [nnz with_data]. rewrite <- concat_map, map_length. unfold bs. rewrite buckets_length; auto.
  - intros r x Hr Hx. apply in_map_iff in Hr. destruct Hr as (b & <- & Hb). apply in_map_iff in Hx.
    destruct Hx as (y & <- & Hy). cbn [fst]. apply HR. unfold bs, buckets in Hb. apply in_map_iff in Hb.
    destruct Hb as (c & <- & _). unfold bucket in Hy. apply filter_In in Hy. tauto.
Qed.

(** the (secondary, primary, value) items of a matrix, in storage order *)
Definition items {T} (rs : list (list (nat * T))) : list (nat * nat * T) :=
  flat_map (fun r => map (fun x => (fst x, r, snd x)) (nth r rs [])) (seq 0 (length rs)).

Lemma seq_nth_concat {A} (rs : list (list A)) : flat_map (fun r => nth r rs []) (seq 0 (length rs)) = concat rs.
Proof.
  rewrite flat_map_concat_map. f_equal. apply list_ext_error. intros k. rewrite nth_error_map.
  destruct (le_lt_dec (length rs) k) as [H|H].
  - rewrite (proj2 (nth_error_None rs k)) by auto. rewrite (proj2 (nth_error_None (seq 0 _) k)) by now rewrite seq_length. reflexivity.
  - rewrite nth_error_nth' with (d := 0) by now rewrite seq_length. rewrite seq_nth by auto. simpl.
    symmetry. apply nth_error_nth'. auto.
Qed.

Lemma flat_map_map {A B C} (f : B -> C) (g : A -> list B) l : map f (flat_map g l) = flat_map (fun a => map f (g a)) l.
Proof. induction l; simpl; auto. rewrite map_app, IHl. auto. Qed.

Lemma items_keys {T} (rs : list (list (nat * T))) : map (fun x => fst (fst x)) (items rs) = map fst (concat rs).
Proof.
  unfold items. rewrite flat_map_map. rewrite <- seq_nth_concat, flat_map_map.
  rewrite !flat_map_concat_map. f_equal. apply map_ext. intros. rewrite map_map. reflexivity.
Qed.

Lemma items_length {T} (rs : list (list (nat * T))) : length (items rs) = length (concat rs).
Proof. rewrite <- (map_length (fun x => fst (fst x))), items_keys, map_length. auto. Qed.

Lemma items_in {T} (rs : list (list (nat * T))) x : In x (items rs) <->
  exists r, r = snd (fst x) /\ r < length rs /\ In (fst (fst x), snd x) (nth r rs []).
Proof.
  unfold items. rewrite in_flat_map. split.
  - intros (r & Hr & Hx). apply in_seq in Hr. apply in_map_iff in Hx. destruct Hx as (y & <- & Hy). cbn [fst snd].
    exists r. repeat split; auto; try lia. now rewrite <- surjective_pairing.
  - intros (r & -> & Hr & Hx). exists (snd (fst x)). split; [apply in_seq; lia|].
    apply in_map_iff. exists (fst (fst x), snd x). split; auto. destruct x as [[a b] c]; reflexivity.
Qed.

(** entries of primary line [c] of the converted matrix *)
Definition col {T} (rs : list (list (nat * T))) (c : nat) : list (nat * T) :=
  flat_map (fun r => map (fun x => (r, snd x)) (filter (fun x => fst x =? c) (nth r rs []))) (seq 0 (length rs)).

Lemma filter_flat_map {A B} (f : B -> bool) (g : A -> list B) l : filter f (flat_map g l) = flat_map (fun a => filter f (g a)) l.
Proof. induction l; simpl; auto. rewrite filter_app, IHl. auto. Qed.

Lemma filter_map {A B} (f : B -> bool) (g : A -> B) l : filter f (map g l) = map g (filter (fun a => f (g a)) l).
Proof. induction l; simpl; auto. destruct (f (g a)); simpl; now rewrite IHl. Qed.

Lemma bucket_col {T} (rs : list (list (nat * T))) c :
  map (fun x => (snd (fst x), snd x)) (bucket (items rs) c) = col rs c.
Proof.
  unfold bucket, items, col. rewrite filter_flat_map, flat_map_map. rewrite !flat_map_concat_map. f_equal.
  apply map_ext. intros r. rewrite filter_map, map_map. reflexivity.
Qed.

Lemma buckets_col {T} (rs : list (list (nat * T))) n :
  map (map (fun x => (snd (fst x), snd x))) (buckets (items rs) n) = map (col rs) (seq 0 n).
Proof. unfold buckets. rewrite map_map. apply map_ext. intros. apply bucket_col. Qed.

Lemma foldM_seq_list {S A} (l : list A) (f : S -> nat -> outcome S) (g : S -> A -> outcome S) s :
  (forall s i a, nth_error l i = Some a -> f s i = g s a) -> foldM f (seq 0 (length l)) s = foldM g l s.
Proof.
  intros H.
  assert (G : forall k b s, (forall i a, nth_error k i = Some a -> nth_error l (b + i) = Some a) ->
     foldM f (seq b (length k)) s = foldM g k s).
  { induction k as [|a k IH]; intros b s0 Hk; auto. simpl.
    rewrite (H s0 b a) by (rewrite <- (Nat.add_0_r b); apply Hk; auto).
    destruct (g s0 a); simpl; auto. apply IH. intros i x Hi. replace (Datatypes.S b + i) with (b + Datatypes.S i) by lia. apply Hk; auto. }
  apply G; auto.
Qed.

Lemma counts_keys {T} (src : csx T) rs p : rep src rs ->
  foldM (count_step (idxs src)) (seq 0 (nnz src)) p = foldM (fun p (x : nat * nat * T) => incr p (fst (fst x))) (items rs) p.
Proof.
  intros H. rewrite (r_nnz _ _ H).
  replace (length (concat rs)) with (length (idxs src)) by now rewrite (r_idxs _ _ H), map_length.
  rewrite foldM_seq_list with (g := incr).
  - rewrite (r_idxs _ _ H), <- items_keys, foldM_map. reflexivity.
  - intros s i a E. unfold count_step, rd. rewrite E. reflexivity.
Qed.

Lemma rep_nth {T} (src : csx T) rs p : rep src rs -> p < size_primary src -> nth_error rs p = Some (nth p rs []).
Proof. intros H Hp. apply nth_error_nth'. rewrite (r_len _ _ H). auto. Qed.

Lemma rd_some {A} (l : list A) i a : nth_error l i = Some a -> rd l i = Ok a.
Proof. unfold rd. intros ->. reflexivity. Qed.

(** convert_csx_csy.cpp:85-98: the fill loop places all items *)
Lemma convert_fill {T} (src : csx T) rs s : rep src rs ->
  foldM (convert_row src) (seq 0 (size_primary src)) s = foldM (place_item) (items rs) s.
Proof.
  intros H. unfold items. rewrite <- foldM_flat_map, (r_len _ _ H). apply foldM_ext_in. intros s0 r Hr. apply in_seq in Hr.
  unfold convert_row. rewrite foldM_map.
  rewrite (row_loop' src rs r (nth r rs []) (convert_entry src r) (fun s x => place s (fst x) r (snd x)) s0 H).
  - reflexivity.
  - apply (rep_nth src); auto; lia.
  - intros s1 i x E1 E2. unfold convert_entry. rewrite (rd_some _ _ _ E1), (rd_some _ _ _ E2). reflexivity.
Qed.

Lemma change_sizes {T} (src dst : csx T) : ord src <> ord dst -> nrows dst = nrows src -> ncols dst = ncols src ->
  size_primary dst = size_secdary src /\ size_secdary dst = size_primary src.
Proof. unfold size_primary, size_secdary. destruct (ord src), (ord dst); intros; try congruence; auto. Qed.

Lemma convert_rep {T} (src dst : csx T) rs :
  rep src rs -> allocated dst -> ord src <> ord dst -> same_sizes src dst = true ->
  exists d, convert_csx_csy src dst = Ok d /\ rep d (map (col rs) (seq 0 (size_secdary src))) /\
    nrows d = nrows src /\ ncols d = ncols src /\ ord d = ord dst /\ nnz d = nnz src /\ upl d = upl dst.
Proof.
  intros H HA HO HS. pose proof HS as HS'. apply same_sizes_spec in HS'. destruct HS' as (S1 & S2 & S3).
  destruct (change_sizes src dst HO S1 S2) as [P1 P2].
  destruct HA as (A1 & A2 & A3).
  assert (HL : length (items rs) = nnz src) by (rewrite items_length, (r_nnz _ _ H); auto).
  assert (HK : forall x, In x (items rs) -> fst (fst x) < size_secdary src).
  { intros x Hx. apply items_in in Hx. destruct Hx as (r & -> & Hr & Hx).
    apply (r_range _ _ H (nth (snd (fst x)) rs []) (fst (fst x), snd x)); auto. apply nth_In; auto. }
  unfold convert_csx_csy. rewrite HS. cbn [negb]. destruct (order_eqb_spec (ord src) (ord dst)) as [E|_]; [congruence|].
  rewrite (zero_ok (size_secdary src)) by lia. cbn [obind].
  rewrite (counts_keys src rs) by auto. rewrite count_ok by auto. cbn [obind].
  rewrite cumsum_ok by auto. cbn [obind].
  rewrite (convert_fill src rs) by auto. rewrite fill_ok by (auto; lia). cbn [obind].
  rewrite shift_ok by auto. cbn [obind].
  eexists; split; [reflexivity|]. split.
  - rewrite <- P1. rewrite <- buckets_col. apply counting_rep; auto.
    + lia.
    + rewrite P1. auto.
    + intros x Hx. apply items_in in Hx. destruct Hx as (r & <- & Hr & _). rewrite P2, <- (r_len _ _ H). auto.
  - cbn. repeat split; auto.
Qed.
