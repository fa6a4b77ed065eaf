(** * Lemmas about compressed matrices: rows representation, counting sort, sequential writers *)
From Coq Require Import List Bool Arith Lia Permutation Sorted.
From Verif Require Import Base S_Order M_Csx S_Csx L_Utils.
Import ListNotations.
Local Open Scope out_scope.

(** ** Loops *)
Lemma foldM_ext_in {S A} (f g : S -> A -> outcome S) l s :
  (forall s a, In a l -> f s a = g s a) -> foldM f l s = foldM g l s.
Proof.
  revert s. induction l as [|a l IH]; intros s H; auto. simpl. rewrite (H s a) by (left; auto).
  destruct (g s a); simpl; auto. apply IH. intros; apply H; right; auto.
Qed.

Lemma foldM_map {S A B} (f : S -> B -> outcome S) (h : A -> B) l s :
  foldM f (map h l) s = foldM (fun s x => f s (h x)) l s.
Proof. revert s; induction l; simpl; intros; auto. destruct (f s (h a)); simpl; auto. Qed.

Lemma foldM_flat_map {S A B} (g : S -> B -> outcome S) (h : A -> list B) l s :
  foldM (fun s a => foldM g (h a) s) l s = foldM g (flat_map h l) s.
Proof.
  revert s; induction l; simpl; intros; auto. rewrite foldM_app. destruct (foldM g (h a) s); simpl; auto.
Qed.

(** ** Slices by nth_error *)
Lemma slice_nth_error {A} b e (l : list A) k : k < e - b -> nth_error (slice b e l) k = nth_error l (b + k).
Proof.
  intros H. unfold slice.
  assert (G : forall n (x : list A) i, i < n -> nth_error (firstn n x) i = nth_error x i).
  { clear. induction n; intros; try lia. destruct x; simpl; [now destruct i|]. destruct i; auto. simpl. apply IHn; lia. }
  rewrite G by auto. clear. revert l; induction b; intros; simpl; auto. destruct l; simpl; auto. now destruct k.
Qed.

Lemma list_ext_error {A} (l l' : list A) : (forall k, nth_error l k = nth_error l' k) -> l = l'.
Proof.
  revert l'. induction l as [|a l IH]; intros [|b l'] H; auto.
  - specialize (H 0); discriminate.
  - specialize (H 0); discriminate.
  - pose proof (H 0) as H0. simpl in H0. inversion H0. f_equal. apply IH. intros k. apply (H (S k)).
Qed.

Lemma nth_error_combine {A B} (la : list A) (lb : list B) k :
  nth_error (combine la lb) k = match nth_error la k, nth_error lb k with Some a, Some b => Some (a, b) | _, _ => None end.
Proof.
  revert lb k. induction la as [|a la IH]; intros [|b lb] [|k]; simpl; auto.
  - destruct (nth_error la k); auto.
Qed.

Lemma map_fst_combine {A B} (la : list A) (lb : list B) : length la = length lb -> map fst (combine la lb) = la.
Proof. revert lb; induction la; intros [|b lb] H; simpl in *; auto; try lia. f_equal; apply IHla; lia. Qed.
Lemma map_snd_combine {A B} (la : list A) (lb : list B) : length la = length lb -> map snd (combine la lb) = lb.
Proof. revert lb; induction la; intros [|b lb] H; simpl in *; auto; try lia. f_equal; apply IHla; lia. Qed.

Lemma combine_split_map {A B} (l : list (A * B)) : combine (map fst l) (map snd l) = l.
Proof. induction l as [|[a b] l IH]; simpl; auto. now rewrite IH. Qed.

Lemma slice_map {A B} (f : A -> B) b e l : slice b e (map f l) = map f (slice b e l).
Proof. unfold slice. rewrite skipn_map, firstn_map. reflexivity. Qed.

Lemma firstn_S_error {A} (l : list A) p a : nth_error l p = Some a -> firstn (S p) l = firstn p l ++ [a].
Proof.
  revert l. induction p; intros [|b l] E; simpl in E; try discriminate.
  - inversion E; subst. reflexivity.
  - change (b :: firstn (S p) l = b :: (firstn p l ++ [a])). f_equal. auto.
Qed.

(** ** Offsets of a list of lists *)
Definition offs {A} (rs : list (list A)) (p : nat) : nat := length (concat (firstn p rs)).

Lemma offs_0 {A} (rs : list (list A)) : offs rs 0 = 0.
Proof. reflexivity. Qed.

Lemma offs_S {A} (rs : list (list A)) p r : nth_error rs p = Some r -> offs rs (S p) = offs rs p + length r.
Proof.
  unfold offs. revert p. induction rs as [|x rs IH]; intros [|p] H; simpl in *; try discriminate.
  - inversion H; subst. rewrite app_nil_r. lia.
  - rewrite !app_length, (IH p H). lia.
Qed.

Lemma offs_all {A} (rs : list (list A)) p : length rs <= p -> offs rs p = length (concat rs).
Proof. intros. unfold offs. now rewrite firstn_all2. Qed.

Lemma offs_mono {A} (rs : list (list A)) p q : p <= q -> offs rs p <= offs rs q.
Proof.
  induction 1; auto. destruct (nth_error rs m) eqn:E.
  - rewrite (offs_S _ _ _ E). lia.
  - apply nth_error_None in E. rewrite (offs_all rs (S m)) by lia. rewrite (offs_all rs m) in IHle by lia. lia.
Qed.

Lemma offs_le {A} (rs : list (list A)) p : offs rs p <= length (concat rs).
Proof.
  destruct (le_lt_dec (length rs) p).
  - rewrite offs_all; lia.
  - rewrite <- (offs_all rs (length rs)) by lia. apply offs_mono. lia.
Qed.

Lemma slice_offs {A} (rs : list (list A)) p r : nth_error rs p = Some r -> slice (offs rs p) (offs rs (S p)) (concat rs) = r.
Proof.
  intros H. rewrite (offs_S _ _ _ H). destruct (nth_error_split _ _ H) as (l1 & l2 & E & L).
  unfold slice, offs. subst rs.
  rewrite <- L, firstn_app, firstn_all, Nat.sub_diag. simpl. rewrite app_nil_r.
  rewrite concat_app. simpl.
  rewrite skipn_app, skipn_all, Nat.sub_diag. simpl.
  replace (length (concat l1) + length r - length (concat l1)) with (length r) by lia.
  rewrite firstn_app, firstn_all, Nat.sub_diag. simpl. apply app_nil_r.
Qed.

Lemma find_offs {A} (rs : list (list A)) j : j < length (concat rs) ->
  exists p r k x, nth_error rs p = Some r /\ nth_error r k = Some x /\ j = offs rs p + k.
Proof.
  revert j. induction rs as [|r rs IH]; intros j Hj; simpl in Hj; [lia|]. rewrite app_length in Hj.
  destruct (le_lt_dec (length r) j) as [H|H].
  - destruct (IH (j - length r) ltac:(lia)) as (p & r' & k & x & E1 & E2 & E3).
    exists (S p), r', k, x. repeat split; auto. unfold offs in *. simpl. rewrite app_length. lia.
  - destruct (nth_error r j) eqn:E; [|apply nth_error_None in E; lia]. exists 0, r, j, a. auto.
Qed.

Lemma offs_nth {A} (rs : list (list A)) p r k : nth_error rs p = Some r -> k < length r ->
  nth_error (concat rs) (offs rs p + k) = nth_error r k.
Proof.
  intros E Hk. rewrite <- (slice_nth_error (offs rs p) (offs rs (S p))).
  - now rewrite (slice_offs _ _ _ E).
  - rewrite (offs_S _ _ _ E). lia.
Qed.

Lemma nth_map_offs {A} (rs : list (list A)) n p : p <= n -> nth p (map (offs rs) (seq 0 (S n))) 0 = offs rs p.
Proof. intros. rewrite nth_map_seq; auto. lia. Qed.

Lemma nth_error_map_offs {A} (rs : list (list A)) n p : p <= n -> nth_error (map (offs rs) (seq 0 (S n))) p = Some (offs rs p).
Proof.
  intros. rewrite nth_error_nth' with (d := 0) by (rewrite map_length, seq_length; lia). now rewrite nth_map_offs.
Qed.

(** ** Rows representation *)
Record rep {T} (m : csx T) (rs : list (list (nat * T))) : Prop := {
  r_len : length rs = size_primary m;
  r_ptrs : ptrs m = map (offs rs) (seq 0 (S (length rs)));
  r_idxs : idxs m = map fst (concat rs);
  r_vals : vals m = map snd (concat rs);
  r_nnz : nnz m = length (concat rs);
  r_range : forall r x, In r rs -> In x r -> fst x < size_secdary m }.

Lemma rep_valid {T} (m : csx T) rs : rep m rs -> valid m.
Proof.
  intros [HL HP HI HV HN HR]. split.
  - unfold allocated. rewrite HP, HI, HV, !map_length, seq_length. lia.
  - rewrite HP. rewrite nth_map_offs; auto. lia.
  - rewrite HP, <- HL, nth_map_offs by lia. rewrite offs_all; auto.
  - intros p Hp. rewrite HP, !nth_map_offs by lia. apply offs_mono. lia.
  - intros c Hc. rewrite HI in Hc. apply in_map_iff in Hc. destruct Hc as (x & <- & Hx).
    apply in_concat in Hx. destruct Hx as (r & Hr & Hx). eauto.
Qed.

Lemma rep_line {T} (m : csx T) rs p r : rep m rs -> nth_error rs p = Some r -> line m p = r.
Proof.
  intros [HL HP HI HV HN HR] E. assert (p < length rs) by (apply nth_error_Some; rewrite E; discriminate).
  unfold line. rewrite HP, !nth_map_offs by lia. rewrite HI, HV, !slice_map. rewrite Nat.add_1_r, (slice_offs _ _ _ E).
  apply combine_split_map.
Qed.

Lemma rep_lines {T} (m : csx T) rs : rep m rs -> map (line m) (seq 0 (size_primary m)) = rs.
Proof.
  intros H. apply list_ext_error. intros k. destruct (le_lt_dec (length rs) k).
  - rewrite (proj2 (nth_error_None rs k)) by auto. apply nth_error_None. rewrite map_length, seq_length, <- (r_len _ _ H). auto.
  - destruct (nth_error rs k) eqn:E; [|apply nth_error_None in E; lia].
    rewrite nth_error_map. rewrite nth_error_nth' with (d := 0) by (rewrite seq_length, <- (r_len _ _ H); auto).
    rewrite seq_nth by (rewrite <- (r_len _ _ H); auto). simpl. f_equal. eapply rep_line; eauto.
Qed.

Lemma line_length {T} (m : csx T) p : valid m -> p < size_primary m ->
  length (line m p) = nth (p + 1) (ptrs m) 0 - nth p (ptrs m) 0.
Proof.
  intros V Hp. unfold line. destruct (v_alloc m V) as (HL & HI & HV).
  assert (B : forall q, q <= size_primary m -> nth q (ptrs m) 0 <= nnz m).
  { intros q Hq. rewrite <- (v_last m V). induction (size_primary m - q) eqn:E in q, Hq |- *.
    - replace q with (size_primary m) by lia. auto.
    - transitivity (nth (q + 1) (ptrs m) 0); [apply (v_mono m V); lia|]. apply IHn; lia. }
  rewrite combine_length, !slice_length; try lia.
  - split; [apply (v_mono m V); lia|]. rewrite HV. apply B. lia.
  - split; [apply (v_mono m V); lia|]. rewrite HI. apply B. lia.
Qed.

Lemma ptr_offs {T} (m : csx T) p : valid m -> p <= size_primary m ->
  nth p (ptrs m) 0 = offs (map (line m) (seq 0 (size_primary m))) p.
Proof.
  intros V. induction p as [|p IH]; intros Hp.
  - rewrite (v_first m V). reflexivity.
  - assert (E : nth_error (map (line m) (seq 0 (size_primary m))) p = Some (line m p)).
    { rewrite nth_error_map. rewrite nth_error_nth' with (d := 0) by (rewrite seq_length; lia). rewrite seq_nth by lia. reflexivity. }
    rewrite (offs_S _ _ _ E), <- IH by lia. rewrite line_length by (auto; lia).
    pose proof (v_mono m V p). rewrite Nat.add_1_r in *. lia.
Qed.

Lemma valid_rep {T} (m : csx T) : valid m -> rep m (map (line m) (seq 0 (size_primary m))).
Proof.
  intros V. destruct (v_alloc m V) as (HL & HI & HV).
  set (rs := map (line m) (seq 0 (size_primary m))).
  assert (Hlen : length rs = size_primary m) by (unfold rs; now rewrite map_length, seq_length).
  assert (HP : ptrs m = map (offs rs) (seq 0 (S (length rs)))).
  { apply list_ext_error. intros k. destruct (le_lt_dec (length (ptrs m)) k).
    - rewrite (proj2 (nth_error_None _ k)) by auto. symmetry. apply nth_error_None. rewrite map_length, seq_length. lia.
    - rewrite nth_error_map_offs by lia. rewrite nth_error_nth' with (d := 0) by auto. f_equal. apply ptr_offs; auto. lia. }
  assert (G : forall p, p <= size_primary m ->
     firstn (nth p (ptrs m) 0) (idxs m) = map fst (concat (firstn p rs)) /\
     firstn (nth p (ptrs m) 0) (vals m) = map snd (concat (firstn p rs))).
  { induction p as [|p IH]; intros Hp.
    - rewrite (v_first m V). auto.
    - destruct (IH ltac:(lia)) as [IH1 IH2].
      assert (E : nth_error rs p = Some (line m p)).
      { unfold rs. rewrite nth_error_map. rewrite nth_error_nth' with (d := 0) by (rewrite seq_length; lia). rewrite seq_nth by lia. reflexivity. }
      assert (F : firstn (S p) rs = firstn p rs ++ [line m p]).
      { apply firstn_S_error; auto. }
      rewrite F, concat_app, !map_app. cbn [concat map]. rewrite app_nil_r, <- IH1, <- IH2.
      pose proof (v_mono m V p ltac:(lia)) as M. rewrite Nat.add_1_r in M.
      assert (B : nth (S p) (ptrs m) 0 <= nnz m).
      { rewrite (ptr_offs m (S p)) by (auto; lia). rewrite <- (v_last m V), (ptr_offs m (size_primary m)) by auto.
        apply offs_mono. lia. }
      unfold line. rewrite Nat.add_1_r.
      rewrite map_fst_combine, map_snd_combine by (rewrite !slice_length; lia).
      split.
      + pose proof (slice_app 0 (nth p (ptrs m) 0) (nth (S p) (ptrs m) 0) (idxs m) ltac:(lia)) as Q.
        unfold slice at 1 2 in Q. rewrite !Nat.sub_0_r in Q. exact Q.
      + pose proof (slice_app 0 (nth p (ptrs m) 0) (nth (S p) (ptrs m) 0) (vals m) ltac:(lia)) as Q.
        unfold slice at 1 2 in Q. rewrite !Nat.sub_0_r in Q. exact Q. }
  destruct (G (size_primary m) ltac:(lia)) as [G1 G2]. rewrite (v_last m V) in G1, G2.
  rewrite (firstn_all2 (n := size_primary m) rs) in G1, G2 by lia.
  rewrite firstn_all2 in G1 by lia. rewrite firstn_all2 in G2 by lia.
  split; auto.
  - rewrite <- HI, G1, map_length. reflexivity.
  - intros r x Hr Hx. apply (v_range m V). rewrite G1. apply in_map. apply in_concat. eauto.
Qed.

Lemma rep_entries {T} (m : csx T) rs : rep m rs ->
  entries m = flat_map (fun p => map (coords (ord m) p) (nth p rs [])) (seq 0 (length rs)).
Proof.
  intros H. unfold entries. rewrite <- (r_len _ _ H). rewrite !flat_map_concat_map. f_equal.
  apply map_ext_in. intros p Hp. apply in_seq in Hp. f_equal.
  eapply rep_line; eauto. apply nth_error_nth'. lia.
Qed.

(** positions of a row *)
Lemma rep_pos {T} (m : csx T) rs p r k x : rep m rs -> nth_error rs p = Some r -> nth_error r k = Some x ->
  nth_error (idxs m) (offs rs p + k) = Some (fst x) /\ nth_error (vals m) (offs rs p + k) = Some (snd x).
Proof.
  intros H E K.
  assert (Hk : k < length r) by (apply nth_error_Some; rewrite K; discriminate).
  assert (Q : nth_error (concat rs) (offs rs p + k) = Some x).
  { rewrite <- (slice_nth_error (offs rs p) (offs rs (S p))).
    - now rewrite (slice_offs _ _ _ E).
    - rewrite (offs_S _ _ _ E). lia. }
  rewrite (r_idxs _ _ H), (r_vals _ _ H), !nth_error_map, Q. auto.
Qed.

Lemma foldM_pos {T S} (m : csx T) (f : S -> nat -> outcome S) (g : S -> nat -> nat * T -> outcome S) :
  (forall s i x, nth_error (idxs m) i = Some (fst x) -> nth_error (vals m) i = Some (snd x) -> f s i = g s i x) ->
  forall r b s,
  (forall k x, nth_error r k = Some x ->
     nth_error (idxs m) (b + k) = Some (fst x) /\ nth_error (vals m) (b + k) = Some (snd x)) ->
  foldM f (seq b (length r)) s = foldM (fun s ix => g s (fst ix) (snd ix)) (combine (seq b (length r)) r) s.
Proof.
  intros Hf. induction r as [|x r IH]; intros b s H; auto.
  simpl. destruct (H 0 x eq_refl) as [H1 H2]. rewrite Nat.add_0_r in H1, H2.
  rewrite (Hf _ _ _ H1 H2). destruct (g s b x); simpl; auto. apply IH.
  intros k y Hy. replace (Datatypes.S b + k) with (b + Datatypes.S k) by lia. apply H. exact Hy.
Qed.

(** a loop over the entries of one row of a represented matrix *)
Lemma row_loop {T S} (m : csx T) rs p r (f : S -> nat -> outcome S) (g : S -> nat -> nat * T -> outcome S) s :
  rep m rs -> nth_error rs p = Some r ->
  (forall s i x, nth_error (idxs m) i = Some (fst x) -> nth_error (vals m) i = Some (snd x) -> f s i = g s i x) ->
  (b <- rd (ptrs m) p ;; e <- rd (ptrs m) (p + 1) ;; foldM f (seq b (e - b)) s) =
  foldM (fun s ix => g s (fst ix) (snd ix)) (combine (seq (offs rs p) (length r)) r) s.
Proof.
  intros H E Hf. assert (p < length rs) by (apply nth_error_Some; rewrite E; discriminate).
  unfold rd. rewrite (r_ptrs _ _ H), !nth_error_map_offs by lia. cbn [obind].
  rewrite Nat.add_1_r, (offs_S _ _ _ E). replace (offs rs p + length r - offs rs p) with (length r) by lia.
  apply (foldM_pos m); auto. intros. eapply rep_pos; eauto.
Qed.

Lemma foldM_combine_snd {S A} (h : S -> A -> outcome S) (r : list A) b s :
  foldM (fun s ix => h s (snd ix)) (combine (seq b (length r)) r) s = foldM h r s.
Proof.
  rewrite <- foldM_map with (h := snd). rewrite map_snd_combine; auto. now rewrite seq_length.
Qed.

Lemma row_loop' {T S} (m : csx T) rs p r (f : S -> nat -> outcome S) (g : S -> nat * T -> outcome S) s :
  rep m rs -> nth_error rs p = Some r ->
  (forall s i x, nth_error (idxs m) i = Some (fst x) -> nth_error (vals m) i = Some (snd x) -> f s i = g s x) ->
  (b <- rd (ptrs m) p ;; e <- rd (ptrs m) (p + 1) ;; foldM f (seq b (e - b)) s) = foldM g r s.
Proof.
  intros H E Hf. rewrite (row_loop m rs p r f (fun s _ x => g s x) s H E) by auto. apply foldM_combine_snd.
Qed.

Lemma filter_filter {A} (f g h : A -> bool) l : (forall x, f x && g x = h x) -> filter f (filter g l) = filter h l.
Proof.
  intros H. induction l as [|a l IH]; auto. cbn [filter]. pose proof (H a). destruct (g a); cbn [filter].
  - rewrite andb_true_r in H0. rewrite H0, IH. auto.
  - rewrite andb_false_r in H0. rewrite <- H0. auto.
Qed.

(** ** Counting sort *)
Section Counting.
Context {A B : Type}.
Variable L : list (nat * A * B).
Let key (x : nat * A * B) := fst (fst x).
Variable n : nat.
Hypothesis keys : forall x, In x L -> key x < n.

Definition bucket (c : nat) : list (nat * A * B) := filter (fun x => fst (fst x) =? c) L.
Definition buckets : list (list (nat * A * B)) := map bucket (seq 0 n).

Lemma buckets_nth c : c < n -> nth_error buckets c = Some (bucket c).
Proof.
  intros. unfold buckets. rewrite nth_error_map, nth_error_nth' with (d := 0) by (rewrite seq_length; auto).
  rewrite seq_nth by auto. reflexivity.
Qed.

Lemma filter_partition_perm {X} (f : X -> bool) (l : list X) :
  Permutation l (filter f l ++ filter (fun x => negb (f x)) l).
Proof.
  induction l as [|a l IH]; simpl; auto. destruct (f a); simpl.
  - constructor; auto.
  - apply Permutation_cons_app. auto.
Qed.

Lemma buckets_perm_aux k : k <= n ->
  Permutation (filter (fun x => fst (fst x) <? k) L) (concat (map bucket (seq 0 k))).
Proof.
  induction k as [|k IH]; intros Hk.
  - simpl. replace (filter _ L) with (@nil (nat * A * B)); auto.
    symmetry. clear. induction L as [|a l IHl]; simpl; auto.
  - rewrite seq_S, map_app, concat_app. cbn [map concat]. rewrite app_nil_r. rewrite Nat.add_0_l.
    etransitivity; [apply (filter_partition_perm (fun x => fst (fst x) <? k))|].
    apply Permutation_app.
    + rewrite (filter_filter _ _ (fun x => fst (fst x) <? k)); [apply IH; lia|].
      intros x. destruct (Nat.ltb_spec (fst (fst x)) k), (Nat.ltb_spec (fst (fst x)) (S k)); auto; lia.
    + rewrite (filter_filter _ _ (fun x => fst (fst x) =? k)); [reflexivity|].
      intros x. destruct (Nat.ltb_spec (fst (fst x)) k), (Nat.ltb_spec (fst (fst x)) (S k)), (Nat.eqb_spec (fst (fst x)) k); auto; lia.
Qed.

Lemma buckets_perm : Permutation L (concat buckets).
Proof.
  unfold buckets. rewrite <- buckets_perm_aux by auto.
  assert (G : forall l, (forall x, In x l -> key x < n) -> filter (fun x => fst (fst x) <? n) l = l).
  { clear. induction l as [|a l IH]; intros H; auto. cbn [filter]. destruct (Nat.ltb_spec (fst (fst a)) n) as [H0|H0].
    - f_equal. apply IH. intros; apply H; right; auto.
    - specialize (H a (or_introl eq_refl)). unfold key in H. lia. }
  rewrite G; auto.
Qed.

Lemma buckets_length : length (concat buckets) = length L.
Proof. symmetry. apply Permutation_length, buckets_perm. Qed.

(** *** zero, count, cumsum, shift *)
Lemma zero_ok p : length p = S n -> zero_ptrs n p = Ok (repeat 0 (S n)).
Proof.
  intros HL. unfold zero_ptrs.
  destruct (foldM_seq_inv (fun p c => wr p c 0) (fun k p => length p = S n /\ forall j, j < k -> nth j p 1 = 0) 0 (n + 1) p)
    as (p' & E & HL' & HZ).
  - split; auto. lia.
  - intros i s Hi (Hs & Hz). rewrite wr_ok by lia. eexists; split; eauto. rewrite upd_length. split; auto.
    intros j Hj. rewrite nth_upd by lia. destruct (Nat.eqb_spec i j); auto. apply Hz. lia.
  - rewrite E. f_equal. apply (nth_ext p' (repeat 0 (S n)) 1 1).
    + rewrite repeat_length; auto.
    + intros j Hj. rewrite HZ by lia. rewrite nth_repeat_lt; auto. lia.
Qed.

Definition cnt (l : list (nat * A * B)) (c : nat) : nat := length (filter (fun x => fst (fst x) =? c) l).

Lemma cnt_app l l' c : cnt (l ++ l') c = cnt l c + cnt l' c.
Proof. unfold cnt. rewrite filter_app, app_length. auto. Qed.

Lemma cnt_one x c : cnt [x] c = if fst (fst x) =? c then 1 else 0.
Proof. unfold cnt. cbn [filter]. destruct (fst (fst x) =? c); auto. Qed.

Lemma count_ok : foldM (fun p x => incr p (fst (fst x))) L (repeat 0 (S n)) = Ok (map (cnt L) (seq 0 (S n))).
Proof.
  destruct (foldM_inv (fun p (x : nat * A * B) => incr p (fst (fst x)))
     (fun pre p => p = map (cnt pre) (seq 0 (S n))) L (repeat 0 (S n))) as (s & E & Es).
  - apply (nth_ext _ _ 0 0); [now rewrite map_length, seq_length, repeat_length|].
    intros j Hj. rewrite repeat_length in Hj. rewrite nth_map_seq, nth_repeat_lt; auto.
  - intros pre a post s EL ->. assert (Ha : key a < n) by (apply keys; rewrite EL; apply in_or_app; right; left; auto).
    unfold key in Ha. unfold incr. rewrite rd_ok with (d := 0) by (rewrite map_length, seq_length; lia). cbn [obind].
    rewrite wr_ok by (rewrite map_length, seq_length; lia). eexists; split; eauto.
    apply (nth_ext _ _ 0 0).
    + now rewrite upd_length, !map_length.
    + intros j Hj. rewrite upd_length, map_length, seq_length in Hj.
      rewrite nth_upd by (rewrite map_length, seq_length; lia).
      rewrite !nth_map_seq by lia. rewrite cnt_app, cnt_one.
      destruct (Nat.eqb_spec (fst (fst a)) j); subst; lia.
  - rewrite E, Es. auto.
Qed.

Lemma offs_buckets c : c < n -> offs buckets (S c) = offs buckets c + cnt L c.
Proof. intros. rewrite (offs_S _ _ _ (buckets_nth c H)). reflexivity. Qed.

Lemma cnt_n c : n <= c -> cnt L c = 0.
Proof.
  intros. unfold cnt. assert (G : forall l, (forall x, In x l -> key x < n) -> filter (fun x : nat * A * B => fst (fst x) =? c) l = []).
  { clear -H. induction l as [|a l IH]; intros Hl; auto. cbn [filter]. destruct (Nat.eqb_spec (fst (fst a)) c) as [E|E].
    - specialize (Hl a (or_introl eq_refl)). unfold key in Hl. lia.
    - apply IH. intros; apply Hl; right; auto. }
  rewrite G; auto.
Qed.

Lemma cumsum_ok : cumsum n (map (cnt L) (seq 0 (S n))) = Ok (map (offs buckets) (seq 0 (S n))).
Proof.
  unfold cumsum.
  destruct (foldM_seq_inv cumsum_step
    (fun k s => length (fst s) = S n /\ (k <= n -> snd s = offs buckets k) /\
       (forall j, j < k -> nth j (fst s) 0 = offs buckets j) /\ (forall j, k <= j < S n -> nth j (fst s) 0 = cnt L j))
    0 (n + 1) (map (cnt L) (seq 0 (S n)), 0)) as (s & E & H1 & H2 & H3 & H4).
  - cbn [fst snd]. rewrite map_length, seq_length. repeat split; auto; try lia. intros j Hj. rewrite nth_map_seq by lia. auto.
  - intros i s Hi (H1 & H2 & H3 & H4). unfold cumsum_step. rewrite rd_ok with (d := 0) by lia. cbn [obind].
    rewrite wr_ok by lia. cbn [obind]. eexists; split; eauto. cbn [fst snd]. rewrite upd_length. repeat split; auto.
    + intros Hk. rewrite H2, H4 by lia. now rewrite offs_buckets by lia.
    + intros j Hj. rewrite nth_upd by lia. destruct (Nat.eqb_spec i j); [subst; apply H2; lia|apply H3; lia].
    + intros j Hj. rewrite nth_upd by lia. destruct (Nat.eqb_spec i j); [lia|apply H4; lia].
  - rewrite E. cbn [obind]. f_equal. apply (nth_ext _ _ 0 0).
    + rewrite map_length, seq_length; auto.
    + intros j Hj. rewrite nth_map_seq by lia. apply H3. lia.
Qed.

(** *** filling *)
Definition place_item (s : list nat * list A * list B) (x : nat * A * B) := place s (fst (fst x)) (snd (fst x)) (snd x).

Lemma pre_cnt pre a post : L = pre ++ a :: post -> cnt pre (fst (fst a)) < cnt L (fst (fst a)).
Proof. intros ->. rewrite cnt_app. change (a :: post) with ([a] ++ post). rewrite cnt_app, cnt_one, Nat.eqb_refl. lia. Qed.

Lemma pre_cnt_le pre post c : L = pre ++ post -> cnt pre c <= cnt L c.
Proof. intros ->. rewrite cnt_app. lia. Qed.

Lemma fill_ok (la : list A) (lb : list B) : length la = length L -> length lb = length L ->
  foldM place_item L (map (offs buckets) (seq 0 (S n)), la, lb) =
  Ok (map (fun c => offs buckets c + cnt L c) (seq 0 (S n)),
      map (fun x => snd (fst x)) (concat buckets), map snd (concat buckets)).
Proof.
  intros HA HB.
  set (I := fun (pre : list (nat * A * B)) (s : list nat * list A * list B) =>
    fst (fst s) = map (fun c => offs buckets c + cnt pre c) (seq 0 (S n)) /\
    length (snd (fst s)) = length L /\ length (snd s) = length L /\
    forall c k x, c < n -> nth_error (filter (fun x => fst (fst x) =? c) pre) k = Some x ->
      nth_error (snd (fst s)) (offs buckets c + k) = Some (snd (fst x)) /\
      nth_error (snd s) (offs buckets c + k) = Some (snd x)).
  destruct (foldM_inv place_item I L (map (offs buckets) (seq 0 (S n)), la, lb)) as (s & E & HI).
  - unfold I. cbn [fst snd]. repeat split; auto.
    + apply map_ext. intros. unfold cnt. cbn [filter length]. lia.
    + cbn [filter] in H0. destruct k; discriminate.
    + cbn [filter] in H0. destruct k; discriminate.
  - intros pre a post [[p xa] xb] EL (Hp & La & Lb & Hx). cbn [fst snd] in *.
    assert (Ha : key a < n) by (apply keys; rewrite EL; apply in_or_app; right; left; auto). unfold key in Ha.
    set (c0 := fst (fst a)) in *.
    pose proof (pre_cnt pre a post EL) as Hc. fold c0 in Hc.
    assert (Hi : offs buckets c0 + cnt pre c0 < length L).
    { pose proof (offs_le buckets (S c0)) as Q. rewrite buckets_length, offs_buckets in Q by auto. lia. }
    unfold place_item, place. fold c0.
    rewrite rd_ok with (d := 0) by (rewrite Hp, map_length, seq_length; lia). cbn [obind].
    rewrite wr_ok by (rewrite Hp, map_length, seq_length; lia). cbn [obind].
    rewrite Hp. rewrite nth_map_seq by lia.
    rewrite !wr_ok by lia. cbn [obind].
    eexists; split; [reflexivity|]. unfold I. cbn [fst snd]. rewrite !upd_length. repeat split; auto.
    + apply (nth_ext _ _ 0 0).
      * now rewrite upd_length, !map_length.
      * intros j Hj. rewrite upd_length, map_length, seq_length in Hj.
        rewrite nth_upd by (rewrite map_length, seq_length; lia).
        rewrite !nth_map_seq by lia. rewrite cnt_app, cnt_one. fold c0. destruct (Nat.eqb_spec c0 j); subst; lia.
    + rewrite filter_app in H0. cbn [filter] in H0. fold c0 in H0.
      assert (Hcap : cnt pre c <= cnt L c) by (eapply pre_cnt_le; eauto).
      destruct (le_lt_dec (cnt pre c) k) as [Hk|Hk].
      * rewrite nth_error_app2 in H0 by (unfold cnt in Hk; lia).
        destruct (Nat.eqb_spec c0 c) as [Ec|Ec]; [|destruct (k - _); discriminate].
        fold (cnt pre c) in H0. destruct (k - cnt pre c) eqn:Ek; [|destruct n0; discriminate]. cbn in H0. inversion H0; subst x.
        replace k with (cnt pre c) by lia. rewrite <- Ec. apply nth_error_upd_eq. lia.
      * rewrite nth_error_app1 in H0 by (unfold cnt in Hk; lia). destruct (Hx _ _ _ H H0) as [Q1 Q2].
        rewrite nth_error_upd_neq; auto.
        destruct (lt_eq_lt_dec c0 c) as [[Hlt|Heq]|Hgt].
        -- pose proof (offs_mono buckets (S c0) c Hlt). rewrite offs_buckets in H1 by auto. lia.
        -- subst c. lia.
        -- pose proof (offs_mono buckets (S c) c0 Hgt). rewrite offs_buckets in H1 by auto. lia.
    + rewrite filter_app in H0. cbn [filter] in H0. fold c0 in H0.
      assert (Hcap : cnt pre c <= cnt L c) by (eapply pre_cnt_le; eauto).
      destruct (le_lt_dec (cnt pre c) k) as [Hk|Hk].
      * rewrite nth_error_app2 in H0 by (unfold cnt in Hk; lia).
        destruct (Nat.eqb_spec c0 c) as [Ec|Ec]; [|destruct (k - _); discriminate].
        fold (cnt pre c) in H0. destruct (k - cnt pre c) eqn:Ek; [|destruct n0; discriminate]. cbn in H0. inversion H0; subst x.
        replace k with (cnt pre c) by lia. rewrite <- Ec. apply nth_error_upd_eq. lia.
      * rewrite nth_error_app1 in H0 by (unfold cnt in Hk; lia). destruct (Hx _ _ _ H H0) as [Q1 Q2].
        rewrite nth_error_upd_neq; auto.
        destruct (lt_eq_lt_dec c0 c) as [[Hlt|Heq]|Hgt].
        -- pose proof (offs_mono buckets (S c0) c Hlt). rewrite offs_buckets in H1 by auto. lia.
        -- subst c. lia.
        -- pose proof (offs_mono buckets (S c) c0 Hgt). rewrite offs_buckets in H1 by auto. lia.
  - destruct s as [[p xa] xb]. unfold I in HI. cbn [fst snd] in HI. destruct HI as (Hp & La & Lb & Hx).
    rewrite E, Hp.
    assert (G : forall j, j < length L -> exists x, nth_error (concat buckets) j = Some x /\
       nth_error xa j = Some (snd (fst x)) /\ nth_error xb j = Some (snd x)).
    { intros j Hj. destruct (find_offs buckets j) as (c & r & k & x & E1 & E2 & E3); [now rewrite buckets_length|].
      assert (Hc : c < n).
      { assert (c < length buckets) by (apply nth_error_Some; rewrite E1; discriminate). unfold buckets in H. now rewrite map_length, seq_length in H. }
      rewrite buckets_nth in E1 by auto. inversion E1; subst r. exists x.
      subst j. rewrite (offs_nth _ _ _ _ (buckets_nth c Hc)) by (apply nth_error_Some; rewrite E2; discriminate).
      destruct (Hx c k x Hc E2). auto. }
    f_equal. f_equal; [f_equal|].
    + apply list_ext_error. intros j. destruct (le_lt_dec (length L) j) as [Hj|Hj].
      * rewrite (proj2 (nth_error_None xa j)) by lia. symmetry. apply nth_error_None. rewrite map_length, buckets_length. auto.
      * destruct (G j Hj) as (x & G1 & G2 & G3). now rewrite nth_error_map, G1, G2.
    + apply list_ext_error. intros j. destruct (le_lt_dec (length L) j) as [Hj|Hj].
      * rewrite (proj2 (nth_error_None xb j)) by lia. symmetry. apply nth_error_None. rewrite map_length, buckets_length. auto.
      * destruct (G j Hj) as (x & G1 & G2 & G3). now rewrite nth_error_map, G1, G3.
Qed.

Lemma shift_ok : shift n (map (fun c => offs buckets c + cnt L c) (seq 0 (S n))) = Ok (map (offs buckets) (seq 0 (S n))).
Proof.
  unfold shift.
  destruct (foldM_seq_inv shift_step
    (fun k s => length (fst s) = S n /\ (k <= n -> snd s = offs buckets k) /\
       (forall j, j < k -> nth j (fst s) 0 = offs buckets j) /\ (forall j, k <= j < S n -> nth j (fst s) 0 = offs buckets j + cnt L j))
    0 (n + 1) (map (fun c => offs buckets c + cnt L c) (seq 0 (S n)), 0)) as (s & E & H1 & H2 & H3 & H4).
  - cbn [fst snd]. rewrite map_length, seq_length. repeat split; auto; try lia. intros j Hj. rewrite nth_map_seq by lia. auto.
  - intros i s Hi (H1 & H2 & H3 & H4). unfold shift_step. rewrite rd_ok with (d := 0) by lia. cbn [obind].
    rewrite wr_ok by lia. cbn [obind]. eexists; split; eauto. cbn [fst snd]. rewrite upd_length. repeat split; auto.
    + intros Hk. rewrite H4 by lia. now rewrite offs_buckets by lia.
    + intros j Hj. rewrite nth_upd by lia. destruct (Nat.eqb_spec i j); [subst; apply H2; lia|apply H3; lia].
    + intros j Hj. rewrite nth_upd by lia. destruct (Nat.eqb_spec i j); [lia|apply H4; lia].
  - rewrite E. cbn [obind]. f_equal. apply (nth_ext _ _ 0 0).
    + rewrite map_length, seq_length; auto.
    + intros j Hj. rewrite nth_map_seq by lia. apply H3. lia.
Qed.
End Counting.
