(** * Completion of a triangular matrix (C47) *)
From Coq Require Import List Bool Arith Lia Permutation Sorted.
From Verif Require Import Base S_Order M_Csx S_Csx M_CsxMap S_CsxMap L_Utils L_Csx L_Csx2 P_Csx P_Csx2 L_Csx3 P_Csx3 L_CsxMap P_CsxMap P_CsxMap2 L_Sort.
Import ListNotations.
Local Open Scope out_scope.

(** comparator of line 109: [if(l.r != r.r) return l.r < r.r; return l.c < r.c;] *)
Definition rc_lt (a b : nat * nat * nat) : bool :=
  if negb (fst (fst a) =? fst (fst b)) then fst (fst a) <? fst (fst b) else snd (fst a) <? snd (fst b).

Lemma rc_swo : strict_weak_order rc_lt.
Proof.
  split.
  - intros a b. unfold rc_lt. destruct (Nat.eqb_spec (fst (fst a)) (fst (fst b))), (Nat.eqb_spec (fst (fst b)) (fst (fst a))); try congruence;
      cbn [negb]; rewrite Nat.ltb_lt, Nat.ltb_ge; lia.
  - intros a b c. unfold le_of, rc_lt.
    destruct (Nat.eqb_spec (fst (fst b)) (fst (fst a))), (Nat.eqb_spec (fst (fst c)) (fst (fst b))), (Nat.eqb_spec (fst (fst c)) (fst (fst a)));
      cbn [negb]; rewrite ?Nat.ltb_ge; lia.
Qed.

(** ** all entries with their mirror images *)
Definition mirror_items (x : nat * nat * nat) : list (nat * nat * nat) :=
  (snd (fst x), fst (fst x), snd x) :: (if snd (fst x) =? fst (fst x) then [] else [(fst (fst x), snd (fst x), snd x)]).

Lemma mirror_ok {T} (src : csx T) : valid src ->
  foldM (mirror_row src) (seq 0 (size_primary src)) [] =
  Ok (flat_map mirror_items (items (map (line (positions src)) (seq 0 (size_primary src))))).
Proof.
  intros V. pose proof (valid_rep _ (positions_valid src V)) as H.
  change (size_primary (positions src)) with (size_primary src) in *.
  set (rs := map (line (positions src)) (seq 0 (size_primary src))) in *.
  transitivity (foldM (fun (acc : list (nat * nat * nat)) x => Ok (acc ++ mirror_items x)) (items rs) []).
  - unfold items. rewrite <- foldM_flat_map, (r_len _ _ H). apply foldM_ext_in. intros acc r Hr. apply in_seq in Hr.
    change (size_primary (positions src)) with (size_primary src) in Hr. rewrite foldM_map. unfold mirror_row.
    pose proof (rep_nth _ _ r H ltac:(change (size_primary (positions src)) with (size_primary src); lia)) as Hn.
    apply (row_loop' (positions src) rs r (nth r rs []) (mirror_entry src r) (fun acc x => Ok (acc ++ mirror_items (fst x, r, snd x))) acc H Hn).
    intros o1 i x E1 E2. apply positions_pos in E2. cbn [positions set_values idxs] in E1. unfold mirror_entry.
    rewrite (rd_some _ _ _ E1). cbn [obind]. unfold mirror_items. cbn [fst snd]. now rewrite E2.
  - assert (G : forall l acc, foldM (fun (acc : list (nat * nat * nat)) x => Ok (acc ++ mirror_items x)) l acc = Ok (acc ++ flat_map mirror_items l)).
    { induction l as [|x l IH]; intros acc; cbn [foldM flat_map]; [now rewrite app_nil_r|]. cbn [obind]. rewrite IH, app_assoc. reflexivity. }
    apply G.
Qed.

Lemma natural_mirrored : natural (fun X => flat_map (mirrored (fun x : X => x))).
Proof.
  split.
  - intros X Y f l. induction l as [|[[a b] x] l IH]; auto. cbn [map flat_map]. rewrite map_app, <- IH. f_equal.
    unfold mirrored, retag_e, e_row, e_col, e_val. cbn [fst snd]. destruct (a =? b); reflexivity.
  - intros X l e He. apply in_flat_map in He. destruct He as (e' & He' & Hm). exists e'. split; auto.
    unfold mirrored in Hm. destruct (e_row e' =? e_col e'); repeat destruct Hm as [<-|Hm]; auto; contradiction.
Qed.

Lemma mirror_entries (o : order) (so : order) (l : list (nat * nat * nat)) :
  Permutation (map (triple_entry o) (flat_map mirror_items l))
    (flat_map (mirrored (fun x => x)) (map (fun x => coords so (snd (fst x)) (fst (fst x), snd x)) l)).
Proof.
  induction l as [|[[s p] i] l IH]; auto. cbn [flat_map map]. rewrite map_app. apply Permutation_app; auto.
  unfold mirror_items, mirrored, triple_entry, coords, e_row, e_col, e_val. cbn [fst snd].
  destruct o, so; cbn [fst snd]; destruct (Nat.eqb_spec p s) as [->|N]; rewrite ?Nat.eqb_refl; cbn [map fst snd]; auto;
    try (destruct (Nat.eqb_spec s p); [congruence|]); auto using perm_swap.
Qed.

(** ** the pointer loop *)
Definition below (l : list (nat * nat * nat)) (k : nat) : nat := length (filter (fun x => fst (fst x) <? k) l).

Lemma advance_ok (r i : nat) : forall fuel np p, np <= r + 1 -> r + 1 - np <= fuel -> r + 1 <= length p ->
  exists p', advance fuel np r i p = Ok (r + 1, p') /\ length p' = length p /\
    (forall k, nth k p' 0 = if (np <=? k) && (k <=? r) then i else nth k p 0).
Proof.
  induction fuel as [|f IH]; intros np p H1 H2 H3; cbn [advance]; destruct (Nat.eqb_spec np (r + 1)) as [->|N]; try lia.
  - exists p. repeat split; auto. intros k. destruct (Nat.leb_spec (r + 1) k), (Nat.leb_spec k r); cbn [andb]; auto. lia.
  - exists p. repeat split; auto. intros k. destruct (Nat.leb_spec (r + 1) k), (Nat.leb_spec k r); cbn [andb]; auto. lia.
  - rewrite wr_ok by lia. cbn [obind]. destruct (IH (np + 1) (upd p np i)) as (p' & E & L & Hn); try rewrite upd_length; try lia.
    exists p'. split; auto. rewrite upd_length in L. split; auto. intros k. rewrite Hn, nth_upd by lia.
    destruct (Nat.leb_spec (np + 1) k), (Nat.leb_spec k r), (Nat.leb_spec np k), (Nat.eqb_spec np k); cbn [andb]; auto; lia.
Qed.

Lemma below_prefix pre post k : (forall x, In x pre -> fst (fst x) < k) -> (forall x, In x post -> k <= fst (fst x)) ->
  below (pre ++ post) k = length pre.
Proof.
  intros H1 H2. unfold below. rewrite filter_app, filter_all, filter_none, app_nil_r; auto.
  - intros x Hx. apply Nat.ltb_ge. auto.
  - intros x Hx. apply Nat.ltb_lt. auto.
Qed.

Lemma complete_loop (S : list (nat * nat * nat)) n (p0 ix mp0 : list nat) :
  sorted rc_lt S -> (forall x, In x S -> fst (fst x) < n) -> n <= length p0 -> length ix = length S -> length mp0 = length S ->
  exists np p ix' mp, foldM complete_step S (0, p0, (ix, mp0, 0)) = Ok (np, p, (ix', mp, length S)) /\
    length p = length p0 /\ ix' = map (fun x => snd (fst x)) S /\ mp = map snd S /\
    (forall x, In x S -> fst (fst x) < np) /\ (np = 0 \/ exists x, In x S /\ fst (fst x) + 1 = np) /\
    (forall k, k < np -> nth k p 0 = below S k) /\ (forall k, np <= k -> nth k p 0 = nth k p0 0).
Proof.
  intros HS HK Hn Li Lm.
  assert (HLe : forall pre a post x, S = pre ++ a :: post -> In x pre -> fst (fst x) <= fst (fst a)).
  { intros pre a post x -> Hx. unfold sorted in HS. apply in_split in Hx. destruct Hx as (l1 & l2 & ->).
    rewrite <- app_assoc in HS. clear -HS. induction l1 as [|y l1 IH].
    - simpl in HS. inversion HS; subst. rewrite Forall_forall in H2. specialize (H2 a ltac:(apply in_or_app; right; left; auto)).
      unfold le_of, rc_lt in H2. destruct (Nat.eqb_spec (fst (fst a)) (fst (fst x))); cbn [negb] in H2; [lia|]. apply Nat.ltb_ge in H2. lia.
    - simpl in HS. inversion HS; subst. auto. }
  destruct (foldM_inv complete_step (fun pre s =>
      written (length S) (snd s) (map tail_of pre) /\ length (snd (fst s)) = length p0 /\
      (forall x, In x pre -> fst (fst x) < fst (fst s)) /\ (fst (fst s) = 0 \/ exists x, In x pre /\ fst (fst x) + 1 = fst (fst s)) /\
      (forall k, k < fst (fst s) -> nth k (snd (fst s)) 0 = below S k) /\
      (forall k, fst (fst s) <= k -> nth k (snd (fst s)) 0 = nth k p0 0)) S (0, p0, (ix, mp0, 0)))
    as ([[np p] [[ix' mp] k]] & E & HW & Lp & H1 & H2 & H3 & H4).
  - cbn [fst snd]. split; [|split; auto; split; [intros x []|split; auto; split; auto; lia]].
    unfold written. cbn [fst snd map length firstn]. auto.
  - intros pre a post [[np p] st] ES (HW & Lp & H1 & H2 & H3 & H4). cbn [fst snd] in *.
    assert (Ha : fst (fst a) < n) by (apply HK; rewrite ES; apply in_or_app; right; left; auto).
    assert (Hnp : np <= fst (fst a) + 1).
    { destruct H2 as [->|(x & Hx & <-)]; [lia|]. pose proof (HLe pre a post x ES Hx). lia. }
    unfold complete_step. pose proof (advance_ok (fst (fst a)) (snd st) (length p + 1) np p Hnp ltac:(lia) ltac:(lia)) as (p' & E & Lp' & Hp').
    rewrite E. cbn [obind].
    destruct (emit_ok (length S) st (map tail_of pre) (snd (fst a)) (snd a) HW) as (st' & Ee & HW').
    { rewrite map_length, ES, app_length. cbn [length]. lia. }
    rewrite Ee. cbn [obind fst snd]. eexists; split; [reflexivity|]. cbn [fst snd].
    split; [rewrite map_app; exact HW'|]. split; [lia|]. split; [|split; [|split]].
    + intros x Hx. apply in_app_or in Hx. destruct Hx as [Hx|[<-|[]]]; [|lia]. pose proof (HLe pre a post x ES Hx). lia.
    + right. exists a. split; auto. apply in_or_app; right; left; auto.
    + intros j Hj. rewrite Hp'. destruct (Nat.leb_spec np j), (Nat.leb_spec j (fst (fst a))); cbn [andb]; try lia; [|apply H3; lia].
      assert (Q : snd st = length pre). { destruct HW as (_ & _ & Q & _). rewrite map_length in Q. exact Q. }
      rewrite Q, ES. symmetry. apply below_prefix.
      * intros x Hx. specialize (H1 x Hx). lia.
      * intros x Hx. destruct Hx as [<-|Hx]; [lia|].
        apply in_split in Hx. destruct Hx as (l1 & l2 & El).
        pose proof (HLe (pre ++ a :: l1) x l2 a ltac:(rewrite ES, El, <- app_assoc; reflexivity) ltac:(apply in_or_app; right; left; auto)). lia.
    + intros j Hj. rewrite Hp'. destruct (Nat.leb_spec j (fst (fst a))); [lia|]. rewrite andb_false_r. apply H4. lia.
  - cbn [fst snd] in *. destruct (written_all (length S) (ix', mp, k) (map tail_of S) HW) as (Q1 & Q2 & Q3); [now rewrite map_length|].
    cbn [fst snd] in *. exists np, p, ix', mp. rewrite Q3 in E. rewrite map_map in Q1, Q2. cbn [tail_of fst snd] in *.
    split; auto. split; auto. split; auto.
Qed.

Lemma by_key {A} (key : A -> nat) (l : list A) n : sorted Nat.ltb (map key l) -> (forall x, In x l -> key x < n) ->
  flat_map (fun c => filter (fun x => key x =? c) l) (seq 0 n) = l.
Proof.
  intros HS HK. pose proof (row_by_keys (map (fun x => (key x, x)) l) n) as H. rewrite map_map in H. cbn [fst] in H.
  specialize (H HS). specialize (H ltac:(intros x Hx; apply in_map_iff in Hx; destruct Hx as (y & <- & Hy); cbn; auto)).
  apply (f_equal (map snd)) in H. rewrite map_map in H. cbn [snd] in H. rewrite map_id in H. etransitivity; [|exact H].
  rewrite flat_map_map, !flat_map_concat_map. f_equal. apply map_ext. intros c. rewrite filter_map, map_map. cbn [fst snd]. now rewrite map_id.
Qed.

Lemma rc_sorted_rows S : sorted rc_lt S -> sorted Nat.ltb (map (fun x => fst (fst x)) S).
Proof.
  unfold sorted. induction S as [|a S IH]; intros H; cbn [map]; constructor; inversion H; subst; auto.
  rewrite Forall_forall in *. intros b Hb. apply in_map_iff in Hb. destruct Hb as (x & <- & Hx). specialize (H3 x Hx).
  unfold le_of, rc_lt in *. destruct (Nat.eqb_spec (fst (fst x)) (fst (fst a))); cbn [negb] in H3; auto. apply Nat.ltb_ge. lia.
Qed.

Lemma rc_sorted_cols S c : sorted rc_lt S -> sorted Nat.ltb (map (fun x => snd (fst x)) (bucket S c)).
Proof.
  unfold sorted, bucket. induction S as [|a S IH]; intros H; [constructor|]. inversion H; subst. cbn [filter].
  destruct (Nat.eqb_spec (fst (fst a)) c) as [E|E]; auto. cbn [map]. constructor; auto.
  rewrite Forall_forall in *. intros b Hb. apply in_map_iff in Hb. destruct Hb as (x & <- & Hx). apply filter_In in Hx.
  destruct Hx as [Hx Hc]. apply Nat.eqb_eq in Hc. specialize (H3 x Hx). unfold le_of, rc_lt in *. rewrite Hc, E, Nat.eqb_refl in H3. auto.
Qed.

Lemma below_offs S n k : (forall x, In x S -> fst (fst x) < n) -> k <= n -> below S k = offs (map (bucket S) (seq 0 n)) k.
Proof.
  intros HK Hk. unfold below. rewrite (Permutation_length (buckets_perm_aux S n k Hk)). unfold offs. rewrite firstn_map.
  do 3 f_equal. symmetry. clear -Hk. replace n with (k + (n - k)) by lia. rewrite seq_app, firstn_app, seq_length, Nat.sub_diag, firstn_O, app_nil_r.
  rewrite firstn_all2; auto. rewrite seq_length; auto.
Qed.

(** [T] lines, the last of them is not empty *)
Definition last_line_used {T} (m : csx T) : Prop :=
  nrows m = 0 \/ exists e, In e (entries m) /\ (e_row e + 1 = nrows m \/ e_col e + 1 = nrows m).

Lemma complete_rep {T} sort (src dst : csx T) mp0 :
  sort_contract rc_lt sort -> valid src -> allocated dst ->
  nrows src = ncols src -> nrows dst = nrows src -> ncols dst = nrows src -> upl src <> UploNone -> upl dst = UploNone ->
  last_line_used src ->
  nnz dst = length (flat_map (mirrored (fun x => x)) (entries src)) -> length mp0 = nnz dst ->
  exists p i mp, complete_pattern sort src dst mp0 = Ok (with_data dst p i (vals dst), mp) /\
    let D := with_data (set_values dst mp0) p i mp in
    valid D /\ ascending D /\ Permutation (entries D) (flat_map (mirrored (fun x => x)) (entries (positions src))).
Proof.
  intros HSo V (A1 & A2 & A3) Q1 Q2 Q3 HU HUd HLast HN L0.
  pose proof (valid_rep _ (positions_valid src V)) as H. change (size_primary (positions src)) with (size_primary src) in H.
  set (rs := map (line (positions src)) (seq 0 (size_primary src))) in *. set (n := nrows src) in *.
  assert (Pn : size_primary src = n) by (unfold size_primary; destruct (ord src); auto).
  assert (Sn : size_secdary src = n) by (unfold size_secdary; destruct (ord src); auto).
  assert (Pd : size_primary dst = n) by (unfold size_primary; destruct (ord dst); auto).
  assert (Sd : size_secdary dst = n) by (unfold size_secdary; destruct (ord dst); auto).
  set (L := flat_map mirror_items (items rs)).
  assert (HI : forall x, In x (items rs) -> fst (fst x) < n /\ snd (fst x) < n).
  { intros x Hx. apply items_in in Hx. destruct Hx as (r & -> & Hr & Hx). split.
    - rewrite <- Sn. apply (r_range _ _ H (nth (snd (fst x)) rs []) (fst (fst x), snd x)); auto. apply nth_In; auto.
    - rewrite (r_len _ _ H) in Hr. rewrite <- Pn. exact Hr. }
  assert (HL : forall x, In x L -> fst (fst x) < n /\ snd (fst x) < n).
  { intros x Hx. unfold L in Hx. apply in_flat_map in Hx. destruct Hx as (y & Hy & Hx). specialize (HI y Hy). unfold mirror_items in Hx.
    destruct Hx as [<-|Hx]; [cbn [fst snd]; tauto|]. destruct (_ =? _); [contradiction|]. destruct Hx as [<-|[]]. cbn [fst snd]. tauto. }
  assert (HE : forall o, Permutation (map (triple_entry o) L) (flat_map (mirrored (fun x => x)) (entries (positions src)))).
  { intros o. rewrite (entries_items _ _ H). apply mirror_entries. }
  assert (LL : length L = nnz dst).
  { rewrite <- (map_length (triple_entry (ord dst)) L), (Permutation_length (HE (ord dst))), HN.
    pose proof (positions_retag src V) as E. apply (f_equal (fun m => length (flat_map (mirrored (fun x => x)) (entries m)))) in E.
    rewrite !retag_entries, !(nat_map _ natural_mirrored), !map_length in E. exact E. }
  destruct (HSo L) as (HP & HS). set (S := sort L) in *.
  assert (HK : forall x, In x S -> fst (fst x) < n /\ snd (fst x) < n).
  { intros x Hx. apply HL. apply (Permutation_in _ (Permutation_sym HP)). auto. }
  assert (LS : length S = nnz dst) by (rewrite <- LL; symmetry; apply Permutation_length; auto).
  destruct (complete_loop S n (ptrs dst) (idxs dst) mp0 HS) as (np & p & ix & mp & E & Lp & Eix & Emp & H1 & H2 & H3 & _); try lia.
  { intros x Hx. apply HK; auto. }
  exists (upd p n (nnz dst)), ix, mp. split.
  { unfold complete_pattern. fold n. rewrite Q2, Q3, <- Q1, !Nat.eqb_refl. cbn [andb negb].
    destruct (upl src); [congruence| |]; rewrite HUd; cbn [is_uplo negb];
    rewrite mirror_ok by auto; cbn [obind]; fold rs; fold L; rewrite LL, Nat.eqb_refl; cbn [negb]; fold S; rewrite E; cbn [obind];
    rewrite Pd, wr_ok by lia; reflexivity. }
  cbn zeta. set (D := with_data (set_values dst mp0) (upd p n (nnz dst)) ix mp).
  assert (Hnp : np = n).
  { destruct HLast as [H0|(e & He & Hr)].
    - destruct H2 as [->|(x & Hx & _)]; [lia|]. specialize (HK x Hx). lia.
    - assert (HX : exists x, In x S /\ fst (fst x) + 1 = n).
      { assert (He' : exists y, In y (items rs) /\ (snd (fst y) + 1 = n \/ fst (fst y) + 1 = n)).
        { assert (Hk : In (fst e) (map fst (entries (positions src)))).
          { unfold positions. rewrite keys_set by (auto; apply seq_length). apply in_map. auto. }
          rewrite (entries_items _ _ H), map_map in Hk. apply in_map_iff in Hk. destruct Hk as (y & Ey & Hy). exists y. split; auto.
          unfold coords in Ey. unfold e_row, e_col in Hr. cbn [positions set_values ord] in Ey. 
          destruct (ord src); cbn [fst snd] in Ey; rewrite <- Ey in Hr; cbn [fst snd] in Hr; tauto. }
        destruct He' as (y & Hy & Hyr). destruct Hyr as [Hyr|Hyr].
        - exists (snd (fst y), fst (fst y), snd y). split; auto. apply (Permutation_in _ HP). apply in_flat_map. exists y. split; auto. left; auto.
        - destruct (Nat.eq_dec (snd (fst y)) (fst (fst y))) as [Ed|Ed].
          + exists (snd (fst y), fst (fst y), snd y). cbn [fst]. split; [|lia]. apply (Permutation_in _ HP). apply in_flat_map. exists y. split; auto. left; auto.
          + exists (fst (fst y), snd (fst y), snd y). split; auto. apply (Permutation_in _ HP). apply in_flat_map. exists y. split; auto.
            right. destruct (Nat.eqb_spec (snd (fst y)) (fst (fst y))); [congruence|]. left; auto. }
      destruct HX as (x & Hx & Ex). specialize (H1 x Hx).
      destruct H2 as [->|(z & Hz & <-)]; [lia|]. specialize (HK z Hz). lia. }
  subst np.
  assert (ES : concat (map (bucket S) (seq 0 n)) = S).
  { rewrite <- flat_map_concat_map. apply (by_key (fun x : nat * nat * nat => fst (fst x)) S n).
    - apply rc_sorted_rows; auto.
    - intros x Hx. apply HK; auto. }
  set (g := fun c => map tail_of (bucket S c)).
  assert (EO : map g (seq 0 n) = map (map tail_of) (map (bucket S) (seq 0 n))) by (rewrite map_map; reflexivity).
  assert (HD : rep D (map g (seq 0 n))).
  { split.
    - rewrite map_length, seq_length. symmetry. exact Pd.
    - cbn [ptrs with_data D]. rewrite map_length, seq_length. apply (nth_ext _ _ 0 0).
      + rewrite upd_length, map_length, seq_length. lia.
      + intros j Hj. rewrite upd_length in Hj. rewrite nth_upd by lia. rewrite nth_map_offs by lia.
        rewrite EO, offs_map. destruct (Nat.eqb_spec n j) as [<-|N].
        * rewrite offs_all by (rewrite map_length, seq_length; auto). rewrite ES. auto.
        * rewrite H3 by lia. apply below_offs; [intros x Hx; apply HK; auto|lia].
    - cbn [idxs with_data D]. rewrite EO, <- concat_map, ES, map_map. exact Eix.
    - cbn [vals with_data D]. rewrite EO, <- concat_map, ES, map_map. exact Emp.
    - cbn [nnz with_data D set_values]. rewrite EO, <- concat_map, ES, map_length. auto.
    - intros r x Hr Hx. apply in_map_iff in Hr. destruct Hr as (c & <- & _). unfold g in Hx. apply in_map_iff in Hx.
      destruct Hx as (y & <- & Hy). unfold bucket in Hy. apply filter_In in Hy. cbn [tail_of fst].
      change (size_secdary D) with (size_secdary dst). rewrite Sd. apply HK. tauto. }
  assert (PD : size_primary D = n) by exact Pd.
  split; [eapply rep_valid; eauto|]. split.
  - apply (rep_ascending _ _ HD). intros r Hr. apply in_map_iff in Hr. destruct Hr as (c & <- & _). unfold g. rewrite map_map.
    cbn [tail_of fst]. apply rc_sorted_cols. auto.
  - rewrite <- (HE (ord dst)). rewrite (bucket_entries D S g).
    + change (ord D) with (ord dst). apply Permutation_map. symmetry. auto.
    + rewrite PD. exact HD.
    + intros x Hx. rewrite PD. apply HK; auto.
    + intros q _. reflexivity.
Qed.

(** ** conjugation *)
Lemma upd_app_r {A} (a b : list A) i x : length a <= i -> upd (a ++ b) i x = a ++ upd b (i - length a) x.
Proof.
  revert i. induction a as [|y a IH]; intros i H; cbn [length app] in *; [now rewrite Nat.sub_0_r|].
  destruct i as [|i]; [lia|]. cbn [upd]. rewrite IH by lia. reflexivity.
Qed.

Definition cj {T} (c : T -> T) (toggle : bool) (p : nat) (x : nat * T) : nat * T :=
  (fst x, if Bool.eqb (p <? fst x) toggle then c (snd x) else snd x).

Lemma offs_lengths {A B} (a : list (list A)) (b : list (list B)) p : map (@length A) a = map (@length B) b -> offs a p = offs b p.
Proof.
  intros E. unfold offs. revert b p E. induction a as [|x a IH]; intros [|y b] [|p] E; simpl in *; try discriminate; auto.
  rewrite !app_length. inversion E. rewrite (IH b p); auto.
Qed.

Lemma conj_ok {T} (m : csx T) rs (c : T -> T) toggle : rep m rs ->
  let rs' := map (fun p => map (cj c toggle p) (nth p rs [])) (seq 0 (length rs)) in
  foldM (conj_row c m toggle) (seq 0 (size_primary m)) (vals m) = Ok (map snd (concat rs')) /\
  rep (set_values m (map snd (concat rs'))) rs'.
Proof.
  intros H rs'.
  assert (ELn : map (@length _) rs' = map (@length _) rs).
  { unfold rs'. rewrite map_map. apply (nth_ext _ _ 0 0); [now rewrite !map_length, seq_length|]. intros j Hj. rewrite map_length, seq_length in Hj.
    rewrite nth_map_seq by auto. rewrite map_length. rewrite <- (map_nth (@length (nat * T))). reflexivity. }
  assert (EO : forall p, offs rs' p = offs rs p) by (intros; apply offs_lengths; auto).
  assert (EL : length rs' = length rs) by (unfold rs'; now rewrite map_length, seq_length).
  assert (EC : length (concat rs') = length (concat rs)).
  { rewrite <- (offs_all rs' (length rs')), <- (offs_all rs (length rs)) by lia. rewrite EL. apply EO. }
  assert (H' : rep (set_values m (map snd (concat rs'))) rs').
  { split.
    - rewrite EL. apply (r_len _ _ H).
    - cbn [set_values ptrs]. rewrite (r_ptrs _ _ H), EL. apply map_ext. intros. symmetry. apply EO.
    - cbn [set_values idxs]. rewrite (r_idxs _ _ H), !concat_map. f_equal. unfold rs'. rewrite map_map.
      apply (nth_ext _ _ [] []); [now rewrite !map_length, seq_length|]. intros j Hj. rewrite map_length in Hj.
      rewrite nth_map_seq by auto. rewrite map_map. cbn [cj fst]. change (@nil nat) with (map fst (@nil (nat * T))). now rewrite map_nth.
    - reflexivity.
    - cbn [set_values nnz]. rewrite EC. apply (r_nnz _ _ H).
    - intros r x Hr Hx. unfold rs' in Hr. apply in_map_iff in Hr. destruct Hr as (p & <- & Hp). apply in_seq in Hp.
      apply in_map_iff in Hx. destruct Hx as (y & <- & Hy). cbn [cj fst]. apply (r_range _ _ H (nth p rs [])); auto. apply nth_In; lia. }
  split; auto. set (nv := map snd (concat rs')). set (ov := vals m).
  assert (Ln : length nv = nnz m) by (unfold nv; rewrite map_length, EC; symmetry; apply (r_nnz _ _ H)).
  assert (Lo : length ov = nnz m) by (unfold ov; rewrite (r_vals _ _ H), map_length; symmetry; apply (r_nnz _ _ H)).
  destruct (foldM_seq_inv (conj_row c m toggle) (fun k v => v = firstn (offs rs k) nv ++ skipn (offs rs k) ov) 0 (size_primary m) ov) as (v & E & Hv).
  - reflexivity.
  - intros k v Hk ->. assert (Hn : nth_error rs k = Some (nth k rs [])) by (apply (rep_nth m); auto; lia).
    set (r := nth k rs []) in *.
    unfold conj_row.
    rewrite (row_loop m rs k r (conj_entry c m toggle k)
      (fun v i x => if Bool.eqb (k <? fst x) toggle then y <- rd v i ;; wr v i (c y) else Ok v) _ H Hn).
    2:{ intros s i x E1 _. unfold conj_entry. rewrite (rd_some _ _ _ E1). reflexivity. }
    destruct (foldM_inv (fun s ix => if Bool.eqb (k <? fst (snd ix)) toggle then y <- rd s (fst ix) ;; wr s (fst ix) (c y) else Ok s)
      (fun pre v => v = firstn (offs rs k + length pre) nv ++ skipn (offs rs k + length pre) ov)
      (combine (seq (offs rs k) (length r)) r) (firstn (offs rs k) nv ++ skipn (offs rs k) ov)) as (v & E & Hv).
    + cbn [length]. rewrite Nat.add_0_r. reflexivity.
    + intros pre [i x] post v El Hv0. rewrite app_length. cbn [length fst snd].
      assert (Hj : nth_error (combine (seq (offs rs k) (length r)) r) (length pre) = Some (i, x)).
      { rewrite El, nth_error_app2, Nat.sub_diag by lia. reflexivity. }
      rewrite nth_error_combine in Hj.
      destruct (nth_error (seq (offs rs k) (length r)) (length pre)) as [i'|] eqn:E1; [|discriminate].
      destruct (nth_error r (length pre)) as [x'|] eqn:E2; [|discriminate]. inversion Hj; subst i' x'.
      assert (Hlen : length pre < length r) by (apply nth_error_Some; rewrite E2; discriminate).
      assert (Ei : i = offs rs k + length pre).
      { rewrite nth_error_nth' with (d := 0) in E1 by now rewrite seq_length. rewrite seq_nth in E1 by auto. congruence. }
      destruct (rep_pos m rs k r (length pre) x H Hn E2) as (_ & Eo).
      assert (Hn' : nth_error rs' k = Some (map (cj c toggle k) r)).
      { unfold rs'. rewrite nth_error_map, nth_error_nth' with (d := 0) by (rewrite seq_length; rewrite (r_len _ _ H); lia).
        rewrite seq_nth by (rewrite (r_len _ _ H); lia). reflexivity. }
      destruct (rep_pos _ rs' k _ (length pre) (cj c toggle k x) H' Hn') as (_ & En).
      { rewrite nth_error_map, E2. reflexivity. }
      rewrite EO in En. cbn [set_values vals] in En. fold nv in En. fold ov in Eo. rewrite <- Ei in *.
      assert (Hi : i < nnz m) by (rewrite <- Lo; apply nth_error_Some; rewrite Eo; discriminate).
      assert (E4 : firstn (i + 1) nv = firstn i nv ++ [snd (cj c toggle k x)]).
      { rewrite Nat.add_1_r. apply firstn_S_error. auto. }
      assert (E5 : skipn i ov = snd x :: skipn (i + 1) ov).
      { clear -Eo. revert i Eo. induction ov as [|y l IH]; intros [|i] Eo; simpl in *; try discriminate.
        - inversion Eo; auto.
        - apply IH. auto. }
      subst v. rewrite Nat.add_assoc, <- Ei, E4, <- app_assoc. cbn [app]. rewrite E5. cbn [cj snd].
      assert (Lf : length (firstn i nv) = i) by (rewrite firstn_length; lia).
      destruct (Bool.eqb (k <? fst x) toggle).
      * unfold rd. rewrite nth_error_app2, Lf, Nat.sub_diag by lia. cbn [nth_error obind].
        rewrite wr_ok by (rewrite app_length, Lf; cbn [length]; lia). eexists; split; [reflexivity|].
        rewrite upd_app_r by lia. rewrite Lf, Nat.sub_diag. reflexivity.
      * eexists; split; reflexivity.
    + exists v. split; auto. rewrite Hv. replace (length (combine (seq (offs rs k) (length r)) r)) with (length r) by (rewrite combine_length, seq_length; lia).
      rewrite <- (offs_S _ _ _ Hn). rewrite Nat.add_1_r || idtac. reflexivity.
  - fold ov. rewrite E, Hv. rewrite Nat.add_0_l, <- (r_len _ _ H), offs_all by auto.
    rewrite <- (r_nnz _ _ H), firstn_all2, skipn_all2 by lia. now rewrite app_nil_r.
Qed.

Lemma conj_entries {T} (m : csx T) (c : T -> T) toggle : valid m ->
  exists v, foldM (conj_row c m toggle) (seq 0 (size_primary m)) (vals m) = Ok v /\ length v = nnz m /\
    entries (set_values m v) =
      map (fun e => (e_row e, e_col e,
             if Bool.eqb (match ord m with OrdR => e_row e <? e_col e | OrdC => e_col e <? e_row e end) toggle then c (e_val e) else e_val e))
          (entries m).
Proof.
  intros V. pose proof (valid_rep m V) as H. destruct (conj_ok m _ c toggle H) as (E & H').
  set (rs := map (line m) (seq 0 (size_primary m))) in *. set (rs' := map (fun p => map (cj c toggle p) (nth p rs [])) (seq 0 (length rs))) in *.
  exists (map snd (concat rs')). split; auto. split.
  { rewrite <- (r_vals _ _ H'). apply (v_alloc _ (rep_valid _ _ H')). }
  assert (EL : length rs' = length rs) by (unfold rs'; now rewrite map_length, seq_length).
  rewrite (rep_entries _ _ H'), (rep_entries _ _ H), EL, flat_map_map, !flat_map_concat_map. f_equal.
  apply map_ext_in. intros p Hp. apply in_seq in Hp. unfold rs'. rewrite nth_map_seq by lia. rewrite !map_map. apply map_ext. intros x.
  unfold coords, cj, e_row, e_col, e_val. cbn [set_values ord fst snd]. destruct (ord m); reflexivity.
Qed.

Lemma count_diag {T} (src : csx T) : valid src ->
  foldM (diag_row src) (seq 0 (size_primary src)) 0 = Ok (length (filter (fun e : entry T => e_row e =? e_col e) (entries src))).
Proof.
  intros V. pose proof (valid_rep src V) as H. set (rs := map (line src) (seq 0 (size_primary src))) in *.
  transitivity (foldM (fun n (x : nat * nat * T) => Ok (if snd (fst x) =? fst (fst x) then n + 1 else n)) (items rs) 0).
  - unfold items. rewrite <- foldM_flat_map, (r_len _ _ H). apply foldM_ext_in. intros n r Hr. apply in_seq in Hr. rewrite foldM_map.
    apply (row_loop' src rs r (nth r rs []) (diag_entry src r) (fun n x => Ok (if r =? fst x then n + 1 else n)) n H).
    + apply (rep_nth src); auto. lia.
    + intros s i x E1 _. unfold diag_entry. rewrite (rd_some _ _ _ E1). reflexivity.
  - rewrite (entries_items src rs H). rewrite filter_map, map_length.
    assert (G : forall l n, foldM (fun n (x : nat * nat * T) => Ok (if snd (fst x) =? fst (fst x) then n + 1 else n)) l n =
      Ok (n + length (filter (fun x : nat * nat * T => e_row (coords (ord src) (snd (fst x)) (fst (fst x), snd x)) =? e_col (coords (ord src) (snd (fst x)) (fst (fst x), snd x))) l))).
    { induction l as [|[[s p] x] l IH]; intros n; cbn [foldM filter]; [f_equal; cbn; lia|]. cbn [obind fst snd]. rewrite IH. f_equal.
      unfold coords, e_row, e_col. cbn [fst snd].
      destruct (ord src); cbn [fst snd]; destruct (Nat.eqb_spec p s); try destruct (Nat.eqb_spec s p); try congruence; cbn [length]; lia. }
    apply (G (items rs) 0).
Qed.

(** *** C47 *)
Theorem complete_counts_entries : forall (T : Type) (src : csx T), valid src ->
  complete_nnz src = Ok (length (flat_map (mirrored (fun x => x)) (entries src))).
Proof.
  intros T src V. unfold complete_nnz. rewrite count_diag by auto. cbn [obind]. f_equal.
  assert (E : nnz src = length (entries src)).
  { pose proof (valid_rep src V) as H. rewrite (entries_items src _ H), map_length, items_length. apply (r_nnz _ _ H). }
  rewrite E. clear E V. induction (entries src) as [|e l IH]; auto. cbn [filter flat_map length]. rewrite app_length, <- IH.
  assert (Q : length (filter (fun e : entry T => e_row e =? e_col e) l) <= length l).
  { clear. induction l as [|a l IH]; auto. cbn [filter]. destruct (_ =? _); cbn [length]; lia. }
  unfold mirrored. destruct (e_row e =? e_col e); cbn [length]; lia.
Qed.

(** the symmetric matrix; any order of the destination *)
Theorem complete_gives_symmetric : forall (T : Type) (sort : list (nat * nat * nat) -> list (nat * nat * nat)) (src dst : csx T) (mp0 : list nat),
  sort_contract rc_lt sort -> valid src -> allocated dst ->
  nrows src = ncols src -> nrows dst = nrows src -> ncols dst = nrows src -> upl src <> UploNone -> upl dst = UploNone ->
  last_line_used src ->
  nnz dst = length (flat_map (mirrored (fun x => x)) (entries src)) -> length mp0 = nnz dst ->
  exists d mp, complete_pattern sort src dst mp0 = Ok (d, mp) /\
    nrows d = nrows src /\ ncols d = ncols src /\ nnz d = nnz dst /\ ord d = ord dst /\
    forall v dv : list T, length v = nnz src -> length dv = nnz dst ->
    exists r, complete_values None (set_values src v) (set_values d dv) mp = Ok (set_values d r) /\
      valid (set_values d r) /\ ascending (set_values d r) /\
      Permutation (entries (set_values d r)) (flat_map (mirrored (fun x => x)) (entries (set_values src v))).
Proof.
  intros T sort src dst mp0 HSo V HA Q1 Q2 Q3 HU HUd HL HN L0.
  destruct (complete_rep sort src dst mp0 HSo V HA Q1 Q2 Q3 HU HUd HL HN L0) as (p & i & mp & E & VD & AD & HP).
  exists (with_data dst p i (vals dst)), mp. split; auto. split; [exact Q2|]. split; [cbn; congruence|]. split; [reflexivity|]. split; [reflexivity|].
  intros v dv Lv Ld.
  destruct (finish src _ _ natural_mirrored V VD AD HP v dv Lv Ld) as (r & E1 & V1 & A1 & HP1).
  exists r. split; [|auto]. unfold complete_values. cbn [set_values nnz vals with_data ptrs idxs] in *.
  unfold copy_values in E1. cbn [set_values nnz vals with_data ptrs idxs] in E1.
  destruct (foldM (value_step v mp) (seq 0 (nnz dst)) dv) as [x| |]; try discriminate. cbn [obind] in *. exact E1.
Qed.

(** the Hermitian matrix; same orders *)
Theorem complete_gives_hermitian : forall (T : Type) (conj : T -> T) (sort : list (nat * nat * nat) -> list (nat * nat * nat)) (src dst : csx T) (mp0 : list nat),
  sort_contract rc_lt sort -> valid src -> allocated dst -> ord dst = ord src ->
  nrows src = ncols src -> nrows dst = nrows src -> ncols dst = nrows src -> upl src <> UploNone -> upl dst = UploNone ->
  (forall e, In e (entries src) -> in_triangle (upl src) e = true) ->
  last_line_used src ->
  nnz dst = length (flat_map (mirrored (fun x => x)) (entries src)) -> length mp0 = nnz dst ->
  exists d mp, complete_pattern sort src dst mp0 = Ok (d, mp) /\
    nrows d = nrows src /\ ncols d = ncols src /\ nnz d = nnz dst /\ ord d = ord dst /\
    forall v dv : list T, length v = nnz src -> length dv = nnz dst ->
    (forall e, In e (entries (set_values src v)) -> e_row e = e_col e -> conj (e_val e) = e_val e) ->
    exists r, complete_values (Some conj) (set_values src v) (set_values d dv) mp = Ok (set_values d r) /\
      valid (set_values d r) /\ ascending (set_values d r) /\
      Permutation (entries (set_values d r)) (flat_map (mirrored conj) (entries (set_values src v))).
Proof.
  intros T conj sort src dst mp0 HSo V HA HO Q1 Q2 Q3 HU HUd HTri HL HN L0.
  destruct (complete_rep sort src dst mp0 HSo V HA Q1 Q2 Q3 HU HUd HL HN L0) as (p & i & mp & E & VD & AD & HP).
  exists (with_data dst p i (vals dst)), mp. split; auto. split; [exact Q2|]. split; [cbn; congruence|]. split; [reflexivity|]. split; [reflexivity|].
  intros v dv Lv Ld HDiag. set (D := with_data (set_values dst mp0) p i mp) in *.
  destruct (transport src D _ v dv natural_mirrored V VD HP Lv Ld) as (r & E1 & Lr & HP1).
  assert (V1 : valid (set_values D r)) by (apply set_values_valid; auto).
  assert (ED : forall x : list T, set_values D x = set_values (with_data dst p i (vals dst)) x) by reflexivity.
  destruct (conj_entries (set_values D r) conj (conj_toggle src dst) V1) as (w & E2 & Lw & EW).
  assert (Lw' : length w = nnz D) by exact Lw.
  exists w. rewrite <- !ED. split; [|split; [apply set_values_valid; auto|split; [apply set_values_asc; auto|]]].
  - unfold complete_values. change (set_values D dv) with (set_values (set_values D r) dv). cbn [set_values vals]. 
    change (nnz (set_values (set_values D r) dv)) with (nnz D). cbn [D with_data vals nnz] in E1. 
    change (nnz D) with (nnz (set_values dst mp0)). rewrite E1. cbn [obind].
    change (conj_toggle (set_values src v) (set_values (set_values D r) dv)) with (conj_toggle src dst).
    change (size_primary (set_values (set_values D r) dv)) with (size_primary (set_values D r)).
    assert (EC : forall x, foldM (conj_row conj (set_values (set_values D r) dv) (conj_toggle src dst)) x r =
                foldM (conj_row conj (set_values D r) (conj_toggle src dst)) x r) by reflexivity.
    rewrite EC. cbn [set_values vals] in E2. fold D in E2. 
    match goal with |- context [foldM ?f ?l r] => replace (foldM f l r) with (Ok w) by (symmetry; exact E2) end. reflexivity.
  - change (set_values (set_values D r) w) with (set_values D w) in EW. rewrite EW.
    rewrite (Permutation_map _ HP1). cbn [set_values ord D with_data]. apply perm_of_eq.
    assert (HT : forall e, In e (entries (set_values src v)) -> in_triangle (upl src) e = true).
    { intros e He. assert (Hk : In (fst e) (map fst (entries src))) by (rewrite <- (keys_set src v V Lv); apply in_map; auto).
      apply in_map_iff in Hk. destruct Hk as (e0 & E0 & He0). specialize (HTri e0 He0). unfold in_triangle, e_row, e_col in *. rewrite <- E0. auto. }
    revert HT HDiag. generalize (entries (set_values src v)). intros l HT HDiag. induction l as [|e l IH]; auto. cbn [flat_map].
    rewrite map_app, IH; [|intros e' He'; apply HT; right; auto|intros e' He'; apply HDiag; right; auto]. f_equal.
    specialize (HT e (or_introl eq_refl)). specialize (HDiag e (or_introl eq_refl)). clear -HT HDiag HU HO.
    destruct e as [[a b] x]. unfold mirrored, in_triangle, e_row, e_col, e_val, conj_toggle in *. cbn [fst snd] in *. rewrite HO.
    destruct (Nat.eqb_spec a b) as [->|N].
    + cbn [map fst snd]. rewrite HDiag by auto. do 2 f_equal. match goal with |- context [if ?c then _ else _] => destruct c end; reflexivity.
    + cbn [map fst snd]. destruct (upl src); [congruence| |]; apply Nat.leb_le in HT;
        destruct (ord src); cbn [order_eqb uplo_eqb Bool.eqb];
        destruct (Nat.ltb_spec a b), (Nat.ltb_spec b a); try lia; reflexivity.
Qed.

(** A matrix with an empty last row: the row pointers of the destination are left as they were *)
Theorem complete_trailing_line_refuted :
  exists (src dst : csx nat) (mp0 : list nat),
    valid src /\ ascending src /\ allocated dst /\ nrows src = ncols src /\ nrows dst = nrows src /\ ncols dst = nrows src /\
    upl src = UploL /\ upl dst = UploNone /\
    (forall e, In e (entries src) -> in_triangle (upl src) e = true) /\
    nnz dst = length (flat_map (mirrored (fun x => x)) (entries src)) /\ length mp0 = nnz dst /\
    exists d mp, complete_pattern (isort rc_lt) src dst mp0 = Ok (d, mp) /\ ~ valid d /\ nth 2 (ptrs d) 0 = nth 2 (ptrs dst) 0.
Proof.
  exists (Csx 3 3 1 OrdR UploL [0; 1; 1; 1] [0] [5]), (Csx 3 3 1 OrdR UploNone [9; 9; 9; 9] [9] [9]), [9].
  split. { split; unfold allocated; cbn; auto. - intros p Hp. do 3 (destruct p as [|p]; [cbn; lia|]). lia. - intros c [<-|[]]. lia. }
  split. { intros p Hp. do 3 (destruct p as [|p]; [cbn; repeat constructor|]). cbn in Hp. lia. }
  split. { unfold allocated. cbn. auto. }
  do 5 (split; [reflexivity|]).
  split. { intros e [<-|[]]. reflexivity. }
  split; [reflexivity|]. split; [reflexivity|].
  eexists _, _. split; [reflexivity|]. split; [|reflexivity].
  intros [_ _ _ V4 _]. specialize (V4 2). cbn in V4. lia.
Qed.

(** Different orders: the stored triangle is conjugated instead of the mirrored one.
    Values are pairs (re, im with a sign bit) with conjugation flipping the sign *)
Theorem complete_conj_orders_refuted :
  exists (conj : nat * bool -> nat * bool) (src dst : csx (nat * bool)) (mp0 : list nat),
    (forall z, conj (conj z) = z) /\
    valid src /\ allocated dst /\ ord dst <> ord src /\ nrows src = ncols src /\ nrows dst = nrows src /\ ncols dst = nrows src /\
    upl src = UploL /\ upl dst = UploNone /\ last_line_used src /\
    (forall e, In e (entries src) -> in_triangle (upl src) e = true) /\
    nnz dst = length (flat_map (mirrored (fun x => x)) (entries src)) /\ length mp0 = nnz dst /\
    exists d mp d', complete_pattern (isort rc_lt) src dst mp0 = Ok (d, mp) /\ complete_values (Some conj) src d mp = Ok d' /\
      exists e, In e (entries src) /\ ~ In e (entries d').
Proof.
  exists (fun z => (fst z, negb (snd z))), (Csx 2 2 1 OrdR UploL [0; 0; 1] [0] [(7, true)]),
    (Csx 2 2 2 OrdC UploNone [9; 9; 9] [9; 9] [(0, false); (0, false)]), [9; 9].
  split. { intros [a b]. cbn. now rewrite negb_involutive. }
  split. { split; unfold allocated; cbn; auto. - intros p Hp. do 2 (destruct p as [|p]; [cbn; lia|]). lia. - intros c [<-|[]]. lia. }
  split. { unfold allocated. cbn. auto. }
  split. { discriminate. }
  do 5 (split; [reflexivity|]).
  split. { right. exists (1, 0, (7, true)). cbn. auto. }
  split. { intros e [<-|[]]. reflexivity. }
  split; [reflexivity|]. split; [reflexivity|].
  do 3 eexists. split; [vm_compute; reflexivity|]. split; [vm_compute; reflexivity|].
  exists (1, 0, (7, true)). split; [cbn; auto|]. cbn. intuition congruence.
Qed.

Definition ex_low : csx nat := Csx 3 3 4 OrdR UploL [0; 1; 2; 4] [0; 0; 0; 2] [11; 21; 31; 33].
Definition ex_full : csx nat := Csx 3 3 6 OrdC UploNone [9; 9; 9; 9] [9; 9; 9; 9; 9; 9] [0; 0; 0; 0; 0; 0].

Example complete_gives_symmetric_hyps : sort_contract rc_lt (isort rc_lt) /\ valid ex_low /\ allocated ex_full /\ last_line_used ex_low /\ (forall e, In e (entries ex_low) -> in_triangle (upl ex_low) e = true) /\ nnz ex_full = length (flat_map (mirrored (fun x => x)) (entries ex_low)).
Proof.
  split; [apply isort_contract, rc_swo|]. split.
  { split; unfold allocated; cbn; auto. - intros p Hp. do 3 (destruct p as [|p]; [cbn; lia|]). lia.
    - intros c H. repeat destruct H as [<-|H]; try lia; auto. }
  split; [unfold allocated; cbn; auto|]. split; [right; exists (2, 0, 31); cbn; auto|].
  split; [|reflexivity]. intros e H. cbn in H. repeat destruct H as [<-|H]; auto.
Qed.

Example complete_gives_symmetric_ex : exists d mp d', complete_pattern (isort rc_lt) ex_low ex_full [9; 9; 9; 9; 9; 9] = Ok (d, mp) /\ complete_values None ex_low d mp = Ok d' /\ ptrs d' = [0; 3; 4; 6] /\ idxs d' = [0; 1; 2; 0; 0; 2] /\ vals d' = [11; 21; 31; 21; 31; 33].
Proof. do 3 eexists. split; [vm_compute; reflexivity|]. split; [vm_compute; reflexivity|]. cbn. auto. Qed.

(** conjugation is observable and the diagonal is self-conjugate *)
Example complete_gives_hermitian_ex : 
  let conj := fun z : nat * bool => if fst z =? 0 then z else (fst z, negb (snd z)) in
  let src := Csx 2 2 2 OrdR UploL [0; 1; 2] [0; 0] [(0, true); (7, true)] in
  let dst := Csx 2 2 3 OrdR UploNone [9; 9; 9] [9; 9; 9] [(5, true); (5, true); (5, true)] in
  (forall e, In e (entries src) -> e_row e = e_col e -> conj (e_val e) = e_val e) /\ exists d mp d', complete_pattern (isort rc_lt) src dst [9; 9; 9] = Ok (d, mp) /\ complete_values (Some conj) src d mp = Ok d' /\ vals d' = [(0, true); (7, false); (7, true)].
Proof.
  cbn zeta. split.
  - intros e H. cbn in H. repeat destruct H as [<-|H]; cbn; auto; try discriminate. contradiction.
  - do 3 eexists. split; [vm_compute; reflexivity|]. split; vm_compute; reflexivity.
Qed.

Print Assumptions complete_counts_entries.
Print Assumptions complete_gives_symmetric.
Print Assumptions complete_gives_hermitian.
Print Assumptions complete_trailing_line_refuted.
Print Assumptions complete_conj_orders_refuted.
