(** * Lemmas on the sparsity pattern of a domain: the whole function *)
From Coq Require Import List Arith Bool Lia Sorted Permutation.
From Verif Require Import Base S_Order S_Assembly M_Assembly M_Utils L_Utils L_Dual2 L_TotalFeti L_Numbering L_Pattern L_Pattern2 L_Pattern3 L_Pattern4 L_Equality7.
Import ListNotations.
Local Open Scope out_scope.

(** ** the map of the indices of a domain *)
Lemma imap_row domain (f : nat -> option nat) ni D : forall imap, ni < length imap ->
  exists imap', foldM (fun imap (di : dindex) => if fst di =? domain then wr imap ni (snd di) else Ok imap) (map (fun d => (d, f d)) D) imap = Ok imap' /\ length imap' = length imap /\
    forall q, nth q imap' None = if (q =? ni) && memb domain D then f domain else nth q imap None.
Proof.
  induction D as [|d D IH]; intros imap H; cbn [map foldM fst snd].
  { exists imap; repeat split; auto. intros q; rewrite andb_false_r; auto. }
  destruct (Nat.eqb_spec d domain) as [->|Q].
  - rewrite wr_ok by auto; cbn [obind]. destruct (IH (upd imap ni (f domain))) as (i' & E & L & N); [rewrite upd_length; auto|]. rewrite upd_length in L. exists i'; repeat split; auto.
    intros q. rewrite N. cbn [memb existsb]. rewrite Nat.eqb_refl; cbn [orb]. rewrite nth_upd by auto. destruct (Nat.eqb_spec q ni); subst; rewrite ?Nat.eqb_refl; cbn [andb]; [destruct (memb domain D); auto|]. destruct (Nat.eqb_spec ni q); [congruence | auto].
  - cbn [obind]. destruct (IH imap H) as (i' & E & L & N). exists i'; repeat split; auto. intros q; rewrite N. unfold memb; cbn [existsb]. replace (domain =? d) with false; auto. symmetry; apply Nat.eqb_neq; auto.
Qed.
Lemma build_imap_ok domain (f : nat -> nat -> option nat) (D : nat -> list nat) total : 
  exists imap, build_imap total domain (map (fun k => map (fun d => (d, f d k)) (D k)) (seq 0 total)) = Ok imap /\ length imap = total /\
    forall k, k < total -> nth k imap None = if memb domain (D k) then f domain k else None.
Proof.
  unfold build_imap.
  set (body := fun (st : list (option nat) * nat) (row : list dindex) =>
      let '(imap, ni) := st in
      imap <- foldM (fun imap (di : dindex) => if fst di =? domain then wr imap ni (snd di) else Ok imap) row imap ;; Ok (imap, ni + 1)).
  assert (G : forall n, n <= total -> exists imap, foldM body (map (fun k => map (fun d => (d, f d k)) (D k)) (seq 0 n)) (repeat None total, 0) = Ok (imap, n) /\ length imap = total /\
     forall k, k < total -> nth k imap None = if (k <? n) && memb domain (D k) then f domain k else None).
  { induction n; intros H. { exists (repeat None total). split; [reflexivity|]. split; [apply repeat_length|]. intros k Hk; cbn [Nat.ltb Nat.leb andb]. apply nth_repeat_lt; auto. }
    destruct IHn as (imap & E & L & N); [lia|]. rewrite seq_S, map_app, foldM_app, E; cbn [obind map foldM Nat.add]. unfold body at 1. 
    destruct (imap_row domain (fun d => f d n) n (D n) imap) as (i' & E' & L' & N'); [lia|].
    match goal with |- context [foldM ?g ?l imap] => replace (foldM g l imap) with (Ok i' : outcome (list (option nat))) by (symmetry; exact E') end.
    cbn [obind]. exists i'; split; [do 2 f_equal; lia|]. split; [congruence|]. intros k Hk. rewrite N', N by auto.
    destruct (Nat.eqb_spec k n) as [->|Q]; cbn [andb]. { rewrite (proj2 (Nat.ltb_lt n (S n))), (proj2 (Nat.ltb_ge n n)) by lia. cbn [andb]. auto. }
    replace (k <? S n) with (k <? n); auto. destruct (Nat.ltb_spec k n), (Nat.ltb_spec k (S n)); auto; lia. }
  destruct (G total (Nat.le_refl _)) as (imap & E & L & N). match goal with |- context [foldM ?a ?b ?c] => replace (foldM a b c) with (Ok (imap, total) : outcome (list (option nat) * nat)) by (symmetry; exact E) end. cbn [obind]. exists imap; split; auto. split; auto. intros k Hk. rewrite N by auto. rewrite (proj2 (Nat.ltb_lt k total)) by auto. auto.
Qed.

Lemma dof_node n d dofs : d < dofs -> (n * dofs + d) / dofs = n.
Proof. intros H. rewrite Nat.add_comm, Nat.div_add by lia. rewrite Nat.div_small by lia. auto. Qed.
Lemma domain_dofs_in dofs ndoms surface d k : In k (domain_dofs dofs ndoms surface d) <-> k < dofs * length ndoms /\ In d (dof_domains dofs ndoms k).
Proof.
  unfold domain_dofs. rewrite in_app_iff, !filter_In. unfold all_dofs. rewrite in_seq.
  assert (M : memb d (dof_domains dofs ndoms k) = true <-> In d (dof_domains dofs ndoms k)).
  { unfold memb. rewrite existsb_exists. split; [intros (x & H & E); apply Nat.eqb_eq in E; subst; auto | intros H; exists d; split; auto; apply Nat.eqb_refl]. }
  rewrite M. destruct (memb k surface); cbn [negb]; intuition (try lia; try discriminate).
Qed.
Lemma domain_dofs_nodup dofs ndoms surface d : NoDup (domain_dofs dofs ndoms surface d).
Proof.
  unfold domain_dofs. apply L_Equality7.NoDup_app_intro.
  - apply NoDup_filter, NoDup_filter, seq_NoDup.
  - apply NoDup_filter, NoDup_filter, seq_NoDup.
  - intros k H H'. apply filter_In in H, H'. destruct H as [_ H], H' as [_ H']. rewrite H in H'; discriminate.
Qed.

Lemma chain_le intervals : forall b e, consecutive b intervals e -> b <= e.
Proof. induction intervals as [|[b' e'] t IH]; intros b e H; simpl in H; [lia|]. destruct H as (-> & H & C). apply IH in C; lia. Qed.
Lemma chain_in intervals : forall b e, consecutive b intervals e -> forall iv, In iv intervals -> b <= fst iv <= snd iv /\ snd iv <= e.
Proof.
  induction intervals as [|[b' e'] t IH]; intros b e H iv Hin; simpl in *; [tauto|]. destruct H as (-> & H & C). pose proof (chain_le _ _ _ C). destruct Hin as [<-|Hin]; [simpl; lia|]. specialize (IH _ _ C iv Hin). lia.
Qed.
Lemma chain_slices {A} intervals (l : list A) : forall b e, consecutive b intervals e -> flat_map (fun iv => slice (fst iv) (snd iv) l) intervals = slice b e l.
Proof.
  induction intervals as [|[b' e'] t IH]; intros b e H; simpl in *; [subst; rewrite slice_nil; auto|]. destruct H as (-> & H & C). rewrite (IH _ _ C). pose proof (chain_le _ _ _ C). symmetry; apply slice_app; lia.
Qed.

Section Domain.
  Variables (sort : list nat -> list nat) (alloc : nat -> list nat) (dofs : nat) (full : bool) (dbegin dend : nat) (ndoms : list (list nat)) (surface : list nat).
  Variables (N : numbering) (domain : nat) (elements : list (list nat)) (ebegin eend : nat) (intervals : list (nat * nat)).
  Hypothesis SC : sort_contract Nat.ltb sort.
  Hypothesis alloc_length : forall n, length (alloc n) = n.
  Hypothesis dofs_pos : 0 < dofs.
  Hypothesis dup : Forall (@NoDup nat) ndoms.
  Hypothesis surf : is_surface dofs ndoms surface dbegin dend.
  Hypothesis numbered : fill_decomposition dofs dbegin dend ndoms surface = Ok N.
  Hypothesis own : dbegin + domain < dend.
  Local Notation ks := (domain_dofs dofs ndoms surface (dbegin + domain)).
  Hypothesis erange : eend <= length elements.
  Hypothesis chained : consecutive ebegin intervals eend.
  Local Notation mine := (slice ebegin eend elements).
  Hypothesis nodes_in : forall e n, In e mine -> In n e -> n < length ndoms /\ In (dbegin + domain) (nth n ndoms []).
  Hypothesis used : forall k, In k ks -> exists e, In e mine /\ In k (element_dofs dofs e).

  Definition dloc (k : nat) : nat := index_of k ks.
  Definition drow : nat -> list nat := prow (all_pushes dofs full dloc mine) sort.
  Definition dpositions : list nat -> list nat := positions dofs full dloc (pos drow).

  Lemma element_dofs_own e k : In e mine -> In k (element_dofs dofs e) -> In k ks.
  Proof.
    intros He Hk. apply element_dofs_in in Hk. destruct Hk as (n & d & Hn & Hd & ->). destruct (nodes_in e n He Hn) as [H1 H2]. apply domain_dofs_in. split; [nia|].
    unfold dof_domains. rewrite dof_node by auto. auto.
  Qed.
  Lemma drow_in i j : In j (drow i) <-> exists e k l, In e mine /\ In k (element_dofs dofs e) /\ In l (element_dofs dofs e) /\ i = dloc k /\ j = dloc l /\ (full = true \/ i <= j).
  Proof.
    unfold drow. rewrite prow_in by auto. unfold all_pushes. rewrite in_flat_map. split.
    - intros (e & He & H). apply pushes_in in H. destruct H as (k & l & H). exists e, k, l; tauto.
    - intros (e & k & l & He & H). exists e; split; auto. apply pushes_in. exists k, l; tauto.
  Qed.
  Lemma row_of_loc i k : row_of ks k i <-> In k ks /\ i = dloc k.
  Proof.
    unfold row_of, dloc. split; [intros H; split; [eapply nth_error_In; eauto | symmetry; apply index_of_nth; auto; apply domain_dofs_nodup] | intros [H ->]; apply index_of_in; auto].
  Qed.
  Lemma drow_coupled i j : In j (drow i) <-> coupled dofs ks mine i j /\ (full = true \/ i <= j).
  Proof.
    rewrite drow_in. unfold coupled. split.
    - intros (e & k & l & He & Hk & Hl & Ei & Ej & Q). split; auto. exists e, k, l. repeat split; auto; apply row_of_loc; split; auto; eapply element_dofs_own; eauto.
    - intros [(e & k & l & He & Hi & Hj & Hk & Hl) Q]. apply row_of_loc in Hi, Hj. exists e, k, l. tauto.
  Qed.
  Lemma dloc_lt k : In k ks -> dloc k < length ks.
  Proof. apply index_of_lt. Qed.

  Lemma build_pattern_ok : exists P, build_pattern sort alloc dofs full N dbegin domain (length ndoms) elements ebegin eend intervals = Ok P /\
    p_size P = length ks /\ p_row P = all_rows (length ks) drow /\ p_column P = all_columns (length ks) drow /\
    p_permutation P = flat_map dpositions mine /\ length (p_offset P) = length intervals /\
    forall i, i < length intervals -> nth i (p_offset P) 0 = length (flat_map dpositions (flat_map (fun iv => slice (fst iv) (snd iv) elements) (firstn i intervals))).
  Proof.
    destruct (fill_decomposition_ok dofs dbegin dend ndoms surface dofs_pos dup surf) as (N' & E & Sz & _ & Dm). rewrite numbered in E; injection E as E; subst N'.
    unfold build_pattern. rewrite Dm.
    destruct (build_imap_ok (dbegin + domain) (fun d k => if is_my dbegin dend d then Some (index_of k (domain_dofs dofs ndoms surface d)) else None) (dof_domains dofs ndoms) (dofs * length ndoms)) as (imap & Ei & Li & Ni).
    unfold all_dofs.
    match goal with |- context [build_imap ?a ?b ?c] => replace (build_imap a b c) with (Ok imap : outcome (list (option nat))) by (symmetry; exact Ei) end. cbn [obind].
    rewrite Sz. rewrite (rd_ok _ _ 0) by (rewrite map_length, seq_length; lia). cbn [obind].
    assert (Hz : nth domain (map (fun d => length (domain_dofs dofs ndoms surface d)) (seq dbegin (dend - dbegin))) 0 = length ks).
    { rewrite nth_indep with (d' := (fun d => length (domain_dofs dofs ndoms surface d)) 0) by (rewrite map_length, seq_length; lia). rewrite (map_nth (fun d => length (domain_dofs dofs ndoms surface d))), seq_nth by lia. auto. }
    rewrite Hz. pose proof (chain_le _ _ _ chained) as Hc. rewrite (proj2 (Nat.ltb_ge eend ebegin)), (proj2 (Nat.ltb_ge (length elements) eend)) by lia. cbn [orb]. cbv zeta.
    assert (LO : forall e n d, In e mine -> In n e -> d < dofs -> imap_at dofs imap n d = Ok (dloc (n * dofs + d))).
    { intros e n d He Hn Hd. destruct (nodes_in e n He Hn) as [H1 H2]. unfold imap_at. assert (n * dofs + d < dofs * length ndoms) by nia. rewrite (rd_ok _ _ None) by lia; cbn [obind]. rewrite Ni by auto.
      unfold dof_domains at 1. rewrite dof_node by auto.
      assert (M : memb (dbegin + domain) (nth n ndoms []) = true). { unfold memb. apply existsb_exists. eexists; split; eauto. apply Nat.eqb_refl. } rewrite M.
      assert (M' : is_my dbegin dend (dbegin + domain) = true). { unfold is_my. apply andb_true_iff; rewrite Nat.leb_le, Nat.ltb_lt; lia. } rewrite M'. unfold dloc. auto. }
    assert (LL : forall e n d, In e mine -> In n e -> d < dofs -> dloc (n * dofs + d) < length ks).
    { intros e n d He Hn Hd. apply dloc_lt. apply (element_dofs_own e); auto. apply element_dofs_in. eauto. }
    rewrite (count_all dofs dloc imap (length ks) mine LO LL). cbn [obind].
    set (cap := capacity dofs dloc (length ks) mine). assert (Lc : length cap = length ks) by apply capacity_length.
    pose proof (all_pushes_fit dofs full dloc (length ks) mine LL) as FIT. fold cap in FIT.
    assert (RO : forall x, In x (all_pushes dofs full dloc mine) -> fst x < length cap). { rewrite Lc. apply all_pushes_rows; auto. }
    assert (NE : forall i, i < length cap -> at_pos i (all_pushes dofs full dloc mine) <> []).
    { rewrite Lc. intros i Hi E0. destruct (nth_error ks i) as [k|] eqn:Ek; [|apply nth_error_None in Ek; lia]. assert (Hk : In k ks) by (eapply nth_error_In; eauto). destruct (used k Hk) as (e & He & Hke).
      assert (Hl : dloc k = i) by (apply index_of_nth; auto; apply domain_dofs_nodup).
      assert (W : In (dloc k, dloc k) (all_pushes dofs full dloc mine)) by (apply (pushed dofs full dloc mine e); auto). rewrite Hl in W. apply at_pos_in in W. rewrite E0 in W. destruct W. }
    fold (begins cap). rewrite begins_length. replace (length cap + 1 - 1) with (length cap) by lia. rewrite (rd_ok _ _ 0) by (rewrite begins_length; lia). cbn [obind]. rewrite begins_nth by lia.
    rewrite (push_all_flat dofs full dloc imap mine LO).
    destruct (push_all cap (all_pushes dofs full dloc mine) FIT RO (alloc (list_sum (firstn (length cap) cap))) (begins cap)) as (ix & fn & E1 & B1). { apply buckets_start. apply alloc_length. }
    rewrite E1; cbn [obind]. destruct (unique_all cap (all_pushes dofs full dloc mine) sort FIT NE SC ix fn B1) as (ix' & fn' & E2 & S1 & S2 & S3). rewrite Lc in E2. rewrite E2; cbn [obind].
    assert (S3' : forall i, i < length ks -> nth i fn' 0 = nth i (begins cap) 0 + length (drow i) /\ slice (nth i (begins cap) 0) (nth i (begins cap) 0 + length (drow i)) ix' = drow i /\ nth i (begins cap) 0 + length (drow i) <= length ix').
    { intros i Hi. rewrite <- Lc in Hi. specialize (S3 i Hi). cbv zeta in S3. rewrite (proj2 (Nat.ltb_lt i (length cap))) in S3 by auto. rewrite begins_nth by lia. fold drow in S3. destruct S3 as (T1 & T2 & T3). repeat split; auto.
      pose proof (sum_firstn_S cap i Hi). pose proof (sum_firstn_mono cap (S i) (length cap) ltac:(lia)). lia. }
    rewrite (store_rows_ok (length ks) drow (begins cap) fn' ix'); try (rewrite ?begins_length; lia); try (intros i Hi; apply (S3' i Hi)).
    cbn [obind].
    assert (PO : forall i j, In (i, j) (all_pushes dofs full dloc mine) -> find_position (begins cap) (map (rowptr drow) (seq 0 (length ks))) ix' i j = Ok (pos drow i j)).
    { intros i j H. pose proof (RO _ H) as Hi; cbn [fst] in Hi. apply (find_ok (length ks) drow (begins cap) fn'); try (rewrite ?begins_length; lia); try (intros i' Hi'; apply (S3' i' Hi')).
      - intros i'. apply prow_sorted; auto.
      - unfold drow. apply prow_in; auto. }
    assert (G : forall done todo perm off, intervals = done ++ todo -> perm = flat_map dpositions (flat_map (fun iv => slice (fst iv) (snd iv) elements) done) ->
       exists off', foldM (permute_interval dofs full imap (begins cap) (map (rowptr drow) (seq 0 (length ks))) ix' elements) todo (perm, off) = Ok (flat_map dpositions mine, off ++ off') /\ length off' = length todo /\
         forall i, i < length todo -> nth i off' 0 = length (flat_map dpositions (flat_map (fun iv => slice (fst iv) (snd iv) elements) (done ++ firstn i todo)))).
    { intros done todo; revert done. induction todo as [|iv todo IH]; intros done perm off Ed Ep.
      - exists []. cbn [foldM]. rewrite app_nil_r in *. subst done perm. rewrite (chain_slices _ _ _ _ chained). repeat split; auto. simpl; intros; lia.
      - cbn [foldM]. unfold permute_interval at 1. assert (Hin : In iv intervals) by (rewrite Ed; apply in_or_app; simpl; auto). pose proof (chain_in _ _ _ chained iv Hin) as Hr.
        rewrite (proj2 (Nat.ltb_ge (snd iv) (fst iv))), (proj2 (Nat.ltb_ge (length elements) (snd iv))) by lia. cbn [orb].
        assert (PE : forall es perm, (forall e, In e es -> In e mine) -> foldM (permute_element dofs full imap (begins cap) (map (rowptr drow) (seq 0 (length ks))) ix') es perm = Ok (perm ++ flat_map dpositions es)).
        { induction es as [|e es IHe]; intros pm He; cbn [foldM flat_map]; [rewrite app_nil_r; auto|]. rewrite (permute_element_ok dofs full dloc imap mine LO _ _ _ (pos drow) PO) by (apply He; simpl; auto). cbn [obind]. rewrite IHe by (intros; apply He; simpl; auto). rewrite <- app_assoc. auto. }
        rewrite PE.
        2: { intros e He. rewrite <- (chain_slices _ _ _ _ chained). apply in_flat_map. exists iv; auto. }
        cbn [obind]. destruct (IH (done ++ [iv]) (perm ++ flat_map dpositions (slice (fst iv) (snd iv) elements)) (off ++ [length perm])) as (off' & E3 & L3 & N3).
        { rewrite <- app_assoc; auto. } { rewrite !flat_map_app, <- Ep. cbn [flat_map]. rewrite app_nil_r; auto. }
        rewrite E3. exists (length perm :: off'). split; [rewrite <- app_assoc; auto|]. split; [simpl; auto|]. intros [|i] Hi; cbn [nth firstn]; [rewrite app_nil_r; subst perm; auto|]. rewrite N3 by (simpl in Hi; lia). rewrite <- app_assoc. auto. }
    destruct (G [] intervals [] [] eq_refl eq_refl) as (off' & E3 & L3 & N3). rewrite E3; cbn [obind]. eexists; split; [reflexivity|]. cbn [p_size p_row p_column p_permutation p_offset]. repeat split; auto.
  Qed.
  Lemma drow_ne i : i < length ks -> drow i <> [].
  Proof.
    intros Hi E0. destruct (nth_error ks i) as [k|] eqn:Ek; [|apply nth_error_None in Ek; lia]. assert (Hk : In k ks) by (eapply nth_error_In; eauto). destruct (used k Hk) as (e & He & Hke).
    assert (Hl : dloc k = i) by (apply index_of_nth; auto; apply domain_dofs_nodup).
    assert (W : In i (drow i)). { apply drow_in. exists e, k, k. repeat split; auto. } rewrite E0 in W. destruct W.
  Qed.
End Domain.
