(** * C44: permutation of rows and columns of a sparse matrix *)
From Coq Require Import List Bool Arith Lia Permutation Sorted.
From Verif Require Import Base S_Order M_Csx S_Csx L_Utils L_Csx L_Csx2 P_Csx.
Import ListNotations.
Local Open Scope out_scope.

Lemma perm_of_eq {A} (a b : list A) : a = b -> Permutation a b.
Proof. intros ->. reflexivity. Qed.

(** comparator of the temporary: [l.isd < r.isd] *)
Definition isd_lt {T} (a b : nat * T) : bool := fst a <? fst b.

Lemma isd_sorted {T} (l : list (nat * T)) : sorted isd_lt l -> sorted Nat.ltb (map fst l).
Proof.
  unfold sorted. induction l as [|a l IH]; intros H; cbn [map]; constructor; inversion H; subst; auto.
  rewrite Forall_forall in *. intros b Hb. apply in_map_iff in Hb. destruct Hb as (x & <- & Hx). apply (H3 x Hx).
Qed.

Definition renamed {T} (g : nat -> nat) (r : list (nat * T)) : list (nat * T) := map (fun x => (g (fst x), snd x)) r.

Lemma longest_ok {T} (src : csx T) rs : rep src rs ->
  exists n, foldM (longest_step src) (seq 0 (size_primary src)) 0 = Ok n /\ forall r, In r rs -> length r <= n.
Proof.
  intros H.
  destruct (foldM_seq_inv (longest_step src) (fun k n => forall p, p < k -> length (nth p rs []) <= n) 0 (size_primary src) 0)
    as (n & E & Hn).
  - lia.
  - intros i s Hi Hs. unfold longest_step. rewrite (r_ptrs _ _ H).
    rewrite (rd_some _ _ _ (nth_error_map_offs rs (length rs) i ltac:(rewrite (r_len _ _ H); lia))).
    rewrite (rd_some _ _ _ (nth_error_map_offs rs (length rs) (i + 1) ltac:(rewrite (r_len _ _ H); lia))). cbn [obind].
    eexists; split; eauto. intros p Hp.
    destruct (Nat.eq_dec p i) as [->|]; [|specialize (Hs p ltac:(lia)); lia].
    rewrite Nat.add_1_r, (offs_S _ _ _ (rep_nth src rs i H ltac:(lia))). lia.
  - exists n. split; auto. intros r Hr. apply In_nth with (d := []) in Hr. destruct Hr as (p & Hp & <-). apply Hn.
    rewrite <- (r_len _ _ H). auto.
Qed.

Lemma gather_ok {T} (src : csx T) rs p len q ns : rep src rs -> p < size_primary src -> perm_ok q ns -> ns = size_secdary src ->
  length (nth p rs []) <= len ->
  (b <- rd (ptrs src) p ;; e <- rd (ptrs src) (p + 1) ;; foldM (gather_entry src q len) (seq b (e - b)) []) =
  Ok (renamed (fun i => nth i (src_to_dst q) 0) (nth p rs [])).
Proof.
  intros H Hp HQ Hns HL.
  rewrite (row_loop' src rs p (nth p rs []) (gather_entry src q len)
     (fun acc x => isd <- rd (src_to_dst q) (fst x) ;; if length acc <? len then Ok (acc ++ [(isd, snd x)]) else UB) [] H).
  - assert (HR : forall x, In x (nth p rs []) -> fst x < ns).
    { intros x Hx. subst ns. apply (r_range _ _ H (nth p rs [])); auto. apply nth_In. rewrite (r_len _ _ H). auto. }
    revert HL HR. generalize (nth p rs []). intros r HL HR.
    assert (G : forall (r acc : list (nat * T)), length acc + length r <= len -> (forall x, In x r -> fst x < ns) ->
      foldM (fun acc x => isd <- rd (src_to_dst q) (fst x) ;; if length acc <? len then Ok (acc ++ [(isd, snd x)]) else UB) r acc =
      Ok (acc ++ renamed (fun i => nth i (src_to_dst q) 0) r)).
    { clear -HQ. induction r as [|x r IH]; intros acc HL HR.
      - simpl. now rewrite app_nil_r.
      - cbn [foldM renamed map length] in *. destruct HQ as (Q1 & Q2 & Q3).
        rewrite rd_ok with (d := 0) by (rewrite Q2; apply HR; left; auto). cbn [obind].
        destruct (Nat.ltb_spec (length acc) len); [|lia]. cbn [obind]. rewrite IH.
        + rewrite <- app_assoc. reflexivity.
        + rewrite app_length. simpl. lia.
        + intros; apply HR; right; auto. }
    rewrite G; auto.
  - apply rep_nth with (src := src); auto.
  - intros s i x E1 E2. unfold gather_entry. rewrite (rd_some _ _ _ E1). cbn [obind].
    rewrite (rd_some _ _ _ E2). destruct (rd (src_to_dst q) (fst x)); reflexivity.
Qed.

Lemma renamed_range {T} (src : csx T) rs q p x : rep src rs -> p < length rs -> perm_ok q (size_secdary src) ->
  In x (renamed (fun i => nth i (src_to_dst q) 0) (nth p rs [])) -> fst x < size_secdary src.
Proof.
  intros H Hp (Q1 & Q2 & Q3) Hx. apply in_map_iff in Hx. destruct Hx as (y & <- & Hy). cbn [fst].
  apply Q3. apply (r_range _ _ H (nth p rs [])); auto. apply nth_In; auto.
Qed.

Lemma seq_perm_map q n : perm_ok q n -> Permutation (map (fun p => nth p (dst_to_src q) 0) (seq 0 n)) (seq 0 n).
Proof.
  intros (Q1 & Q2 & Q3). apply NoDup_Permutation_bis.
  - assert (G : forall l, NoDup l -> (forall x, In x l -> x < n) -> NoDup (map (fun p => nth p (dst_to_src q) 0) l)).
    { induction l as [|a l IH]; intros N HL; simpl; constructor; inversion N; subst.
      - intros C. apply in_map_iff in C. destruct C as (b & Eb & Hb). apply H1.
        destruct (Q3 a (HL a (or_introl eq_refl))) as (_ & _ & Ea & _).
        destruct (Q3 b (HL b (or_intror Hb))) as (_ & _ & Eb' & _). rewrite <- Ea, <- Eb, Eb'. auto.
      - apply IH; auto. intros; apply HL; right; auto. }
    apply G; [apply seq_NoDup|]. intros x Hx. apply in_seq in Hx. lia.
  - rewrite map_length. auto.
  - intros x Hx. apply in_map_iff in Hx. destruct Hx as (p & <- & Hp). apply in_seq in Hp. apply in_seq.
    destruct (Q3 p ltac:(lia)) as (? & _). lia.
Qed.

Definition id_perm (n : nat) : perm := Perm (seq 0 n) (seq 0 n).
Lemma id_perm_ok n : perm_ok (id_perm n) n.
Proof.
  unfold perm_ok, id_perm. cbn [dst_to_src src_to_dst]. rewrite seq_length. split; auto. split; auto.
  intros i Hi. rewrite !seq_nth by lia. simpl. auto.
Qed.

Lemma total_length {T} (rs : list (list (nat * T))) (f : nat -> list (nat * T)) n q :
  perm_ok q n -> length rs = n -> (forall p, p < n -> length (f p) = length (nth (nth p (dst_to_src q) 0) rs [])) ->
  length (concat (map f (seq 0 n))) = length (concat rs).
Proof.
  intros HQ HL Hf. rewrite <- (seq_nth_concat rs), HL. rewrite <- flat_map_concat_map.
  transitivity (length (flat_map (fun p => nth (nth p (dst_to_src q) 0) rs []) (seq 0 n))).
  - assert (G : forall l, (forall p, In p l -> p < n) ->
      length (flat_map f l) = length (flat_map (fun p => nth (nth p (dst_to_src q) 0) rs []) l)).
    { induction l as [|a l IH]; intros H; auto. simpl. rewrite !app_length, IH by (intros; apply H; right; auto).
      rewrite Hf by (apply H; left; auto). auto. }
    apply G. intros p Hp. apply in_seq in Hp. lia.
  - apply Permutation_length.
    replace (flat_map (fun p => nth (nth p (dst_to_src q) 0) rs []) (seq 0 n))
      with (flat_map (fun p => nth p rs []) (map (fun p => nth p (dst_to_src q) 0) (seq 0 n))).
    + apply Permutation_flat_map, seq_perm_map; auto.
    + rewrite !flat_map_concat_map, map_map. reflexivity.
Qed.

(** the effect of moving lines by [q] and renaming (and reordering) the entries in each line *)
Lemma permuted_entries {T} (src d : csx T) rs (f : nat -> list (nat * T)) q g :
  rep src rs -> rep d (map f (seq 0 (size_primary src))) -> ord d = ord src -> perm_ok q (size_primary src) ->
  (forall p, p < size_primary src -> Permutation (f p) (renamed g (nth (nth p (dst_to_src q) 0) rs []))) ->
  Permutation (entries d) (map (fun e => match ord src with
     | OrdR => (nth (e_row e) (src_to_dst q) 0, g (e_col e), e_val e)
     | OrdC => (g (e_row e), nth (e_col e) (src_to_dst q) 0, e_val e) end) (entries src)).
Proof.
  intros H Hd HO HQ HF. rewrite (rep_entries d _ Hd), (rep_entries src rs H).
  rewrite map_length, seq_length, (r_len _ _ H). rewrite flat_map_map.
  transitivity (flat_map (fun p => map (coords (ord src) p) (renamed g (nth (nth p (dst_to_src q) 0) rs []))) (seq 0 (size_primary src))).
  - rewrite HO. assert (G : forall l, (forall p, In p l -> p < size_primary src) ->
      Permutation (flat_map (fun p => map (coords (ord src) p) (nth p (map f (seq 0 (size_primary src))) [])) l)
        (flat_map (fun p => map (coords (ord src) p) (renamed g (nth (nth p (dst_to_src q) 0) rs []))) l)).
    { induction l as [|a l IH]; intros HL; auto. simpl. apply Permutation_app.
      - apply Permutation_map. rewrite nth_map_seq by (apply HL; left; auto). apply HF. apply HL; left; auto.
      - apply IH. intros; apply HL; right; auto. }
    apply G. intros p Hp. apply in_seq in Hp. lia.
  - set (h := fun r => map (coords (ord src) (nth r (src_to_dst q) 0)) (renamed g (nth r rs []))).
    transitivity (flat_map h (seq 0 (size_primary src))).
    + transitivity (flat_map h (map (fun p => nth p (dst_to_src q) 0) (seq 0 (size_primary src)))).
      * apply eq_ind with (P := fun z => Permutation (flat_map _ _) z)
          (x := flat_map (fun p => map (coords (ord src) p) (renamed g (nth (nth p (dst_to_src q) 0) rs []))) (seq 0 (size_primary src)));
          [reflexivity|].
        rewrite (flat_map_concat_map h), map_map, flat_map_concat_map. f_equal. apply map_ext_in. intros p Hp. apply in_seq in Hp.
        unfold h. destruct HQ as (Q1 & Q2 & Q3). destruct (Q3 p ltac:(lia)) as (_ & _ & E & _). now rewrite E.
      * apply Permutation_flat_map, seq_perm_map; auto.
    + apply eq_ind with (P := fun z => Permutation (flat_map _ _) z) (x := flat_map h (seq 0 (size_primary src))); [reflexivity|].
      rewrite !flat_map_concat_map. f_equal. apply map_ext. intros r. unfold h, renamed. rewrite !map_map. apply map_ext.
      intros x. unfold coords. cbn [fst snd]. destruct (ord src); reflexivity.
Qed.

Section Perms.
Context {T : Type}.
Variable sort : list (nat * T) -> list (nat * T).
Hypothesis sort_ok : sort_contract isd_lt sort.

Lemma sort_length l : length (sort l) = length l.
Proof. symmetry. apply Permutation_length. apply sort_ok. Qed.

Lemma emits_put (s : list nat * list T * nat) W n l : written n s W -> length W + length l <= n ->
  exists s', foldM put_entry l s = Ok s' /\ written n s' (W ++ l).
Proof. intros. eapply emits_ok; eauto. Qed.

Lemma perform_primary_rep (src dst : csx T) rs q :
  rep src rs -> allocated dst -> ord dst = ord src -> nrows dst = nrows src -> ncols dst = ncols src -> nnz dst = nnz src ->
  perm_ok q (size_primary src) ->
  exists d, perform_primary src dst q = Ok d /\
    rep d (map (fun p => nth (nth p (dst_to_src q) 0) rs []) (seq 0 (size_primary src))) /\
    nrows d = nrows src /\ ncols d = ncols src /\ ord d = ord src /\ nnz d = nnz src.
Proof.
  intros H HA HO S1 S2 S3 HQ.
  assert (P1 : size_primary dst = size_primary src) by (unfold size_primary; rewrite HO, S1, S2; auto).
  assert (P2 : size_secdary dst = size_secdary src) by (unfold size_secdary; rewrite HO, S1, S2; auto).
  set (f := fun p => nth (nth p (dst_to_src q) 0) rs []).
  assert (HT : length (concat (map f (seq 0 (size_primary src)))) = nnz dst).
  { rewrite S3, (r_nnz _ _ H). apply total_length with (q := q); auto. apply (r_len _ _ H). }
  pose proof HQ as (Q1 & Q2 & Q3).
  destruct (build_rows dst (fun st p => ips <- rd (dst_to_src q) p ;; b <- rd (ptrs src) ips ;; e <- rd (ptrs src) (ips + 1) ;;
     foldM (primary_entry src) (seq b (e - b)) st) f (size_primary src) P1 HA ltac:(lia)) as (pt & st & E & L & W & O).
  { intros st W p Hp HW HL. rewrite rd_ok with (d := 0) by lia. cbn [obind].
    destruct (Q3 p Hp) as (Hq & _).
    rewrite (row_loop' src rs _ (f p) (primary_entry src) (fun s x => emit s (fst x) (snd x)) st H).
    - eapply emits_ok; eauto.
    - apply (rep_nth src); auto.
    - intros s i x E1 E2. unfold primary_entry. rewrite (rd_some _ _ _ E1), (rd_some _ _ _ E2). reflexivity. }
  unfold perform_primary.
  rewrite foldM_ext_in with (g := build_step (fun st p => ips <- rd (dst_to_src q) p ;; b <- rd (ptrs src) ips ;; e <- rd (ptrs src) (ips + 1) ;;
     foldM (primary_entry src) (seq b (e - b)) st)).
  2: { intros [pt0 st0] p Hp. unfold primary_row, build_step. cbn [fst snd].
       destruct (wr pt0 p (snd st0)); cbn [obind]; auto. destruct (rd (dst_to_src q) p); cbn [obind]; auto.
       destruct (rd (ptrs src) a0); cbn [obind]; auto. destruct (rd (ptrs src) (a0 + 1)); cbn [obind]; auto. }
  rewrite E. cbn [obind]. destruct (written_all _ _ _ W HT) as (_ & _ & Wk).
  pose proof (build_rep dst f (size_primary src) pt st P1 HT L W O) as HB.
  destruct st as [[ix vs] k]. cbn [fst snd] in *. subst k.
  rewrite wr_ok by lia. cbn [obind]. eexists; split; [reflexivity|]. split.
  - apply HB. intros p x Hp Hx. rewrite P2. apply (r_range _ _ H (f p)); auto. apply nth_In.
    destruct (Q3 p Hp) as (Hq & _). rewrite (r_len _ _ H). auto.
  - cbn. auto.
Qed.

Lemma perform_both_rep (src dst : csx T) rs pp ps :
  rep src rs -> allocated dst -> ord dst = ord src -> nrows dst = nrows src -> ncols dst = ncols src -> nnz dst = nnz src ->
  perm_ok pp (size_primary src) -> perm_ok ps (size_secdary src) ->
  exists d, perform_both sort src dst pp ps = Ok d /\
    rep d (map (fun p => sort (renamed (fun i => nth i (src_to_dst ps) 0) (nth (nth p (dst_to_src pp) 0) rs []))) (seq 0 (size_primary src))) /\
    nrows d = nrows src /\ ncols d = ncols src /\ ord d = ord src /\ nnz d = nnz src.
Proof.
  intros H HA HO S1 S2 S3 HQ HQs.
  assert (P1 : size_primary dst = size_primary src) by (unfold size_primary; rewrite HO, S1, S2; auto).
  assert (P2 : size_secdary dst = size_secdary src) by (unfold size_secdary; rewrite HO, S1, S2; auto).
  set (f := fun p => sort (renamed (fun i => nth i (src_to_dst ps) 0) (nth (nth p (dst_to_src pp) 0) rs []))).
  assert (HT : length (concat (map f (seq 0 (size_primary src)))) = nnz dst).
  { rewrite S3, (r_nnz _ _ H). apply total_length with (q := pp); auto. apply (r_len _ _ H).
    intros p Hp. unfold f. rewrite sort_length. unfold renamed. now rewrite map_length. }
  pose proof HQ as (Q1 & Q2 & Q3).
  unfold perform_both. destruct (longest_ok src rs H) as (len & El & Hlen). rewrite El. cbn [obind].
  set (body := fun (st : list nat * list T * nat) p => ips <- rd (dst_to_src pp) p ;;
     l <- (b <- rd (ptrs src) ips ;; e <- rd (ptrs src) (ips + 1) ;; foldM (gather_entry src ps len) (seq b (e - b)) []) ;;
     foldM put_entry (sort l) st).
  destruct (build_rows dst body f (size_primary src) P1 HA ltac:(lia)) as (pt & st & E & L & W & O).
  { intros st W p Hp HW HL. unfold body. rewrite rd_ok with (d := 0) by lia. cbn [obind].
    destruct (Q3 p Hp) as (Hq & _).
    rewrite (gather_ok src rs _ len ps (size_secdary src)); auto.
    - cbn [obind]. apply emits_put; auto.
    - apply Hlen. apply nth_In. rewrite (r_len _ _ H). auto. }
  rewrite foldM_ext_in with (g := build_step body).
  2: { intros [pt0 st0] p Hp. unfold both_row, build_step, body. cbn [fst snd].
       destruct (wr pt0 p (snd st0)); cbn [obind]; auto. destruct (rd (dst_to_src pp) p); cbn [obind]; auto.
       destruct (rd (ptrs src) a0); cbn [obind]; auto. destruct (rd (ptrs src) (a0 + 1)); cbn [obind]; auto.
       destruct (foldM (gather_entry src ps len) (seq a1 (a2 - a1)) []); cbn [obind]; auto. }
  rewrite E. cbn [obind]. destruct (written_all _ _ _ W HT) as (_ & _ & Wk).
  pose proof (build_rep dst f (size_primary src) pt st P1 HT L W O) as HB.
  destruct st as [[ix vs] k]. cbn [fst snd] in *. subst k.
  rewrite wr_ok by lia. cbn [obind]. eexists; split; [reflexivity|]. split.
  - apply HB. intros p x Hp Hx. rewrite P2. unfold f in Hx.
    apply (renamed_range src rs ps (nth p (dst_to_src pp) 0)); auto.
    + rewrite (r_len _ _ H). apply Q3; auto.
    + eapply Permutation_in; [symmetry; apply sort_ok|exact Hx].
  - cbn. auto.
Qed.

Lemma perform_secdary_rep (src dst : csx T) rs ps :
  rep src rs -> allocated dst -> ord dst = ord src -> nrows dst = nrows src -> ncols dst = ncols src -> nnz dst = nnz src ->
  perm_ok ps (size_secdary src) ->
  exists d, perform_secdary sort src dst ps = Ok d /\
    rep d (map (fun p => sort (renamed (fun i => nth i (src_to_dst ps) 0) (nth p rs []))) (seq 0 (size_primary src))) /\
    nrows d = nrows src /\ ncols d = ncols src /\ ord d = ord src /\ nnz d = nnz src.
Proof.
  intros H HA HO S1 S2 S3 HQs.
  assert (P1 : size_primary dst = size_primary src) by (unfold size_primary; rewrite HO, S1, S2; auto).
  assert (P2 : size_secdary dst = size_secdary src) by (unfold size_secdary; rewrite HO, S1, S2; auto).
  set (f := fun p => sort (renamed (fun i => nth i (src_to_dst ps) 0) (nth p rs []))).
  set (np := size_primary src) in *.
  set (rs' := map f (seq 0 np)).
  assert (Hf : forall p, p < np -> nth_error rs' p = Some (f p)).
  { intros p Hp. unfold rs'. rewrite nth_error_map, nth_error_nth' with (d := 0) by (rewrite seq_length; auto).
    rewrite seq_nth by auto. reflexivity. }
  assert (Hfl : forall p, length (f p) = length (nth p rs [])).
  { intros p. unfold f. rewrite sort_length. unfold renamed. now rewrite map_length. }
  assert (HOf : forall p, p <= np -> offs rs' p = offs rs p).
  { induction p as [|p IH]; intros Hp; auto. rewrite (offs_S _ _ _ (Hf p ltac:(lia))), (offs_S _ _ _ (rep_nth src rs p H ltac:(unfold np in *; lia))).
    rewrite IH by lia. now rewrite Hfl. }
  assert (HL' : length rs' = np) by (unfold rs'; now rewrite map_length, seq_length).
  assert (HLr : length rs = np) by apply (r_len _ _ H).
  assert (HT : length (concat rs') = nnz dst).
  { rewrite S3, (r_nnz _ _ H). rewrite <- (offs_all rs' np), <- (offs_all rs np) by lia. apply HOf. auto. }
  pose proof (v_alloc src (rep_valid src rs H)) as (SA & _). destruct HA as (A1 & A2 & A3).
  unfold perform_secdary. fold np. rewrite copy_n_ok by (fold np in SA; lia). cbn [obind].
  destruct (longest_ok src rs H) as (len & El & Hlen). fold np in El. rewrite El. cbn [obind].
  destruct (foldM_seq_inv (secdary_row sort src ps len)
    (fun k s => written (nnz dst) (fst s, snd s, offs rs k) (concat (firstn k rs'))) 0 np (idxs dst, vals dst))
    as ([ix vs] & E & HW).
  { unfold written. cbn. auto. }
  { intros i [ix vs] Hi HW. cbn [fst snd] in HW. unfold secdary_row.
    pose proof (gather_ok src rs i len ps (size_secdary src) H ltac:(unfold np in *; lia) HQs eq_refl) as G.
    specialize (G ltac:(apply Hlen, nth_In; lia)).
    rewrite (r_ptrs _ _ H) in G |- *.
    rewrite (rd_some _ _ _ (nth_error_map_offs rs (length rs) i ltac:(lia))) in G |- *.
    rewrite (rd_some _ _ _ (nth_error_map_offs rs (length rs) (i + 1) ltac:(lia))) in G |- *. cbn [obind] in G |- *.
    rewrite G. cbn [obind fst snd]. fold (f i).
    destruct (emits_put (ix, vs, offs rs i) (concat (firstn i rs')) (nnz dst) (f i) HW) as (s' & Es & Ws).
    - pose proof (offs_le rs' (S i)) as Q. rewrite (offs_S _ _ _ (Hf i ltac:(lia))) in Q. unfold offs in Q. lia.
    - rewrite Es. cbn [obind]. eexists; split; [reflexivity|]. cbn [fst snd].
      rewrite (firstn_S_error _ _ _ (Hf i ltac:(lia))), concat_app. cbn [concat]. rewrite app_nil_r.
      replace (offs rs (S i)) with (snd s'); [destruct s' as [[? ?] ?]; exact Ws|].
      destruct Ws as (_ & _ & -> & _). rewrite app_length.
      rewrite <- (HOf (S i)), (offs_S _ _ _ (Hf i ltac:(lia))) by lia. reflexivity. }
  rewrite Nat.add_0_l in HW. cbn [fst snd] in HW. rewrite firstn_all2 in HW by lia.
  rewrite E. cbn [obind fst snd]. eexists; split; [reflexivity|]. split; [|cbn; auto].
  destruct (written_all _ _ _ HW HT) as (W1 & W2 & W3). cbn [fst snd] in *.
  split.
  - rewrite HL'. auto.
  - cbn [ptrs with_data]. rewrite HL', (r_ptrs _ _ H), HLr. apply map_ext_in. intros p Hp. apply in_seq in Hp. symmetry. apply HOf. lia.
  - exact W1.
  - exact W2.
  - cbn [nnz with_data]. auto.
  - intros r x Hr Hx. unfold rs' in Hr. apply in_map_iff in Hr. destruct Hr as (p & <- & Hp). apply in_seq in Hp.
    unfold size_secdary. cbn [with_data ord nrows ncols]. fold (size_secdary dst). rewrite P2.
    apply (renamed_range src rs ps p); auto; [lia|]. eapply Permutation_in; [symmetry; apply sort_ok|exact Hx].
Qed.
End Perms.

Definition moved_entry {T} (rows cols : option perm) (e : entry T) : entry T :=
  (moved rows (e_row e), moved cols (e_col e), e_val e).

Definition opt_perm_ok (p : option perm) (n : nat) : Prop := match p with None => True | Some p => perm_ok p n end.

(** the permutation of the indices inside the rows (order R) / columns (order C) *)
Definition secondary_perm {T} (m : csx T) (rows cols : option perm) : option perm :=
  match ord m with OrdR => cols | OrdC => rows end.

Lemma moved_lt p n i : opt_perm_ok p n -> i < n -> moved p i < n.
Proof. destruct p as [p|]; simpl; auto. intros (_ & _ & H) Hi. apply H; auto. Qed.

Lemma moved_inj p n i j : opt_perm_ok p n -> i < n -> j < n -> moved p i = moved p j -> i = j.
Proof.
  destruct p as [p|]; simpl; auto. intros (_ & _ & H) Hi Hj E. destruct (H i Hi) as (_ & _ & _ & E1).
  destruct (H j Hj) as (_ & _ & _ & E2). rewrite <- E1, <- E2, E. auto.
Qed.

Lemma entries_range {T} (m : csx T) e : valid m -> In e (entries m) -> e_row e < nrows m /\ e_col e < ncols m.
Proof.
  intros V He. rewrite (entries_items m _ (valid_rep m V)) in He. apply in_map_iff in He. destruct He as (x & <- & Hx).
  apply items_in in Hx. destruct Hx as (r & -> & Hr & Hx).
  pose proof (r_range _ _ (valid_rep m V) _ _ (nth_In _ [] Hr) Hx) as Q. cbn [fst] in Q.
  rewrite (r_len _ _ (valid_rep m V)) in Hr. unfold size_primary, size_secdary in *. unfold coords, e_row, e_col.
  destruct (ord m); cbn [fst snd]; auto.
Qed.

Lemma NoDup_map_inj {A B} (f : A -> B) l : (forall x y, In x l -> In y l -> f x = f y -> x = y) -> NoDup l -> NoDup (map f l).
Proof.
  induction l as [|a l IH]; intros H N; simpl; constructor; inversion N; subst.
  - intros C. apply in_map_iff in C. destruct C as (b & E & Hb). apply H2. rewrite (H a b); simpl; auto.
  - apply IH; auto. intros; apply H; simpl; auto.
Qed.

Lemma moved_distinct {T} (src : csx T) rows cols (l : list (entry T)) : valid src -> distinct src ->
  opt_perm_ok rows (nrows src) -> opt_perm_ok cols (ncols src) ->
  Permutation l (map (moved_entry rows cols) (entries src)) -> NoDup (map fst l).
Proof.
  intros V D HR HC HP. eapply Permutation_NoDup; [apply Permutation_map; symmetry; exact HP|].
  unfold distinct in D. rewrite map_map.
  replace (map (fun x : entry T => fst (moved_entry rows cols x)) (entries src))
    with (map (fun ij : nat * nat => (moved rows (fst ij), moved cols (snd ij))) (map fst (entries src))).
  - apply NoDup_map_inj; auto. intros [a b] [a' b'] Hx Hy E. inversion E.
    apply in_map_iff in Hx. destruct Hx as (e & Ee & He). apply in_map_iff in Hy. destruct Hy as (e' & Ee' & He').
    destruct (entries_range src e V He) as [R1 R2]. destruct (entries_range src e' V He') as [R3 R4].
    unfold e_row, e_col in *. rewrite Ee in *. rewrite Ee' in *. cbn [fst snd] in *.
    f_equal; [exact (moved_inj _ _ _ _ HR R1 R3 H0)|exact (moved_inj _ _ _ _ HC R2 R4 H1)].
  - rewrite map_map. reflexivity.
Qed.

(** C44 *)
Theorem permute_moves_entries : forall (T : Type) (sort : list (nat * T) -> list (nat * T)) (src dst : csx T) (rows cols : option perm),
  sort_contract isd_lt sort ->
  valid src -> allocated dst -> ord dst = ord src -> nrows dst = nrows src -> ncols dst = ncols src -> nnz dst = nnz src ->
  upl src = UploNone -> upl dst = UploNone ->
  opt_perm_ok rows (nrows src) -> opt_perm_ok cols (ncols src) ->
  exists d, permute_csx_csx sort src dst rows cols = Ok d /\
    nrows d = nrows src /\ ncols d = ncols src /\ nnz d = nnz src /\ ord d = ord src /\
    valid d /\
    Permutation (entries d) (map (moved_entry rows cols) (entries src)) /\
    (secondary_perm src rows cols <> None \/ ascending src -> ascending d) /\
    (secondary_perm src rows cols <> None \/ ascending src -> distinct src -> strictly_ascending d).
Proof.
  intros T sort src dst rows cols HSo V HA HO S1 S2 S3 U1 U2 HR HC.
  pose proof (valid_rep src V) as H. set (rs := map (line src) (seq 0 (size_primary src))) in *.
  assert (W1 : wrong_perm rows (nrows src) = false).
  { destruct rows as [p|]; auto. destruct HR as (Q & _). unfold wrong_perm, psize. rewrite Q, Nat.eqb_refl. auto. }
  assert (W2 : wrong_perm cols (ncols src) = false).
  { destruct cols as [p|]; auto. destruct HC as (Q & _). unfold wrong_perm, psize. rewrite Q, Nat.eqb_refl. auto. }
  assert (HS : same_sizes src dst = true) by (apply same_sizes_spec; auto).
  assert (Fin : forall d, permute_csx_csx sort src dst rows cols = Ok d ->
    (nrows d = nrows src /\ ncols d = ncols src /\ ord d = ord src /\ nnz d = nnz src) -> valid d ->
    Permutation (entries d) (map (moved_entry rows cols) (entries src)) ->
    (secondary_perm src rows cols <> None \/ ascending src -> ascending d) ->
    exists d, permute_csx_csx sort src dst rows cols = Ok d /\
    nrows d = nrows src /\ ncols d = ncols src /\ nnz d = nnz src /\ ord d = ord src /\
    valid d /\
    Permutation (entries d) (map (moved_entry rows cols) (entries src)) /\
    (secondary_perm src rows cols <> None \/ ascending src -> ascending d) /\
    (secondary_perm src rows cols <> None \/ ascending src -> distinct src -> strictly_ascending d)).
  { intros d E (D1 & D2 & D3 & D4) Vd HP HAs. exists d. do 8 (split; auto).
    intros HX HD. apply ascending_strict; auto. unfold distinct. eapply moved_distinct; [| |exact HR|exact HC|]; eauto. }
  assert (Prim : forall q d, perm_ok q (size_primary src) ->
     rep d (map (fun p => nth (nth p (dst_to_src q) 0) rs []) (seq 0 (size_primary src))) -> ord d = ord src ->
     Permutation (entries d) (map (fun e => match ord src with
       | OrdR => (nth (e_row e) (src_to_dst q) 0, e_col e, e_val e)
       | OrdC => (e_row e, nth (e_col e) (src_to_dst q) 0, e_val e) end) (entries src)) /\
     (ascending src -> ascending d)).
  { intros q d HQ Hd Od. split.
    - apply (permuted_entries src d rs _ q (fun i => i) H Hd Od HQ). intros p Hp. unfold renamed.
      erewrite map_ext; [rewrite map_id; reflexivity|]. intros x. symmetry. apply surjective_pairing.
    - intros HAs. apply (rep_ascending d _ Hd). intros r Hr. apply in_map_iff in Hr. destruct Hr as (p & <- & Hp). apply in_seq in Hp.
      apply (proj1 (rep_ascending src rs H) HAs). apply nth_In. rewrite (r_len _ _ H).
      destruct HQ as (_ & _ & Q3). apply Q3. lia. }
  assert (Sort : forall d (f : nat -> list (nat * T)), rep d (map (fun p => sort (f p)) (seq 0 (size_primary src))) -> ascending d).
  { intros d f Hd. apply (rep_ascending d _ Hd). intros r Hr. apply in_map_iff in Hr. destruct Hr as (p & <- & Hp).
    apply isd_sorted. apply HSo. }
  assert (Sec : forall q d, rep d (map (fun p => sort (renamed (fun i => nth i (src_to_dst q) 0) (nth p rs []))) (seq 0 (size_primary src))) -> ord d = ord src ->
     Permutation (entries d) (map (fun e => match ord src with
       | OrdR => (e_row e, nth (e_col e) (src_to_dst q) 0, e_val e)
       | OrdC => (nth (e_row e) (src_to_dst q) 0, e_col e, e_val e) end) (entries src))).
  { intros q d Hd Od.
    rewrite (permuted_entries src d rs _ (id_perm (size_primary src)) (fun i => nth i (src_to_dst q) 0) H Hd Od (id_perm_ok _)).
    - apply perm_of_eq.
      apply map_ext_in. intros e He. destruct (entries_range src e V He) as [R1 R2].
      unfold id_perm. cbn [src_to_dst]. unfold size_primary. destruct (ord src); rewrite seq_nth by auto; reflexivity.
    - intros p Hp. cbn [id_perm dst_to_src]. rewrite seq_nth by auto. symmetry. apply HSo. }
  assert (Both : forall q q2 d, perm_ok q (size_primary src) ->
     rep d (map (fun p => sort (renamed (fun i => nth i (src_to_dst q2) 0) (nth (nth p (dst_to_src q) 0) rs []))) (seq 0 (size_primary src))) -> ord d = ord src ->
     Permutation (entries d) (map (fun e => match ord src with
       | OrdR => (nth (e_row e) (src_to_dst q) 0, nth (e_col e) (src_to_dst q2) 0, e_val e)
       | OrdC => (nth (e_row e) (src_to_dst q2) 0, nth (e_col e) (src_to_dst q) 0, e_val e) end) (entries src))).
  { intros q q2 d HQ Hd Od. apply (permuted_entries src d rs _ q (fun i => nth i (src_to_dst q2) 0) H Hd Od HQ).
    intros p Hp. symmetry. apply HSo. }
  unfold permute_csx_csx in *. rewrite HO, U1, U2, HS, W1, W2 in *. cbn [negb is_uplo orb] in *.
  destruct (order_eqb_spec (ord src) (ord src)) as [_|C]; [|congruence]. cbn [negb] in *.
  unfold size_primary, size_secdary, secondary_perm in *.
  destruct rows as [p|], cols as [q|]; cbn [opt_perm_ok] in HR, HC.
  - destruct (ord src) eqn:Eo.
    + destruct (perform_both_rep sort HSo src dst rs p q H HA) as (d & E & Hd & D); unfold size_primary, size_secdary in *; rewrite ?Eo; auto; try congruence.
      rewrite Eo in Hd. destruct D as (D1 & D2 & D3 & D4). 
      apply (Fin d E); [rewrite ?D3; auto|eapply rep_valid; eauto| |].
      * apply (Both p q d HR Hd). congruence.
      * intros _. eapply (Sort d _ Hd).
    + destruct (perform_both_rep sort HSo src dst rs q p H HA) as (d & E & Hd & D); unfold size_primary, size_secdary in *; rewrite ?Eo; auto; try congruence.
      rewrite Eo in Hd. destruct D as (D1 & D2 & D3 & D4).
      apply (Fin d E); [rewrite ?D3; auto|eapply rep_valid; eauto| |].
      * apply (Both q p d HC Hd). congruence.
      * intros _. eapply (Sort d _ Hd).
  - destruct (ord src) eqn:Eo.
    + destruct (perform_primary_rep src dst rs p H HA) as (d & E & Hd & D); unfold size_primary, size_secdary in *; rewrite ?Eo; auto; try congruence.
      rewrite Eo in Hd. destruct D as (D1 & D2 & D3 & D4).
      destruct (Prim p d HR Hd) as [R1 R2]; [congruence|].
      apply (Fin d E); [rewrite ?D3; auto|eapply rep_valid; eauto|exact R1|]. intros [C|C]; [congruence|auto].
    + destruct (perform_secdary_rep sort HSo src dst rs p H HA) as (d & E & Hd & D); unfold size_primary, size_secdary in *; rewrite ?Eo; auto; try congruence.
      rewrite Eo in Hd. destruct D as (D1 & D2 & D3 & D4).
      apply (Fin d E); [rewrite ?D3; auto|eapply rep_valid; eauto| |].
      * apply (Sec p d Hd). congruence.
      * intros _. eapply (Sort d _ Hd).
  - destruct (ord src) eqn:Eo.
    + destruct (perform_secdary_rep sort HSo src dst rs q H HA) as (d & E & Hd & D); unfold size_primary, size_secdary in *; rewrite ?Eo; auto; try congruence.
      rewrite Eo in Hd. destruct D as (D1 & D2 & D3 & D4).
      apply (Fin d E); [rewrite ?D3; auto|eapply rep_valid; eauto| |].
      * apply (Sec q d Hd). congruence.
      * intros _. eapply (Sort d _ Hd).
    + destruct (perform_primary_rep src dst rs q H HA) as (d & E & Hd & D); unfold size_primary, size_secdary in *; rewrite ?Eo; auto; try congruence.
      rewrite Eo in Hd. destruct D as (D1 & D2 & D3 & D4).
      destruct (Prim q d HC Hd) as [R1 R2]; [congruence|].
      apply (Fin d E); [rewrite ?D3; auto|eapply rep_valid; eauto|exact R1|]. intros [C|C]; [congruence|auto].
  - assert (E : copy_csx src dst = Ok (with_data dst (ptrs src) (idxs src) (vals src))).
    { apply copy_csx_ok; auto. apply (v_alloc src V). }
    destruct (same_valid src (with_data dst (ptrs src) (idxs src) (vals src)) V) as (V' & E' & El & Ep); cbn; auto.
    apply (Fin _ E); auto.
    + rewrite E'. erewrite map_ext; [rewrite map_id; reflexivity|]. intros [[a b] c]. reflexivity.
    + intros [C|C]; [destruct (ord src); congruence|]. intros p Hp. rewrite El. apply C. rewrite <- Ep. auto.
Qed.

Definition ex_rows : perm := Perm [2; 0; 1] [1; 2; 0].
Definition ex_cols : perm := Perm [3; 1; 0; 2] [2; 1; 3; 0].

Fixpoint insert_isd {T} (x : nat * T) (l : list (nat * T)) : list (nat * T) :=
  match l with [] => [x] | y :: t => if fst x <? fst y then x :: l else y :: insert_isd x t end.
Definition sort_isd {T} (l : list (nat * T)) : list (nat * T) := fold_right insert_isd [] l.

Lemma insert_perm {T} (x : nat * T) l : Permutation (x :: l) (insert_isd x l).
Proof. induction l as [|y l IH]; simpl; auto. destruct (fst x <? fst y); auto. rewrite perm_swap. constructor. auto. Qed.

Lemma insert_sorted {T} (x : nat * T) l : sorted isd_lt l -> sorted isd_lt (insert_isd x l).
Proof.
  unfold sorted. induction l as [|y l IH]; intros H; simpl; [repeat constructor|]. destruct (Nat.ltb_spec (fst x) (fst y)).
  - constructor; auto. inversion H; subst. constructor.
    + unfold le_of, isd_lt. apply Nat.ltb_ge. lia.
    + rewrite Forall_forall in *. intros z Hz. specialize (H4 z Hz). unfold le_of, isd_lt in *. rewrite Nat.ltb_ge in *. lia.
  - inversion H; subst. constructor; auto. rewrite Forall_forall in *. intros z Hz.
    eapply Permutation_in in Hz; [|symmetry; apply insert_perm]. destruct Hz as [<-|Hz]; auto.
    unfold le_of, isd_lt. apply Nat.ltb_ge. lia.
Qed.

Lemma sort_isd_ok T : sort_contract isd_lt (@sort_isd T).
Proof.
  intros l. induction l as [|x l [IH1 IH2]]; simpl; [split; [auto|constructor]|]. split.
  - rewrite <- insert_perm. constructor. auto.
  - apply insert_sorted; auto.
Qed.

Example permute_moves_entries_ex : exists d,
  permute_csx_csx sort_isd ex_m (Csx 3 4 4 OrdR UploNone [9; 9; 9; 9] [9; 9; 9; 9] [0; 0; 0; 0]) (Some ex_rows) (Some ex_cols) = Ok d /\
  ptrs d = [0; 1; 4; 4] /\ idxs d = [3; 0; 2; 3] /\ vals d = [40; 30; 20; 10].
Proof. eexists. split; [reflexivity|]. cbn. auto. Qed.

Example permute_moves_entries_hyps : perm_ok ex_rows 3 /\ perm_ok ex_cols 4.
Proof.
  unfold perm_ok. cbn [ex_rows ex_cols dst_to_src src_to_dst length]. repeat split; auto;
  do 4 (destruct i as [|i]; [cbn; lia|]); lia.
Qed.

Print Assumptions permute_moves_entries.
