(** * Transport of values through position maps *)
From Coq Require Import List Bool Arith Lia Permutation Sorted.
From Verif Require Import Base S_Order M_Csx S_Csx M_CsxMap S_CsxMap L_Utils L_Csx L_Csx2 P_Csx P_Csx2 L_Csx3.
Import ListNotations.
Local Open Scope out_scope.

(** ** Replacing the values *)
Definition retag_e {A B} (f : A -> B) (e : entry A) : entry B := (e_row e, e_col e, f (e_val e)).
Definition retag {A B} (f : A -> B) (m : csx A) : csx B := set_values m (map f (vals m)).
Definition positions {T} (m : csx T) : csx nat := set_values m (seq 0 (nnz m)).

Lemma combine_map_r {A B C} (f : B -> C) (l : list A) (l' : list B) :
  combine l (map f l') = map (fun x => (fst x, f (snd x))) (combine l l').
Proof. revert l'. induction l; intros [|b l']; simpl; auto. now rewrite IHl. Qed.

Lemma retag_line {A B} (f : A -> B) (m : csx A) p : line (retag f m) p = map (fun x => (fst x, f (snd x))) (line m p).
Proof. unfold line, retag, set_values. cbn [ptrs idxs vals]. rewrite slice_map. apply combine_map_r. Qed.

Lemma retag_entries {A B} (f : A -> B) (m : csx A) : entries (retag f m) = map (retag_e f) (entries m).
Proof.
  unfold entries. rewrite flat_map_map, !flat_map_concat_map. f_equal. apply map_ext. intros p. rewrite retag_line, !map_map.
  apply map_ext. intros x. unfold coords, retag_e, e_row, e_col, e_val. cbn [ord retag set_values]. destruct (ord m); reflexivity.
Qed.

Lemma set_values_valid {T U} (m : csx T) (v : list U) : valid m -> length v = nnz m -> valid (set_values m v).
Proof. intros [(A1 & A2 & A3) V1 V2 V3 V4] H. split; unfold allocated; auto. Qed.

Lemma set_values_asc {T U} (m : csx T) (v : list U) : valid m -> length v = nnz m -> ascending m -> ascending (set_values m v).
Proof.
  intros V H HA p Hp. specialize (HA p Hp). destruct (v_alloc m V) as (A1 & A2 & A3).
  replace (map fst (line (set_values m v) p)) with (map fst (line m p)); auto.
  unfold line, set_values. cbn [ptrs idxs vals].
  rewrite !map_fst_combine; auto; unfold slice; rewrite !firstn_length, !skipn_length; lia.
Qed.

Lemma perm_map_inj {A B} (f : A -> B) l l' : (forall x y, f x = f y -> x = y) -> Permutation (map f l) (map f l') -> Permutation l l'.
Proof.
  intros HI H. apply Permutation_map_inv in H. destruct H as (l3 & E & HP).
  assert (forall a b, map f a = map f b -> a = b).
  { induction a as [|x a IH]; intros [|y b] Q; simpl in Q; try discriminate; auto. inversion Q. f_equal; auto. }
  apply H in E. subst l3. symmetry. auto.
Qed.

Lemma positions_retag {T} (m : csx T) : valid m -> retag (nth_error (vals m)) (positions m) = retag Some m.
Proof.
  intros V. destruct (v_alloc m V) as (A1 & A2 & A3). unfold retag, positions, set_values. cbn. f_equal.
  rewrite <- A3. apply list_ext_error. intros k. rewrite !nth_error_map. destruct (le_lt_dec (length (vals m)) k).
  - rewrite (proj2 (nth_error_None (seq _ _) k)) by now rewrite seq_length. rewrite (proj2 (nth_error_None (vals m) k)) by auto. reflexivity.
  - rewrite nth_error_nth' with (d := 0) by now rewrite seq_length. rewrite seq_nth by auto. simpl.
    destruct (nth_error (vals m) k) eqn:E; auto. apply nth_error_None in E. lia.
Qed.

Lemma positions_valid {T} (m : csx T) : valid m -> valid (positions m).
Proof. intros V. apply set_values_valid; auto. apply seq_length. Qed.

Lemma positions_pos {T} (m : csx T) i x : nth_error (vals (positions m)) i = Some x -> x = i.
Proof.
  cbn [positions set_values vals]. intros E. assert (H : i < nnz m) by (rewrite <- (seq_length (nnz m) 0); apply nth_error_Some; rewrite E; discriminate).
  rewrite nth_error_nth' with (d := 0) in E by now rewrite seq_length. rewrite seq_nth in E by auto. simpl in E. congruence.
Qed.

(** the loop over the map *)
Lemma values_ok {T} (sv : list T) (mp : list nat) (dv : list T) :
  length dv = length mp -> (forall k, In k mp -> k < length sv) ->
  exists v, foldM (value_step sv mp) (seq 0 (length mp)) dv = Ok v /\ map Some v = map (nth_error sv) mp.
Proof.
  intros HL HK.
  destruct (foldM_seq_inv (value_step sv mp) (fun k v => length v = length mp /\
     forall j, j < k -> nth_error v j = nth_error sv (nth j mp 0)) 0 (length mp) dv) as (v & E & Lv & Hv).
  - split; auto. lia.
  - intros i v Hi (Lv & Hv). unfold value_step. rewrite rd_ok with (d := 0) by lia. cbn [obind].
    assert (Hk : nth i mp 0 < length sv) by (apply HK, nth_In; lia).
    destruct (nth_error sv (nth i mp 0)) as [x|] eqn:Ex; [|apply nth_error_None in Ex; lia].
    rewrite (rd_some _ _ _ Ex). cbn [obind]. rewrite wr_ok by lia. eexists; split; eauto. rewrite upd_length. split; auto.
    intros j Hj. destruct (Nat.eq_dec i j) as [->|N].
    + rewrite nth_error_upd_eq by lia. auto.
    + rewrite nth_error_upd_neq by auto. apply Hv. lia.
  - exists v. split; auto. rewrite Nat.add_0_l in Hv. apply list_ext_error. intros k. rewrite !nth_error_map.
    destruct (le_lt_dec (length mp) k).
    + rewrite (proj2 (nth_error_None mp k)) by auto. rewrite (proj2 (nth_error_None v k)) by lia. reflexivity.
    + rewrite (nth_error_nth' mp 0 l). simpl. rewrite <- Hv by auto.
      destruct (nth_error v k) eqn:Ek; auto. apply nth_error_None in Ek. lia.
Qed.

Lemma entries_vals {T} (m : csx T) v : valid m -> In v (vals m) <-> exists e, In e (entries m) /\ e_val e = v.
Proof.
  intros V. pose proof (valid_rep m V) as H. rewrite (r_vals _ _ H), (entries_items m _ H).
  set (rs := map (line m) (seq 0 (size_primary m))).
  assert (E : map snd (concat rs) = map snd (items rs)).
  { unfold items. rewrite flat_map_map. rewrite <- (seq_nth_concat rs), flat_map_map. rewrite !flat_map_concat_map. f_equal.
    apply map_ext. intros. rewrite map_map. reflexivity. }
  rewrite E. rewrite in_map_iff. split.
  - intros (x & <- & Hx). exists (coords (ord m) (snd (fst x)) (fst (fst x), snd x)). split.
    + apply in_map_iff. exists x. auto.
    + unfold coords, e_val. destruct (ord m); reflexivity.
  - intros (e & He & <-). apply in_map_iff in He. destruct He as (x & <- & Hx). exists x. split; auto.
    unfold coords, e_val. destruct (ord m); reflexivity.
Qed.

(** a pattern operation on entries: it moves, drops or duplicates entries looking only at the coordinates *)
Record natural (F : forall X, list (entry X) -> list (entry X)) : Prop := {
  nat_map : forall X Y (f : X -> Y) l, F Y (map (retag_e f) l) = map (retag_e f) (F X l);
  nat_in : forall X l e, In e (F X l) -> exists e', In e' l /\ e_val e' = e_val e }.

Lemma transport {T} (src : csx T) (D : csx nat) F (v dv : list T) :
  natural F -> valid src -> valid D ->
  Permutation (entries D) (F nat (entries (positions src))) ->
  length v = nnz src -> length dv = nnz D ->
  exists r, foldM (value_step v (vals D)) (seq 0 (nnz D)) dv = Ok r /\ length r = nnz D /\
    Permutation (entries (set_values D r)) (F T (entries (set_values src v))).
Proof.
  intros NF V VD HP Lv Ld. destruct (v_alloc D VD) as (A1 & A2 & A3).
  assert (HK : forall k, In k (vals D) -> k < length v).
  { intros k Hk. apply (entries_vals D k VD) in Hk. destruct Hk as (e & He & <-).
    eapply Permutation_in in He; [|exact HP]. apply (nat_in F NF) in He. destruct He as (e' & He' & <-).
    assert (In (e_val e') (vals (positions src))) by (apply (entries_vals _ _ (positions_valid src V)); eauto).
    cbn in H. apply in_seq in H. lia. }
  rewrite <- A3. destruct (values_ok v (vals D) dv ltac:(lia) HK) as (r & E & Er).
  assert (Lr : length r = length (vals D)) by (apply (f_equal (@length _)) in Er; rewrite !map_length in Er; auto).
  exists r. split; auto. split; auto.
  apply (perm_map_inj (retag_e Some)).
  { intros [[a b] x] [[a' b'] x'] Q. unfold retag_e, e_row, e_col, e_val in Q. cbn [fst snd] in Q. inversion Q; auto. }
  rewrite <- retag_entries. rewrite <- (nat_map F NF), <- retag_entries.
  assert (E1 : retag Some (set_values D r) = retag (nth_error v) D).
  { unfold retag, set_values. cbn. now rewrite Er. }
  assert (E2 : retag Some (set_values src v) = retag (nth_error v) (positions src)).
  { rewrite <- (positions_retag (set_values src v)) by (apply set_values_valid; auto). reflexivity. }
  rewrite E1, E2, !retag_entries, (nat_map F NF). apply Permutation_map. auto.
Qed.

(** ** The counting loops with positions *)
Lemma map_pattern_ok {T} (src dst : csx T) n mp0 : valid src ->
  (forall c, In c (idxs src) -> c < n) -> length (ptrs dst) = n + 1 -> length (idxs dst) = nnz src -> length mp0 = nnz src ->
  exists p i mp, map_pattern src dst n mp0 = Ok (with_data dst p i (vals dst), mp) /\
    forall (D0 : csx nat), size_primary D0 = n -> size_secdary D0 = size_primary src -> nnz D0 = nnz src ->
      rep (with_data D0 p i mp) (map (col (map (line (positions src)) (seq 0 (size_primary src)))) (seq 0 n)).
Proof.
  intros V HI L1 L2 L3.
  pose proof (valid_rep _ (positions_valid src V)) as H.
  set (rs := map (line (positions src)) (seq 0 (size_primary (positions src)))) in *.
  assert (HL : length (items rs) = nnz src) by (rewrite items_length, <- (r_nnz _ _ H); reflexivity).
  assert (HK : forall x, In x (items rs) -> fst (fst x) < n).
  { intros x Hx. apply HI. change (idxs src) with (idxs (positions src)). rewrite (r_idxs _ _ H), <- items_keys.
    apply in_map_iff. exists x. auto. }
  unfold map_pattern. rewrite zero_ok by lia. cbn [obind].
  pose proof (counts_keys (positions src) rs (repeat 0 (S n)) H) as EC. cbn [positions set_values idxs nnz] in EC.
  rewrite EC, (count_ok (items rs) n HK). cbn [obind]. rewrite (cumsum_ok (items rs) n). cbn [obind].
  assert (EF : forall s, foldM (map_row src) (seq 0 (size_primary src)) s = foldM place_item (items rs) s).
  { intros s. unfold items. rewrite <- foldM_flat_map, (r_len _ _ H). apply foldM_ext_in. intros s0 r Hr. apply in_seq in Hr.
    unfold map_row. rewrite foldM_map.
    apply (row_loop' (positions src) rs r (nth r rs []) (map_entry src r) (fun s x => place_item s (fst x, r, snd x)) s0 H).
    - apply (rep_nth (positions src)); auto. change (size_primary (positions src)) with (size_primary src) in *. lia.
    - intros s1 i x E1 E2. apply positions_pos in E2. unfold map_entry. cbn [positions set_values idxs] in E1.
      rewrite (rd_some _ _ _ E1). cbn [obind]. now rewrite E2. }
  rewrite EF, (fill_ok (items rs) n HK) by lia. cbn [obind]. rewrite (shift_ok (items rs) n). cbn [obind].
  eexists _, _, _. split; [reflexivity|]. intros D0 P1 P2 N0. fold rs.
  change (size_primary (positions src)) with (size_primary src) in *. fold rs.
  rewrite <- buckets_col, <- P1. apply counting_rep.
  - lia.
  - rewrite P1. auto.
  - intros x Hx. apply items_in in Hx. destruct Hx as (r & <- & Hr & _). rewrite (r_len _ _ H) in Hr. rewrite P2. exact Hr.
Qed.

Lemma rep_col_entries {T} (src D : csx T) rs n :
  rep src rs -> rep D (map (col rs) (seq 0 n)) -> ord src = ord D -> (forall x, In x (items rs) -> fst (fst x) < n) ->
  Permutation (entries D) (map swapped (entries src)).
Proof.
  intros H Hd HO HK. rewrite (entries_items src rs H).
  assert (E : entries D = map (fun x : nat * nat * T => swapped (coords (ord src) (snd (fst x)) (fst (fst x), snd x))) (concat (buckets (items rs) n))).
  { rewrite (rep_entries D _ Hd). rewrite map_length, seq_length. unfold buckets.
    rewrite <- flat_map_concat_map, flat_map_map, !flat_map_concat_map. f_equal. apply map_ext_in. intros c Hc. apply in_seq in Hc.
    rewrite nth_map_seq by lia. rewrite <- bucket_col, map_map. apply map_ext_in. intros x Hx.
    unfold bucket in Hx. apply filter_In in Hx. destruct Hx as [_ Hx]. apply Nat.eqb_eq in Hx. subst c.
    rewrite <- HO. unfold swapped, coords, e_row, e_col, e_val. destruct (ord src); reflexivity. }
  rewrite E, map_map. apply Permutation_map. symmetry. apply buckets_perm. auto.
Qed.
