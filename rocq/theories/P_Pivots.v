(** * Pivots and trails: C50 *)
From Coq Require Import List Bool Arith Lia Permutation Sorted.
From Verif Require Import Base S_Order M_Csx S_Csx M_Prune S_Prune L_Utils L_Csx L_Csx2 P_Csx L_Prune.
Import ListNotations.
Local Open Scope out_scope.

Definition end_of (k : pivtrl) (none : nat) (r : list nat) : nat :=
  match r with [] => none | x :: _ => match k with Pivots => x | Trails => last r x end end.

Lemma last_nth {A} (l : list A) d : last l d = nth (length l - 1) l d.
Proof.
  induction l as [|a l IH]; auto. destruct l as [|b l]; auto. change (last (a :: b :: l) d) with (last (b :: l) d). rewrite IH.
  cbn [length]. replace (S (S (length l)) - 1) with (S (S (length l) - 1)) by lia. reflexivity.
Qed.

Lemma lines_ok {T} (m : csx T) rs k v : rep m rs -> length v = size_primary m ->
  pivtrl_lines m k v = Ok (map (fun p => end_of k (size_secdary m) (map fst (nth p rs []))) (seq 0 (size_primary m))).
Proof.
  intros H HL. unfold pivtrl_lines. rewrite HL, Nat.eqb_refl. cbn [negb].
  apply (fill_all _ _ 0); auto. intros w p Hp Hw. unfold pivtrl_step. destruct (rd_len m rs p H Hp) as (R1 & R2). rewrite R1, R2. cbn [obind].
  pose proof (rep_nth m rs p H Hp) as Hn.
  destruct (Nat.eqb_spec (offs rs p) (offs rs p + length (nth p rs []))) as [E|E].
  - destruct (nth p rs []) eqn:Er; [reflexivity|simpl in E; lia].
  - assert (G : forall j, j < length (nth p rs []) -> rd (idxs m) (offs rs p + j) = Ok (nth j (map fst (nth p rs [])) 0)).
    { intros j Hj. destruct (nth_error (nth p rs []) j) as [x|] eqn:Ex; [|apply nth_error_None in Ex; lia].
      destruct (rep_pos m rs p _ j x H Hn Ex) as (Q & _). rewrite (rd_some _ _ _ Q). f_equal. symmetry. apply nth_error_nth.
      rewrite nth_error_map, Ex. reflexivity. }
    destruct k.
    + pose proof (G 0) as G0. rewrite Nat.add_0_r in G0. rewrite G0 by lia. cbn [obind end_of].
      destruct (nth p rs []) eqn:Er; [simpl in E; lia|reflexivity].
    + replace (offs rs p + length (nth p rs []) - 1) with (offs rs p + (length (nth p rs []) - 1)) by lia.
      rewrite G by lia. cbn [obind]. f_equal. destruct (nth p rs []) as [|y r] eqn:Er; [simpl in E; lia|].
      unfold end_of. cbn [map]. rewrite last_nth. change (fst y :: map fst r) with (map fst (y :: r)). rewrite map_length.
      apply nth_indep. rewrite map_length. simpl. lia.
Qed.

Lemma end_extremal k none l : sorted Nat.ltb l -> extremal k none l (end_of k none l).
Proof.
  intros HS. unfold extremal, end_of. destruct l as [|a l]; auto. destruct k.
  - split; [left; auto|]. intros y [->|Hy]; auto. inversion HS; subst. rewrite Forall_forall in H2. specialize (H2 y Hy).
    unfold le_of in H2. now apply Nat.ltb_ge in H2.
  - split.
    + rewrite last_nth. apply nth_In. simpl. lia.
    + assert (G : forall (l : list nat) a y, StronglySorted (le_of Nat.ltb) l -> In y l -> y <= last l a).
      { clear. induction l as [|b l IH]; intros a y H Hy; [contradiction|]. inversion H; subst. destruct l as [|c l].
        - simpl. destruct Hy as [->|[]]; auto.
        - change (last (b :: c :: l) a) with (last (c :: l) a). destruct Hy as [->|Hy]; [|apply IH; auto].
          rewrite Forall_forall in H3. transitivity c; [|apply IH; auto; left; auto].
          specialize (H3 c (or_introl eq_refl)). unfold le_of in H3. now apply Nat.ltb_ge in H3. }
      intros y Hy. apply G; auto.
Qed.

Lemma extremal_perm k none l l' x : Permutation l l' -> extremal k none l x -> extremal k none l' x.
Proof.
  intros HP. unfold extremal. destruct l as [|a l].
  - apply Permutation_nil in HP. subst. auto.
  - intros (H1 & H2). destruct l' as [|a' l']; [apply Permutation_sym, Permutation_nil in HP; discriminate|].
    split; [apply (Permutation_in _ HP H1)|]. intros y Hy. apply H2. apply (Permutation_in _ (Permutation_sym HP) Hy).
Qed.

Lemma filter_concat {A} (f : A -> bool) l : filter f (concat l) = concat (map (filter f) l).
Proof. induction l; simpl; auto. rewrite filter_app, IHl. auto. Qed.

Lemma stored_line {T} (m : csx T) rs i : rep m rs -> i < size_primary m -> stored (ord m) m i = map fst (nth i rs []).
Proof.
  intros H Hi.
  assert (G : filter (fun e => e_prim (ord m) e =? i) (entries m) = map (coords (ord m) i) (nth i rs [])).
  { rewrite (rep_entries _ _ H), (r_len _ _ H).
    rewrite flat_map_concat_map, filter_concat, map_map.
    transitivity (flat_map (fun p => if p =? i then map (coords (ord m) p) (nth p rs []) else []) (seq 0 (size_primary m))).
    - rewrite flat_map_concat_map. f_equal. apply map_ext. intros p.
      assert (K : forall r : list (nat * T), filter (fun e => e_prim (ord m) e =? i) (map (coords (ord m) p) r) = if p =? i then map (coords (ord m) p) r else []).
      { induction r as [|x r IH]; cbn [map filter]; [destruct (p =? i); auto|].
        assert (Ec : e_prim (ord m) (coords (ord m) p x) = p) by (destruct (ord m); reflexivity). rewrite Ec, IH. destruct (p =? i); auto. }
      apply K.
    - rewrite (flat_map_single _ _ i).
      + now rewrite Nat.eqb_refl.
      + apply seq_NoDup.
      + apply in_seq. lia.
      + intros x _ Hx. destruct (Nat.eqb_spec x i); [contradiction|auto]. }
  unfold stored. unfold e_prim in G. destruct (ord m) eqn:EO; rewrite G, map_map; reflexivity.
Qed.

Lemma stored_perm {T} rc (m m' : csx T) i : Permutation (entries m') (entries m) -> Permutation (stored rc m' i) (stored rc m i).
Proof.
  intros HP. assert (G : forall f : entry T -> bool, Permutation (filter f (entries m')) (filter f (entries m))).
  { intros f. revert HP. generalize (entries m') (entries m). intros l l' HP. induction HP; cbn [filter]; auto.
    - destruct (f x); auto.
    - destruct (f x), (f y); auto. constructor.
    - etransitivity; eauto. }
  unfold stored. destruct rc; apply Permutation_map, G.
Qed.

Lemma line_extremal {T} (m : csx T) k v : valid m -> ascending m -> length v = size_primary m ->
  exists v0, pivtrl_lines m k v = Ok v0 /\ length v0 = size_primary m /\
    (forall i, i < size_primary m -> extremal k (size_secdary m) (stored (ord m) m i) (nth i v0 0)).
Proof.
  intros V HA HL. pose proof (valid_rep m V) as H. eexists. split; [apply (lines_ok m _ k v H HL)|].
  rewrite map_length, seq_length. split; auto. intros i Hi. rewrite nth_map_seq by auto.
  rewrite (stored_line m _ i H Hi). apply end_extremal.
  pose proof (HA i Hi) as HS. rewrite (rep_line m _ i _ H (rep_nth m _ i H Hi)) in HS. exact HS.
Qed.

(** *** completion *)
Lemma greatest_step none v i : i < length v -> greatest_before none v i =
  (let g := match i with 0 => 0 | S j => greatest_before none v j end in if nth i v 0 =? none then g else Nat.max g (nth i v 0)).
Proof.
  intros Hi. unfold greatest_before. rewrite Nat.add_1_r.
  assert (E : nth_error v i = Some (nth i v 0)) by (apply nth_error_nth'; auto).
  rewrite (firstn_S_error _ _ _ E), filter_app, fold_right_app. cbn [filter].
  assert (G : forall l x, fold_right Nat.max x l = Nat.max (fold_right Nat.max 0 l) x).
  { clear. induction l; intros; simpl; [lia|]. rewrite IHl. lia. }
  assert (F : fold_right Nat.max 0 (filter (fun x => negb (x =? none)) (firstn i v)) =
     match i with 0 => 0 | S j => fold_right Nat.max 0 (filter (fun x => negb (x =? none)) (firstn (j + 1) v)) end).
  { destruct i; auto. now rewrite Nat.add_1_r. }
  destruct (Nat.eqb_spec (nth i v 0) none); cbn [negb fold_right]; rewrite <- F; auto.
  rewrite G. lia.
Qed.

Lemma forward_ok v none : complete_forward v none = Ok (map (greatest_before none v) (seq 0 (length v))).
Proof.
  unfold complete_forward.
  destruct (foldM_seq_inv (forward_step none) (fun k s => length (fst s) = length v /\
      snd s = match k with 0 => 0 | S j => greatest_before none v j end /\
      (forall j, j < k -> nth j (fst s) 0 = greatest_before none v j) /\ (forall j, k <= j -> nth j (fst s) 0 = nth j v 0)) 0 (length v) (v, 0))
    as ((w & c) & E & W1 & W2 & W3 & W4).
  - cbn [fst snd]. split; auto. split; auto. split; auto. intros; lia.
  - intros i (w, c) Hi (W1 & W2 & W3 & W4). cbn [fst snd] in *. unfold forward_step.
    rewrite (rd_ok w i 0) by lia. cbn [obind].
    assert (EB : (if 0 <? i then y <- rd w (i - 1) ;; Ok (nth i w 0 <? y) else Ok false) = Ok (nth i v 0 <? c)).
    { rewrite W4 by lia. destruct i as [|j].
      - subst c. cbn. f_equal. 
      - cbn [Nat.ltb Nat.leb]. replace (S j - 1) with j by lia. rewrite (rd_ok w j 0) by lia. cbn [obind]. rewrite W3 by lia. now rewrite W2. }
    rewrite EB. cbn [obind]. rewrite W4 by lia.
    pose proof (greatest_step none v i) as GS. cbn zeta in GS. rewrite <- W2 in GS. specialize (GS ltac:(lia)).
    assert (FIN : forall w', length w' = length v -> (forall j, nth j w' 0 = if j =? i then greatest_before none v i else nth j w 0) ->
       exists s', (c0 <- rd w' i ;; Ok (w', c0)) = Ok s' /\ length (fst s') = length v /\
         snd s' = greatest_before none v i /\ (forall j, j < S i -> nth j (fst s') 0 = greatest_before none v j) /\
         (forall j, S i <= j -> nth j (fst s') 0 = nth j v 0)).
    { intros w' Lw Nw. rewrite (rd_ok w' i 0) by lia. cbn [obind]. eexists. split; [reflexivity|]. cbn [fst snd]. split; auto.
      split; [rewrite Nw, Nat.eqb_refl; auto|]. split.
      - intros j Hj. rewrite Nw. destruct (Nat.eqb_spec j i); subst; auto. apply W3. lia.
      - intros j Hj. rewrite Nw. destruct (Nat.eqb_spec j i); [lia|]. apply W4. lia. }
    destruct (Nat.eqb_spec (nth i v 0) none) as [En|En]; cbn [orb].
    + rewrite wr_ok by lia. cbn [obind]. apply FIN; [now rewrite upd_length|]. intros j. rewrite nth_upd by lia. rewrite Nat.eqb_sym, GS. reflexivity.
    + destruct (Nat.ltb_spec (nth i v 0) c) as [Hc|Hc].
      * rewrite wr_ok by lia. cbn [obind]. apply FIN; [now rewrite upd_length|]. intros j. rewrite nth_upd by lia. rewrite Nat.eqb_sym, GS.
        rewrite Nat.max_l by lia. reflexivity.
      * cbn [obind]. apply FIN; auto. intros j. destruct (Nat.eqb_spec j i); subst; auto. rewrite GS, W4, Nat.max_r by lia. reflexivity.
  - cbn [fst snd] in *. rewrite E. cbn [obind fst]. f_equal. apply (nth_list_eq 0); [now rewrite map_length, seq_length|].
    intros i Hi. rewrite nth_map_seq by lia. apply W3. lia.
Qed.

Lemma least_step none v i : i < length v -> (forall x, In x v -> x <= none) -> 0 < none -> least_after none v i =
  (let g := if i <? length v - 1 then least_after none v (i + 1) else none - 1 in if nth i v 0 =? none then g else Nat.min (nth i v 0) g).
Proof.
  intros Hi HB H0. unfold least_after.
  assert (E : skipn i v = nth i v 0 :: skipn (i + 1) v).
  { clear -Hi. revert i Hi. induction v as [|x v IH]; intros [|i] H; simpl in *; try lia; auto. apply IH. lia. }
  rewrite E. cbn [filter].
  assert (F : (if i <? length v - 1 then fold_right Nat.min (none - 1) (filter (fun x => negb (x =? none)) (skipn (i + 1) v)) else none - 1)
     = fold_right Nat.min (none - 1) (filter (fun x => negb (x =? none)) (skipn (i + 1) v))).
  { destruct (Nat.ltb_spec i (length v - 1)); auto. rewrite skipn_all2 by lia. reflexivity. }
  rewrite F. destruct (Nat.eqb_spec (nth i v 0) none); reflexivity.
Qed.

Lemma foldM_rev_inv {S} (f : S -> nat -> outcome S) (I : nat -> S -> Prop) n s :
  I n s -> (forall i s, i < n -> I (Datatypes.S i) s -> exists s', f s i = Ok s' /\ I i s') ->
  exists s', foldM f (rev (seq 0 n)) s = Ok s' /\ I 0 s'.
Proof.
  revert s. induction n as [|n IH]; intros s H0 Hs.
  - exists s. auto.
  - rewrite seq_S, rev_app_distr. cbn [rev app foldM]. rewrite Nat.add_0_l. destruct (Hs n s) as (s' & E & H'); auto. rewrite E. cbn [obind].
    apply IH; auto.
Qed.

Lemma backward_ok v none : (forall x, In x v -> x <= none) -> 0 < none ->
  complete_backward v none = Ok (map (least_after none v) (seq 0 (length v))).
Proof.
  intros HB H0. unfold complete_backward.
  destruct (foldM_rev_inv (backward_step (length v) none) (fun k s => length (fst s) = length v /\
      snd s = (if k <? length v then least_after none v k else none - 1) /\
      (forall j, k <= j < length v -> nth j (fst s) 0 = least_after none v j) /\ (forall j, j < k -> nth j (fst s) 0 = nth j v 0)) (length v) (v, none - 1))
    as ((w & c) & E & W1 & W2 & W3 & W4).
  - cbn [fst snd]. split; auto. rewrite Nat.ltb_irrefl. split; auto. split; auto. intros; lia.
  - intros i (w, c) Hi (W1 & W2 & W3 & W4). cbn [fst snd] in *. unfold backward_step.
    rewrite (rd_ok w i 0) by lia. cbn [obind].
    pose proof (least_step none v i Hi HB H0) as GS. cbn zeta in GS.
    assert (Ec : (if i <? length v - 1 then least_after none v (i + 1) else none - 1) = c).
    { rewrite W2. rewrite Nat.add_1_r. destruct (Nat.ltb_spec i (length v - 1)), (Nat.ltb_spec (S i) (length v)); auto; lia. }
    rewrite Ec in GS.
    assert (Hx : nth i v 0 <= none) by (apply HB, nth_In; auto).
    assert (EB : exists ab, (if i <? length v - 1 then y <- rd w (i + 1) ;; Ok (y <? nth i w 0) else Ok false) = Ok ab /\
       (nth i v 0 <> none -> ab = (c <? nth i v 0))).
    { rewrite W4 by lia. destruct (Nat.ltb_spec i (length v - 1)).
      - rewrite (rd_ok w (i + 1) 0) by lia. cbn [obind]. eexists. split; [reflexivity|]. intros _. rewrite W3 by lia. now rewrite Ec.
      - eexists. split; [reflexivity|]. intros Hn. rewrite <- Ec. symmetry. apply Nat.ltb_ge. lia. }
    destruct EB as (ab & EB & Hab). rewrite EB. cbn [obind]. rewrite W4 by lia.
    assert (FIN : forall w', length w' = length v -> (forall j, nth j w' 0 = if j =? i then least_after none v i else nth j w 0) ->
       exists s', (c0 <- rd w' i ;; Ok (w', c0)) = Ok s' /\ length (fst s') = length v /\
         snd s' = (if i <? length v then least_after none v i else none - 1) /\ (forall j, i <= j < length v -> nth j (fst s') 0 = least_after none v j) /\
         (forall j, j < i -> nth j (fst s') 0 = nth j v 0)).
    { intros w' Lw Nw. rewrite (rd_ok w' i 0) by lia. cbn [obind]. eexists. split; [reflexivity|]. cbn [fst snd]. split; auto.
      split; [rewrite Nw, Nat.eqb_refl; destruct (Nat.ltb_spec i (length v)); auto; lia|]. split.
      - intros j Hj. rewrite Nw. destruct (Nat.eqb_spec j i); subst; auto. apply W3. lia.
      - intros j Hj. rewrite Nw. destruct (Nat.eqb_spec j i); [lia|]. apply W4. lia. }
    destruct (Nat.eqb_spec (nth i v 0) none) as [En|En]; cbn [orb].
    + rewrite wr_ok by lia. cbn [obind]. apply FIN; [now rewrite upd_length|]. intros j. rewrite nth_upd by lia. rewrite Nat.eqb_sym, GS. reflexivity.
    + rewrite (Hab En). destruct (Nat.ltb_spec c (nth i v 0)) as [Hc|Hc].
      * rewrite wr_ok by lia. cbn [obind]. apply FIN; [now rewrite upd_length|]. intros j. rewrite nth_upd by lia. rewrite Nat.eqb_sym, GS.
        rewrite Nat.min_r by lia. reflexivity.
      * cbn [obind]. apply FIN; auto. intros j. destruct (Nat.eqb_spec j i); subst; auto. rewrite GS, W4, Nat.min_l by lia. reflexivity.
  - cbn [fst snd] in *. rewrite E. cbn [obind fst]. f_equal. apply (nth_list_eq 0); [now rewrite map_length, seq_length|].
    intros i Hi. rewrite nth_map_seq by lia. apply W3. lia.
Qed.

Lemma stored_range {T} rc (m : csx T) i x : valid m -> In x (stored rc m i) -> x < width_of rc m.
Proof.
  intros V Hx. pose proof (valid_rep m V) as H.
  assert (G : forall e, In e (entries m) -> e_row e < nrows m /\ e_col e < ncols m).
  { intros e He. rewrite <- (coords_back (ord m) e) in He. apply (rep_in m _ _ _ _ H) in He. destruct He as (Hp & Hc).
    pose proof (r_len _ _ H) as HL. pose proof (r_range _ _ H _ _ (nth_In _ [] Hp) Hc) as HR. cbn [fst] in HR.
    rewrite HL in Hp. unfold size_primary, size_secdary, e_prim, e_sec in *. destruct (ord m); auto. }
  unfold stored, width_of in *. destruct rc; apply in_map_iff in Hx; destruct Hx as (e & <- & He); apply filter_In in He; apply G; tauto.
Qed.

(** C50.  [rc] selects rows (OrdR) or columns (OrdC), independently of the storage order.  Without completion the vector holds
    the first (last) stored position of every row or column, and the number of positions for an empty one.  The forward completion
    replaces it by the running maximum of the found positions, the backward completion by the running minimum from the end. *)
Theorem pivots_trails_spec {T} (m fresh : csx T) rc k v :
  valid m -> (ord m = rc -> ascending m) ->
  allocated fresh -> nrows fresh = nrows m -> ncols fresh = ncols m -> nnz fresh = nnz m -> ord fresh = change_order (ord m) ->
  length v = lines_of rc m ->
  exists v0, pivots_trails m fresh rc k CNone v = Ok v0 /\ length v0 = lines_of rc m /\
    (forall i, i < lines_of rc m -> extremal k (width_of rc m) (stored rc m i) (nth i v0 0)) /\
    (exists v1, pivots_trails m fresh rc k CForward v = Ok v1 /\ length v1 = lines_of rc m /\
       forall i, i < lines_of rc m -> nth i v1 0 = greatest_before (width_of rc m) v0 i) /\
    (0 < width_of rc m -> exists v2, pivots_trails m fresh rc k CBackward v = Ok v2 /\ length v2 = lines_of rc m /\
       forall i, i < lines_of rc m -> nth i v2 0 = least_after (width_of rc m) v0 i).
Proof.
  intros V HA FA F1 F2 F3 F4 HL. unfold pivots_trails.
  assert (G : exists v0, (if negb (order_eqb (ord m) rc) then m' <- convert_csx_csy m fresh ;; pivtrl_lines m' k v else pivtrl_lines m k v) = Ok v0 /\
     length v0 = lines_of rc m /\ (forall i, i < lines_of rc m -> extremal k (width_of rc m) (stored rc m i) (nth i v0 0))).
  { destruct (order_eqb_spec (ord m) rc) as [E|E]; cbn [negb].
    - assert (L1 : size_primary m = lines_of rc m) by (subst rc; reflexivity).
      assert (L2 : size_secdary m = width_of rc m) by (subst rc; reflexivity).
      destruct (line_extremal m k v V (HA E)) as (v0 & E0 & N0 & X0); [lia|]. rewrite L1, L2, E in *. exists v0. auto.
    - destruct (convert_keeps_matrix T m fresh V FA F1 F2 F3) as (d & ED & D1 & D2 & D3 & D4 & DV & DP & DA & _).
      rewrite ED. cbn [obind].
      assert (Eo : ord d = rc) by (rewrite D4, F4; destruct (ord m), rc; auto; congruence).
      assert (L1 : size_primary d = lines_of rc m) by (unfold size_primary; rewrite Eo, D1, D2; reflexivity).
      assert (L2 : size_secdary d = width_of rc m) by (unfold size_secdary; rewrite Eo, D1, D2; reflexivity).
      assert (DA' : ascending d) by (apply DA; rewrite F4; destruct (ord m); discriminate).
      destruct (line_extremal d k v DV DA') as (v0 & E0 & N0 & X0); [lia|]. rewrite L1, L2, Eo in *. exists v0. split; auto. split; auto.
      intros i Hi. apply (extremal_perm k _ (stored rc d i)); [apply stored_perm; auto|]. apply X0. auto. }
  destruct G as (v0 & E0 & N0 & X0). exists v0. rewrite E0. cbn [obind].
  assert (EV : (if negb (order_eqb (ord m) rc) then size_primary m else size_secdary m) = width_of rc m).
  { unfold size_primary, size_secdary, width_of. destruct (ord m), rc; reflexivity. }
  rewrite EV. split; auto. split; auto. split; auto. split.
  - rewrite forward_ok. eexists. split; [reflexivity|]. rewrite map_length, seq_length. split; auto.
    intros i Hi. rewrite nth_map_seq by lia. reflexivity.
  - intros HW. rewrite backward_ok; auto.
    + eexists. split; [reflexivity|]. rewrite map_length, seq_length. split; auto. intros i Hi. rewrite nth_map_seq by lia. reflexivity.
    + intros x Hx. destruct (In_nth _ _ 0 Hx) as (i & Hi & <-). rewrite N0 in Hi. specialize (X0 i Hi). unfold extremal in X0.
      destruct (stored rc m i) as [|a l] eqn:Es; [lia|]. destruct X0 as (X0 & _). rewrite <- Es in X0. apply (stored_range rc m i) in X0; auto. lia.
Qed.

Lemma fold_max_bound l b : (forall x, In x l -> x < b) -> 0 < b -> fold_right Nat.max 0 l < b.
Proof. induction l as [|a l IH]; intros H H0; simpl; auto. pose proof (H a (or_introl eq_refl)). pose proof (IH (fun x Hx => H x (or_intror Hx)) H0). lia. Qed.

Lemma fold_min_le l d : fold_right Nat.min d l <= d.
Proof. induction l; simpl; lia. Qed.

(** both completions give a non-decreasing vector of existing positions *)
Theorem completed_monotone {T} (m fresh : csx T) rc k c v w :
  valid m -> (ord m = rc -> ascending m) ->
  allocated fresh -> nrows fresh = nrows m -> ncols fresh = ncols m -> nnz fresh = nnz m -> ord fresh = change_order (ord m) ->
  length v = lines_of rc m -> 0 < width_of rc m -> c <> CNone ->
  pivots_trails m fresh rc k c v = Ok w ->
  length w = lines_of rc m /\
  (forall i, i < lines_of rc m -> nth i w 0 < width_of rc m) /\
  (forall i j, i <= j < lines_of rc m -> nth i w 0 <= nth j w 0).
Proof.
  intros V HA FA F1 F2 F3 F4 HL HW HC E.
  destruct (pivots_trails_spec m fresh rc k v V HA FA F1 F2 F3 F4 HL) as (v0 & E0 & N0 & X0 & (v1 & E1 & N1 & X1) & B).
  destruct (B HW) as (v2 & E2 & N2 & X2). clear B.
  set (none := width_of rc m) in *.
  assert (HB : forall x, In x v0 -> x <= none).
  { intros x Hx. destruct (In_nth _ _ 0 Hx) as (i & Hi & <-). rewrite N0 in Hi. specialize (X0 i Hi). unfold extremal in X0.
    destruct (stored rc m i) as [|a l] eqn:Es; [lia|]. destruct X0 as (X0 & _). rewrite <- Es in X0. apply (stored_range rc m i) in X0; auto. unfold none. lia. }
  destruct c; [contradiction| |].
  - rewrite E1 in E. inversion E; subst w. split; auto. split.
    + intros i Hi. rewrite X1 by auto. unfold greatest_before. apply fold_max_bound; auto. intros x Hx. apply filter_In in Hx. destruct Hx as (Hx & Hn).
      assert (In x v0) by (rewrite <- (firstn_skipn (i + 1) v0); apply in_or_app; auto).
      specialize (HB x H). destruct (Nat.eqb_spec x none); [discriminate|lia].
    + intros i j (Hij & Hj). rewrite !X1 by lia. induction Hij as [|j' Hij IH]; auto. rewrite (greatest_step none v0 (S j')) by lia.
      cbn zeta. assert (j' < lines_of rc m) by lia. specialize (IH H). destruct (nth (S j') v0 0 =? none); lia.
  - rewrite E2 in E. inversion E; subst w. split; auto. split.
    + intros i Hi. rewrite X2 by auto. unfold least_after. pose proof (fold_min_le (filter (fun x => negb (x =? none)) (skipn i v0)) (none - 1)). lia.
    + intros i j (Hij & Hj). rewrite !X2 by lia. induction Hij as [|j' Hij IH]; auto. etransitivity; [apply IH; lia|].
      rewrite (least_step none v0 j') by (auto; lia). cbn zeta. destruct (Nat.ltb_spec j' (length v0 - 1)); [|lia].
      rewrite Nat.add_1_r. destruct (nth j' v0 0 =? none); lia.
Qed.

(** a vector of a wrong length is rejected *)
Theorem pivots_trails_checks {T} (m fresh : csx T) rc k c v :
  valid m -> allocated fresh -> nrows fresh = nrows m -> ncols fresh = ncols m -> nnz fresh = nnz m -> ord fresh = change_order (ord m) ->
  length v <> lines_of rc m -> pivots_trails m fresh rc k c v = Fail.
Proof.
  intros V FA F1 F2 F3 F4 HL. unfold pivots_trails.
  assert (G : forall d : csx T, size_primary d = lines_of rc m -> pivtrl_lines d k v = Fail).
  { intros d Ed. unfold pivtrl_lines. rewrite Ed. destruct (Nat.eqb_spec (lines_of rc m) (length v)); [congruence|auto]. }
  destruct (order_eqb_spec (ord m) rc) as [E|E]; cbn [negb].
  - rewrite G; auto. subst rc. reflexivity.
  - destruct (convert_keeps_matrix T m fresh V FA F1 F2 F3) as (d & ED & D1 & D2 & D3 & D4 & _). rewrite ED. cbn [obind].
    rewrite G; auto. unfold size_primary, lines_of. rewrite D4, F4, D1, D2. destruct (ord m), rc; auto; congruence.
Qed.

(** rows 0: {1,3}, 1: {}, 2: {0}, 3: {2} *)
Definition ex_piv : csx nat := Csx 4 4 4 OrdR UploNone [0; 2; 2; 3; 4] [1; 3; 0; 2] [1; 1; 1; 1].
Definition ex_fresh : csx nat := Csx 4 4 4 OrdC UploNone [7;7;7;7;7] [8;8;8;8] [9;9;9;9].

Example pivots_example : valid ex_piv /\ ascending ex_piv /\
  pivots_trails ex_piv ex_fresh OrdR Pivots CNone [9;9;9;9] = Ok [1;4;0;2] /\
  pivots_trails ex_piv ex_fresh OrdR Pivots CForward [9;9;9;9] = Ok [1;1;1;2] /\
  pivots_trails ex_piv ex_fresh OrdR Pivots CBackward [9;9;9;9] = Ok [0;0;0;2] /\
  pivots_trails ex_piv ex_fresh OrdC Trails CNone [9;9;9;9] = Ok [2;0;3;0].
Proof.
  split; [|split].
  - split; cbn; auto.
    + unfold allocated; cbn; auto.
    + intros p Hp. do 4 (destruct p as [|p]; [cbn; lia|]). lia.
    + intros c Hc. repeat (destruct Hc as [<-|Hc]; [cbn; lia|]). contradiction.
  - intros p Hp. cbn in Hp. do 4 (destruct p as [|p]; [cbn; unfold sorted; repeat constructor|]). lia.
  - repeat split; vm_compute; reflexivity.
Qed.

Print Assumptions pivots_trails_spec.
Print Assumptions completed_monotone.
Print Assumptions pivots_trails_checks.
