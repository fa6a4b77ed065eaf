(** * C42, C43: conversion between row- and column-compressed storage *)
From Coq Require Import List Bool Arith Lia Permutation Sorted.
From Verif Require Import Base S_Order M_Csx S_Csx L_Utils L_Csx L_Csx2.
Import ListNotations.

Lemma entries_items {T} (m : csx T) rs : rep m rs ->
  entries m = map (fun x => coords (ord m) (snd (fst x)) (fst (fst x), snd x)) (items rs).
Proof.
  intros H. rewrite (rep_entries m rs H). unfold items. rewrite flat_map_map, !flat_map_concat_map. f_equal.
  apply map_ext. intros p. rewrite map_map. apply map_ext. intros x. cbn [fst snd]. now rewrite <- surjective_pairing.
Qed.

Lemma coords_flip {T} o o' a b (v : T) : o <> o' -> coords o a (b, v) = coords o' b (a, v).
Proof. destruct o, o'; intros; try congruence; reflexivity. Qed.

Lemma convert_entries {T} (src d : csx T) rs n :
  rep src rs -> rep d (map (col rs) (seq 0 n)) -> ord src <> ord d -> (forall x, In x (items rs) -> fst (fst x) < n) ->
  Permutation (entries d) (entries src).
Proof.
  intros H Hd HO HK. rewrite (entries_items src rs H).
  assert (E : entries d = map (fun x : nat * nat * T => coords (ord src) (snd (fst x)) (fst (fst x), snd x)) (concat (buckets (items rs) n))).
  { rewrite (rep_entries d _ Hd). rewrite map_length, seq_length. unfold buckets.
    rewrite <- flat_map_concat_map, flat_map_map, !flat_map_concat_map. f_equal. apply map_ext_in. intros c Hc. apply in_seq in Hc.
    rewrite nth_map_seq by lia. rewrite <- bucket_col, map_map. apply map_ext_in. intros x Hx.
    unfold bucket in Hx. apply filter_In in Hx. destruct Hx as [_ Hx]. apply Nat.eqb_eq in Hx. subst c.
    apply coords_flip. auto. }
  rewrite E. apply Permutation_map. symmetry. apply buckets_perm. auto.
Qed.

(** *** ascending *)
Lemma sorted_app {A} (ltb : A -> A -> bool) l1 l2 : sorted ltb l1 -> sorted ltb l2 ->
  (forall a b, In a l1 -> In b l2 -> ltb b a = false) -> sorted ltb (l1 ++ l2).
Proof.
  intros H1 H2 H. unfold sorted in *. induction l1 as [|a l1 IH]; auto. simpl. inversion H1; subst. constructor.
  - apply IH; auto. intros; apply H; auto. right; auto.
  - apply Forall_app. split; auto. apply Forall_forall. intros b Hb. apply H; auto. left; auto.
Qed.

Lemma sorted_repeat_like r (l : list nat) : (forall x, In x l -> x = r) -> sorted Nat.ltb l.
Proof.
  intros H. unfold sorted. induction l as [|a l IH]; constructor.
  - apply IH. intros; apply H; right; auto.
  - apply Forall_forall. intros b Hb. unfold le_of. rewrite (H a), (H b) by (simpl; auto). apply Nat.ltb_irrefl.
Qed.

Lemma sorted_blocks {T} (g : nat -> list T) n b : sorted Nat.ltb (map fst (flat_map (fun r => map (fun x => (r, x)) (g r)) (seq b n))).
Proof.
  revert b. induction n as [|n IH]; intros b; simpl; [constructor|]. rewrite map_app, map_map. cbn [fst]. apply sorted_app.
  - apply sorted_repeat_like with (r := b). intros x Hx. apply in_map_iff in Hx. destruct Hx as (? & <- & _). auto.
  - apply IH.
  - intros x y Hx Hy. apply in_map_iff in Hx. destruct Hx as (? & <- & _). apply in_map_iff in Hy. destruct Hy as (z & <- & Hz).
    apply in_flat_map in Hz. destruct Hz as (q & Hq & Hz). apply in_map_iff in Hz. destruct Hz as (? & <- & _). cbn [fst].
    apply in_seq in Hq. apply Nat.ltb_ge. lia.
Qed.

Lemma col_sorted {T} (rs : list (list (nat * T))) c : sorted Nat.ltb (map fst (col rs c)).
Proof.
  unfold col.
  replace (flat_map (fun r => map (fun x => (r, snd x)) (filter (fun x => fst x =? c) (nth r rs []))) (seq 0 (length rs)))
    with (flat_map (fun r => map (fun x : T => (r, x)) (map snd (filter (fun x => fst x =? c) (nth r rs [])))) (seq 0 (length rs))).
  - apply sorted_blocks.
  - rewrite !flat_map_concat_map. f_equal. apply map_ext. intros. now rewrite map_map.
Qed.

Lemma sorted_strict l : sorted Nat.ltb l -> NoDup l -> strictly_sorted Nat.ltb l.
Proof.
  unfold sorted, strictly_sorted. induction l as [|a l IH]; intros H N; constructor; inversion H; inversion N; subst; auto.
  rewrite Forall_forall in *. intros b Hb. specialize (H3 b Hb). unfold le_of in H3. apply Nat.ltb_ge in H3. apply Nat.ltb_lt.
  destruct (Nat.eq_dec a b); [subst; contradiction|lia].
Qed.

Lemma NoDup_map_inv' {A B} (f : A -> B) l : NoDup (map f l) -> NoDup l.
Proof. apply NoDup_map_inv. Qed.

Lemma NoDup_app_l {A} (l l' : list A) : NoDup (l ++ l') -> NoDup l.
Proof. induction l; simpl; intros H; inversion H; constructor; subst; auto. intros C. apply H2. apply in_or_app; auto. Qed.
Lemma NoDup_app_r {A} (l l' : list A) : NoDup (l ++ l') -> NoDup l'.
Proof. induction l; simpl; intros H; auto. inversion H; auto. Qed.

Lemma distinct_line {T} (m : csx T) p : distinct m -> p < size_primary m -> NoDup (map fst (line m p)).
Proof.
  intros H Hp. unfold distinct, entries in H. rewrite flat_map_map in H.
  assert (In p (seq 0 (size_primary m))) by (apply in_seq; lia). apply in_split in H0. destruct H0 as (l1 & l2 & E).
  rewrite E, flat_map_app in H. apply NoDup_app_r in H. simpl in H. apply NoDup_app_l in H. rewrite map_map in H.
  apply (NoDup_map_inv (fun s => match ord m with OrdR => (p, s) | OrdC => (s, p) end)). rewrite map_map.
  erewrite map_ext; [exact H|]. intros x. unfold coords. destruct (ord m); reflexivity.
Qed.

Lemma ascending_strict {T} (m : csx T) : ascending m -> distinct m -> strictly_ascending m.
Proof. intros H D p Hp. apply sorted_strict; auto. apply distinct_line; auto. Qed.

Lemma distinct_perm {T} (a b : csx T) : Permutation (entries a) (entries b) -> distinct b -> distinct a.
Proof. unfold distinct. intros HP H. eapply Permutation_NoDup; [|exact H]. apply Permutation_map. symmetry. auto. Qed.

Lemma rep_ascending {T} (m : csx T) rs : rep m rs -> ascending m <-> (forall r, In r rs -> sorted Nat.ltb (map fst r)).
Proof.
  intros H. split.
  - intros HA r Hr. apply In_nth_error in Hr. destruct Hr as (p & Hp).
    rewrite <- (rep_line m rs p r H Hp). apply HA. rewrite <- (r_len _ _ H). apply nth_error_Some. rewrite Hp. discriminate.
  - intros HA p Hp. rewrite (rep_line m rs p _ H (rep_nth m rs p H Hp)). apply HA. apply nth_In. rewrite (r_len _ _ H). auto.
Qed.

Lemma copy_n_ok {A} (src dst : list A) n : length src = n -> length dst = n -> copy_n src n dst = Ok src.
Proof.
  intros H1 H2. unfold copy_n. destruct (Nat.leb_spec n (length src)), (Nat.leb_spec n (length dst)); try lia. cbn [andb].
  f_equal. unfold put. rewrite firstn_O, (firstn_all2 src), skipn_all2 by lia. apply app_nil_r.
Qed.

Lemma copy_csx_ok {T} (src dst : csx T) : allocated src -> allocated dst -> same_sizes src dst = true -> ord src = ord dst ->
  copy_csx src dst = Ok (with_data dst (ptrs src) (idxs src) (vals src)).
Proof.
  intros (S1 & S2 & S3) (D1 & D2 & D3) HS HO. unfold copy_csx. rewrite HS. cbn [negb].
  apply same_sizes_spec in HS. destruct HS as (Q1 & Q2 & Q3).
  destruct (order_eqb_spec (ord src) (ord dst)); [|congruence]. cbn [negb].
  assert (size_primary dst = size_primary src) by (unfold size_primary; rewrite <- HO, Q1, Q2; auto).
  rewrite !copy_n_ok by lia. reflexivity.
Qed.

Lemma same_valid {T} (src d : csx T) : valid src -> nrows d = nrows src -> ncols d = ncols src -> nnz d = nnz src -> ord d = ord src ->
  ptrs d = ptrs src -> idxs d = idxs src -> vals d = vals src -> valid d /\ entries d = entries src /\ (forall p, line d p = line src p) /\
  size_primary d = size_primary src.
Proof.
  intros V H1 H2 H3 H4 H5 H6 H7.
  assert (P : size_primary d = size_primary src) by (unfold size_primary; now rewrite H1, H2, H4).
  assert (Q : size_secdary d = size_secdary src) by (unfold size_secdary; now rewrite H1, H2, H4).
  split; [|split; [|split]]; auto.
  - destruct V as [(A1 & A2 & A3) V1 V2 V3 V4]. split; unfold allocated; rewrite ?P, ?Q, ?H3, ?H5, ?H6, ?H7; auto.
  - unfold entries, line. rewrite P, H4, H5, H6, H7. auto.
  - intros p. unfold line. rewrite H5, H6, H7. auto.
Qed.

(** C42 *)
Theorem convert_keeps_matrix : forall (T : Type) (src dst : csx T),
  valid src -> allocated dst -> nrows dst = nrows src -> ncols dst = ncols src -> nnz dst = nnz src ->
  exists d, convert_csx_csy src dst = Ok d /\
    nrows d = nrows src /\ ncols d = ncols src /\ nnz d = nnz src /\ ord d = ord dst /\
    valid d /\
    Permutation (entries d) (entries src) /\
    (ord dst <> ord src -> ascending d) /\
    (ord dst <> ord src -> distinct src -> strictly_ascending d) /\
    (ord dst = ord src -> ptrs d = ptrs src /\ idxs d = idxs src /\ vals d = vals src).
Proof.
  intros T src dst V HA S1 S2 S3.
  assert (HS : same_sizes src dst = true) by (apply same_sizes_spec; auto).
  destruct (order_eqb_spec (ord src) (ord dst)) as [HO|HO].
  - exists (with_data dst (ptrs src) (idxs src) (vals src)).
    assert (E : convert_csx_csy src dst = copy_csx src dst).
    { unfold convert_csx_csy. rewrite HS. cbn [negb]. destruct (order_eqb_spec (ord src) (ord dst)); [auto|congruence]. }
    rewrite E, copy_csx_ok by (auto; apply (v_alloc src V)).
    destruct (same_valid src (with_data dst (ptrs src) (idxs src) (vals src)) V) as (V' & E' & _ & _); cbn; auto.
    split; auto. do 4 (split; auto). split; auto. split; [rewrite E'; auto|]. split; [congruence|]. split; [congruence|auto].
  - pose proof (valid_rep src V) as H. set (rs := map (line src) (seq 0 (size_primary src))) in *.
    destruct (convert_rep src dst rs H HA HO HS) as (d & E & Hd & D1 & D2 & D3 & D4 & D5).
    assert (HP : Permutation (entries d) (entries src)).
    { apply (convert_entries src d rs (size_secdary src)); auto; [congruence|].
      intros x Hx. apply items_in in Hx. destruct Hx as (r & -> & Hr & Hx).
      apply (r_range _ _ H (nth (snd (fst x)) rs []) (fst (fst x), snd x)); auto. apply nth_In; auto. }
    assert (HAs : ascending d).
    { apply (rep_ascending d _ Hd). intros r Hr. apply in_map_iff in Hr. destruct Hr as (c & <- & _). apply col_sorted. }
    exists d. do 5 (split; auto). split; [eapply rep_valid; eauto|]. split; auto. split; auto. split.
    + intros _ HD. apply ascending_strict; auto. eapply distinct_perm; eauto.
    + congruence.
Qed.

(** sizes that differ are reported *)
Theorem convert_checks_sizes : forall (T : Type) (src dst : csx T),
  nrows dst <> nrows src \/ ncols dst <> ncols src \/ nnz dst <> nnz src -> convert_csx_csy src dst = Fail.
Proof.
  intros T src dst H. unfold convert_csx_csy. destruct (same_sizes src dst) eqn:E; auto.
  apply same_sizes_spec in E. destruct E as (? & ? & ?). lia.
Qed.

(** *** C43 *)
Lemma filter_lt_S {T} (r : list (nat * T)) k : sorted Nat.ltb (map fst r) ->
  filter (fun x => fst x <? S k) r = filter (fun x => fst x <? k) r ++ filter (fun x => fst x =? k) r.
Proof.
  unfold sorted. induction r as [|x r IH]; intros H; auto. cbn [map] in H. inversion H; subst. cbn [filter]. rewrite (IH H2).
  destruct (Nat.ltb_spec (fst x) (S k)), (Nat.ltb_spec (fst x) k), (Nat.eqb_spec (fst x) k); try lia; auto.
  - assert (F : filter (fun x => fst x <? k) r = []).
    { rewrite Forall_forall in H3. clear -H3 e. induction r as [|y r IH]; auto. cbn [filter].
      assert (Q : le_of Nat.ltb (fst x) (fst y)) by (apply H3; left; auto). unfold le_of in Q. apply Nat.ltb_ge in Q.
      destruct (Nat.ltb_spec (fst y) k); [lia|]. apply IH. intros; apply H3; right; auto. }
    rewrite F. reflexivity.
Qed.

Lemma filter_all {A} (f : A -> bool) l : (forall x, In x l -> f x = true) -> filter f l = l.
Proof. induction l as [|a l IH]; intros H; auto. simpl. rewrite H by (left; auto). f_equal. apply IH. intros; apply H; right; auto. Qed.

Lemma filter_none {A} (f : A -> bool) l : (forall x, In x l -> f x = false) -> filter f l = [].
Proof. induction l as [|a l IH]; intros H; auto. simpl. rewrite H by (left; auto). apply IH. intros; apply H; right; auto. Qed.

Lemma row_by_keys {T} (r : list (nat * T)) n : sorted Nat.ltb (map fst r) -> (forall x, In x r -> fst x < n) ->
  flat_map (fun c => filter (fun x => fst x =? c) r) (seq 0 n) = r.
Proof.
  intros HS HR.
  assert (G : forall k, flat_map (fun c => filter (fun x => fst x =? c) r) (seq 0 k) = filter (fun x => fst x <? k) r).
  { induction k as [|k IH].
    - simpl. symmetry. apply filter_none. auto.
    - rewrite seq_S, flat_map_app, IH. cbn [flat_map]. rewrite app_nil_r, Nat.add_0_l. symmetry. apply filter_lt_S; auto. }
  rewrite G. apply filter_all. intros x Hx. apply Nat.ltb_lt. auto.
Qed.

Lemma flat_map_single {A B} (g : A -> list B) (l : list A) a : NoDup l -> In a l -> (forall x, In x l -> x <> a -> g x = []) ->
  flat_map g l = g a.
Proof.
  intros N I H. apply in_split in I. destruct I as (l1 & l2 & ->). apply NoDup_remove_2 in N.
  rewrite flat_map_app. simpl.
  assert (Z1 : flat_map g l1 = []).
  { assert (forall x, In x l1 -> g x = []).
    { intros x Hx. apply H; [apply in_or_app; auto|]. intros ->. apply N. apply in_or_app; auto. }
    clear -H0. induction l1 as [|y l1 IH]; auto. simpl. rewrite H0 by (left; auto). apply IH. intros; apply H0; right; auto. }
  assert (Z2 : flat_map g l2 = []).
  { assert (forall x, In x l2 -> g x = []).
    { intros x Hx. apply H; [apply in_or_app; right; right; auto|]. intros ->. apply N. apply in_or_app; auto. }
    clear -H0. induction l2 as [|y l2 IH]; auto. simpl. rewrite H0 by (left; auto). apply IH. intros; apply H0; right; auto. }
  rewrite Z1, Z2, app_nil_r. reflexivity.
Qed.

Lemma col_col {T} (rs : list (list (nat * T))) n p : p < length rs -> sorted Nat.ltb (map fst (nth p rs [])) ->
  (forall x, In x (nth p rs []) -> fst x < n) -> col (map (col rs) (seq 0 n)) p = nth p rs [].
Proof.
  intros Hp HS HR. unfold col at 1. rewrite map_length, seq_length.
  rewrite <- (row_by_keys (nth p rs []) n HS HR) at 1. rewrite !flat_map_concat_map. f_equal. apply map_ext_in.
  intros c Hc. apply in_seq in Hc. rewrite nth_map_seq by lia.
  unfold col. rewrite filter_flat_map.
  rewrite (flat_map_single _ (seq 0 (length rs)) p).
  - rewrite filter_map. cbn [fst]. rewrite Nat.eqb_refl, map_map.
    rewrite filter_all by auto. cbn [snd].
    rewrite <- (map_id (filter (fun x => fst x =? c) (nth p rs []))) at 2. apply map_ext_in. intros x Hx.
    apply filter_In in Hx. destruct Hx as [_ Hx]. apply Nat.eqb_eq in Hx. subst c. symmetry. apply surjective_pairing.
  - apply seq_NoDup.
  - apply in_seq. lia.
  - intros x _ Hx. rewrite filter_map. cbn [fst]. rewrite filter_none; auto. intros. apply Nat.eqb_neq. auto.
Qed.

Theorem convert_involution : forall (T : Type) (src dst dst' : csx T),
  valid src -> ascending src ->
  allocated dst -> nrows dst = nrows src -> ncols dst = ncols src -> nnz dst = nnz src -> ord dst <> ord src ->
  allocated dst' -> nrows dst' = nrows src -> ncols dst' = ncols src -> nnz dst' = nnz src -> ord dst' = ord src ->
  exists d d', convert_csx_csy src dst = Ok d /\ convert_csx_csy d dst' = Ok d' /\
    ptrs d' = ptrs src /\ idxs d' = idxs src /\ vals d' = vals src.
Proof.
  intros T src dst dst' V HAs HA S1 S2 S3 HO HA' S1' S2' S3' HO'.
  pose proof (valid_rep src V) as H. set (rs := map (line src) (seq 0 (size_primary src))) in *.
  destruct (convert_rep src dst rs H HA (not_eq_sym HO)) as (d & E & Hd & D1 & D2 & D3 & D4 & D5).
  { apply same_sizes_spec; auto. }
  destruct (convert_rep d dst' _ Hd HA') as (d' & E' & Hd' & _).
  { congruence. }
  { apply same_sizes_spec. repeat split; congruence. }
  exists d, d'. split; auto. split; auto.
  assert (Hsz : size_secdary d = size_primary src).
  { unfold size_secdary, size_primary. rewrite D1, D2, D3. destruct (ord src), (ord dst); congruence || auto. }
  assert (R : map (col (map (col rs) (seq 0 (size_secdary src)))) (seq 0 (size_secdary d)) = rs).
  { rewrite Hsz. rewrite <- (r_len _ _ H). apply list_ext_error. intros k. rewrite nth_error_map.
    destruct (le_lt_dec (length rs) k) as [Hk|Hk].
    - rewrite (proj2 (nth_error_None rs k)) by auto. rewrite (proj2 (nth_error_None (seq 0 _) k)) by now rewrite seq_length. reflexivity.
    - rewrite nth_error_nth' with (d := 0) by now rewrite seq_length. rewrite seq_nth by auto. simpl.
      rewrite (nth_error_nth' rs []) by auto. f_equal. apply col_col; auto.
      + apply (proj1 (rep_ascending src rs H) HAs). apply nth_In; auto.
      + intros x Hx. apply (r_range _ _ H (nth k rs [])); auto. apply nth_In; auto. }
  rewrite R in Hd'. rewrite (r_ptrs _ _ Hd'), (r_ptrs _ _ H), (r_idxs _ _ Hd'), (r_idxs _ _ H), (r_vals _ _ Hd'), (r_vals _ _ H). auto.
Qed.

(** *** A concrete matrix meets the hypotheses: 3x4, unsorted first row, an empty row *)
Definition ex_m : csx nat := Csx 3 4 4 OrdR UploNone [0; 3; 3; 4] [2; 0; 3; 2] [10; 20; 30; 40].
Definition ex_s : csx nat := Csx 3 4 4 OrdR UploNone [0; 3; 3; 4] [0; 2; 3; 2] [20; 10; 30; 40].
Definition ex_c : csx nat := Csx 3 4 4 OrdC UploNone [9; 9; 9; 9; 9] [9; 9; 9; 9] [0; 0; 0; 0].

Lemma ex_m_valid : valid ex_m.
Proof.
  split; unfold allocated; cbn; auto.
  - intros p Hp. do 3 (destruct p as [|p]; [cbn; lia|]). lia.
  - intros c H. repeat destruct H as [<-|H]; try lia; auto.
Qed.

Lemma ex_s_valid : valid ex_s.
Proof.
  split; unfold allocated; cbn; auto.
  - intros p Hp. do 3 (destruct p as [|p]; [cbn; lia|]). lia.
  - intros c H. repeat destruct H as [<-|H]; try lia; auto.
Qed.

Lemma ex_s_asc : ascending ex_s.
Proof.
  intros p Hp. unfold sorted. do 3 (destruct p as [|p]; [cbn; repeat constructor|]). cbn in Hp. lia.
Qed.

Example convert_keeps_matrix_ex : exists d, convert_csx_csy ex_m ex_c = Ok d /\
  ptrs d = [0; 1; 1; 3; 4] /\ idxs d = [0; 0; 2; 0] /\ vals d = [20; 10; 40; 30].
Proof. eexists. split; [reflexivity|]. cbn. auto. Qed.

Example convert_keeps_matrix_hyps : valid ex_m /\ allocated ex_c /\ distinct ex_m /\ ord ex_c <> ord ex_m.
Proof.
  split; [apply ex_m_valid|]. split; [unfold allocated; cbn; auto|]. split; [|discriminate].
  unfold distinct. cbn. repeat constructor; cbn; intuition congruence.
Qed.

Example convert_involution_hyps : valid ex_s /\ ascending ex_s /\ allocated ex_c /\ ord ex_c <> ord ex_s.
Proof. split; [apply ex_s_valid|]. split; [apply ex_s_asc|]. split; [unfold allocated; cbn; auto|discriminate]. Qed.

Print Assumptions convert_keeps_matrix.
Print Assumptions convert_checks_sizes.
Print Assumptions convert_involution.
