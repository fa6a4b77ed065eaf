(** * Lemmas on the loops of sorting_permutation, pruning_subset_csx, prune_csx_matx and pivots_trails_csx *)
From Coq Require Import List Bool Arith Lia Permutation Sorted.
From Verif Require Import Base S_Order M_Csx S_Csx M_Prune S_Prune L_Utils L_Csx L_Csx2 P_Csx P_Csx2.
Import ListNotations.
Local Open Scope out_scope.

Lemma nth_list_eq {A} (d : A) (l l' : list A) : length l = length l' -> (forall i, i < length l -> nth i l d = nth i l' d) -> l = l'.
Proof. intros. apply (nth_ext _ _ d d); auto. Qed.

(** filling every position of an array *)
Lemma fill_all {A} (f : list A -> nat -> outcome (list A)) (g : nat -> A) (d : A) n v :
  length v = n -> (forall w i, i < n -> length w = n -> f w i = wr w i (g i)) ->
  foldM f (seq 0 n) v = Ok (map g (seq 0 n)).
Proof.
  intros HL Hf.
  destruct (foldM_seq_inv f (fun k w => length w = n /\ forall j, j < k -> nth j w d = g j) 0 n v) as (w & E & W1 & W2).
  - split; auto. intros; lia.
  - intros i w Hi (W1 & W2). rewrite Hf by lia. rewrite wr_ok by lia. eexists. split; [reflexivity|].
    rewrite upd_length. split; auto. intros j Hj. rewrite nth_upd by lia. destruct (Nat.eqb_spec i j); subst; auto. apply W2. lia.
  - rewrite E. f_equal. apply (nth_list_eq d).
    + now rewrite map_length, seq_length.
    + intros i Hi. rewrite W2 by lia. rewrite W1 in Hi. rewrite nth_map_seq by auto. reflexivity.
Qed.

(** counting *)
Lemma count_loop {A} (f : nat -> A -> outcome nat) (g : A -> bool) l n :
  (forall n a, In a l -> f n a = Ok (if g a then n + 1 else n)) -> foldM f l n = Ok (n + length (filter g l)).
Proof.
  revert n. induction l as [|a l IH]; intros n H; cbn [foldM filter].
  - simpl. f_equal. lia.
  - rewrite H by (left; auto). cbn [obind]. rewrite IH by (intros; apply H; right; auto). f_equal. destruct (g a); simpl; lia.
Qed.

Lemma filter_ext_in' {A} (f g : A -> bool) l : (forall a, In a l -> f a = g a) -> filter f l = filter g l.
Proof. apply filter_ext_in. Qed.

(** appending the selected elements at the front of an array *)
Lemma append_loop (f : list nat * nat -> nat -> outcome (list nat * nat)) (g : nat -> bool) (h : nat -> nat) l v :
  (forall s a, In a l -> f s a = if g a then append_idx s (h a) else Ok s) -> length (filter g l) <= length v ->
  foldM f l (v, 0) = Ok (map h (filter g l) ++ skipn (length (filter g l)) v, length (filter g l)).
Proof.
  intros Hf HL.
  destruct (foldM_inv f (fun pre s => s = (map h (filter g pre) ++ skipn (length (filter g pre)) v, length (filter g pre))) l (v, 0))
    as (s & E & Es).
  - reflexivity.
  - intros pre a post s El ->. rewrite Hf by (rewrite El; apply in_or_app; right; left; auto).
    rewrite filter_app. cbn [filter]. destruct (g a) eqn:G.
    + unfold append_idx. cbn [fst snd].
      assert (HK : length (filter g pre) < length v).
      { rewrite El, filter_app, app_length in HL. cbn [filter] in HL. rewrite G in HL. simpl in HL. lia. }
      rewrite wr_ok by (rewrite app_length, map_length, skipn_length; lia). cbn [obind]. eexists. split; [reflexivity|].
      rewrite app_length. cbn [length]. f_equal. rewrite map_app. cbn [map].
      assert (Hs : skipn (length (filter g pre)) v = nth (length (filter g pre)) v 0 :: skipn (length (filter g pre) + 1) v).
      { clear -HK. revert HK. generalize (length (filter g pre)) as k. induction v as [|x v IH]; intros [|k] H; simpl in *; try lia; auto.
        apply IH. lia. }
      rewrite Hs. set (W := map h (filter g pre)).
      assert (HW : length W = length (filter g pre)) by (unfold W; now rewrite map_length).
      rewrite <- HW. rewrite <- app_assoc. cbn [app].
      assert (U : forall (a b : list nat) x y, upd (a ++ x :: b) (length a) y = a ++ y :: b).
      { clear. induction a as [|z a IH]; intros; simpl; auto. now rewrite IH. }
      apply U.
    + rewrite app_nil_r. eexists. split; reflexivity.
  - rewrite E, Es. reflexivity.
Qed.

Lemma append_exact (f : list nat * nat -> nat -> outcome (list nat * nat)) (g : nat -> bool) (h : nat -> nat) l v :
  (forall s a, In a l -> f s a = if g a then append_idx s (h a) else Ok s) -> length v = length (filter g l) ->
  foldM f l (v, 0) = Ok (map h (filter g l), length v).
Proof.
  intros H HL. rewrite (append_loop f g h) by (auto; lia). rewrite <- HL, skipn_all, app_nil_r. reflexivity.
Qed.

(** occurrences per index *)
Lemma counts_ok L n : (forall x, In x L -> x < n) ->
  foldM incr L (repeat 0 n) = Ok (map (count_occ Nat.eq_dec L) (seq 0 n)).
Proof.
  intros HR.
  destruct (foldM_inv incr (fun pre p => p = map (count_occ Nat.eq_dec pre) (seq 0 n)) L (repeat 0 n)) as (s & E & Es).
  - apply (nth_list_eq 0); [now rewrite map_length, seq_length, repeat_length|].
    intros i Hi. rewrite repeat_length in Hi. rewrite nth_map_seq by auto. rewrite nth_repeat. reflexivity.
  - intros pre a post s El ->. assert (Ha : a < n) by (apply HR; rewrite El; apply in_or_app; right; left; auto).
    unfold incr. rewrite (rd_ok _ _ 0) by (rewrite map_length, seq_length; auto). cbn [obind].
    rewrite wr_ok by (rewrite map_length, seq_length; auto). eexists. split; [reflexivity|].
    apply (nth_list_eq 0); [now rewrite upd_length, !map_length|].
    intros i Hi. rewrite upd_length, map_length, seq_length in Hi.
    rewrite nth_upd by (rewrite map_length, seq_length; auto). rewrite !nth_map_seq by auto.
    rewrite count_occ_app. cbn [count_occ]. destruct (Nat.eqb_spec a i), (Nat.eq_dec a i); subst; try congruence; lia.
  - rewrite E, Es. reflexivity.
Qed.

Lemma existsb_in {A} (f : A -> bool) l : existsb f l = true <-> exists x, In x l /\ f x = true.
Proof. apply existsb_exists. Qed.

(** primary and secondary index of an entry *)
Definition e_prim {T} (o : order) (e : entry T) : nat := match o with OrdR => e_row e | OrdC => e_col e end.
Definition e_sec {T} (o : order) (e : entry T) : nat := match o with OrdR => e_col e | OrdC => e_row e end.

Lemma rep_in {T} (m : csx T) rs p c v : rep m rs ->
  In (coords (ord m) p (c, v)) (entries m) <-> p < length rs /\ In (c, v) (nth p rs []).
Proof.
  intros H. rewrite (rep_entries _ _ H), in_flat_map. split.
  - intros (q & Hq & Hx). apply in_seq in Hq. apply in_map_iff in Hx. destruct Hx as ([c' v'] & E & Hy).
    unfold coords in E. destruct (ord m); cbn [fst snd] in E; inversion E; subst; split; auto; lia.
  - intros (Hp & Hx). exists p. split; [apply in_seq; lia|]. apply in_map. auto.
Qed.

Lemma coords_back {T} (o : order) (e : entry T) : coords o (e_prim o e) (e_sec o e, e_val e) = e.
Proof. destruct e as [[r c] v], o; reflexivity. Qed.

Lemma used_prim {T} (m : csx T) rs p : rep m rs -> p < length rs ->
  existsb (fun e => e_prim (ord m) e =? p) (entries m) = (0 <? length (nth p rs [])).
Proof.
  intros H Hp. apply eq_true_iff_eq. rewrite existsb_exists, Nat.ltb_lt. split.
  - intros (e & He & Ep). apply Nat.eqb_eq in Ep. rewrite <- (coords_back (ord m) e), Ep in He. apply (rep_in m rs) in He; auto.
    destruct He as (_ & He). destruct (nth p rs []); simpl in *; [contradiction|lia].
  - intros Hl. destruct (nth p rs []) as [|[c v] r] eqn:E; simpl in Hl; [lia|].
    exists (coords (ord m) p (c, v)). split.
    + apply (rep_in m rs); auto. rewrite E. split; auto. left; auto.
    + apply Nat.eqb_eq. destruct (ord m); reflexivity.
Qed.

Lemma idxs_in {T} (m : csx T) rs k : rep m rs -> (In k (idxs m) <-> exists p v, p < length rs /\ In (k, v) (nth p rs [])).
Proof.
  intros H. rewrite (r_idxs _ _ H), in_map_iff. split.
  - intros ([c v] & <- & Hx). apply in_concat in Hx. destruct Hx as (r & Hr & Hx).
    destruct (In_nth _ _ [] Hr) as (p & Hp & E). exists p, v. subst r. auto.
  - intros (p & v & Hp & Hx). exists (k, v). split; auto. apply in_concat. exists (nth p rs []). split; auto. apply nth_In; auto.
Qed.

Lemma used_sec {T} (m : csx T) rs k : rep m rs ->
  existsb (fun e => e_sec (ord m) e =? k) (entries m) = (0 <? count_occ Nat.eq_dec (idxs m) k).
Proof.
  intros H. apply eq_true_iff_eq. rewrite existsb_exists, Nat.ltb_lt. change (0 < count_occ Nat.eq_dec (idxs m) k) with (count_occ Nat.eq_dec (idxs m) k > 0).
  rewrite <- (count_occ_In Nat.eq_dec). rewrite (idxs_in m rs k H). split.
  - intros (e & He & Ep). apply Nat.eqb_eq in Ep. rewrite <- (coords_back (ord m) e), Ep in He. apply (rep_in m rs) in He; auto.
    exists (e_prim (ord m) e), (e_val e). auto.
  - intros (p & v & Hp & Hx). exists (coords (ord m) p (k, v)). split; [apply (rep_in m rs); auto|].
    apply Nat.eqb_eq. destruct (ord m); reflexivity.
Qed.

(** lists of used primary and secondary indices *)
Definition used_p {T} (m : csx T) : list nat :=
  filter (fun p => existsb (fun e => e_prim (ord m) e =? p) (entries m)) (seq 0 (size_primary m)).
Definition used_s {T} (m : csx T) : list nat :=
  filter (fun p => existsb (fun e => e_sec (ord m) e =? p) (entries m)) (seq 0 (size_secdary m)).

Lemma used_p_len {T} (m : csx T) rs : rep m rs ->
  used_p m = filter (fun p => 0 <? length (nth p rs [])) (seq 0 (size_primary m)).
Proof.
  intros H. unfold used_p. apply filter_ext_in. intros p Hp. apply in_seq in Hp. apply used_prim; auto. rewrite (r_len _ _ H). lia.
Qed.

Lemma rd_len {T} (m : csx T) rs p : rep m rs -> p < size_primary m ->
  rd (ptrs m) p = Ok (offs rs p) /\ rd (ptrs m) (p + 1) = Ok (offs rs p + length (nth p rs [])).
Proof.
  intros H Hp. rewrite (r_ptrs _ _ H). pose proof (r_len _ _ H) as HL.
  split; apply rd_some; rewrite nth_error_map_offs by lia; auto.
  rewrite Nat.add_1_r. f_equal. apply offs_S. apply (rep_nth m rs); auto.
Qed.

Lemma setup_ok {T} (m : csx T) rs (rows cols : bool) : rep m rs ->
  pruning_setup m rows cols = Ok (Pruning (if prune_primary m rows cols then length (used_p m) else size_primary m)
    (if prune_secdary m rows cols then length (used_s m) else size_secdary m)
    (if prune_secdary m rows cols then map (count_occ Nat.eq_dec (idxs m)) (seq 0 (size_secdary m)) else [])).
Proof.
  intros H. unfold pruning_setup.
  assert (E1 : (if prune_primary m rows cols then foldM (count_used m) (seq 0 (size_primary m)) 0 else Ok (size_primary m)) =
    Ok (if prune_primary m rows cols then length (used_p m) else size_primary m)).
  { destruct (prune_primary m rows cols); auto. rewrite (used_p_len m rs H).
    rewrite (count_loop _ (fun p => 0 <? length (nth p rs []))); auto.
    intros n p Hp. apply in_seq in Hp. destruct (rd_len m rs p H) as (R1 & R2); [lia|]. unfold count_used. rewrite R1, R2. cbn [obind].
    rewrite Nat.add_comm, Nat.add_sub. reflexivity. }
  rewrite E1. cbn [obind]. destruct (prune_secdary m rows cols); auto.
  assert (E2 : foldM (count_step (idxs m)) (seq 0 (nnz m)) (repeat 0 (size_secdary m)) =
     Ok (map (count_occ Nat.eq_dec (idxs m)) (seq 0 (size_secdary m)))).
  { rewrite <- counts_ok.
    - assert (HN : nnz m = length (idxs m)) by (rewrite (r_idxs _ _ H), map_length; apply (r_nnz _ _ H)). rewrite HN. apply foldM_seq_list.
      intros s i c Hc. unfold count_step. rewrite (rd_some _ _ _ Hc). reflexivity.
    - intros x Hx. apply (idxs_in m rs x H) in Hx. destruct Hx as (p & v & Hp & Hx). apply (r_range _ _ H (nth p rs []) (x, v)); auto.
      apply nth_In; auto. }
  rewrite E2. cbn [obind]. unfold used_s.
  rewrite (count_loop _ (fun p => existsb (fun e => e_sec (ord m) e =? p) (entries m))); auto.
  intros n k Hk. apply in_seq in Hk. unfold count_positive.
  rewrite (rd_ok _ _ 0) by (rewrite map_length, seq_length; lia). cbn [obind]. rewrite nth_map_seq by lia.
  rewrite (used_sec m rs k H). reflexivity.
Qed.

Lemma identity_ok n v : length v = n -> identity n v = Ok (seq 0 n).
Proof.
  intros HL. unfold identity. rewrite (fill_all _ (fun i => i) 0) by auto. now rewrite map_id.
Qed.

Lemma list_used_ok {T} (m : csx T) rs v : rep m rs -> length v = length (used_p m) ->
  foldM (list_used m) (seq 0 (size_primary m)) (v, 0) = Ok (used_p m, length v).
Proof.
  intros H HL. rewrite (append_exact _ (fun p => 0 <? length (nth p rs [])) (fun p => p)).
  - rewrite map_id, <- (used_p_len m rs H). reflexivity.
  - intros s p Hp. apply in_seq in Hp. destruct (rd_len m rs p H) as (R1 & R2); [lia|]. unfold list_used. rewrite R1, R2. cbn [obind].
    rewrite Nat.add_comm, Nat.add_sub. reflexivity.
  - now rewrite <- (used_p_len m rs H).
Qed.

Lemma list_positive_ok {T} (m : csx T) rs v : rep m rs -> length v = length (used_s m) ->
  foldM (list_positive (map (count_occ Nat.eq_dec (idxs m)) (seq 0 (size_secdary m)))) (seq 0 (size_secdary m)) (v, 0) =
  Ok (used_s m, length v).
Proof.
  intros H HL. rewrite (append_exact _ (fun p => existsb (fun e => e_sec (ord m) e =? p) (entries m)) (fun p => p)); auto.
  - rewrite map_id. reflexivity.
  - intros s k Hk. apply in_seq in Hk. unfold list_positive. rewrite (rd_ok _ _ 0) by (rewrite map_length, seq_length; lia).
    cbn [obind]. rewrite nth_map_seq by lia. rewrite (used_sec m rs k H). reflexivity.
Qed.

Lemma used_p_rows {T} (m : csx T) : used_p m = match ord m with OrdR => used_rows m | OrdC => used_cols m end.
Proof. unfold used_p, used_rows, used_cols, size_primary. destruct (ord m); reflexivity. Qed.
Lemma used_s_cols {T} (m : csx T) : used_s m = match ord m with OrdR => used_cols m | OrdC => used_rows m end.
Proof. unfold used_s, used_rows, used_cols, size_secdary. destruct (ord m); reflexivity. Qed.
Lemma prune_prim {T} (m : csx T) rows cols : prune_primary m rows cols = match ord m with OrdR => rows | OrdC => cols end.
Proof. unfold prune_primary. destruct (ord m), rows, cols; reflexivity. Qed.
Lemma prune_sec {T} (m : csx T) rows cols : prune_secdary m rows cols = match ord m with OrdR => cols | OrdC => rows end.
Proof. unfold prune_secdary. destruct (ord m), rows, cols; reflexivity. Qed.
