(** * Lemmas on the sparsity pattern of a domain: what the elements push, the permutation of the elements *)
From Coq Require Import List Arith Bool Lia Sorted Permutation.
From Verif Require Import Base S_Order S_Assembly M_Assembly M_Utils L_Utils L_Dual2 L_TotalFeti L_Numbering L_Pattern L_Pattern2 L_Pattern3.
Import ListNotations.
Local Open Scope out_scope.

Lemma foldM_map' {S A B} (g : S -> B -> outcome S) (h : A -> B) l : forall s, foldM (fun s a => g s (h a)) l s = foldM g (map h l) s.
Proof. induction l as [|a l IH]; intros s; cbn [map foldM]; auto. destruct (g s (h a)); cbn [obind]; auto. Qed.
Lemma fold_add l : forall s, fold_left Nat.add l s = s + list_sum l.
Proof. induction l as [|x l IH]; intros s; cbn; [lia|]. rewrite IH; unfold list_sum; lia. Qed.
Lemma at_pos_flat_length {A T} i (f : A -> list (nat * T)) (g : A -> nat) l : (forall a, In a l -> length (at_pos i (f a)) <= g a) -> length (at_pos i (flat_map f l)) <= list_sum (map g l).
Proof. induction l as [|a l IH]; intros H; cbn [flat_map map]; [auto|]. rewrite at_pos_app, app_length. cbn. specialize (IH ltac:(intros; apply H; simpl; auto)). specialize (H a (or_introl eq_refl)). unfold list_sum in IH; lia. Qed.
Lemma at_pos_flat_sum {A} i (f : A -> list (nat * nat)) l : list_sum (at_pos i (flat_map f l)) = list_sum (map (fun a => list_sum (at_pos i (f a))) l).
Proof. induction l as [|a l IH]; cbn [flat_map map]; [auto|]. rewrite at_pos_app, list_sum_app, IH. reflexivity. Qed.
Lemma list_sum_le {A} (f g : A -> nat) l : (forall a, In a l -> f a <= g a) -> list_sum (map f l) <= list_sum (map g l).
Proof. induction l as [|a l IH]; intros H; cbn; [lia|]. specialize (IH ltac:(intros; apply H; simpl; auto)). specialize (H a (or_introl eq_refl)). unfold list_sum in IH; lia. Qed.
Lemma list_sum_const {A} c (l : list A) : list_sum (map (fun _ => c) l) = length l * c.
Proof. induction l; cbn; auto. Qed.
Lemma list_sum_scale {A} m (f : A -> nat) l : list_sum (map (fun a => m * f a) l) = m * list_sum (map f l).
Proof. induction l; cbn; [lia|]. unfold list_sum in *; lia. Qed.

Section Elements.
  Variables (dofs : nat) (full : bool) (loc : nat -> nat) (imap : list (option nat)) (size : nat) (mine : list (list nat)).
  Hypothesis loc_ok : forall e n d, In e mine -> In n e -> d < dofs -> imap_at dofs imap n d = Ok (loc (n * dofs + d)).
  Hypothesis loc_lt : forall e n d, In e mine -> In n e -> d < dofs -> loc (n * dofs + d) < size.

  (** ** the capacities *)
  Definition cells (e : list nat) : list (nat * nat) := flat_map (fun n => map (fun d => (loc (n * dofs + d), dofs * length e)) (seq 0 dofs)) e.
  Lemma count_flat e st : In e mine -> count_element dofs imap st e = foldM (fun out (x : nat * nat) => o <- rd out (fst x) ;; wr out (fst x) (o + snd x)) (cells e) st.
  Proof.
    intros He. unfold count_element, cells. rewrite foldM_flat. apply foldM_ext_in. intros s n Hn. rewrite <- foldM_map'. apply foldM_ext_in. intros s' d Hd. apply in_seq in Hd.
    rewrite (loc_ok e) by (auto; lia). reflexivity.
  Qed.
  Definition capacity : list nat := map (fun i => list_sum (at_pos i (flat_map cells mine))) (seq 0 size).
  Lemma cells_in x : In x (flat_map cells mine) -> fst x < size.
  Proof.
    intros H. apply in_flat_map in H. destruct H as (e & He & H). apply in_flat_map in H. destruct H as (n & Hn & H). apply in_map_iff in H. destruct H as (d & <- & Hd). apply in_seq in Hd. cbn [fst]. apply (loc_lt e); auto; lia.
  Qed.
  Lemma capacity_length : length capacity = size.
  Proof. unfold capacity; rewrite map_length, seq_length; auto. Qed.
  Lemma capacity_nth i : i < size -> nth i capacity 0 = list_sum (at_pos i (flat_map cells mine)).
  Proof. intros H; unfold capacity. rewrite nth_indep with (d' := (fun i => list_sum (at_pos i (flat_map cells mine))) 0) by (rewrite map_length, seq_length; auto).
    rewrite (map_nth (fun i => list_sum (at_pos i (flat_map cells mine)))), seq_nth; auto. Qed.
  Lemma count_all : foldM (count_element dofs imap) mine (repeat 0 (size + 1)) = Ok (capacity ++ [0]).
  Proof.
    transitivity (foldM (fun out (x : nat * nat) => o <- rd out (fst x) ;; wr out (fst x) (o + snd x)) (flat_map cells mine) (repeat 0 (size + 1))).
    { rewrite foldM_flat. apply foldM_ext_in. intros s e He. apply count_flat; auto. }
    destruct (accumulate Nat.add 0 (flat_map cells mine) (repeat 0 (size + 1))) as (out & E & L & N). { intros x Hx. rewrite repeat_length. apply cells_in in Hx; lia. }
    rewrite E. f_equal. rewrite repeat_length in L, N. apply nth_ext with (d := 0) (d' := 0). { rewrite app_length, capacity_length; simpl; lia. }
    intros i Hi. rewrite N by lia. rewrite nth_repeat_lt, fold_add by lia. rewrite Nat.add_0_l. destruct (Nat.eq_dec i size) as [Q|Q].
    - rewrite app_nth2 by (rewrite capacity_length; lia). rewrite capacity_length. replace (i - size) with 0 by lia. cbn [nth].
      replace (at_pos i (flat_map cells mine)) with (@nil nat); auto. symmetry. destruct (at_pos i (flat_map cells mine)) as [|x t] eqn:W; auto.
      assert (In x (at_pos i (flat_map cells mine))) by (rewrite W; simpl; auto). apply at_pos_in, cells_in in H. simpl in H; lia.
    - rewrite app_nth1 by (rewrite capacity_length; lia). rewrite capacity_nth by lia. auto.
  Qed.

  (** ** the pushes *)
  Definition push_pair (k l : nat) : list (nat * nat) := if full || (loc k <=? loc l) then [(loc k, loc l)] else [].
  Definition pushes (e : list nat) : list (nat * nat) :=
    flat_map (fun from => flat_map (fun to => flat_map (fun r => flat_map (fun c => push_pair (from * dofs + r) (to * dofs + c)) (seq 0 dofs)) (seq 0 dofs)) e) e.
  Definition all_pushes : list (nat * nat) := flat_map pushes mine.
  Lemma push_flat e st : In e mine -> push_element dofs full imap st e = foldM (fun st x => push_index (fst x) (snd x) st) (pushes e) st.
  Proof.
    intros He. unfold push_element, pushes. rewrite foldM_flat. apply foldM_ext_in. intros s1 from Hf. rewrite foldM_flat. apply foldM_ext_in. intros s2 to Ht. rewrite foldM_flat. apply foldM_ext_in. intros s3 r Hr.
    rewrite foldM_flat. apply foldM_ext_in. intros s4 c Hc. apply in_seq in Hr, Hc. rewrite !(loc_ok e) by (auto; lia). cbn [obind]. unfold push_pair. destruct (full || _); cbn [foldM fst snd]; auto. destruct (push_index _ _ s4); auto.
  Qed.
  Lemma push_all_flat st : foldM (push_element dofs full imap) mine st = foldM (fun st x => push_index (fst x) (snd x) st) all_pushes st.
  Proof. unfold all_pushes; rewrite foldM_flat. apply foldM_ext_in. intros s e He. apply push_flat; auto. Qed.
  Lemma element_dofs_in k e : In k (element_dofs dofs e) <-> exists n d, In n e /\ d < dofs /\ k = n * dofs + d.
  Proof.
    unfold element_dofs. rewrite in_flat_map. split.
    - intros (d & Hd & H). apply in_map_iff in H. destruct H as (n & <- & Hn). apply in_seq in Hd. exists n, d; repeat split; auto; lia.
    - intros (n & d & Hn & Hd & ->). exists d. split; [apply in_seq; lia | apply in_map_iff; eauto].
  Qed.
  Lemma pushes_in e i j : In (i, j) (pushes e) <-> exists k l, In k (element_dofs dofs e) /\ In l (element_dofs dofs e) /\ i = loc k /\ j = loc l /\ (full = true \/ i <= j).
  Proof.
    unfold pushes. split.
    - intros H. apply in_flat_map in H. destruct H as (from & Hf & H). apply in_flat_map in H. destruct H as (to & Ht & H). apply in_flat_map in H. destruct H as (r & Hr & H). apply in_flat_map in H. destruct H as (c & Hc & H).
      apply in_seq in Hr, Hc. exists (from * dofs + r), (to * dofs + c). unfold push_pair in H. destruct (full || _) eqn:Q; [|destruct H]. destruct H as [H|[]]; inversion H; subst.
      apply orb_true_iff in Q. rewrite Nat.leb_le in Q. repeat split; auto; apply element_dofs_in; [exists from, r | exists to, c]; repeat split; auto; lia.
    - intros (k & l & Hk & Hl & -> & -> & Q). apply element_dofs_in in Hk, Hl. destruct Hk as (from & r & Hf & Hr & ->). destruct Hl as (to & c & Ht & Hc & ->).
      apply in_flat_map; exists from; split; auto. apply in_flat_map; exists to; split; auto. apply in_flat_map; exists r; split; [apply in_seq; lia|]. apply in_flat_map; exists c; split; [apply in_seq; lia|].
      unfold push_pair. replace (full || (loc (from * dofs + r) <=? loc (to * dofs + c))) with true; [simpl; auto|]. symmetry; apply orb_true_iff. rewrite Nat.leb_le; auto.
  Qed.
  Lemma all_pushes_rows x : In x all_pushes -> fst x < size.
  Proof.
    destruct x as [i j]. intros H. apply in_flat_map in H. destruct H as (e & He & H). apply pushes_in in H. destruct H as (k & l & Hk & _ & -> & _). apply element_dofs_in in Hk. destruct Hk as (n & d & Hn & Hd & ->). apply (loc_lt e); auto.
  Qed.
  Lemma pushes_fit i e : length (at_pos i (pushes e)) <= list_sum (at_pos i (cells e)).
  Proof.
    unfold pushes, cells. rewrite at_pos_flat_sum. apply at_pos_flat_length. intros from Hf.
    set (c := list_sum (map (fun r => if loc (from * dofs + r) =? i then dofs else 0) (seq 0 dofs))).
    transitivity (length e * c).
    - rewrite <- (list_sum_const c e). apply at_pos_flat_length. intros to Ht. apply at_pos_flat_length. intros r Hr.
      transitivity (list_sum (map (fun _ : nat => if loc (from * dofs + r) =? i then 1 else 0) (seq 0 dofs))).
      + apply at_pos_flat_length. intros d Hd. unfold push_pair. destruct (full || _); [|simpl; lia]. unfold at_pos; cbn [filter fst]. destruct (_ =? i); simpl; lia.
      + rewrite list_sum_const, seq_length. destruct (_ =? i); lia.
    - apply Nat.eq_le_incl. unfold c. rewrite <- list_sum_scale. generalize (seq 0 dofs). induction l as [|r l IH]; [auto|]. cbn [map]. unfold at_pos in *; cbn [filter fst]. destruct (loc (from * dofs + r) =? i); cbn [map snd]; unfold list_sum in *; cbn [fold_right]; rewrite IH; lia.
  Qed.
  Lemma all_pushes_fit i : length (at_pos i all_pushes) <= nth i capacity 0.
  Proof.
    destruct (Nat.lt_ge_cases i size) as [Q|Q].
    - rewrite capacity_nth by auto. unfold all_pushes. rewrite at_pos_flat_sum. apply at_pos_flat_length. intros; apply pushes_fit.
    - destruct (at_pos i all_pushes) as [|x t] eqn:W; [simpl; lia|]. assert (In x (at_pos i all_pushes)) by (rewrite W; simpl; auto). apply at_pos_in, all_pushes_rows in H. simpl in H; lia.
  Qed.

  (** ** the permutation of the elements *)
  Variables (begin offset indices : list nat) (pos : nat -> nat -> nat).
  Hypothesis pos_ok : forall i j, In (i, j) all_pushes -> find_position begin offset indices i j = Ok (pos i j).
  Definition ppos (k l : nat) : nat := if full then pos (loc k) (loc l) else pos (Nat.min (loc k) (loc l)) (Nat.max (loc k) (loc l)).
  Definition columns_of (m r : nat) : list nat := if full then seq 0 m else seq r (m - r).
  Definition positions (e : list nat) : list nat :=
    let ed := element_dofs dofs e in flat_map (fun r => map (fun c => ppos (nth r ed 0) (nth c ed 0)) (columns_of (length ed) r)) (seq 0 (length ed)).
  Definition cell_pairs (e : list nat) : list (nat * nat) := flat_map (fun d => map (fun n => (n, d)) e) (seq 0 dofs).
  Lemma cell_pairs_dofs e : map (fun p => fst p * dofs + snd p) (cell_pairs e) = element_dofs dofs e.
  Proof. unfold cell_pairs, element_dofs. induction (seq 0 dofs) as [|d l IH]; [auto|]. cbn [flat_map]. rewrite map_app, IH, map_map. auto. Qed.
  Lemma cell_pairs_length e : length (element_dofs dofs e) = length (cell_pairs e).
  Proof. rewrite <- cell_pairs_dofs, map_length; auto. Qed.
  Lemma cell_pairs_in e p : In p (cell_pairs e) -> In (fst p) e /\ snd p < dofs.
  Proof. intros H. apply in_flat_map in H. destruct H as (d & Hd & H). apply in_map_iff in H. destruct H as (n & <- & Hn). apply in_seq in Hd; simpl; split; auto; lia. Qed.

  Lemma pushed e k l : In e mine -> In k (element_dofs dofs e) -> In l (element_dofs dofs e) -> (full = true \/ loc k <= loc l) -> In (loc k, loc l) all_pushes.
  Proof. intros He Hk Hl Q. apply in_flat_map. exists e; split; auto. apply pushes_in. exists k, l; auto. Qed.

  Definition permute_cell (from rd' r : nat) (st : list nat * nat) (p : nat * nat) : outcome (list nat * nat) :=
    let '(permutation, c) := st in
    i <- imap_at dofs imap from rd' ;; j <- imap_at dofs imap (fst p) (snd p) ;;
    if full then p <- find_position begin offset indices i j ;; Ok (permutation ++ [p], c + 1)
    else if r <=? c then p <- find_position begin offset indices (Nat.min i j) (Nat.max i j) ;; Ok (permutation ++ [p], c + 1)
    else Ok (permutation, c + 1).
  Lemma permute_cell_ok e from rd' r perm c p : In e mine -> In from e -> rd' < dofs -> In p (cell_pairs e) ->
    permute_cell from rd' r (perm, c) p = Ok (perm ++ (if full || (r <=? c) then [ppos (from * dofs + rd') (fst p * dofs + snd p)] else []), c + 1).
  Proof.
    intros He Hf Hr Hp. apply cell_pairs_in in Hp. destruct Hp as [Hp1 Hp2]. unfold permute_cell. rewrite !(loc_ok e) by auto; cbn [obind].
    assert (Hk : In (from * dofs + rd') (element_dofs dofs e)) by (apply element_dofs_in; eauto).
    assert (Hl : In (fst p * dofs + snd p) (element_dofs dofs e)) by (apply element_dofs_in; eauto).
    unfold ppos. destruct full eqn:F; cbn [orb].
    - rewrite pos_ok; [reflexivity|]. apply (pushed e); auto.
    - destruct (r <=? c); [|rewrite app_nil_r; auto]. rewrite pos_ok; [reflexivity|]. destruct (Nat.le_ge_cases (loc (from * dofs + rd')) (loc (fst p * dofs + snd p))).
      + rewrite Nat.min_l, Nat.max_r by auto. apply (pushed e); auto.
      + rewrite Nat.min_r, Nat.max_l by auto. apply (pushed e); auto.
  Qed.
  Lemma permute_cells e from rd' r : In e mine -> In from e -> rd' < dofs -> forall ps perm c, (forall p, In p ps -> In p (cell_pairs e)) ->
    foldM (permute_cell from rd' r) ps (perm, c) =
    Ok (perm ++ flat_map (fun c' => if full || (r <=? c + c') then [ppos (from * dofs + rd') (nth c' (map (fun p => fst p * dofs + snd p) ps) 0)] else []) (seq 0 (length ps)), c + length ps).
  Proof.
    intros He Hf Hr. induction ps as [|p ps IH]; intros perm c Hps; cbn [foldM length seq flat_map map]; [rewrite app_nil_r, Nat.add_0_r; auto|].
    rewrite (permute_cell_ok e) by (auto; apply Hps; simpl; auto); cbn [obind]. rewrite IH by (intros; apply Hps; simpl; auto). cbn [nth]. rewrite Nat.add_0_r, <- app_assoc.
    do 2 f_equal; [|lia]. do 2 f_equal. rewrite <- seq_shift, !flat_map_concat_map, map_map. f_equal. apply map_ext. intros c'. cbn [nth]. replace (c + S c') with (c + 1 + c') by lia. auto.
  Qed.
  Lemma filter_columns m r : r <= m -> flat_map (fun c => if full || (r <=? c) then [c] else []) (seq 0 m) = columns_of m r.
  Proof.
    intros H. unfold columns_of. destruct full; cbn [orb]. { induction (seq 0 m); simpl; auto; f_equal; auto. }
    replace m with (r + (m - r)) at 1 by lia. rewrite seq_app, flat_map_app.
    assert (E1 : forall l, (forall x, In x l -> x < r) -> flat_map (fun c => if r <=? c then [c] else []) l = []).
    { induction l as [|x l IH]; intros Q; [auto|]. cbn [flat_map]. rewrite (proj2 (Nat.leb_gt r x)) by (apply Q; simpl; auto). apply IH; intros; apply Q; simpl; auto. }
    assert (E2 : forall l, (forall x, In x l -> r <= x) -> flat_map (fun c => if r <=? c then [c] else []) l = l).
    { induction l as [|x l IH]; intros Q; [auto|]. cbn [flat_map]. rewrite (proj2 (Nat.leb_le r x)) by (apply Q; simpl; auto). simpl; f_equal. apply IH; intros; apply Q; simpl; auto. }
    rewrite E1, E2; auto; intros x Hx; apply in_seq in Hx; lia.
  Qed.
  Definition permute_row (e : list nat) (st : list nat * nat) (p : nat * nat) : outcome (list nat * nat) :=
    let '(permutation, r) := st in
    '(permutation, _) <- foldM (permute_cell (fst p) (snd p) r) (cell_pairs e) (permutation, 0) ;; Ok (permutation, r + 1).
  Lemma permute_rows e : In e mine -> forall ps perm r, (forall p, In p ps -> In p (cell_pairs e)) -> r + length ps <= length (cell_pairs e) ->
    foldM (permute_row e) ps (perm, r) =
    Ok (perm ++ flat_map (fun r' => map (fun c => ppos (nth r' (map (fun p => fst p * dofs + snd p) ps) 0) (nth c (element_dofs dofs e) 0)) (columns_of (length (element_dofs dofs e)) (r + r'))) (seq 0 (length ps)), r + length ps).
  Proof.
    intros He. induction ps as [|p ps IH]; intros perm r Hps Hl; cbn [foldM length seq flat_map map]; [rewrite app_nil_r, Nat.add_0_r; auto|].
    pose proof (cell_pairs_in e p (Hps p (or_introl eq_refl))) as [Hp1 Hp2]. unfold permute_row at 1. rewrite (permute_cells e) by auto; cbn [obind]. rewrite IH by (auto; simpl in *; try lia; intros; apply Hps; simpl; auto).
    cbn [nth length] in *. rewrite Nat.add_0_r, <- app_assoc. do 2 f_equal; [|lia]. f_equal. f_equal.
    - rewrite cell_pairs_dofs. cbn [Nat.add]. rewrite cell_pairs_length. rewrite <- (filter_columns (length (cell_pairs e)) r) by lia. rewrite flat_map_concat_map, (flat_map_concat_map (fun c => if full || (r <=? c) then [c] else [])). rewrite concat_map, map_map. f_equal. apply map_ext. intros c. destruct (full || _); auto.
    - rewrite <- (seq_shift (length ps)), !flat_map_concat_map, map_map. f_equal. apply map_ext. intros c'. cbn [nth]. replace (r + S c') with (r + 1 + c') by lia. auto.
  Qed.
  Lemma permute_element_ok e perm : In e mine -> permute_element dofs full imap begin offset indices perm e = Ok (perm ++ positions e).
  Proof.
    intros He. unfold permute_element.
    transitivity ('(permutation, _) <- foldM (permute_row e) (cell_pairs e) (perm, 0) ;; Ok permutation).
    - f_equal. unfold cell_pairs at 1. rewrite foldM_flat. apply foldM_ext_in. intros s d Hd. rewrite <- foldM_map'. apply foldM_ext_in. intros [s' r] from Hf. unfold permute_row; cbn [fst snd].
      f_equal. unfold cell_pairs. rewrite foldM_flat. apply foldM_ext_in. intros s2 d2 Hd2. rewrite <- foldM_map'. apply foldM_ext_in. intros [s3 c] to Ht. reflexivity.
    - rewrite permute_rows by (auto; lia). cbn [obind]. do 2 f_equal. unfold positions. rewrite cell_pairs_dofs. cbn [Nat.add]. rewrite cell_pairs_length. reflexivity.
  Qed.
End Elements.
