(** * Lemmas on storing the pattern of a rank and on the positions of the entries of elements *)
From Coq Require Import List Arith Bool Lia Sorted.
From Verif Require Import Base M_Assembly M_Distributed S_Distributed M_DistMatrix S_DistMatrix L_TotalFeti L_Pattern3 L_Distributed L_Distributed2.
Import ListNotations.
Local Open Scope out_scope.

Lemma foldM_append_list {A B} (f : list B -> A -> outcome (list B)) (h : A -> list B) l : (forall acc a, In a l -> f acc a = Ok (acc ++ h a)) -> forall acc, foldM f l acc = Ok (acc ++ flat_map h l).
Proof.
  induction l as [|a l IH]; intros H acc; cbn [foldM flat_map]; [now rewrite app_nil_r|]. rewrite H by (now left). cbn [obind]. rewrite IH by (intros; apply H; now right). now rewrite <- app_assoc.
Qed.
Lemma Forall2_flat {A B C} (R : B -> C -> Prop) (f : A -> list B) (g : A -> list C) l : (forall a, In a l -> Forall2 R (f a) (g a)) -> Forall2 R (flat_map f l) (flat_map g l).
Proof. induction l as [|a l IH]; intros H; cbn [flat_map]; [constructor|]. apply Forall2_app; [apply H; left; auto|apply IH; intros; apply H; right; auto]. Qed.
Lemma Forall2_maps {A B C} (R : B -> C -> Prop) (f : A -> B) (g : A -> C) l : (forall a, In a l -> R (f a) (g a)) -> Forall2 R (map f l) (map g l).
Proof. induction l as [|a l IH]; intros H; cbn [map]; constructor; [apply H; left; auto|apply IH; intros; apply H; right; auto]. Qed.

Lemma in_firstn_in {A} (l : list A) k x : In x (firstn k l) -> In x l.
Proof. rewrite <- (firstn_skipn k l) at 2. intros H. apply in_or_app. auto. Qed.
Lemma in_skipn_in {A} k (l : list A) x : In x (skipn k l) -> In x l.
Proof. rewrite <- (firstn_skipn k l) at 2. intros H. apply in_or_app. auto. Qed.
Lemma Forall2_len {A B} (R : A -> B -> Prop) l l' : Forall2 R l l' -> length l = length l'.
Proof. induction 1; simpl; congruence. Qed.
Lemma lower_bound_in l x : StronglySorted lt l -> In x l -> lower_bound l x < length l /\ nth (lower_bound l x) l 0 = x.
Proof.
  induction 1 as [|y l S IH F]; simpl; [tauto|]. intros [->|H]; [rewrite Nat.ltb_irrefl; simpl; split; auto; lia|]. rewrite Forall_forall in F. specialize (F x H).
  rewrite (proj2 (Nat.ltb_lt _ _)) by lia. destruct (IH H). simpl. split; auto; lia.
Qed.

Section Dofs.
  Context (dofs : nat).
  (** the columns of the DOFs of nodes *)
  Definition dcol (l : list nat) : list nat := flat_map (fun q => map (fun c => q * dofs + c) (seq 0 dofs)) l.
  Lemma dcol_length l : length (dcol l) = length l * dofs.
  Proof. induction l as [|q l IH]; cbn [dcol flat_map length]; auto. rewrite app_length, map_length, seq_length. unfold dcol in IH. rewrite IH. simpl; lia. Qed.
  Lemma dcol_nth l : forall q c, q < length l -> c < dofs -> nth (dofs * q + c) (dcol l) 0 = nth q l 0 * dofs + c.
  Proof.
    induction l as [|x l IH]; intros q c Hq Hc; simpl in Hq; [lia|]. cbn [dcol flat_map]. destruct q as [|q]; cbn [nth].
    - rewrite Nat.mul_0_r, Nat.add_0_l, app_nth1 by (rewrite map_length, seq_length; auto). apply (nth_map_seq (fun c => x * dofs + c)); auto.
    - rewrite app_nth2; rewrite map_length, seq_length; [|nia]. replace (dofs * S q + c - dofs) with (dofs * q + c) by nia. apply IH; auto; lia.
  Qed.
  Lemma in_dcol l c : 0 < dofs -> (In c (dcol l) <-> In (c / dofs) l).
  Proof.
    intros D. unfold dcol. rewrite in_flat_map. split.
    - intros (q & Hq & Hc). apply in_map_iff in Hc. destruct Hc as (d & <- & Hd). apply in_seq in Hd. rewrite Nat.div_add_l, Nat.div_small by lia. rewrite Nat.add_0_r; auto.
    - intros H. exists (c / dofs). split; auto. apply in_map_iff. exists (c mod dofs). pose proof (Nat.mod_upper_bound c dofs ltac:(lia)). pose proof (Nat.div_mod c dofs ltac:(lia)). split; [lia|]. apply in_seq; lia.
  Qed.
  Lemma dcol_sorted l : StronglySorted lt l -> StronglySorted lt (dcol l).
  Proof.
    induction 1 as [|q l S IH F]; [constructor|]. cbn [dcol flat_map]. apply ss_app_lt; auto.
    - assert (Q : forall k d b, StronglySorted lt (map (fun c => k + c) (seq b d))); [|apply Q]. intros k. induction d as [|d IHd]; intros b; cbn [seq map]; [constructor|]. constructor; [apply IHd|]. apply Forall_forall. intros x Hx. apply in_map_iff in Hx. destruct Hx as (c & <- & Hc). apply in_seq in Hc. lia.
    - intros x y Hx Hy. apply in_map_iff in Hx. destruct Hx as (c & <- & Hc). apply in_seq in Hc. apply in_flat_map in Hy. destruct Hy as (q' & Hq & Hy). apply in_map_iff in Hy. destruct Hy as (c' & <- & Hc').
      rewrite Forall_forall in F. specialize (F q' Hq). nia.
  Qed.
End Dofs.

Section Drow.
  Context (dofs : nat) (R : nat -> list nat).
  Definition drow (i : nat) : list nat := dcol dofs (R (i / dofs)).
  Local Notation rp := (rowptr drow).
  Lemma drow_at n d : d < dofs -> drow (n * dofs + d) = dcol dofs (R n).
  Proof. intros H. unfold drow. rewrite Nat.div_add_l, Nat.div_small by lia. rewrite Nat.add_0_r. auto. Qed.
  Lemma rp_at n d : d <= dofs -> rp (n * dofs + d) = rp (n * dofs) + d * dofs * length (R n).
  Proof.
    induction d as [|d IH]; intros H; [rewrite Nat.add_0_r; lia|]. rewrite Nat.add_succ_r, rowptr_S, IH, drow_at, dcol_length by lia. nia.
  Qed.
End Drow.

Section Finish.
  Context (dofs N : nat) (R : nat -> list nat) (begin indices fin : list nat).
  Context (begin_len : length begin = N + 1) (fin_len : length fin = N + 1).
  Context (fin_nth : forall n, n < N -> nth n fin 0 = nth n begin 0 + length (R n)).
  Context (row_slice : forall n, n < N -> slice (nth n begin 0) (nth n begin 0 + length (R n)) indices = R n).
  Context (in_range : forall n, n < N -> nth n begin 0 + length (R n) <= length indices).
  Local Notation drow := (drow dofs R).
  Local Notation rp := (rowptr drow).

  Lemma store_all : foldM (store_node dofs begin (indices, fin)) (seq 0 N) ([0], [], [], 0)
    = Ok (map rp (seq 0 (N * dofs + 1)), all_columns (N * dofs) drow, map (fun n => rp (n * dofs)) (seq 0 N), rp (N * dofs)).
  Proof.
    assert (G : forall n, n <= N -> foldM (store_node dofs begin (indices, fin)) (seq 0 n) ([0], [], [], 0)
      = Ok (map rp (seq 0 (n * dofs + 1)), flat_map drow (seq 0 (n * dofs)), map (fun n => rp (n * dofs)) (seq 0 n), rp (n * dofs))); [|apply G; auto].
    induction n as [|n IH]; intros H; [reflexivity|]. rewrite seq_S, foldM_app, IH by lia. cbn [obind foldM Nat.add]. unfold store_node.
    rewrite (rd_ok begin _ 0), (rd_ok fin _ 0) by lia. cbn [obind]. rewrite fin_nth by lia. set (b := nth n begin 0). replace (b + length (R n) - b) with (length (R n)) by lia.
    assert (C : forall col, foldM (fun column i => x <- rd indices i ;; Ok (column ++ map (fun c => x * dofs + c) (seq 0 dofs))) (seq b (length (R n))) col = Ok (col ++ dcol dofs (R n))).
    { intros col. rewrite (foldM_append_list _ (fun i => map (fun c => nth i indices 0 * dofs + c) (seq 0 dofs))).
      - do 2 f_equal. unfold dcol. rewrite <- (row_slice n) at 2 by lia. fold b.
        assert (X : map (fun i => nth i indices 0) (seq b (length (R n))) = slice b (b + length (R n)) indices).
        { pose proof (in_range n ltac:(lia)) as IR. fold b in IR. apply (nth_ext _ _ 0 0); [rewrite map_length, seq_length, slice_length; lia|]. intros i Hi. rewrite map_length, seq_length in Hi.
          rewrite (nth_map _ _ i 0 0), seq_nth by (rewrite ?seq_length; auto). rewrite nth_slice by lia. auto. }
        rewrite <- X. generalize (seq b (length (R n))). induction l as [|a l IHl]; cbn [flat_map map]; congruence.
      - intros acc i Hi. apply in_seq in Hi. pose proof (in_range n ltac:(lia)) as IR. fold b in IR. rewrite (rd_ok _ _ 0) by lia. reflexivity. }
    assert (I : forall d, d <= dofs -> foldM (fun (st : list nat * list nat) (_ : nat) => let '(row, column) := st in
        column <- foldM (fun column i => x <- rd indices i ;; Ok (column ++ map (fun c => x * dofs + c) (seq 0 dofs))) (seq b (length (R n))) column ;; Ok (row ++ [length column], column))
        (seq 0 d) (map rp (seq 0 (n * dofs + 1)), flat_map drow (seq 0 (n * dofs))) = Ok (map rp (seq 0 (n * dofs + d + 1)), flat_map drow (seq 0 (n * dofs + d)))).
    { induction d as [|d IHd]; intros Hd; [rewrite Nat.add_0_r; reflexivity|]. rewrite (seq_S d), foldM_app, IHd by lia. cbn [obind foldM]. rewrite C. cbn [obind].
      assert (E : flat_map drow (seq 0 (n * dofs + d)) ++ dcol dofs (R n) = flat_map drow (seq 0 (n * dofs + S d))). { rewrite Nat.add_succ_r, seq_S, flat_map_app. cbn [flat_map Nat.add]. rewrite app_nil_r, drow_at by lia. auto. }
      rewrite E. do 2 f_equal. replace (n * dofs + S d + 1) with (S (n * dofs + d + 1)) by lia. rewrite (seq_S (n * dofs + d + 1)), map_app. cbn [map Nat.add]. unfold rowptr at 3. do 4 f_equal. f_equal. lia. }
    rewrite I by lia. cbn [obind]. rewrite map_app. cbn [map]. replace (S n * dofs) with (n * dofs + dofs) by lia. rewrite (rp_at dofs R n dofs) by lia. reflexivity.
  Qed.

  Definition final (perm poff : list nat) : dpattern := {| dp_row := map rp (seq 0 (N * dofs + 1)); dp_column := all_columns (N * dofs) drow; dp_permutation := perm; dp_offset := poff |}.
  Lemma final_row i perm poff : i <= N * dofs -> nth i (dp_row (final perm poff)) 0 = rp i.
  Proof. intros H. cbn [final dp_row]. apply nth_map_seq; lia. Qed.

  Context (m : mesh_part) (R_sorted : forall n, n < N -> StronglySorted lt (R n)).
  Definition good_element (e : list nat) : Prop := forall f t, In f e -> In t e -> f < N /\ t < length (u_position (mp_info m)) /\ In (node_of m t) (R f).
  Definition cell (rd' from cd to : nat) : nat := rp (from * dofs) + rd' * dofs * length (R from) + dofs * lower_bound (R from) (node_of m to) + cd.
  Definition cells (e : list nat) : list nat := flat_map (fun rd' => flat_map (fun from => flat_map (fun cd => map (fun to => cell rd' from cd to) e) (seq 0 dofs)) e) (seq 0 dofs).
  Lemma permute_enodes_ok e perm : good_element e -> permute_enodes dofs m begin (map (fun n => rp (n * dofs)) (seq 0 N)) (indices, fin) perm e = Ok (perm ++ cells e).
  Proof.
    intros Ge. unfold permute_enodes, cells. apply foldM_append_list. intros a1 rd' _. apply foldM_append_list. intros a2 from Hf. apply foldM_append_list. intros a3 cd _. apply foldM_append. intros a4 to Ht.
    destruct (Ge from to Hf Ht) as (H1 & H2 & H3). unfold permute_cell. rewrite (rd_ok begin _ 0), (rd_ok fin _ 0) by lia. cbn [obind]. rewrite (rd_ok _ _ 0) by (rewrite map_length, seq_length; auto). cbn [obind].
    rewrite (rd_ok _ _ 0) by auto. cbn [obind]. rewrite nth_map_seq by auto. rewrite fin_nth, row_slice by auto. unfold cell, node_of. do 7 f_equal. lia.
  Qed.
  Lemma cells_ok e perm poff : good_element e -> Forall2 (is_entry (final perm poff)) (element_entries dofs m e) (cells e).
  Proof.
    intros Ge. unfold element_entries, cells. apply Forall2_flat. intros rd' Hr. apply in_seq in Hr. apply Forall2_flat. intros from Hf. apply Forall2_flat. intros cd Hc. apply in_seq in Hc. apply Forall2_maps. intros to Ht.
    destruct (Ge from to Hf Ht) as (H1 & H2 & H3). destruct (lower_bound_in (R from) _ (R_sorted from H1) H3) as [L V]. unfold is_entry. cbn [fst snd].
    assert (Hi : from * dofs + rd' < N * dofs) by nia. rewrite !final_row by lia. replace (from * dofs + rd' + 1) with (S (from * dofs + rd')) by lia. rewrite rowptr_S, drow_at, dcol_length by lia.
    assert (Q : dofs * lower_bound (R from) (node_of m to) + cd < length (R from) * dofs) by nia.
    replace (cell rd' from cd to) with (rp (from * dofs + rd') + (dofs * lower_bound (R from) (node_of m to) + cd)) by (unfold cell; rewrite rp_at by lia; lia).
    split; [lia|]. cbn [final dp_column]. rewrite columns_nth; auto; rewrite drow_at by lia; [|rewrite dcol_length; auto]. rewrite dcol_nth by lia. rewrite V. auto.
  Qed.

  Definition intervals_ok (iv : list (nat * nat)) : Prop := forall i, In i iv -> fst i <= snd i <= length (mp_elements m).
  Lemma permute_all iv : intervals_ok iv -> (forall e, In e (mp_elements m) -> good_element e) ->
    exists perm poff, foldM (permute_eintervals dofs m begin (map (fun n => rp (n * dofs)) (seq 0 N)) (indices, fin)) iv ([], []) = Ok (perm, poff) /\ permutation_of_mesh dofs m iv (final perm poff).
  Proof.
    intros IV Ge. set (h := fun i => flat_map cells (elements_of m i)).
    assert (S : forall (i : nat * nat) perm poff, In i iv -> permute_eintervals dofs m begin (map (fun n => rp (n * dofs)) (seq 0 N)) (indices, fin) (perm, poff) i = Ok (perm ++ h i, poff ++ [length perm])).
    { intros i perm poff Hi. specialize (IV i Hi). unfold permute_eintervals. rewrite (proj2 (Nat.ltb_ge _ _)), (proj2 (Nat.ltb_ge _ _)) by lia. cbn [orb].
      rewrite (foldM_append_list _ cells); [reflexivity|]. intros acc e He. apply permute_enodes_ok. apply Ge. unfold slice in He. apply (in_skipn_in (fst i)). eapply in_firstn_in; eauto. }
    assert (LE : forall i, In i iv -> Forall2 (is_entry (final [] [])) (flat_map (element_entries dofs m) (elements_of m i)) (h i)).
    { intros i Hi. apply Forall2_flat. intros e He. apply cells_ok. apply Ge. unfold elements_of, slice in He. apply (in_skipn_in (fst i)). eapply in_firstn_in; eauto. }
    destruct (foldM_inv (permute_eintervals dofs m begin (map (fun n => rp (n * dofs)) (seq 0 N)) (indices, fin)) (fun pre st => fst st = flat_map h pre /\ snd st = map (fun i => length (flat_map h (firstn i pre))) (seq 0 (length pre))) iv ([], []))
      as ([perm poff] & E & Ep & Eo); cbn [fst snd] in *.
    - split; auto.
    - intros pre i post [p o] E [H1 H2]. cbn [fst snd] in H1, H2. subst p o. rewrite S by (rewrite E; apply in_or_app; right; left; auto). eexists; split; [reflexivity|]. cbn [fst snd]. split; [rewrite flat_map_app; cbn [flat_map]; rewrite app_nil_r; auto|].
      rewrite app_length, Nat.add_1_r, seq_S, map_app. cbn [map Nat.add]. f_equal; [|rewrite firstn_app, firstn_all, Nat.sub_diag, app_nil_r; auto].
      apply map_ext_in. intros k Hk. apply in_seq in Hk. rewrite firstn_app. replace (k - length pre) with 0 by lia. rewrite app_nil_r; auto.
    - exists perm, poff. split; auto. subst perm poff. split; [|split].
      + cbn [final dp_permutation]. apply Forall2_flat. intros i Hi. exact (LE i Hi).
      + cbn [final dp_offset]. rewrite map_length, seq_length. auto.
      + intros i Hi. cbn [final dp_offset]. rewrite nth_map_seq by auto. symmetry. apply (Forall2_len (is_entry (final [] []))). apply Forall2_flat. intros k Hk. apply LE. eapply in_firstn_in; eauto.
  Qed.
End Finish.
