(** * Lemmas on the sparsity pattern of a domain: the buckets of the rows *)
From Coq Require Import List Arith Bool Lia Sorted Permutation.
From Verif Require Import Base S_Order S_Assembly M_Assembly L_Dual2 L_TotalFeti L_Numbering.
Import ListNotations.
Local Open Scope out_scope.

Lemma list_sum_app' l l' : list_sum (l ++ l') = list_sum l + list_sum l'.
Proof. apply list_sum_app. Qed.

(** values added to positions of an array *)
Definition at_pos {T} (p : nat) (l : list (nat * T)) : list T := map snd (filter (fun x => fst x =? p) l).
Lemma at_pos_app {T} p (l l' : list (nat * T)) : at_pos p (l ++ l') = at_pos p l ++ at_pos p l'.
Proof. unfold at_pos; rewrite filter_app, map_app; auto. Qed.
Lemma at_pos_in {T} p x (l : list (nat * T)) : In x (at_pos p l) <-> In (p, x) l.
Proof. unfold at_pos; rewrite in_map_iff; split; [intros ((q & y) & E & H); apply filter_In in H; destruct H as [H Q]; apply Nat.eqb_eq in Q; simpl in *; subst; auto|].
  intros H; exists (p, x); split; auto; apply filter_In; split; auto; apply Nat.eqb_refl. Qed.
Lemma accumulate {T} (add : T -> T -> T) (d : T) l : forall out, (forall x, In x l -> fst x < length out) ->
  exists out', foldM (fun out (x : nat * T) => o <- rd out (fst x) ;; wr out (fst x) (add o (snd x))) l out = Ok out' /\ length out' = length out /\
    forall p, p < length out -> nth p out' d = fold_left add (at_pos p l) (nth p out d).
Proof.
  induction l as [|[q v] l IH]; intros out H; simpl.
  { exists out; repeat split; auto. }
  assert (Hq : q < length out) by (apply (H (q, v)); simpl; auto).
  rewrite (rd_ok _ _ d) by auto; cbn [obind]. rewrite wr_ok by auto; cbn [obind].
  destruct (IH (upd out q (add (nth q out d) v))) as (o' & E & L & N). { intros; rewrite upd_length; apply H; simpl; auto. }
  exists o'; split; auto. rewrite upd_length in L, N. split; auto. intros p Hp. rewrite N, nth_upd by auto. unfold at_pos; cbn [filter fst]. destruct (q =? p) eqn:Q; auto. apply Nat.eqb_eq in Q; subst; auto.
Qed.

(** offsets of sizes *)
Lemma offsets_length s l : length (offsets s l) = length l.
Proof. revert s; induction l; intros; simpl; auto. Qed.
Lemma offsets_nth l : forall s i, i < length l -> nth i (offsets s l) 0 = s + list_sum (firstn i l).
Proof. induction l as [|x l IH]; intros s i H; simpl in *; [lia|]. destruct i; cbn [nth firstn list_sum fold_right]; [lia|]. rewrite IH by lia. unfold list_sum; simpl; lia. Qed.

Lemma sum_firstn_S l i : i < length l -> list_sum (firstn (S i) l) = list_sum (firstn i l) + nth i l 0.
Proof. revert i; induction l as [|x l IH]; intros [|i] H; cbn in *; try lia. rewrite <- Nat.add_assoc, <- IH by lia; auto. Qed.
Lemma sum_firstn_mono l i j : i <= j -> list_sum (firstn i l) <= list_sum (firstn j l).
Proof. intros H. replace (firstn i l) with (firstn i (firstn j l)) by (rewrite firstn_firstn; f_equal; lia). rewrite <- (firstn_skipn i (firstn j l)) at 2. rewrite list_sum_app; lia. Qed.

(** ** the buckets: [cnt] capacities, [P] the pushes (row, column) *)
Section Buckets.
  Variables (cnt : list nat) (P : list (nat * nat)).
  Local Notation size := (length cnt).
  Local Notation B i := (list_sum (firstn i cnt)).
  Hypothesis fits : forall i, length (at_pos i P) <= nth i cnt 0.
  Hypothesis rows_ok : forall x, In x P -> fst x < size.

  Record buckets (P1 : list (nat * nat)) (indices fin : list nat) : Prop := {
    bk_len : length indices = B size;
    bk_fin_len : length fin = size + 1;
    bk_fin : forall i, i < size -> nth i fin 0 = B i + length (at_pos i P1);
    bk_row : forall i, i < size -> slice (B i) (nth i fin 0) indices = at_pos i P1 }.

  Lemma B_step i : i < size -> B (S i) = B i + nth i cnt 0.
  Proof. intros; apply sum_firstn_S; auto. Qed.
  Lemma B_mono i j : i <= j -> B i <= B j.
  Proof. apply sum_firstn_mono. Qed.

  Lemma push_ok P1 i j P2 indices fin : P = P1 ++ (i, j) :: P2 -> buckets P1 indices fin ->
    exists indices' fin', push_index i j (indices, fin) = Ok (indices', fin') /\ buckets (P1 ++ [(i, j)]) indices' fin'.
  Proof.
    intros E I. destruct I as [I1 I2 I3 I4].
    assert (Hi : i < size) by (apply (rows_ok (i, j)); rewrite E; apply in_or_app; simpl; auto).
    assert (Hl : length (at_pos i P1) < nth i cnt 0). { pose proof (fits i) as F. rewrite E, at_pos_app, app_length in F. unfold at_pos at 2 in F; cbn [filter fst] in F; rewrite Nat.eqb_refl in F; simpl in F; lia. }
    pose proof (B_step i Hi) as Hs. pose proof (B_mono (S i) size ltac:(lia)) as Hm.
    unfold push_index. rewrite (rd_ok _ _ 0) by lia. cbn [obind]. rewrite wr_ok by lia; cbn [obind]. rewrite I3 by auto. rewrite wr_ok by lia; cbn [obind].
    eexists; eexists; split; [reflexivity|].
    assert (AP : forall i', at_pos i' (P1 ++ [(i, j)]) = at_pos i' P1 ++ (if i =? i' then [j] else [])).
    { intros i'; rewrite at_pos_app; f_equal. unfold at_pos; cbn [filter fst]. destruct (i =? i'); auto. }
    constructor.
    - rewrite upd_length; auto.
    - rewrite upd_length; auto.
    - intros i' Hi'. rewrite nth_upd, AP by lia. destruct (Nat.eqb_spec i i'); [subst i'; rewrite app_length; simpl; lia | rewrite app_nil_r; auto].
    - intros i' Hi'. rewrite nth_upd, AP by lia. destruct (Nat.eqb_spec i i').
      + subst i'. rewrite (slice_app _ (B i + length (at_pos i P1))) by lia. f_equal.
        * transitivity (slice (B i) (nth i fin 0) indices); [|auto]. rewrite I3 by auto. apply nth_ext with (d := 0) (d' := 0). { rewrite !slice_length; rewrite ?upd_length; auto; lia. }
          intros q Hq. rewrite slice_length in Hq by (rewrite upd_length; lia). rewrite !nth_slice by (rewrite ?upd_length; lia). apply nth_upd_neq; lia.
        * apply nth_ext with (d := 0) (d' := 0). { rewrite slice_length; rewrite ?upd_length; simpl; lia. }
          intros q Hq. rewrite slice_length in Hq by (rewrite upd_length; lia). assert (q = 0) by lia; subst q. rewrite !nth_slice by (rewrite ?upd_length; lia). rewrite nth_upd, Nat.add_0_r, Nat.eqb_refl by lia. auto.
      + rewrite app_nil_r. transitivity (slice (B i') (nth i' fin 0) indices); [|auto]. assert (Hf : length (at_pos i' P1) <= nth i' cnt 0). { pose proof (fits i') as F. rewrite E, at_pos_app, app_length in F; lia. }
        pose proof (B_step i' Hi') as Hs'. pose proof (B_mono (S i') size ltac:(lia)) as Hm'. rewrite I3 by auto.
        apply nth_ext with (d := 0) (d' := 0). { rewrite !slice_length; rewrite ?upd_length; auto; lia. }
        intros q Hq. rewrite slice_length in Hq by (rewrite upd_length; lia). rewrite !nth_slice by (rewrite ?upd_length; lia). apply nth_upd_neq.
        destruct (Nat.lt_ge_cases i i') as [Q|Q]; [pose proof (B_mono (S i) i' Q); lia | pose proof (B_mono (S i') i ltac:(lia)); lia].
  Qed.
  Lemma push_all indices fin : buckets [] indices fin -> exists indices' fin', foldM (fun st x => push_index (fst x) (snd x) st) P (indices, fin) = Ok (indices', fin') /\ buckets P indices' fin'.
  Proof.
    assert (G : forall P2 P1 indices fin, P = P1 ++ P2 -> buckets P1 indices fin -> exists indices' fin', foldM (fun st x => push_index (fst x) (snd x) st) P2 (indices, fin) = Ok (indices', fin') /\ buckets P indices' fin').
    { induction P2 as [|[i j] P2 IH]; intros P1 ix fn E I. { rewrite app_nil_r in E; subst P1. exists ix, fn; auto. }
      cbn [foldM fst snd]. destruct (push_ok P1 i j P2 ix fn E I) as (ix' & fn' & E' & I'). rewrite E'; cbn [obind]. apply (IH (P1 ++ [(i, j)])); auto. rewrite <- app_assoc; auto. }
    intros I; apply (G P []); auto.
  Qed.
  Lemma buckets_start alloc : length alloc = B size -> buckets [] alloc (offsets 0 (cnt ++ [0])).
  Proof.
    intros H; constructor; auto.
    - rewrite offsets_length, app_length; auto.
    - intros i Hi; simpl. rewrite offsets_nth by (rewrite app_length; simpl; lia). rewrite firstn_app. replace (i - size) with 0 by lia. simpl; rewrite app_nil_r; lia.
    - intros i Hi. rewrite offsets_nth by (rewrite app_length; simpl; lia). rewrite firstn_app. replace (i - size) with 0 by lia. simpl; rewrite app_nil_r. apply slice_nil.
  Qed.
End Buckets.
