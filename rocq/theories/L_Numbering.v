(** * Lemmas on the numbering of the DOFs of domains *)
From Coq Require Import List Arith Bool Lia Sorted.
From Verif Require Import Base S_Order S_Assembly M_Assembly L_Dual2 L_TotalFeti.
Import ListNotations.
Local Open Scope out_scope.

Lemma memb_in x l : memb x l = true <-> In x l.
Proof. unfold memb; rewrite existsb_exists; split; [intros (y & Hy & E); apply Nat.eqb_eq in E; subst; auto | intros H; exists x; split; auto; apply Nat.eqb_refl]. Qed.
Lemma memb_out x l : memb x l = false <-> ~ In x l.
Proof. rewrite <- memb_in; destruct (memb x l); split; intros; congruence. Qed.

Lemma index_of_in k l : In k l -> nth_error l (index_of k l) = Some k.
Proof. induction l as [|x l IH]; simpl; [tauto|]; destruct (Nat.eqb_spec k x); [subst; auto|]; intros [H|H]; [congruence | apply IH; auto]. Qed.
Lemma index_of_lt k l : In k l -> index_of k l < length l.
Proof. intros H; apply nth_error_Some; rewrite index_of_in; auto; discriminate. Qed.
Lemma index_of_app_in k l l' : In k l -> index_of k (l ++ l') = index_of k l.
Proof. induction l as [|x l IH]; simpl; [tauto|]; destruct (Nat.eqb_spec k x); auto; intros [H|H]; [congruence|]; f_equal; auto. Qed.
Lemma index_of_app_out k l l' : ~ In k l -> index_of k (l ++ l') = length l + index_of k l'.
Proof. induction l as [|x l IH]; simpl; auto; intros H; destruct (Nat.eqb_spec k x); [subst; tauto | f_equal; apply IH; tauto]. Qed.
Lemma index_of_nth k l i : NoDup l -> nth_error l i = Some k -> index_of k l = i.
Proof. revert i; induction l as [|x l IH]; intros [|i] Hn H; simpl in *; try discriminate. { inversion H; subst; rewrite Nat.eqb_refl; auto. }
  inversion Hn; subst; destruct (Nat.eqb_spec k x); [subst; exfalso; apply nth_error_In in H; auto | f_equal; apply IH; auto]. Qed.

(** ** boundaries of rows *)
Definition dofs_rows (dofs : nat) (ndoms : list (list nat)) : list (list nat) := flat_map (fun doms => repeat doms dofs) ndoms.
Definition bound (rows : list (list nat)) (k : nat) : nat := length (concat (firstn k rows)).
Lemma bound_S rows k : k < length rows -> bound rows (S k) = bound rows k + length (nth k rows []).
Proof. intros H; unfold bound. assert (E : firstn (S k) rows = firstn k rows ++ [nth k rows []]).
  { clear -H; revert k H; induction rows as [|r rows IH]; intros [|k] H; cbn in *; try lia; auto; f_equal; apply IH; lia. }
  rewrite E, concat_app, app_length; simpl; rewrite app_nil_r; auto. Qed.
Lemma bound_mono rows j k : j <= k -> bound rows j <= bound rows k.
Proof. intros H; unfold bound; replace (firstn j rows) with (firstn j (firstn k rows)) by (rewrite firstn_firstn; f_equal; lia).
  rewrite <- (firstn_skipn j (firstn k rows)) at 2; rewrite concat_app, app_length; lia. Qed.
Lemma bound_all rows : bound rows (length rows) = length (concat rows).
Proof. unfold bound; rewrite firstn_all; auto. Qed.
Lemma dofs_rows_length dofs ndoms : length (dofs_rows dofs ndoms) = dofs * length ndoms.
Proof. unfold dofs_rows; induction ndoms as [|x l IH]; simpl; auto; rewrite app_length, repeat_length, IH; lia. Qed.
Lemma dofs_rows_nth dofs ndoms k : 0 < dofs -> nth k (dofs_rows dofs ndoms) [] = dof_domains dofs ndoms k.
Proof. intros Hd; unfold dof_domains, dofs_rows; revert k; induction ndoms as [|x l IH]; intros k; simpl.
  - destruct k; simpl; destruct (_ / _); auto.
  - destruct (Nat.lt_ge_cases k dofs) as [H|H].
    + rewrite app_nth1 by (rewrite repeat_length; auto); rewrite nth_repeat_lt by auto; rewrite Nat.div_small; auto.
    + rewrite app_nth2 by (rewrite repeat_length; auto); rewrite repeat_length, IH.
      replace (k / dofs) with (S ((k - dofs) / dofs)); auto.
      replace k with (1 * dofs + (k - dofs)) at 2 by lia; rewrite Nat.div_add_l by lia; lia. Qed.
Lemma concat_dofs_rows dofs ndoms : length (concat (dofs_rows dofs ndoms)) = dofs * length (concat ndoms).
Proof. unfold dofs_rows; induction ndoms as [|x l IH]; simpl; auto. rewrite concat_app, !app_length, IH.
  assert (H : length (concat (repeat x dofs)) = dofs * length x) by (clear; induction dofs; simpl; auto; rewrite app_length, IHdofs; auto). rewrite H; lia. Qed.

Lemma foldM_repeat_ign {S A} (f : A -> S -> outcome S) n (l : list A) : forall s,
  foldM (fun s a => foldM (fun s (_ : nat) => f a s) (seq 0 n) s) l s = foldM (fun s a => f a s) (flat_map (fun a => repeat a n) l) s.
Proof. intros s; rewrite foldM_flat; apply foldM_ext_in; intros s' a _.
  generalize 0; revert s'; induction n as [|n IH]; intros s' b; simpl; auto; destruct (f a s'); simpl; auto. Qed.

(** *** dmap_distribution *)
Lemma distribution_ok dofs ndoms : exists dist, dmap_distribution dofs ndoms = Ok dist /\ length dist = dofs * length ndoms + 1 /\
  forall k, k <= dofs * length ndoms -> nth k dist 0 = bound (dofs_rows dofs ndoms) k.
Proof.
  unfold dmap_distribution.
  set (K := dofs * length ndoms). set (rows := dofs_rows dofs ndoms).
  assert (H : exists dist, foldM (distribution_step dofs) (combine (seq 0 (length ndoms)) ndoms) (repeat 0 (K + 1), 0) = Ok (dist, length (concat rows)) /\ length dist = K + 1 /\
     forall k, k < K -> nth k dist 0 = bound rows k).
  { assert (G : forall post pre, ndoms = pre ++ post -> forall dist sum, length dist = K + 1 -> sum = bound rows (dofs * length pre) -> (forall k, k < dofs * length pre -> nth k dist 0 = bound rows k) ->
       exists dist', foldM (distribution_step dofs) (combine (seq (length pre) (length post)) post) (dist, sum) = Ok (dist', length (concat rows)) /\ length dist' = K + 1 /\ forall k, k < K -> nth k dist' 0 = bound rows k).
    { induction post as [|doms post IH]; intros pre E dist sum L Hs Hd.
      - simpl. rewrite app_nil_r in E; subst pre. exists dist; split; [|split; auto].
        rewrite Hs; fold K; f_equal; f_equal. replace K with (length rows) by apply dofs_rows_length; apply bound_all.
      - simpl. unfold distribution_step at 1. cbn [fst snd].
        assert (HK : K = dofs * length pre + dofs + dofs * length post) by (unfold K; rewrite E, app_length; simpl; lia).
        assert (Hrow : forall j, j < dofs -> nth (dofs * length pre + j) rows [] = doms).
        { intros j Hj. unfold rows; rewrite dofs_rows_nth by lia. unfold dof_domains. rewrite (Nat.mul_comm dofs), Nat.div_add_l, Nat.div_small, Nat.add_0_r by lia. rewrite E, app_nth2, Nat.sub_diag by lia; auto. }
        assert (R : forall m j dist sum, j + m = dofs -> length dist = K + 1 -> sum = bound rows (dofs * length pre + j) -> (forall k, k < dofs * length pre + j -> nth k dist 0 = bound rows k) ->
           exists dist', foldM (fun st dof => let '(dist, sum) := st in dist <- wr dist (length pre * dofs + dof) sum ;; Ok (dist, sum + length doms)) (seq j m) (dist, sum) = Ok (dist', bound rows (dofs * length pre + dofs)) /\
             length dist' = K + 1 /\ forall k, k < dofs * length pre + dofs -> nth k dist' 0 = bound rows k).
        { induction m as [|m IHm]; intros j dist1 sum1 Hj L1 Hs1 Hd1; simpl.
          - exists dist1; replace dofs with j in * by lia; subst sum1; auto.
          - rewrite wr_ok by lia. simpl. apply IHm; [lia | rewrite upd_length; auto | |].
            + rewrite Hs1; replace (dofs * length pre + S j) with (S (dofs * length pre + j)) by lia; rewrite bound_S by (unfold rows; rewrite dofs_rows_length; fold K; lia).
              rewrite Hrow by lia; auto.
            + intros k Hk; rewrite nth_upd by lia; replace (length pre * dofs + j) with (dofs * length pre + j) by lia.
              destruct (Nat.eqb_spec (dofs * length pre + j) k); [subst k; auto | apply Hd1; lia]. }
        destruct (R dofs 0 dist sum) as (d1 & E1 & L1 & H1); auto; [rewrite Nat.add_0_r; auto | intros; apply Hd; lia |].
        rewrite E1; cbn [obind]. replace (S (length pre)) with (length (pre ++ [doms])) by (rewrite app_length; simpl; lia).
        apply IH; auto; [rewrite <- app_assoc; auto | f_equal; rewrite app_length; simpl; lia | intros k Hk; apply H1; rewrite app_length in Hk; simpl in Hk; lia]. }
    apply (G ndoms [] eq_refl); auto; [apply repeat_length | | simpl; intros; lia].
    simpl; rewrite Nat.mul_0_r; reflexivity. }
  destruct H as (dist & E & L & H). fold K. rewrite E; cbn [obind]. rewrite wr_ok by lia.
  eexists; split; [reflexivity|]; split; [rewrite upd_length; auto|].
  intros k Hk; rewrite nth_upd, L by lia. replace (K + 1 - 1) with K by lia.
  destruct (Nat.eqb_spec K k); simpl; [|apply H; lia]. subst k.
  replace K with (length rows) by apply dofs_rows_length; rewrite bound_all; auto.
Qed.

(** ** the numbering of the copies of a DOF *)
Section Number.
  Variables (dbegin dend : nat).
  Local Notation my := (is_my dbegin dend).
  Lemma my_range d : my d = true <-> dbegin <= d < dend.
  Proof. unfold is_my; rewrite andb_true_iff, Nat.leb_le, Nat.ltb_lt; tauto. Qed.
  Definition mark (sizes : list nat) (d : nat) : dindex := (d, if my d then Some (nth (d - dbegin) sizes 0) else None).

  Lemma number_copies doms : NoDup doms -> forall A olds B sizes di, length olds = length doms -> Forall (fun o : dindex => snd o = None) olds -> di = length A -> length sizes = dend - dbegin ->
    exists sizes', foldM (number_copy dbegin dend) doms (sizes, A ++ olds ++ B, di) = Ok (sizes', A ++ map (mark sizes) doms ++ B, di + length doms) /\ length sizes' = length sizes /\
      forall d, my d = true -> nth (d - dbegin) sizes' 0 = nth (d - dbegin) sizes 0 + (if memb d doms then 1 else 0).
  Proof.
    induction 1 as [|d doms Hd Hn IH]; intros A olds B sizes di L F E Ls.
    { destruct olds; [|discriminate]; exists sizes; simpl; rewrite Nat.add_0_r; split; auto. }
    destruct olds as [|o olds]; [discriminate|]. inversion F as [|? ? Ho F']; subst.
    cbn [foldM]. unfold number_copy at 1. cbn [app]. rewrite rd_app_at by auto. cbn [obind].
    destruct (my d) eqn:M.
    - pose proof (proj1 (my_range d) M). rewrite (rd_ok _ _ 0) by lia. cbn [obind]. rewrite wr_ok by lia. cbn [obind]. rewrite wr_app_at by auto. cbn [obind].
      destruct (IH (A ++ [(d, Some (nth (d - dbegin) sizes 0))]) olds B (upd sizes (d - dbegin) (nth (d - dbegin) sizes 0 + 1)) (length A + 1)) as (s' & E' & L' & H'); auto.
      { rewrite app_length; auto. } { rewrite upd_length; auto. }
      rewrite <- !app_assoc in E'; cbn [app] in E'. exists s'; split; [|split].
      + etransitivity; [exact E'|]; f_equal; f_equal; [f_equal|simpl; lia]. f_equal. cbn [map app]. replace (mark sizes d) with (d, Some (nth (d - dbegin) sizes 0)) by (unfold mark; rewrite M; auto). f_equal. f_equal.
        apply map_ext_in; intros x Hx. unfold mark; f_equal. destruct (my x) eqn:Mx; auto. f_equal. apply nth_upd_neq. pose proof (proj1 (my_range x) Mx). intros Q. apply Hd. replace d with x by lia; auto.
      + rewrite L', upd_length; auto.
      + intros x Mx; pose proof (proj1 (my_range x) Mx). rewrite H', nth_upd by (auto; lia). cbn [memb existsb]; fold (memb x doms).
        destruct (Nat.eqb_spec (d - dbegin) (x - dbegin)).
        * assert (x = d) by lia; subst x. rewrite Nat.eqb_refl; simpl. rewrite (proj2 (memb_out d doms)) by auto; lia.
        * replace (x =? d) with false by (symmetry; apply Nat.eqb_neq; intros ->; auto). simpl; auto.
    - rewrite Ho, wr_app_at by auto. cbn [obind].
      destruct (IH (A ++ [(d, None)]) olds B sizes (length A + 1)) as (s' & E' & L' & H'); auto. { rewrite app_length; auto. }
      rewrite <- !app_assoc in E'; cbn [app] in E'. exists s'; split; [|split; auto].
      + etransitivity; [exact E'|]; f_equal; f_equal; [f_equal|simpl; lia]. f_equal. cbn [map app]. replace (mark sizes d) with (d, @None nat) by (unfold mark; rewrite M; auto). auto.
      + intros x Mx; rewrite H' by auto. cbn [memb existsb]; fold (memb x doms). replace (x =? d) with false by (symmetry; apply Nat.eqb_neq; intros ->; congruence). auto.
  Qed.

  Variables (rows : list (list nat)).
  Hypothesis rows_nodup : Forall (@NoDup nat) rows.
  Variable dist : list nat.
  Hypothesis dist_ok : length dist = length rows + 1 /\ forall k, k <= length rows -> nth k dist 0 = bound rows k.
  Definition has (d k : nat) : bool := memb d (nth k rows []).
  Definition numbered_row (done : list nat) (k : nat) : list dindex := map (fun d => (d, if my d then Some (index_of k (filter (has d) done)) else None)) (nth k rows []).
  Record inv (done : list nat) (sizes : list nat) (R : list (list dindex)) : Prop := {
    inv_len : map (@length _) R = map (@length _) rows;
    inv_rows : forall k, k < length rows -> nth k R [] = if memb k done then numbered_row done k else repeat (0, None) (length (nth k rows []));
    inv_sizes_len : length sizes = dend - dbegin;
    inv_sizes : forall d, my d = true -> nth (d - dbegin) sizes 0 = length (filter (has d) done) }.

  Lemma len_firstn (R : list (list dindex)) k : map (@length _) R = map (@length _) rows -> length (concat (firstn k R)) = bound rows k.
  Proof. unfold bound; clear; revert k rows; induction R as [|x R IH]; intros k [|r rs] H; try discriminate; destruct k; auto. inversion H. cbn [firstn concat]. rewrite !app_length; f_equal; auto. Qed.
  Lemma len_row (R : list (list dindex)) k : map (@length _) R = map (@length _) rows -> length (nth k R []) = length (nth k rows []).
  Proof. clear; revert k rows; induction R as [|x R IH]; intros k [|r rs] H; try discriminate; [destruct k; auto|]. inversion H; destruct k; auto; cbn; auto. Qed.
  Lemma len_rows (R : list (list dindex)) : map (@length _) R = map (@length _) rows -> length R = length rows.
  Proof. intros H; rewrite <- (map_length (@length _) R), H, map_length; auto. Qed.
  Lemma concat_upd {A} (R : list (list A)) k x : k < length R -> concat (upd R k x) = concat (firstn k R) ++ x ++ concat (skipn (S k) R).
  Proof. revert k; induction R as [|r R IH]; intros [|k] H; cbn in *; try lia; auto. rewrite IH by lia; rewrite app_assoc; auto. Qed.
  Lemma concat_nth {A} (R : list (list A)) k : k < length R -> concat R = concat (firstn k R) ++ nth k R [] ++ concat (skipn (S k) R).
  Proof. revert k; induction R as [|r R IH]; intros [|k] H; cbn in *; try lia; auto. rewrite (IH k) at 1 by lia; rewrite <- app_assoc; auto. Qed.
  Lemma map_length_upd {A} (R : list (list A)) k x : length x = length (nth k R []) -> map (@length _) (upd R k x) = map (@length _) R.
  Proof. revert k; induction R as [|r R IH]; intros [|k] H; cbn in *; auto; f_equal; auto. Qed.

  Lemma number_dof_ok done sizes R k : inv done sizes R -> k < length rows -> ~ In k done ->
    exists sizes' R', number_dof dbegin dend dist (nth k rows []) (sizes, concat R) k = Ok (sizes', concat R') /\ inv (done ++ [k]) sizes' R'.
  Proof.
    intros I Hk Hn. destruct I as [I1 I2 I3 I4]. destruct dist_ok as [D1 D2].
    pose proof (len_rows R I1) as LR. unfold number_dof; cbn [fst snd]. rewrite (rd_ok _ _ 0) by lia. cbn [obind]. rewrite D2 by lia.
    assert (Hrow : nth k R [] = repeat (0, None) (length (nth k rows []))) by (rewrite I2 by auto; rewrite (proj2 (memb_out k done)) by auto; auto).
    destruct (number_copies (nth k rows []) (proj1 (Forall_nth _ _) rows_nodup k [] Hk) (concat (firstn k R)) (nth k R []) (concat (skipn (S k) R)) sizes (bound rows k)) as (s' & E & L & H); auto.
    { apply len_row; auto. } { rewrite Hrow; apply Forall_forall; intros x Hx; apply repeat_spec in Hx; subst; auto. } { symmetry; apply len_firstn; auto. }
    rewrite (concat_nth R k) by lia. rewrite E; cbn [obind]. exists s', (upd R k (map (mark sizes) (nth k rows []))); split.
    { rewrite concat_upd by lia; auto. }
    constructor.
    - rewrite map_length_upd; auto. rewrite map_length; symmetry; apply len_row; auto.
    - intros k' Hk'. rewrite nth_upd by lia. destruct (Nat.eqb_spec k k') as [<-|Hne].
      + rewrite (proj2 (memb_in k (done ++ [k]))) by (apply in_or_app; simpl; auto). unfold numbered_row. apply map_ext_in; intros d Hd. unfold mark; f_equal. destruct (my d) eqn:M; auto. f_equal.
        rewrite I4 by auto. rewrite filter_app, index_of_app_out by (rewrite filter_In; tauto). cbn [filter]. unfold has at 3. rewrite (proj2 (memb_in d _) Hd). simpl. rewrite Nat.eqb_refl; lia.
      + rewrite I2 by auto. unfold memb; rewrite existsb_app; fold (memb k' done). cbn [existsb]. replace (k' =? k) with false by (symmetry; apply Nat.eqb_neq; auto). rewrite !orb_false_r.
        destruct (memb k' done) eqn:Mk; auto. apply memb_in in Mk. unfold numbered_row; apply map_ext_in; intros d Hd. f_equal. destruct (my d); auto. f_equal.
        rewrite filter_app, index_of_app_in; auto. apply filter_In; split; auto. unfold has; apply memb_in; auto.
    - lia.
    - intros d M. rewrite H, I4 by auto. rewrite filter_app, app_length; f_equal. cbn [filter]; unfold has. destruct (memb d (nth k rows [])); auto.
  Qed.

  Lemma inv_start : inv [] (repeat 0 (dend - dbegin)) (map (fun r => repeat (0, None) (length r)) rows).
  Proof.
    constructor.
    - rewrite map_map; apply map_ext; intros; apply repeat_length.
    - intros k Hk. exact (map_nth (fun r : list nat => repeat (0, @None nat) (length r)) rows [] k).
    - apply repeat_length.
    - intros d M; apply my_range in M. rewrite nth_repeat_lt by lia; auto.
  Qed.
  Lemma start_data (n : nat) : n = length (concat rows) -> concat (map (fun r : list nat => repeat (0, @None nat) (length r)) rows) = repeat (0, None) n.
  Proof. intros ->; clear; induction rows as [|r rs IH]; simpl; auto. rewrite app_length, repeat_app, IH; auto. Qed.

  (** the records are the rows *)
  Lemma rows_of_inv done sizes R sizes' : inv done sizes R -> dmap_rows {| n_dist := dist; n_data := concat R; n_sizes := sizes; n_surface := sizes' |} = R.
  Proof.
    intros I. pose proof (inv_len _ _ _ I) as I1. destruct dist_ok as [D1 D2]. pose proof (len_rows R I1) as LR. unfold dmap_rows; cbn.
    rewrite D1. apply nth_ext with (d := []) (d' := []). { rewrite map_length, seq_length; lia. }
    intros k Hk; rewrite map_length, seq_length in Hk. set (f := fun k => slice (nth k dist 0) (nth (k + 1) dist 0) (concat R)).
    rewrite (nth_indep _ _ (f 0)) by (rewrite map_length, seq_length; auto). rewrite (map_nth f). rewrite seq_nth by auto. unfold f; cbn [Nat.add].
    rewrite !D2 by lia. rewrite (concat_nth R k) by lia. unfold slice. rewrite <- (len_firstn R k) by auto. rewrite skipn_app, skipn_all, Nat.sub_diag; cbn [app skipn].
    replace (bound rows (k + 1)) with (bound rows k + length (nth k R [])) by (rewrite Nat.add_1_r, bound_S, (len_row R) by (auto; lia); auto).
    rewrite (len_firstn R k) by auto. replace (bound rows k + length (nth k R []) - bound rows k) with (length (nth k R [])) by lia.
    rewrite firstn_app, firstn_all, Nat.sub_diag; simpl; rewrite app_nil_r; auto.
  Qed.
End Number.

Lemma ss_ext l : forall l', StronglySorted lt l -> StronglySorted lt l' -> (forall x, In x l <-> In x l') -> l = l'.
Proof.
  induction l as [|a l IH]; intros [|b l'] H H' E; auto.
  { exfalso; apply (proj2 (E b)); simpl; auto. } { exfalso; apply (proj1 (E a)); simpl; auto. }
  inversion H as [|? ? Hl Fl]; inversion H' as [|? ? Hl' Fl']; subst. rewrite Forall_forall in Fl, Fl'.
  assert (a = b). { destruct (proj1 (E a) (or_introl eq_refl)) as [Q|Q]; auto. destruct (proj2 (E b) (or_introl eq_refl)) as [Q'|Q']; auto. apply Fl' in Q; apply Fl in Q'; lia. }
  subst b; f_equal; apply IH; auto. intros x; split; intros Hx.
  - destruct (proj1 (E x) (or_intror Hx)) as [Q|Q]; auto. subst; apply Fl in Hx; lia.
  - destruct (proj2 (E x) (or_intror Hx)) as [Q|Q]; auto. subst; apply Fl' in Hx; lia.
Qed.
Lemma sorted_filter_seq l K : StronglySorted lt l -> Forall (fun k => k < K) l -> filter (fun k => memb k l) (seq 0 K) = l.
Proof. intros H F; rewrite Forall_forall in F. apply ss_ext; auto; [apply L_Equality.ss_filter, L_Equality.ss_seq|].
  intros x; rewrite filter_In, memb_in, in_seq; split; [tauto | intros Hx; split; auto; apply F in Hx; lia]. Qed.
Lemma filter_comm {A} (f g : A -> bool) l : filter f (filter g l) = filter g (filter f l).
Proof. induction l as [|x l IH]; simpl; auto. destruct (f x) eqn:F, (g x) eqn:G; simpl; rewrite ?F, ?G, ?IH; auto. Qed.
Lemma seq_snoc b n : seq b (S n) = seq b n ++ [b + n].
Proof. rewrite seq_S; auto. Qed.

Section Fill.
  Variables (dofs dbegin dend : nat) (ndoms : list (list nat)) (surface : list nat).
  Hypothesis Hdofs : 0 < dofs.
  Hypothesis Hnodup : Forall (@NoDup nat) ndoms.
  Hypothesis Hsurf : is_surface dofs ndoms surface dbegin dend.
  Local Notation rows := (dofs_rows dofs ndoms).
  Local Notation K := (dofs * length ndoms).
  Local Notation inv := (inv dbegin dend rows).
  Lemma rows_nodup : Forall (@NoDup nat) rows.
  Proof. apply Forall_forall; intros r Hr; apply in_flat_map in Hr; destruct Hr as (x & Hx & Hr); apply repeat_spec in Hr; subst; rewrite Forall_forall in Hnodup; auto. Qed.

  Lemma fem_loop dist : length dist = length rows + 1 /\ (forall k, k <= length rows -> nth k dist 0 = bound rows k) ->
    exists sizes R, foldM (number_node dofs dbegin dend dist) ndoms (repeat 0 (dend - dbegin), repeat (0, None) (dofs * length (concat ndoms)), 0) = Ok (sizes, concat R, K) /\ inv (seq 0 K) sizes R.
  Proof.
    intros Hd. pose proof (inv_start dbegin dend rows dist Hd) as I0.
    rewrite <- (start_data rows) by (symmetry; apply concat_dofs_rows). revert I0. generalize (map (fun r : list nat => repeat (0, @None nat) (length r)) rows), (repeat 0 (dend - dbegin)). intros R sizes I0.
    set (f := fun doms (st : list nat * list dindex * nat) => let '(sizes, data, k) := st in '(sizes, data) <- number_dof dbegin dend dist doms (sizes, data) k ;; Ok (sizes, data, k + 1)).
    assert (G : forall post pre sizes R, rows = pre ++ post -> inv (seq 0 (length pre)) sizes R ->
       exists sizes' R', foldM (fun s doms => f doms s) post (sizes, concat R, length pre) = Ok (sizes', concat R', length rows) /\ inv (seq 0 (length rows)) sizes' R').
    { clear sizes R I0. induction post as [|r post IH]; intros pre sizes R E I.
      - rewrite app_nil_r in E. assert (E2 : length rows = length pre) by (rewrite E; auto). exists sizes, R; rewrite E2; split; auto.
      - assert (L : length pre < length rows) by (rewrite E, app_length; simpl; lia).
        assert (Hr : nth (length pre) rows [] = r) by (rewrite E, app_nth2, Nat.sub_diag; auto).
        destruct (number_dof_ok dbegin dend rows rows_nodup dist Hd (seq 0 (length pre)) sizes R (length pre) I L) as (s' & R' & E' & I'). { rewrite in_seq; lia. }
        cbn [foldM]. replace (f r (sizes, concat R, length pre)) with (Ok (s', concat R', length pre + 1)) by (unfold f; rewrite <- Hr, E'; auto). cbn [obind].
        replace (length pre + 1) with (length (pre ++ [r])) by (rewrite app_length; auto). apply IH; [rewrite <- app_assoc; auto|].
        rewrite app_length; cbn [length]; rewrite Nat.add_1_r, seq_snoc; auto. }
    destruct (G rows [] sizes R eq_refl I0) as (s' & R' & E & I). rewrite dofs_rows_length in E, I. exists s', R'; split; auto.
    rewrite <- E. cbn [length]. unfold dofs_rows. rewrite <- foldM_repeat_ign. reflexivity.
  Qed.

  Lemma surface_loop dist : length dist = length rows + 1 /\ (forall k, k <= length rows -> nth k dist 0 = bound rows k) ->
    exists sizes R, foldM (number_surface dofs dbegin dend ndoms dist) surface (repeat 0 (dend - dbegin), repeat (0, None) (dofs * length (concat ndoms))) = Ok (sizes, concat R) /\ inv surface sizes R.
  Proof.
    intros Hd. destruct Hsurf as (Hs & Hf & _). pose proof (inv_start dbegin dend rows dist Hd) as I0.
    rewrite <- (start_data rows) by (symmetry; apply concat_dofs_rows). revert I0. generalize (map (fun r : list nat => repeat (0, @None nat) (length r)) rows), (repeat 0 (dend - dbegin)). intros R sizes I0.
    assert (G : forall post pre sizes R, surface = pre ++ post -> inv pre sizes R ->
       exists sizes' R', foldM (number_surface dofs dbegin dend ndoms dist) post (sizes, concat R) = Ok (sizes', concat R') /\ inv surface sizes' R').
    { clear sizes R I0. induction post as [|k post IH]; intros pre sizes R E I.
      - rewrite app_nil_r in E; subst pre. exists sizes, R; split; auto.
      - assert (Hk : k < K). { rewrite Forall_forall in Hf; apply Hf; rewrite E; apply in_or_app; simpl; auto. }
        assert (Hn : ~ In k pre). { apply L_Equality.ss_nodup in Hs; rewrite E in Hs. apply NoDup_remove_2 in Hs. intros Q; apply Hs; apply in_or_app; auto. }
        destruct (number_dof_ok dbegin dend rows rows_nodup dist Hd pre sizes R k I) as (s' & R' & E' & I'); auto. { rewrite dofs_rows_length; auto. }
        cbn [foldM]. unfold number_surface at 1. rewrite (rd_ok _ _ []) by (apply Nat.div_lt_upper_bound; lia). cbn [obind].
        rewrite dofs_rows_nth in E' by auto. unfold dof_domains in E'; rewrite E'. cbn [obind]. apply (IH (pre ++ [k])); auto. rewrite <- app_assoc; auto. }
    apply (G surface []); auto.
  Qed.

  Definition rest (n : nat) : list nat := filter (fun k => negb (memb k surface)) (seq 0 n).
  Lemma rest_loop dist sizes R : surface <> [] -> length dist = length rows + 1 /\ (forall k, k <= length rows -> nth k dist 0 = bound rows k) -> inv surface sizes R ->
    exists sizes' R' s k, foldM (number_rest dofs dbegin dist) ndoms (sizes, concat R, surface, 0) = Ok (sizes', concat R', s, k) /\ inv (surface ++ rest K) sizes' R'.
  Proof.
    intros Hne Hd I0. destruct Hsurf as (Hs & Hf & Hr).
    assert (G : forall post pre sizes R surf, rows = pre ++ post -> inv (surface ++ rest (length pre)) sizes R -> StronglySorted lt surf -> (forall x, In x surf <-> In x surface /\ length pre <= x) ->
       exists sizes' R' s k, foldM (fun s doms => number_rest_dof dbegin dist doms s) post (sizes, concat R, surf, length pre) = Ok (sizes', concat R', s, k) /\ inv (surface ++ rest (length rows)) sizes' R').
    { clear sizes R I0. induction post as [|r post IH]; intros pre sizes R surf E I Ss Hin.
      - rewrite app_nil_r in E. assert (E2 : length rows = length pre) by (rewrite E; auto). exists sizes, R, surf, (length pre); rewrite E2; split; auto.
      - assert (L : length pre < length rows) by (rewrite E, app_length; simpl; lia).
        assert (Hrow : nth (length pre) rows [] = r) by (rewrite E, app_nth2, Nat.sub_diag; auto).
        assert (RS : rest (length (pre ++ [r])) = rest (length pre) ++ (if memb (length pre) surface then [] else [length pre])).
        { unfold rest; rewrite app_length; cbn [length]; rewrite Nat.add_1_r, seq_snoc, filter_app; f_equal. cbn [filter Nat.add]. destruct (memb _ _); auto. }
        assert (Hhead : match surf with [] => true | s :: _ => negb (s =? length pre) end = negb (memb (length pre) surface)).
        { destruct (memb (length pre) surface) eqn:M.
          - apply memb_in in M. destruct surf as [|s surf]; [exfalso; apply (proj2 (Hin (length pre))); auto|]. destruct (proj2 (Hin (length pre)) (conj M (le_n _))) as [Q|Q]; [subst; rewrite Nat.eqb_refl; auto|].
            inversion Ss as [|? ? _ F]; rewrite Forall_forall in F; apply F in Q. destruct (proj1 (Hin s) (or_introl eq_refl)); lia.
          - apply memb_out in M. destruct surf as [|s surf]; auto. destruct (Nat.eqb_spec s (length pre)); auto. exfalso; apply M. rewrite <- e. apply (Hin s); simpl; auto. }
        assert (Hsurf' : let surf' := match surf with s :: t => if s =? length pre then t else surf | [] => [] end in StronglySorted lt surf' /\ forall x, In x surf' <-> In x surface /\ length (pre ++ [r]) <= x).
        { rewrite app_length; cbn [length]. destruct surf as [|s surf]; simpl.
          - split; [constructor|]. intros x; split; [tauto|]. intros [Q1 Q2]; apply (Hin x); split; auto; lia.
          - inversion Ss as [|? ? S1 F]; subst. destruct (Nat.eqb_spec s (length pre)) as [Q|Q].
            + split; auto. rewrite Forall_forall in F. intros x; split; [intros Hx; split; [apply (Hin x); simpl; auto | apply F in Hx; lia]|].
              intros [Q1 Q2]; destruct (proj2 (Hin x)) as [Q3|Q3]; auto; [split; auto; lia | lia].
            + split; auto. intros x; change (s = x \/ In x surf) with (In x (s :: surf)). rewrite Hin. split; intros [Q1 Q2]; split; auto; try lia.
              destruct (Nat.eq_dec x (length pre)); [|lia]. exfalso. subst x. rewrite (proj2 (memb_in _ _) Q1) in Hhead. destruct (Nat.eqb_spec s (length pre)); auto; discriminate. }
        destruct Hsurf' as (S1 & S2). cbn [foldM]. unfold number_rest_dof at 1. rewrite Hhead.
        replace (length pre + 1) with (length (pre ++ [r])) by (rewrite app_length; auto).
        destruct (memb (length pre) surface) eqn:M; cbn [negb].
        + cbn [obind]. apply IH; auto; [rewrite <- app_assoc; auto | rewrite RS, app_nil_r; auto].
        + apply memb_out in M. destruct (Hr Hne (length pre)) as (d & Ed & Hmy); auto. { rewrite dofs_rows_length in L; auto. }
          rewrite dofs_rows_nth in Hrow by auto. rewrite Ed in Hrow; subst r.
          destruct (number_dof_ok dbegin dend rows rows_nodup dist Hd _ sizes R (length pre) I L) as (s' & R' & E' & I').
          { rewrite in_app_iff; unfold rest; rewrite filter_In, in_seq; intros [Q|[Q _]]; [auto|lia]. }
          rewrite dofs_rows_nth, Ed in E' by auto. unfold number_dof in E'. destruct (rd dist (length pre)) as [di| |] eqn:Edi; cbn [obind] in E' |- *; try discriminate.
          cbn [foldM obind number_copy fst snd] in E'. rewrite (proj2 (my_range dbegin dend d) Hmy) in E'. cbn [rd nth_error obind]. change (rd [d] 0) with (Ok d). cbn [obind].
          replace (d <? dbegin) with false by (symmetry; apply Nat.ltb_ge; lia).
          destruct (rd (concat R) di) as [old| |] eqn:Eo; cbn [obind] in E'; try discriminate.
          destruct (rd sizes (d - dbegin)) as [s| |] eqn:Es; cbn [obind] in E' |- *; try discriminate.
          destruct (wr sizes (d - dbegin) (s + 1)) as [s1| |] eqn:Ew; cbn [obind] in E' |- *; try discriminate.
          destruct (wr (concat R) di (d, Some s)) as [dt| |] eqn:Ed2; cbn [obind] in E' |- *; try discriminate.
          inversion E'; subst s1 dt. apply IH; auto; [rewrite <- app_assoc; auto | rewrite RS, app_assoc; auto]. }
    destruct (G rows [] sizes R surface eq_refl) as (s' & R' & s & k & E & I); auto. { cbn [length rest seq filter]; unfold rest; simpl; rewrite app_nil_r; auto. } { simpl; intros x; split; [intros; split; auto; lia | tauto]. }
    rewrite dofs_rows_length in I. exists s', R', s, k; split; auto. rewrite <- E. cbn [length]. unfold dofs_rows, number_rest. rewrite <- foldM_repeat_ign; auto.
  Qed.

  Lemma order_surface d : filter (has rows d) surface = filter (fun k => memb k surface) (filter (fun k => memb d (dof_domains dofs ndoms k)) (all_dofs dofs ndoms)).
  Proof. destruct Hsurf as (Hs & Hf & _). rewrite filter_comm. unfold all_dofs. rewrite sorted_filter_seq by auto. apply filter_ext; intros k; unfold has; rewrite dofs_rows_nth; auto. Qed.
  Lemma order_rest d : filter (has rows d) (rest K) = filter (fun k => negb (memb k surface)) (filter (fun k => memb d (dof_domains dofs ndoms k)) (all_dofs dofs ndoms)).
  Proof. unfold rest, all_dofs. rewrite filter_comm. f_equal. apply filter_ext; intros k; unfold has; rewrite dofs_rows_nth; auto. Qed.
  Lemma order_all d : filter (has rows d) (surface ++ rest K) = domain_dofs dofs ndoms surface d.
  Proof. rewrite filter_app, order_surface, order_rest; auto. Qed.

  Lemma list_of_my (l : list nat) (f : nat -> nat) : length l = dend - dbegin -> (forall d, is_my dbegin dend d = true -> nth (d - dbegin) l 0 = f d) -> l = map f (seq dbegin (dend - dbegin)).
  Proof. intros L H. apply nth_ext with (d := 0) (d' := f 0); [rewrite map_length, seq_length; auto|]. intros i Hi. rewrite map_nth, seq_nth by lia. rewrite <- H; [f_equal; lia | apply my_range; lia]. Qed.

  Lemma fill_decomposition_ok : exists N, fill_decomposition dofs dbegin dend ndoms surface = Ok N /\
    n_sizes N = map (fun d => length (domain_dofs dofs ndoms surface d)) (seq dbegin (dend - dbegin)) /\
    n_surface N = map (fun d => length (filter (fun k => memb k surface) (domain_dofs dofs ndoms surface d))) (seq dbegin (dend - dbegin)) /\
    dmap_rows N = map (fun k => map (fun d => (d, if is_my dbegin dend d then Some (index_of k (domain_dofs dofs ndoms surface d)) else None)) (dof_domains dofs ndoms k)) (all_dofs dofs ndoms).
  Proof.
    destruct (distribution_ok dofs ndoms) as (dist & Ed & Ld & Hd). assert (HD : length dist = length rows + 1 /\ (forall k, k <= length rows -> nth k dist 0 = bound rows k)) by (rewrite dofs_rows_length; auto).
    unfold fill_decomposition. rewrite Ed; cbn [obind].
    assert (FIN : forall sizes R, inv (surface ++ rest K) sizes R -> sizes = map (fun d => length (domain_dofs dofs ndoms surface d)) (seq dbegin (dend - dbegin)) /\
       R = map (fun k => map (fun d => (d, if is_my dbegin dend d then Some (index_of k (domain_dofs dofs ndoms surface d)) else None)) (dof_domains dofs ndoms k)) (all_dofs dofs ndoms)).
    { intros sizes R I. split.
      - apply list_of_my; [apply (inv_sizes_len _ _ _ _ _ _ I)|]. intros d M; rewrite (inv_sizes _ _ _ _ _ _ I d M), order_all; auto.
      - apply nth_ext with (d := []) (d' := []). { rewrite (len_rows rows R (inv_len _ _ _ _ _ _ I)), dofs_rows_length, map_length; unfold all_dofs; rewrite seq_length; auto. }
        intros k Hk. rewrite (len_rows rows R (inv_len _ _ _ _ _ _ I)) in Hk. rewrite (inv_rows _ _ _ _ _ _ I k Hk). rewrite dofs_rows_length in Hk.
        replace (memb k (surface ++ rest K)) with true. 2:{ symmetry; apply memb_in, in_or_app. destruct (memb k surface) eqn:M; [left; apply memb_in; auto | right; unfold rest; apply filter_In; rewrite in_seq, M; split; auto; lia]. }
        set (g := fun k => map (fun d => (d, if is_my dbegin dend d then Some (index_of k (domain_dofs dofs ndoms surface d)) else None)) (dof_domains dofs ndoms k)).
        rewrite (nth_indep _ [] (g 0)) by (rewrite map_length; unfold all_dofs; rewrite seq_length; auto). rewrite (map_nth g). unfold all_dofs; rewrite seq_nth by auto. unfold g, numbered_row; cbn [Nat.add].
        rewrite dofs_rows_nth by auto. apply map_ext; intros d. rewrite order_all; auto. }
    destruct (Nat.eqb_spec (length surface) 0) as [L0|L0]; cbn [negb]; [apply length_zero_iff_nil in L0|].
    - destruct (fem_loop dist HD) as (sizes & R & E & I). rewrite E; cbn [obind].
      assert (I' : inv (surface ++ rest K) sizes R). { replace (surface ++ rest K) with (seq 0 K); auto. unfold rest; rewrite L0; cbn [app]. clear. induction (seq 0 K); simpl; f_equal; auto. }
      destruct (FIN sizes R I') as [F1 F2]. eexists; split; [reflexivity|]; split; [exact F1|]; split; [cbn [n_surface]|].
      + apply list_of_my; [apply repeat_length|]. intros d M; apply my_range in M. rewrite nth_repeat_lt by lia. rewrite L0. clear. symmetry. apply length_zero_iff_nil. induction (domain_dofs dofs ndoms [] d); simpl; auto.
      + rewrite (rows_of_inv dbegin dend rows dist HD (seq 0 K)); auto.
    - destruct (surface_loop dist HD) as (sizes & R & E & I). rewrite E; cbn [obind].
      destruct (rest_loop dist sizes R) as (sizes' & R' & s & k & E' & I'); auto. { intros Q; rewrite Q in L0; auto. } rewrite E'; cbn [obind].
      destruct (FIN sizes' R' I') as [F1 F2]. eexists; split; [reflexivity|]; split; [exact F1|]; split; [cbn [n_surface]|].
      + apply list_of_my; [apply (inv_sizes_len _ _ _ _ _ _ I)|]. intros d M; rewrite (inv_sizes _ _ _ _ _ _ I d M). f_equal. rewrite order_surface. unfold domain_dofs. rewrite filter_app.
        set (l := filter (fun k0 => memb d (dof_domains dofs ndoms k0)) (all_dofs dofs ndoms)). clearbody l. clear.
        assert (A : forall l, filter (fun k => memb k surface) (filter (fun k => memb k surface) l) = filter (fun k => memb k surface) l) by (clear; induction l as [|x l IH]; simpl; auto; destruct (memb x surface) eqn:M; simpl; rewrite ?M, ?IH; auto).
        assert (B : forall l, filter (fun k => memb k surface) (filter (fun k => negb (memb k surface)) l) = []) by (clear; induction l as [|x l IH]; simpl; auto; destruct (memb x surface) eqn:M; simpl; rewrite ?M, ?IH; auto).
        rewrite A, B, app_nil_r; auto.
      + rewrite (rows_of_inv dbegin dend rows dist HD _ _ _ _ I'); auto.
  Qed.
End Fill.
