(** * Lemmas on the assembly of distributed matrices: values on all ranks *)
From Coq Require Import List Arith Bool Lia Sorted.
From Verif Require Import Base M_Indexing M_Assembly M_Distributed S_Distributed M_DistMatrix S_DistMatrix M_DistMatrixSync S_DistMatrixSync S_Assembly L_Equality L_TotalFeti L_Csx2 L_Fill L_Fill2 L_Utils L_Numbering L_Pattern L_Pattern3 L_Distributed L_Distributed2 L_DistMatrixSync L_DistMatrixSync2 L_DistMatrixFill.
Import ListNotations.
Local Open Scope out_scope.

Lemma is_key_iff g c x : is_key g c x = true <-> x = (g, c).
Proof. destruct x as [a b]. unfold is_key. cbn [fst snd]. rewrite andb_true_iff, !Nat.eqb_eq. split; [intros [-> ->]; auto|intros E; inversion E; auto]. Qed.
Lemma filter_key {T} (d : T) g c ks : forall (vs : list T) j, NoDup ks -> length vs = length ks -> nth_error ks j = Some (g, c) ->
  map snd (filter (fun x : nat * nat * T => is_key g c (fst x)) (combine ks vs)) = [nth j vs d].
Proof.
  induction ks as [|k ks IH]; intros [|v vs] j ND L H; simpl in L; try lia; [destruct j; discriminate|]. inversion ND; subst. cbn [combine filter fst].
  destruct j as [|j]; cbn [nth_error nth] in *.
  - injection H as ->. replace (is_key g c (g, c)) with true by (symmetry; apply is_key_iff; auto). cbn [map snd]. rewrite L_Fill.filter_none; auto. intros [y w] Hy. cbn [fst]. destruct (is_key g c y) eqn:E; auto. apply is_key_iff in E. subst. apply in_combine_l in Hy. contradiction.
  - destruct (is_key g c k) eqn:E; [apply is_key_iff in E; subst; apply nth_error_In in H; contradiction|]. apply IH; auto; lia.
Qed.
Lemma filter_no_key {T} g c ks (vs : list T) : ~ In (g, c) ks -> map snd (filter (fun x : nat * nat * T => is_key g c (fst x)) (combine ks vs)) = [].
Proof. intros H. rewrite L_Fill.filter_none; auto. intros [y w] Hy. cbn [fst]. destruct (is_key g c y) eqn:E; auto. apply is_key_iff in E. subst. apply in_combine_l in Hy. contradiction. Qed.
Lemma flat_map_if {A B} (b : A -> bool) (f : A -> B) l : flat_map (fun x => if b x then [f x] else []) l = map f (filter b l).
Proof. induction l as [|x l IH]; auto. cbn [flat_map filter]. destruct (b x); cbn [app map]; f_equal; auto. Qed.
Lemma flat_map_nil {A B} (f : A -> list B) l : (forall x, In x l -> f x = []) -> flat_map f l = [].
Proof. induction l as [|x l IH]; intros H; auto. cbn [flat_map]. rewrite (H x) by (left; auto). apply IH. intros; apply H; right; auto. Qed.
Lemma seq_split3 k n : k < n -> seq 0 n = seq 0 k ++ k :: seq (S k) (n - S k).
Proof. intros H. replace n with (k + S (n - S k)) at 1 by lia. rewrite seq_app. auto. Qed.

Section Mesh.
  Variables (dofs : nat) (nb : list (list nat)) (ms : list mesh_part) (ps : list dpattern).
  Hypothesis dofs_pos : 0 < dofs.
  Hypothesis DM : distributed_mesh nb ms.
  Hypothesis ps_len : length ps = length ms.
  Hypothesis ps_rows : forall r, r < length ms -> rows_of_mesh dofs ms (nth r ms no_part) (nth r ps no_pattern).
  Notation us := (map mp_info ms).
  Notation stored r := (stored_dofs dofs (nth r us no_info)).
  Notation pt r := (nth r ps no_pattern).
  Notation kp r := (kpos ps r).

  Lemma keys_prefix r n : r < length ms -> n <= length (stored r) -> length (flat_map (fun i => map (pair (nth i (stored r) 0)) (slice (nth i (dp_row (pt r)) 0) (nth (i + 1) (dp_row (pt r)) 0) (dp_column (pt r)))) (seq 0 n)) = nth n (dp_row (pt r)) 0.
  Proof.
    intros Hr. induction n as [|n IH]; intros H.
    - destruct (ps_rows r Hr) as (_ & Z & _). cbn. auto.
    - rewrite seq_S, flat_map_app, app_length, IH by lia. cbn [flat_map plus]. rewrite app_nil_r, map_length. destruct (prow_ok dofs nb ms ps dofs_pos DM ps_len ps_rows r n Hr ltac:(lia)) as (B & _). rewrite slice_length by exact B. rewrite Nat.add_1_r in *. lia.
  Qed.
  Lemma keys_at r k c : r < length ms -> k < length (stored r) -> In c (prow_of ps r k) -> nth_error (keys dofs us ps r) (kp r (k, c)) = Some (nth k (stored r) 0, c).
  Proof.
    intros Hr Hk Hc. unfold keys, entry_keys. rewrite (seq_split3 k) by auto. rewrite flat_map_app. cbn [flat_map]. unfold kpos. cbn [fst snd]. rewrite nth_error_app2; rewrite keys_prefix by (auto; lia); [|lia].
    replace (nth k (dp_row (pt r)) 0 + index_of c (prow_of ps r k) - nth k (dp_row (pt r)) 0) with (index_of c (prow_of ps r k)) by lia. pose proof (index_of_lt _ _ Hc) as L. change (slice (nth k (dp_row (pt r)) 0) (nth (k + 1) (dp_row (pt r)) 0) (dp_column (pt r))) with (prow_of ps r k). rewrite nth_error_app1 by (rewrite map_length; auto). apply map_nth_error. apply index_of_in; auto.
  Qed.
  Lemma in_keys r g c : r < length ms -> In (g, c) (keys dofs us ps r) -> exists k, k < length (stored r) /\ nth k (stored r) 0 = g /\ In c (prow_of ps r k).
  Proof.
    intros Hr H. unfold keys, entry_keys in H. apply in_flat_map in H. destruct H as (k & Hk & H). apply in_seq in Hk. apply in_map_iff in H. destruct H as (c' & E & H). inversion E; subst. exists k. repeat split; auto. lia.
  Qed.
  Lemma keys_nodup r : r < length ms -> NoDup (keys dofs us ps r).
  Proof.
    intros Hr. apply (NoDup_map_inv (enc (grow dofs ms ps))). rewrite <- (stored' dofs nb ms ps dofs_pos DM ps_len ps_rows r Hr).
    apply (stored_nodup 1 nb (us' dofs ms ps) Nat.lt_0_1 (numbered' dofs nb ms ps dofs_pos DM ps_len)). rewrite us'_len; auto.
  Qed.
  Lemma keys_len r : r < length ms -> length (keys dofs us ps r) = length (dp_column (pt r)).
  Proof.
    intros Hr. unfold keys, entry_keys. rewrite keys_prefix by auto. rewrite (stored_len dofs nb ms DM r Hr). destruct (ps_rows r Hr) as (_ & _ & Z & _). exact Z.
  Qed.
  Lemma in_stored_node r g : r < length ms -> In g (stored r) <-> In (g / dofs) (u_position (mp_info (nth r ms no_part))).
  Proof.
    intros Hr. rewrite (stored_nodes dofs nb ms DM r Hr). generalize (u_position (mp_info (nth r ms no_part))). intros l. unfold node_dofs. rewrite in_flat_map. split.
    - intros (n & Hn & H). apply in_map_iff in H. destruct H as (d & <- & Hd). apply in_seq in Hd. rewrite Nat.mul_comm, Nat.div_add_l, Nat.div_small by lia. rewrite Nat.add_0_r. auto.
    - intros H. exists (g / dofs). split; auto. apply in_map_iff. exists (g mod dofs). split; [symmetry; apply Nat.div_mod; lia|]. apply in_seq. pose proof (Nat.mod_upper_bound g dofs ltac:(lia)). lia.
  Qed.

  Section Values.
    Context {T : Type} (zero : T) (add : T -> T -> T).
    Variable F : nat -> nat -> nat -> T.
    Variable vs : list (list T).
    Hypothesis vs_len : is_matrix us ps vs.
    Hypothesis vs_ok : forall r k g c, r < length ms -> k < length (stored r) -> nth k (stored r) 0 = g -> In c (prow_of ps r k) -> nth (kp r (k, c)) (nth r vs []) zero = F r g c.
    Lemma entry_value r g c x : has_entry dofs us ps vs r g c x -> x = F r g c.
    Proof.
      intros (Hr & j & H1 & H2). rewrite map_length in Hr. destruct (in_keys r g c Hr ltac:(eapply nth_error_In; eauto)) as (k & Hk & E & Hc). pose proof (keys_at r k c Hr Hk Hc) as H3. rewrite E in H3.
      assert (j = kp r (k, c)). { apply (proj1 (NoDup_nth_error (keys dofs us ps r)) (keys_nodup r Hr)); [apply nth_error_Some; congruence|congruence]. } subst j.
      rewrite <- (vs_ok r k g c) by auto. symmetry. apply nth_error_nth. auto.
    Qed.
    Lemma entry_values_ranks r0 g c : r0 < length ms -> In (g, c) (keys dofs us ps r0) -> entry_values dofs us ps vs g c = map (fun r => F r g c) (ranks_with dofs ms g).
    Proof.
      intros Hr0 H0. unfold entry_values, ranks_with. rewrite map_length. rewrite <- (flat_map_if (fun r => memb (g / dofs) (u_position (mp_info (nth r ms no_part)))) (fun r => F r g c)). apply flat_map_ext_in. intros r Hr. apply in_seq in Hr.
      destruct (memb (g / dofs) (u_position (mp_info (nth r ms no_part)))) eqn:M.
      - apply memb_iff in M. apply in_stored_node in M; [|lia]. destruct (In_nth _ _ 0 M) as (k & Hk & E). destruct (in_keys r0 g c Hr0 H0) as (k0 & Hk0 & E0 & Hc0).
        assert (Hc : In c (prow_of ps r k)). { rewrite <- (prow_agree dofs nb ms ps dofs_pos DM ps_len ps_rows r0 k0 r k) by (auto; try lia; congruence). auto. }
        pose proof (keys_at r k c ltac:(lia) Hk Hc) as K. rewrite E in K. destruct vs_len as [_ V]. rewrite (filter_key zero g c _ _ (kp r (k, c))); auto; [|apply keys_nodup; lia|rewrite keys_len by lia; apply V; rewrite map_length; lia]. f_equal. apply vs_ok; auto; lia.
      - apply filter_no_key. intros C. destruct (in_keys r g c ltac:(lia) C) as (k & Hk & E & _). assert (I : In g (stored r)) by (rewrite <- E; apply nth_In; auto). apply in_stored_node in I; [|lia]. apply memb_iff in I. congruence.
    Qed.
    Lemma gather_assembled ys : Ready 1 nb (us' dofs ms ps) ys -> exists ys' vs', gather_matrix add (ys, vs) = Ok (ys', vs') /\ is_matrix us ps vs' /\
      forall r g c x, has_entry dofs us ps vs' r g c x -> (owner dofs us r g -> x = total zero add (map (fun r => F r g c) (ranks_with dofs ms g))) /\ (~ owner dofs us r g -> x = F r g c).
    Proof.
      intros R. destruct (gather_entries dofs nb ms ps dofs_pos DM ps_len ps_rows zero add ys vs R vs_len) as (ys' & vs' & E & M & H). exists ys', vs'. split; auto. split; auto. intros r g c x Hx. destruct (H r g c x Hx) as [H1 H2]. split.
      - intros O. rewrite (H1 O). f_equal. destruct Hx as (Hr & k & K & _). rewrite map_length in Hr. apply (entry_values_ranks r); auto. eapply nth_error_In; eauto.
      - intros O. apply entry_value. auto.
    Qed.
  End Values.
End Mesh.

(** ** sums *)
Section Sum.
  Context {T : Type} (zero : T) (add : T -> T -> T).
  Hypothesis add_assoc : forall a b c, add a (add b c) = add (add a b) c.
  Hypothesis add_0_l : forall a, add zero a = a.
  Hypothesis add_0_r : forall a, add a zero = a.
  Lemma fold_add l : forall a, fold_left add l a = add a (fold_left add l zero).
  Proof. induction l as [|x l IH]; intros a; cbn [fold_left]; [rewrite add_0_r; auto|]. rewrite IH, (IH (add zero x)), add_0_l, add_assoc. auto. Qed.
  Lemma total_fold l : total zero add l = fold_left add l zero.
  Proof. destruct l as [|x l]; auto. cbn [total fold_left]. rewrite add_0_l. auto. Qed.
  Lemma fold_flat {A} (f : A -> list T) l : fold_left add (map (fun x => fold_left add (f x) zero) l) zero = fold_left add (flat_map f l) zero.
  Proof. induction l as [|x l IH]; auto. cbn [map flat_map fold_left]. rewrite fold_left_app, add_0_l. rewrite fold_add, IH, <- fold_add. auto. Qed.
  Lemma flat_filter {A B} (b : A -> bool) (f : A -> list B) l : (forall x, In x l -> b x = false -> f x = []) -> flat_map f (filter b l) = flat_map f l.
  Proof. induction l as [|x l IH]; intros H; auto. cbn [filter flat_map]. destruct (b x) eqn:E; cbn [flat_map]; rewrite IH by (intros; apply H; simpl; auto); auto. rewrite (H x) by (simpl; auto). auto. Qed.
End Sum.
