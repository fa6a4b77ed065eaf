(** * Lemmas on the assembly of distributed matrices *)
From Coq Require Import List Arith Bool Lia Sorted.
From Verif Require Import Base M_Indexing M_Assembly M_Distributed S_Distributed M_DistMatrix S_DistMatrix M_DistMatrixSync S_DistMatrixSync S_Assembly L_Equality L_TotalFeti L_Csx2 L_Fill L_Fill2 L_Utils L_Numbering L_Pattern L_Pattern3 L_Distributed L_Distributed2 L_DistMatrix4 L_Pattern4 L_DistMatrixSync L_DistMatrixSync2.
Import ListNotations.
Local Open Scope out_scope.

Lemma Forall2_map_eq {A B} (R : A -> B -> Prop) (f : A -> B) l l' : Forall2 R l l' -> (forall a b, In a l -> R a b -> b = f a) -> l' = map f l.
Proof. induction 1 as [|a b l l' H F IH]; intros Q; auto. cbn [map]. rewrite <- (Q a b) by (auto; left; auto). f_equal. apply IH. intros; apply Q; auto; right; auto. Qed.
Lemma Forall2_in {A B} (R : A -> B -> Prop) l l' a : Forall2 R l l' -> In a l -> exists b, R a b /\ In b l'.
Proof. induction 1 as [|x y l l' H F IH]; intros []; [subst; exists y; split; simpl; auto|]. destruct (IH H0) as (b & ? & ?). exists b. split; simpl; auto. Qed.
Lemma map_flat_map {A B C} (f : B -> C) (g : A -> list B) l : map f (flat_map g l) = flat_map (fun x => map f (g x)) l.
Proof. induction l as [|x l IH]; auto. cbn [flat_map]. rewrite map_app, IH. auto. Qed.
Lemma flat_map_flat {A B C} (f : B -> list C) (g : A -> list B) l : flat_map f (flat_map g l) = flat_map (fun x => flat_map f (g x)) l.
Proof. induction l as [|x l IH]; auto. cbn [flat_map]. rewrite flat_map_app, IH. auto. Qed.
Lemma flat_map_map {A B C} (f : B -> list C) (g : A -> B) l : flat_map f (map g l) = flat_map (fun x => f (g x)) l.
Proof. induction l as [|x l IH]; auto. cbn [map flat_map]. rewrite IH. auto. Qed.

Lemma NoDup_map_on {A B} (f : A -> B) l : (forall x y, In x l -> In y l -> f x = f y -> x = y) -> NoDup l -> NoDup (map f l).
Proof.
  intros H ND. induction ND as [|x l NI ND IH]; [constructor|]. cbn [map]. constructor; [|apply IH; intros; apply H; auto; right; auto].
  intros C. apply in_map_iff in C. destruct C as (y & E & Hy). apply NI. rewrite (H x y); simpl; auto.
Qed.

(** the entries of an element are the cells of its matrix *)
Lemma element_entries_pairs dofs m e : element_entries dofs m e = flat_map (fun k => map (pair k) (element_dofs dofs (map (node_of m) e))) (element_dofs dofs e).
Proof.
  unfold element_entries, element_dofs. rewrite flat_map_flat. apply flat_map_ext. intros rd'. rewrite flat_map_map. apply flat_map_ext. intros from. rewrite map_flat_map. apply flat_map_ext. intros cd. rewrite !map_map. auto.
Qed.
Lemma element_entries_cells dofs m e : let a := element_dofs dofs e in let b := element_dofs dofs (map (node_of m) e) in
  element_entries dofs m e = map (fun rc => (nth (fst rc) a 0, nth (snd rc) b 0)) (cells_of true (length a)).
Proof.
  intros a b. rewrite element_entries_pairs. fold a b. assert (L : length b = length a) by (unfold a, b; rewrite !element_dofs_length, map_length; auto).
  unfold cells_of. rewrite map_flat_map. rewrite <- (flat_map_seq_nth (fun k => map (pair k) b) a). apply flat_map_ext. intros r. rewrite map_map. cbn [fst snd]. unfold L_Pattern4.columns_of. rewrite <- L. rewrite <- (map_map (fun c => nth c b 0) (pair (nth r a 0))). f_equal. apply list_as_map. auto.
Qed.

Section Rank.
  Variables (dofs : nat) (nb : list (list nat)) (ms : list mesh_part) (ps : list dpattern).
  Hypothesis dofs_pos : 0 < dofs.
  Hypothesis DM : distributed_mesh nb ms.
  Hypothesis ps_len : length ps = length ms.
  Hypothesis ps_rows : forall r, r < length ms -> rows_of_mesh dofs ms (nth r ms no_part) (nth r ps no_pattern).
  Variables (r : nat).
  Hypothesis Hr : r < length ms.
  Let m := nth r ms no_part.
  Let p := nth r ps no_pattern.
  Variable iv : list (nat * nat).
  Hypothesis PM : permutation_of_mesh dofs m iv p.
  Hypothesis iv_ok : forall i, In i iv -> fst i <= snd i <= length (mp_elements m).
  Notation stored := (stored_dofs dofs (nth r (map mp_info ms) no_info)).
  Notation prow := (prow_of ps r).
  Definition kpos (x : nat * nat) : nat := nth (fst x) (dp_row p) 0 + index_of (snd x) (prow (fst x)).

  Lemma mr_in : In m ms.
  Proof. apply nth_In. auto. Qed.
  Lemma entry_row e x : In e (mp_elements m) -> In x (element_entries dofs m e) -> fst x < length stored.
  Proof.
    intros He Hx. rewrite (stored_len dofs nb ms DM r Hr). fold m. rewrite element_entries_pairs in Hx. apply in_flat_map in Hx. destruct Hx as (k & Hk & Hx). apply in_map_iff in Hx. destruct Hx as (l & <- & _). cbn [fst].
    unfold element_dofs in Hk. apply in_flat_map in Hk. destruct Hk as (d & Hd & Hk). apply in_seq in Hd. apply in_map_iff in Hk. destruct Hk as (n & <- & Hn). destruct (dm_elements nb ms DM m e mr_in He) as [_ B]. specialize (B n Hn). nia.
  Qed.
  Lemma entry_kpos x k : fst x < length stored -> is_entry p x k -> k = kpos x /\ In (snd x) (prow (fst x)).
  Proof.
    intros Hx (R & E). destruct (prow_ok dofs nb ms ps dofs_pos DM ps_len ps_rows r (fst x) Hr Hx) as (B & S1 & _). fold p in B.
    assert (NK : nth (k - nth (fst x) (dp_row p) 0) (prow (fst x)) 0 = snd x). { unfold prow_of. fold p. rewrite nth_slice by lia. rewrite <- E. f_equal. lia. }
    assert (LK : k - nth (fst x) (dp_row p) 0 < length (prow (fst x))). { unfold prow_of. fold p. rewrite slice_length by lia. lia. }
    split; [|rewrite <- NK; apply nth_In; auto]. unfold kpos. rewrite (index_of_nth (snd x) (prow (fst x)) (k - nth (fst x) (dp_row p) 0)); [lia|apply ss_nodup; auto|]. rewrite (nth_error_nth' _ 0) by auto. congruence.
  Qed.
  Lemma kpos_lt x : fst x < length stored -> In (snd x) (prow (fst x)) -> nth (fst x) (dp_row p) 0 <= kpos x < nth (fst x + 1) (dp_row p) 0.
  Proof.
    intros Hx I. destruct (prow_ok dofs nb ms ps dofs_pos DM ps_len ps_rows r (fst x) Hr Hx) as (B & _). fold p in B. unfold kpos. pose proof (index_of_lt _ _ I) as L. unfold prow_of in L at 2. fold p in L. rewrite slice_length in L by lia. lia.
  Qed.
  Lemma row_mono i j : i <= j -> j <= length stored -> nth i (dp_row p) 0 <= nth j (dp_row p) 0.
  Proof.
    intros H. induction H as [|j H IH]; auto. intros Hj. destruct (prow_ok dofs nb ms ps dofs_pos DM ps_len ps_rows r j Hr ltac:(lia)) as (B & _). fold p in B. rewrite Nat.add_1_r in B. lia.
  Qed.
  Lemma kpos_inj x y : fst x < length stored -> fst y < length stored -> In (snd x) (prow (fst x)) -> In (snd y) (prow (fst y)) -> kpos x = kpos y -> x = y.
  Proof.
    intros Hx Hy Ix Iy E. pose proof (kpos_lt x Hx Ix). pose proof (kpos_lt y Hy Iy). assert (G : fst x = fst y).
    { destruct (Nat.lt_trichotomy (fst x) (fst y)) as [L|[L|L]]; auto; exfalso; [pose proof (row_mono (fst x + 1) (fst y) ltac:(lia) ltac:(lia))|pose proof (row_mono (fst y + 1) (fst x) ltac:(lia) ltac:(lia))]; lia. }
    destruct x as [i c], y as [i' c']. cbn [fst snd] in *. subst i'. f_equal. unfold kpos in E. cbn [fst snd] in E. pose proof (index_of_in _ _ Ix) as A. pose proof (index_of_in _ _ Iy) as B. replace (index_of c (prow i)) with (index_of c' (prow i)) in A by lia. congruence.
  Qed.

  Definition epos (e : list nat) : list nat := map kpos (element_entries dofs m e).
  Definition ielements (i : nat * nat) : list (list nat) := elements_of m i.
  Lemma in_ielements i e : In e (ielements i) -> In e (mp_elements m).
  Proof. unfold ielements, elements_of, slice. intros H. apply (L_DistMatrix4.in_skipn_in (fst i)). eapply L_DistMatrix4.in_firstn_in; eauto. Qed.
  Lemma perm_eq : dp_permutation p = flat_map epos (flat_map ielements iv).
  Proof.
    destruct PM as (F & _). rewrite (Forall2_map_eq _ kpos _ _ F).
    - rewrite map_flat_map. rewrite flat_map_flat. apply flat_map_ext. intros i. rewrite map_flat_map. auto.
    - intros x k Hx H. apply in_flat_map in Hx. destruct Hx as (i & Hi & Hx). apply in_flat_map in Hx. destruct Hx as (e & He & Hx). apply (entry_kpos x k); auto. apply (entry_row e); auto. apply (in_ielements i); auto.
  Qed.
  Lemma entry_in e x i : In i iv -> In e (ielements i) -> In x (element_entries dofs m e) -> In (snd x) (prow (fst x)).
  Proof.
    intros Hi He Hx. destruct PM as (F & _). destruct (Forall2_in _ _ _ x F) as (k & H & _). { apply in_flat_map. exists i. split; auto. apply in_flat_map. exists e. auto. }
    apply (entry_kpos x k); auto. apply (entry_row e); auto. apply (in_ielements i); auto.
  Qed.
  Lemma offset_eq i : i < length iv -> nth i (dp_offset p) 0 = length (flat_map epos (flat_map ielements (firstn i iv))).
  Proof.
    intros H. destruct PM as (_ & _ & O). rewrite O by auto. rewrite flat_map_flat. apply flat_map_length_eq. intros j _. apply flat_map_length_eq. intros e _. unfold epos. rewrite map_length. auto.
  Qed.
  Lemma epos_length e : length (epos e) = length (cells_of true (dofs * length e)).
  Proof. unfold epos. rewrite map_length, element_entries_cells, map_length, element_dofs_length. auto. Qed.

  (** ** the values *)
  Section Values.
    Context {T : Type} (zero : T) (add : T -> T -> T).
    Variables (width : nat) (isize : nat -> nat) (Ks : list (list T)).
    Hypothesis width_pos : 0 < width.
    Hypothesis Ks_len : length Ks = length (mp_elements m).
    Hypothesis isize_ok : forall i e, i < length iv -> In e (ielements (nth i iv (0, 0))) -> dofs * length e = isize i.
    Hypothesis Ks_ok : forall i x, i < length iv -> In x (slice (fst (nth i iv (0, 0))) (snd (nth i iv (0, 0))) Ks) -> length x = isize i * isize i.
    Definition rmatrices (i : nat) : list (list T) := slice (fst (nth i iv (0, 0))) (snd (nth i iv (0, 0))) Ks.
    Definition rins (em : list nat * list T) : list (nat * T) := insertions zero true epos (dofs * length (fst em)) em.
    Definition rems (i : nat * nat) : list (list nat * list T) := combine (ielements i) (slice (fst i) (snd i) Ks).

    Lemma fill_rank_ok out : fill_domain add true width (filled_pattern p) isize rmatrices out = foldM (acc add) (flat_map rins (flat_map rems iv)) out.
    Proof.
      destruct PM as (_ & Lo & _). unfold fill_domain. cbn [filled_pattern p_offset]. rewrite Lo.
      assert (G : forall done todo out, iv = done ++ todo -> foldM (fun out i => fill_interval add true (isize i) width (filled_pattern p) out i (rmatrices i)) (seq (length done) (length todo)) out =
         foldM (acc add) (flat_map rins (flat_map rems todo)) out).
      { intros done todo; revert done. induction todo as [|j todo IH]; intros done o Ed; [reflexivity|]. cbn [length seq foldM flat_map]. rewrite flat_map_app, foldM_app.
        assert (Hnth : nth (length done) iv (0, 0) = j) by (rewrite Ed, app_nth2, Nat.sub_diag by lia; auto).
        assert (Hlen : length done < length iv) by (rewrite Ed, app_length; simpl; lia).
        assert (Hin : In j iv) by (rewrite Ed; apply in_or_app; right; left; auto). pose proof (iv_ok j Hin) as Hj.
        set (i := length done) in *. set (n := isize i).
        assert (EL : forall e, In e (ielements j) -> dofs * length e = n). { intros e He. apply isize_ok; auto. rewrite Hnth; auto. }
        assert (PL : forall e, In e (ielements j) -> length (epos e) = length (cells_of true n)). { intros e He. rewrite epos_length, EL; auto. }
        assert (FL : length (flat_map epos (ielements j)) = length (ielements j) * length (cells_of true n)).
        { rewrite L_Fill.flat_map_length. rewrite <- (list_sum_const (length (cells_of true n)) (ielements j)). f_equal. apply map_ext_in. auto. }
        assert (SP : dp_permutation p = flat_map epos (flat_map ielements done) ++ flat_map epos (ielements j) ++ flat_map epos (flat_map ielements todo)).
        { rewrite perm_eq, Ed. rewrite !flat_map_app. cbn [flat_map]. rewrite flat_map_app. auto. }
        assert (ST : nth i (dp_offset p) 0 = length (flat_map epos (flat_map ielements done))).
        { rewrite offset_eq by auto. unfold i. rewrite Ed, firstn_app, Nat.sub_diag, firstn_all. cbn [firstn]. rewrite app_nil_r. auto. }
        rewrite (fill_interval_ok zero add true epos n (dp_permutation p) (ielements j) (rmatrices i) (nth i (dp_offset p) 0)); auto.
        - unfold rmatrices. rewrite Hnth. change (combine (ielements j) (slice (fst j) (snd j) Ks)) with (rems j). replace (flat_map (insertions zero true epos n) (rems j)) with (flat_map rins (rems j)).
          + destruct (foldM (acc add) (flat_map rins (rems j)) o) as [o'| |]; cbn [obind]; auto. specialize (IH (done ++ [j]) o'). rewrite app_length in IH. cbn [length] in IH. replace (length done + 1) with (S i) in IH by (unfold i; lia). apply IH. rewrite <- app_assoc; auto.
          + apply flat_map_ext_in. intros [e x] Hex. unfold rins; cbn [fst]. rewrite EL; auto. eapply in_combine_l; eauto.
        - unfold rmatrices. rewrite Hnth. unfold ielements, elements_of. rewrite !slice_length; lia.
        - intros x Hx. unfold rmatrices in Hx. rewrite (Ks_ok i x Hlen Hx). auto.
        - rewrite ST, SP, <- FL. unfold slice. rewrite skipn_app, skipn_all, Nat.sub_diag. cbn [skipn app]. rewrite (Nat.add_comm (length (flat_map epos (flat_map ielements done)))), Nat.add_sub. rewrite firstn_app, Nat.sub_diag, firstn_all. cbn [firstn]. rewrite app_nil_r. auto.
        - rewrite ST, SP, !app_length, <- FL. lia.
        - cbn [filled_pattern p_offset]. rewrite Lo; auto. }
      apply (G [] iv out eq_refl).
    Qed.

    Lemma node_inj n n' : n < length (mp_ranks m) -> n' < length (mp_ranks m) -> node_of m n = node_of m n' -> n = n'.
    Proof.
      intros Hn Hn' E. pose proof (dm_length nb ms DM m mr_in) as L. pose proof (dm_numbered nb ms DM) as N.
      assert (ND : NoDup (u_position (mp_info m))).
      { pose proof (stored_nodup 1 nb (map mp_info ms) Nat.lt_0_1 N r ltac:(rewrite map_length; auto)) as Q. cbv beta in Q. rewrite (u_nth ms r) in Q. fold m in Q. unfold stored_dofs in Q. rewrite <- (dm_position nb ms DM m mr_in) in Q.
        replace (flat_map (fun n => map (fun d => 1 * n + d) (seq 0 1)) (u_position (mp_info m))) with (u_position (mp_info m)) in Q; auto. clear. induction (u_position (mp_info m)) as [|x l IH]; auto. cbn [flat_map seq map app]. f_equal; auto. lia. }
      unfold node_of in E. apply (proj1 (NoDup_nth (u_position (mp_info m)) 0) ND); auto; lia.
    Qed.
    Lemma stored_at n d : n < length (mp_ranks m) -> d < dofs -> nth (n * dofs + d) stored 0 = node_of m n * dofs + d.
    Proof.
      intros Hn Hd. rewrite (stored_nodes dofs nb ms DM r Hr). fold m. rewrite node_dofs_nth by (auto; rewrite <- (dm_length nb ms DM m mr_in); auto). unfold node_of. lia.
    Qed.

    Lemma contribution_rank i e K k g c : In i iv -> In e (ielements i) -> length K = (dofs * length e) * (dofs * length e) -> k < length stored -> nth k stored 0 = g -> In c (prow k) ->
      at_pos (kpos (k, c)) (rins (e, K)) = contribution dofs zero true g c (map (node_of m) e, K).
    Proof.
      intros Hi He LK Hk Eg Hc. pose proof (in_ielements i e He) as Hm. destruct (dm_elements nb ms DM m e mr_in Hm) as [ND BD].
      unfold rins, insertions. cbn [fst snd]. unfold epos. rewrite element_entries_cells. rewrite element_dofs_length. set (n := dofs * length e). set (a := element_dofs dofs e). set (b := element_dofs dofs (map (node_of m) e)).
      unfold L_Fill.values. rewrite map_map, combine_map, at_pos_map.
      assert (La : length a = n) by apply element_dofs_length. assert (Lb : length b = n) by (unfold b; rewrite element_dofs_length, map_length; auto).
      assert (NDb : NoDup b). { apply element_dofs_nodup. apply NoDup_map_on; auto. intros x y Hx Hy E. apply node_inj; auto. }
      (** local and global numbers *)
      assert (AB : forall q, q < n -> nth q a 0 < length stored /\ nth (nth q a 0) stored 0 = nth q b 0).
      { intros q Hq. assert (Q : In (nth q a 0, nth q b 0) (combine a b)). { rewrite <- (combine_nth a b q 0 0) by lia. apply nth_In. rewrite combine_length. lia. }
        assert (CC : combine a b = flat_map (fun d => map (fun x => (x * dofs + d, node_of m x * dofs + d)) e) (seq 0 dofs)).
        { unfold a, b, element_dofs. generalize (seq 0 dofs) as l. induction l as [|d l IH]; auto. cbn [flat_map]. rewrite <- IH. rewrite map_map. rewrite L_Distributed2.combine_app by (rewrite !map_length; auto). f_equal. apply combine_map. }
        rewrite CC in Q. apply in_flat_map in Q. destruct Q as (d & Hd & Q). apply in_seq in Hd. apply in_map_iff in Q. destruct Q as (x & E & Hx). inversion E as [[E1 E2]]. specialize (BD x Hx).
        rewrite stored_at by (auto; lia). split; auto. rewrite (stored_len dofs nb ms DM r Hr). fold m. nia. }
      assert (NS : NoDup stored) by (apply (stored_nodup dofs nb (map mp_info ms) dofs_pos (dm_numbered nb ms DM)); rewrite map_length; auto).
      assert (KEY : forall x y, In (x, y) (cells_of true n) -> (kpos (nth x a 0, nth y b 0) =? kpos (k, c)) = true <-> nth x b 0 = g /\ nth y b 0 = c).
      { intros x y Hxy. pose proof (proj1 (cells_of_in true n x y) Hxy) as (Hx & Hy & _). rewrite Nat.eqb_eq. destruct (AB x Hx) as [A1 A2]. split.
        - intros E. apply kpos_inj in E; cbn [fst snd]; auto.
          + inversion E. split; auto. rewrite <- A2. rewrite H0. auto.
          + apply (entry_in e (nth x a 0, nth y b 0) i); auto. rewrite element_entries_cells. fold a b. rewrite La. apply in_map_iff. exists (x, y). auto.
        - intros [E1 E2]. f_equal. f_equal; auto. apply (proj1 (NoDup_nth stored 0) NS); auto. rewrite A2. congruence. }
      unfold contribution. cbn [fst snd]. fold b.
      destruct (memb g b) eqn:Mg; cbn [andb]; [destruct (memb c b) eqn:Mc|].
      - apply memb_iff in Mg, Mc. pose proof (index_of_lt _ _ Mg) as Ig. pose proof (index_of_lt _ _ Mc) as Ic. pose proof (index_of_in _ _ Mg) as Ng. pose proof (index_of_in _ _ Mc) as Nc. apply nth_error_nth with (d := 0) in Ng, Nc.
        rewrite (filter_unique _ (index_of g b, index_of c b)).
        + cbn [map fst snd]. rewrite Lb. auto.
        + apply cells_of_nodup.
        + apply cells_of_in. repeat split; auto; lia.
        + intros [x y] Hxy. cbn [fst snd]. rewrite KEY by auto. pose proof (proj1 (cells_of_in true n x y) Hxy) as (Hx & Hy & _). split; [|intros E; inversion E; subst; auto].
          intros [E1 E2]. f_equal; symmetry; apply index_of_nth; auto; rewrite (nth_error_nth' _ 0) by lia; congruence.
      - rewrite L_Fill.filter_none; auto. intros [x y] Hxy. cbn [fst snd]. destruct (kpos _ =? _) eqn:E; auto. apply KEY in E; auto. destruct E as [_ E]. pose proof (proj1 (cells_of_in true n x y) Hxy) as (Hx & Hy & _).
        exfalso. assert (memb c b = true) by (apply memb_iff; rewrite <- E; apply nth_In; lia). congruence.
      - rewrite L_Fill.filter_none; auto. intros [x y] Hxy. cbn [fst snd]. destruct (kpos _ =? _) eqn:E; auto. apply KEY in E; auto. destruct E as [E _]. pose proof (proj1 (cells_of_in true n x y) Hxy) as (Hx & Hy & _).
        exfalso. assert (memb g b = true) by (apply memb_iff; rewrite <- E; apply nth_In; lia). congruence.
    Qed.
    Lemma assemble_rank_ok : exists out, assemble_rank zero add width p isize rmatrices = Ok out /\ length out = length (dp_column p) /\
      forall k g c, k < length stored -> nth k stored 0 = g -> In c (prow k) -> nth (kpos (k, c)) out zero = rank_value zero add dofs m iv Ks g c.
    Proof.
      unfold assemble_rank. rewrite fill_rank_ok. destruct (accumulate add zero (flat_map rins (flat_map rems iv)) (repeat zero (length (dp_column p)))) as (out & E & L & V).
      { intros (q, x) H. rewrite repeat_length. cbn [fst]. apply in_flat_map in H. destruct H as ((e, K) & He & H). apply in_flat_map in He. destruct He as (i & Hi & He). unfold rins, insertions in H. apply in_combine_l in H. cbn [fst] in H.
        unfold epos in H. apply in_map_iff in H. destruct H as (y & <- & Hy). apply in_combine_l in He. assert (Hf : fst y < length stored) by (apply (entry_row e); auto; apply (in_ielements i); auto).
        pose proof (kpos_lt y Hf (entry_in e y i Hi He Hy)). destruct (prow_ok dofs nb ms ps dofs_pos DM ps_len ps_rows r (fst y) Hr Hf) as (B & _). fold p in B. lia. }
      exists out. rewrite repeat_length in L, V. split; [exact E|]. split; auto. intros k g c Hk Eg Hc. pose proof (kpos_lt (k, c) Hk Hc) as KL. cbn [fst] in KL. destruct (prow_ok dofs nb ms ps dofs_pos DM ps_len ps_rows r k Hr Hk) as (B & _). fold p in B.
      rewrite V by lia. rewrite nth_repeat_lt by lia. unfold rank_value, assembled. f_equal. rewrite L_Fill2.at_pos_flat, flat_map_flat. unfold rank_elements. rewrite flat_map_flat. apply flat_map_ext_in. intros i Hi.
      assert (Hn : exists q, q < length iv /\ nth q iv (0, 0) = i) by (apply In_nth; auto). destruct Hn as (q & Hq & Eq).
      unfold rems. change (elements_of m i) with (ielements i).
      assert (EM : combine (map (map (node_of m)) (ielements i)) (slice (fst i) (snd i) Ks) = map (fun x => (map (node_of m) (fst x), snd x)) (combine (ielements i) (slice (fst i) (snd i) Ks))).
      { generalize (ielements i) (slice (fst i) (snd i) Ks). clear. induction l as [|e l IH]; intros [|K l0]; auto. cbn [map combine fst snd]. f_equal; auto. }
      rewrite EM, flat_map_map. apply flat_map_ext_in. intros [e K] Hx. cbn [fst snd]. apply (contribution_rank i); auto.
      - eapply in_combine_l; eauto.
      - pose proof (in_combine_l _ _ _ _ Hx) as He. apply in_combine_r in Hx. rewrite <- Eq in Hx. rewrite (Ks_ok q K Hq Hx). rewrite (isize_ok q e); auto. rewrite Eq. auto.
    Qed.
  End Values.
End Rank.
