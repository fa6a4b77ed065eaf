(** * Lemmas on the insertion of the matrices of the elements: the values of a domain *)
From Coq Require Import List Arith Bool Lia Sorted Permutation.
From Verif Require Import Base S_Order S_Assembly M_Assembly M_Utils L_Utils L_Dual2 L_TotalFeti L_Numbering L_Pattern L_Pattern2 L_Pattern3 L_Pattern4 L_Pattern5 L_Fill.
Import ListNotations.
Local Open Scope out_scope.

Lemma element_dofs_length dofs e : length (element_dofs dofs e) = dofs * length e.
Proof.
  unfold element_dofs. rewrite flat_map_length.
  replace (map (fun d => length (map (fun n => n * dofs + d) e)) (seq 0 dofs)) with (map (fun _ : nat => length e) (seq 0 dofs)) by (apply map_ext; intros; rewrite map_length; auto).
  rewrite list_sum_const, seq_length; auto.
Qed.
Lemma element_dofs_nodup dofs e : NoDup e -> NoDup (element_dofs dofs e).
Proof.
  intros N. unfold element_dofs. assert (G : forall l, NoDup l -> (forall d, In d l -> d < dofs) -> NoDup (flat_map (fun d => map (fun n => n * dofs + d) e) l)).
  { induction l as [|d l IH]; intros Nl Hl; [constructor|]. inversion Nl; subst. cbn [flat_map]. apply L_Equality7.NoDup_app_intro.
    - apply FinFun.Injective_map_NoDup; auto. intros x y E. specialize (Hl d (or_introl eq_refl)). nia.
    - apply IH; auto. intros; apply Hl; simpl; auto.
    - intros k H H'. apply in_map_iff in H. destruct H as (n & <- & Hn). apply in_flat_map in H'. destruct H' as (d' & Hd' & H'). apply in_map_iff in H'. destruct H' as (n' & E & Hn'). pose proof (Hl d (or_introl eq_refl)). pose proof (Hl d' (or_intror Hd')).
      assert (n' = n). { rewrite <- (dof_node n d dofs), <- (dof_node n' d' dofs), E by auto. auto. } subst n'. assert (d' = d) by lia. subst d'. contradiction. }
  apply G; [apply seq_NoDup | intros d Hd; apply in_seq in Hd; lia].
Qed.
Lemma memb_iff x l : memb x l = true <-> In x l.
Proof. unfold memb. rewrite existsb_exists. split; [intros (y & H & E); apply Nat.eqb_eq in E; subst; auto | intros H; exists x; split; auto; apply Nat.eqb_refl]. Qed.
Lemma combine_map {A B C} (f : A -> B) (g : A -> C) l : combine (map f l) (map g l) = map (fun x => (f x, g x)) l.
Proof. induction l; simpl; f_equal; auto. Qed.
Lemma at_pos_map {A T} p (f : A -> nat) (g : A -> T) l : at_pos p (map (fun x => (f x, g x)) l) = map g (filter (fun x => f x =? p) l).
Proof. unfold at_pos. induction l as [|x l IH]; [auto|]. cbn [map filter fst]. destruct (f x =? p); cbn [map snd]; [f_equal|]; auto. Qed.
Lemma at_pos_flat {A T} p (f : A -> list (nat * T)) l : at_pos p (flat_map f l) = flat_map (fun a => at_pos p (f a)) l.
Proof. induction l; cbn [flat_map]; [auto|]. rewrite at_pos_app, IHl; auto. Qed.

Section DomainFill.
  Variables (sort : list nat -> list nat) (alloc : nat -> list nat) (dofs : nat) (full : bool) (dbegin dend : nat) (ndoms : list (list nat)) (surface : list nat).
  Variables (N : numbering) (domain : nat) (elements : list (list nat)) (ebegin eend : nat) (intervals : list (nat * nat)).
  Hypothesis SC : sort_contract Nat.ltb sort.
  Hypothesis alloc_length : forall n, length (alloc n) = n.
  Hypothesis dofs_pos : 0 < dofs.
  Hypothesis dup : Forall (@NoDup nat) ndoms.
  Hypothesis surf : is_surface dofs ndoms surface dbegin dend.
  Hypothesis numbered : fill_decomposition dofs dbegin dend ndoms surface = Ok N.
  Hypothesis own : dbegin + domain < dend.
  Local Notation ks := (domain_dofs dofs ndoms surface (dbegin + domain)).
  Hypothesis erange : eend <= length elements.
  Hypothesis chained : consecutive ebegin intervals eend.
  Local Notation mine := (slice ebegin eend elements).
  Hypothesis nodes_in : forall e n, In e mine -> In n e -> n < length ndoms /\ In (dbegin + domain) (nth n ndoms []).
  Hypothesis used : forall k, In k ks -> exists e, In e mine /\ In k (element_dofs dofs e).
  Hypothesis nodup : Forall (@NoDup nat) mine.
  Local Notation dloc := (dloc dofs dbegin ndoms surface domain).
  Local Notation drow := (drow sort dofs full dbegin ndoms surface domain elements ebegin eend).
  Local Notation dpositions := (dpositions sort dofs full dbegin ndoms surface domain elements ebegin eend).

  Lemma dloc_inj k l : In k ks -> In l ks -> dloc k = dloc l -> k = l.
  Proof. intros Hk Hl E. unfold L_Pattern5.dloc in E. pose proof (index_of_in _ _ Hk) as A. pose proof (index_of_in _ _ Hl) as B. rewrite E in A. congruence. Qed.
  Lemma drow_lt i j : In j (drow i) -> i < length ks.
  Proof. intros H. apply drow_in in H; auto. destruct H as (e & k & l & He & Hk & _ & -> & _). apply dloc_lt. eapply element_dofs_own; eauto. Qed.
  Lemma dpos_inj i j i' j' : In j (drow i) -> In j' (drow i') -> pos drow i j = pos drow i' j' -> i = i' /\ j = j'.
  Proof.
    intros H H'. apply (pos_inj (length ks) drow (repeat 0 (length ks + 1)) (repeat 0 (length ks + 1))); rewrite ?repeat_length; auto; eapply drow_lt; eauto.
  Qed.
  Lemma contribution_at {T} (zero : T) e x k l : In e mine -> In k ks -> In l ks -> In (dloc l) (drow (dloc k)) ->
    at_pos (pos drow (dloc k) (dloc l)) (insertions zero full dpositions (length (element_dofs dofs e)) (e, x)) = contribution dofs zero full k l (e, x).
  Proof.
    intros He Hk Hl Hkl. unfold insertions, L_Pattern5.dpositions, values; cbn [fst snd]. rewrite positions_cells, combine_map, at_pos_map.
    set (D := L_Pattern5.drow sort dofs full dbegin ndoms surface domain elements ebegin eend) in *.
    assert (INJ : forall i j i' j', In j (D i) -> In j' (D i') -> pos D i j = pos D i' j' -> i = i' /\ j = j') by exact dpos_inj.
    assert (DIN : forall i j, In j (D i) <-> exists e k l, In e mine /\ In k (element_dofs dofs e) /\ In l (element_dofs dofs e) /\ i = dloc k /\ j = dloc l /\ (full = true \/ i <= j)) by (intros; apply drow_in; auto).
    clearbody D. set (ed := element_dofs dofs e). set (m := length ed).
    assert (ND : NoDup ed). { apply element_dofs_nodup. rewrite Forall_forall in nodup; auto. }
    assert (ED : forall r, r < m -> In (nth r ed 0) ed) by (intros; apply nth_In; auto).
    assert (OWN : forall r, r < m -> In (nth r ed 0) ks) by (intros r Hr; eapply element_dofs_own with (e := e); eauto; apply ED; auto).
    assert (IDX : forall r, r < m -> index_of (nth r ed 0) ed = r). { intros r Hr. apply index_of_nth; auto. apply nth_error_nth'; auto. }
    assert (NTH : forall q, In q ed -> nth (index_of q ed) ed 0 = q). { intros q Hq. apply nth_error_nth. apply index_of_in; auto. }
    unfold contribution; cbn [fst snd]. fold ed.
    (** which cells have the position *)
    assert (KEY : forall r c, In (r, c) (cells_of full m) -> ((ppos full dloc (pos D) (nth r ed 0) (nth c ed 0) =? pos D (dloc k) (dloc l)) = true <->
       (if full then nth r ed 0 = k /\ nth c ed 0 = l else (nth r ed 0 = k /\ nth c ed 0 = l) \/ (nth r ed 0 = l /\ nth c ed 0 = k)))).
    { intros r c Hrc. apply cells_of_in in Hrc. destruct Hrc as (Hr & Hc & Q). rewrite Nat.eqb_eq. unfold ppos.
      assert (DR : forall a b, a < m -> b < m -> (full = true \/ dloc (nth a ed 0) <= dloc (nth b ed 0)) -> In (dloc (nth b ed 0)) (D (dloc (nth a ed 0)))).
      { intros a b Ha Hb W. apply DIN. exists e, (nth a ed 0), (nth b ed 0). repeat split; auto; apply ED; auto. }
      destruct full eqn:F.
      - split; [|intros [-> ->]; auto]. intros E. apply INJ in E; auto. destruct E as [E1 E2]. apply dloc_inj in E1, E2; auto.
      - assert (LE : dloc k <= dloc l). { apply DIN in Hkl. destruct Hkl as (_ & _ & _ & _ & _ & _ & _ & _ & [W|W]); [discriminate | auto]. }
        split.
        + intros E. apply INJ in E; auto.
          * destruct (Nat.le_ge_cases (dloc (nth r ed 0)) (dloc (nth c ed 0))) as [W|W].
            -- rewrite Nat.min_l, Nat.max_r in E by auto. destruct E as [E1 E2]. apply dloc_inj in E1, E2; auto.
            -- rewrite Nat.min_r, Nat.max_l in E by auto. destruct E as [E1 E2]. apply dloc_inj in E1, E2; auto.
          * destruct (Nat.le_ge_cases (dloc (nth r ed 0)) (dloc (nth c ed 0))) as [W|W]; [rewrite Nat.min_l, Nat.max_r by auto; apply DR; auto | rewrite Nat.min_r, Nat.max_l by auto; apply DR; auto].
        + intros [[-> ->]|[-> ->]]; [rewrite Nat.min_l, Nat.max_r by auto; auto | rewrite Nat.min_r, Nat.max_l by auto; auto]. }
    destruct (memb k ed && memb l ed) eqn:M.
    - apply andb_true_iff in M. rewrite !memb_iff in M. destruct M as [Mk Ml]. pose proof (index_of_lt _ _ Mk) as Lk. pose proof (index_of_lt _ _ Ml) as Ll.
      set (rc0 := if full then (index_of k ed, index_of l ed) else (Nat.min (index_of k ed) (index_of l ed), Nat.max (index_of k ed) (index_of l ed))).
      rewrite (filter_unique _ rc0).
      + unfold rc0. destruct full; cbn [map fst snd]; auto.
      + apply cells_of_nodup.
      + unfold rc0. destruct full; apply cells_of_in; repeat split; auto; try lia.
      + intros [r c] Hrc. cbn [fst snd]. rewrite (KEY r c Hrc). apply cells_of_in in Hrc. destruct Hrc as (Hr & Hc & Q). unfold rc0. destruct full.
        * split; [intros [<- <-]; rewrite !IDX by auto; auto | intros E; inversion E; subst; auto].
        * destruct Q as [Q|Q]; [discriminate|]. split.
          -- intros [[<- <-]|[<- <-]]; rewrite !IDX by auto; f_equal; lia.
          -- intros E; inversion E; subst. destruct (Nat.le_ge_cases (index_of k ed) (index_of l ed)); [left; rewrite Nat.min_l, Nat.max_r by auto; auto | right; rewrite Nat.min_r, Nat.max_l by auto; auto].
    - rewrite filter_none; auto. intros [r c] Hrc. cbn [fst snd]. destruct (_ =? _) eqn:W; auto. exfalso. apply (KEY r c Hrc) in W. apply cells_of_in in Hrc. destruct Hrc as (Hr & Hc & _). apply andb_false_iff in M.
      assert (A : In k ed /\ In l ed) by (destruct full; [destruct W as [<- <-]; split; auto | destruct W as [[<- <-]|[<- <-]]; split; auto]). destruct A as [A B]. apply memb_iff in A, B. destruct M; congruence.
  Qed.

  Context {T : Type}.
  Variables (zero : T) (add : T -> T -> T) (width : nat) (isize : nat -> nat) (ms : list (list T)) (P : pattern).
  Hypothesis width_pos : 0 < width.
  Hypothesis built : build_pattern sort alloc dofs full N dbegin domain (length ndoms) elements ebegin eend intervals = Ok P.
  Hypothesis ms_length : length ms = length elements.
  Hypothesis isize_ok : forall i iv e, nth_error intervals i = Some iv -> In e (slice (fst iv) (snd iv) elements) -> dofs * length e = isize i.
  Hypothesis ms_ok : forall i iv x, nth_error intervals i = Some iv -> In x (slice (fst iv) (snd iv) ms) -> length x = isize i * isize i.
  Definition matrices (i : nat) : list (list T) := slice (fst (nth i intervals (0, 0))) (snd (nth i intervals (0, 0))) ms.
  Definition ems : list (list nat * list T) := combine mine (slice ebegin eend ms).
  Definition ins (em : list nat * list T) : list (nat * T) := insertions zero full dpositions (length (element_dofs dofs (fst em))) em.

  Lemma combine_slice {A B} b e (x : list A) (y : list B) : combine (slice b e x) (slice b e y) = slice b e (combine x y).
  Proof. unfold slice. rewrite <- (combine_firstn (skipn b x)). f_equal. revert x y. induction b as [|b IH]; intros [|a x] [|c y]; simpl; auto. rewrite combine_nil; auto. Qed.
  Lemma positions_length e : length (dpositions e) = length (cells_of full (length (element_dofs dofs e))).
  Proof. unfold L_Pattern5.dpositions. rewrite positions_cells, map_length; auto. Qed.

  Lemma fill_domain_ok out : fill_domain add full width P isize matrices out = foldM (acc add) (flat_map ins ems) out.
  Proof.
    destruct (build_pattern_ok sort alloc dofs full dbegin dend ndoms surface N domain elements ebegin eend intervals SC alloc_length dofs_pos dup surf numbered own erange chained nodes_in used) as (P' & E & _ & _ & _ & Pp & Lo & No).
    rewrite built in E; injection E as E; subst P'.
    unfold fill_domain. rewrite Lo.
    assert (G : forall done todo out, intervals = done ++ todo -> foldM (fun out i => fill_interval add full (isize i) width P out i (matrices i)) (seq (length done) (length todo)) out =
       foldM (acc add) (flat_map ins (flat_map (fun iv => combine (slice (fst iv) (snd iv) elements) (slice (fst iv) (snd iv) ms)) todo)) out).
    { intros done todo; revert done. induction todo as [|iv todo IH]; intros done o Ed; [reflexivity|]. cbn [length seq foldM flat_map]. rewrite flat_map_app, foldM_app.
      assert (Hnth : nth (length done) intervals (0, 0) = iv) by (rewrite Ed, app_nth2, Nat.sub_diag by lia; auto).
      assert (Hne : nth_error intervals (length done) = Some iv) by (rewrite Ed, nth_error_app2, Nat.sub_diag by lia; auto).
      assert (Hlen : length done < length intervals) by (rewrite Ed, app_length; simpl; lia).
      assert (Hin : In iv intervals) by (eapply nth_error_In; eauto). pose proof (chain_in _ _ _ chained iv Hin) as Hr.
      set (es := slice (fst iv) (snd iv) elements). set (i := length done) in *. set (m := isize i).
      assert (EL : forall e, In e es -> length (element_dofs dofs e) = m). { intros e He. rewrite element_dofs_length. apply (isize_ok i iv e); auto. }
      assert (PL : forall e, In e es -> length (dpositions e) = length (cells_of full m)). { intros e He. rewrite positions_length, EL; auto. }
      assert (FL : length (flat_map dpositions es) = length es * length (cells_of full m)).
      { rewrite flat_map_length. rewrite <- (list_sum_const (length (cells_of full m)) es). f_equal. apply map_ext_in. auto. }
      assert (SP : p_permutation P = flat_map dpositions (flat_map (fun iv => slice (fst iv) (snd iv) elements) done) ++ flat_map dpositions es ++ flat_map dpositions (flat_map (fun iv => slice (fst iv) (snd iv) elements) todo)).
      { rewrite Pp, <- (chain_slices _ _ _ _ chained), Ed. rewrite flat_map_app, flat_map_app. cbn [flat_map]. rewrite flat_map_app. auto. }
      assert (ST : nth i (p_offset P) 0 = length (flat_map dpositions (flat_map (fun iv => slice (fst iv) (snd iv) elements) done))).
      { rewrite No by auto. unfold i. rewrite Ed, firstn_app, Nat.sub_diag, firstn_all. cbn [firstn]. rewrite app_nil_r. auto. }
      rewrite (fill_interval_ok zero add full dpositions m (p_permutation P) es (matrices i) (nth i (p_offset P) 0)); auto.
      - unfold matrices. rewrite Hnth. replace (flat_map (insertions zero full dpositions m) (combine es (slice (fst iv) (snd iv) ms))) with (flat_map ins (combine es (slice (fst iv) (snd iv) ms))).
        + destruct (foldM (acc add) (flat_map ins (combine es (slice (fst iv) (snd iv) ms))) o) as [o'| |]; cbn [obind]; auto. specialize (IH (done ++ [iv]) o'). rewrite app_length in IH. cbn [length] in IH. replace (length done + 1) with (S i) in IH by (unfold i; lia). apply IH. rewrite <- app_assoc; auto.
        + rewrite !flat_map_concat_map. f_equal. apply map_ext_in. intros [e x] Hex. unfold ins; cbn [fst]. rewrite EL; auto. eapply in_combine_l; eauto.
      - unfold matrices. rewrite Hnth. unfold es. rewrite !slice_length; lia.
      - intros x Hx. unfold matrices in Hx. rewrite Hnth in Hx. rewrite (ms_ok i iv x Hne Hx). auto.
      - rewrite ST, SP, <- FL. unfold slice. rewrite skipn_app, skipn_all, Nat.sub_diag. cbn [skipn app]. replace (length (flat_map dpositions (flat_map (fun iv0 => firstn (snd iv0 - fst iv0) (skipn (fst iv0) elements)) done)) + length (flat_map dpositions es) - length (flat_map dpositions (flat_map (fun iv0 => firstn (snd iv0 - fst iv0) (skipn (fst iv0) elements)) done))) with (length (flat_map dpositions es)) by lia. rewrite firstn_app, Nat.sub_diag, firstn_all. cbn [firstn]. rewrite app_nil_r. auto.
      - rewrite ST, SP, !app_length, <- FL. lia.
      - rewrite Lo; auto. }
    specialize (G [] intervals out eq_refl). cbn [length] in G. rewrite G. do 2 f_equal. unfold ems. rewrite combine_slice. rewrite <- (chain_slices _ _ _ _ chained). rewrite !flat_map_concat_map. f_equal. apply map_ext. intros iv. apply combine_slice.
  Qed.
  Lemma ins_bound x : In x (flat_map ins ems) -> fst x < rowptr drow (length ks).
  Proof.
    intros H. apply in_flat_map in H. destruct H as ((e & y) & Hem & H). assert (He : In e mine) by (eapply in_combine_l; eauto). unfold ins, insertions in H; cbn [fst snd] in H. destruct x as [p v]. apply in_combine_l in H. cbn [fst].
    unfold L_Pattern5.dpositions in H. rewrite positions_cells in H. apply in_map_iff in H. destruct H as ((r & c) & <- & Hrc). cbn [fst snd]. apply cells_of_in in Hrc. destruct Hrc as (Hr & Hc & Q).
    set (ed := element_dofs dofs e) in *.
    assert (B : forall i j, In j (drow i) -> pos drow i j < rowptr drow (length ks)).
    { intros i j Hj. apply (pos_lt (length ks) drow (repeat 0 (length ks + 1)) (repeat 0 (length ks + 1))); rewrite ?repeat_length; auto. eapply drow_lt; eauto. }
    assert (DR : forall a b, a < length ed -> b < length ed -> (full = true \/ dloc (nth a ed 0) <= dloc (nth b ed 0)) -> In (dloc (nth b ed 0)) (drow (dloc (nth a ed 0)))).
    { intros a b Ha Hb W. apply drow_in; auto. exists e, (nth a ed 0), (nth b ed 0). repeat split; auto; apply nth_In; auto. }
    unfold ppos. destruct full; [apply B, DR; auto|]. destruct (Nat.le_ge_cases (dloc (nth r ed 0)) (dloc (nth c ed 0))) as [W|W]; [rewrite Nat.min_l, Nat.max_r by auto; apply B, DR; auto | rewrite Nat.min_r, Nat.max_l by auto; apply B, DR; auto].
  Qed.
  Lemma assembled_ok v0 : length v0 = rowptr drow (length ks) -> exists out, fill_domain add full width P isize matrices v0 = Ok out /\ length out = length v0 /\
    forall k l, In k ks -> In l ks -> In (dloc l) (drow (dloc k)) -> nth (pos drow (dloc k) (dloc l)) out zero = assembled dofs zero add full ems k l (nth (pos drow (dloc k) (dloc l)) v0 zero).
  Proof.
    intros L0. rewrite fill_domain_ok. destruct (accumulate add zero (flat_map ins ems) v0) as (out & E & L & V). { intros x Hx. rewrite L0. apply ins_bound; auto. }
    exists out. split; [exact E|]. split; auto. intros k l Hk Hl Hkl. rewrite V.
    - unfold assembled. f_equal. rewrite at_pos_flat. rewrite !flat_map_concat_map. f_equal. apply map_ext_in. intros [e x] Hex. unfold ins. apply contribution_at; auto. eapply in_combine_l; eauto.
    - rewrite L0. apply (pos_lt (length ks) drow (repeat 0 (length ks + 1)) (repeat 0 (length ks + 1))); rewrite ?repeat_length; auto. eapply drow_lt; eauto.
  Qed.
End DomainFill.
