(** * Lemmas: duplicates, prefix sums, permutations, rounding *)
From Coq Require Import ZArith List Bool Arith Lia Permutation Sorted.
From Verif Require Import Base S_Order S_Utils M_Utils L_Merge.
Import ListNotations.

(** ** Duplicates *)
Section Dup.
Context {A : Type}.
Variables ltb eqb : A -> A -> bool.
Variable dflt : A.
Hypothesis EQ : forall a b, eqb a b = true <-> a = b.
Notation compress := (compress eqb).

Lemma compress_cons a b t : compress (a :: b :: t) = if eqb a b then compress (b :: t) else a :: compress (b :: t).
Proof. reflexivity. Qed.

Lemma compress_in l x : In x (compress l) <-> In x l.
Proof.
  induction l as [|a l IH]; [reflexivity|]. destruct l as [|b t]; [reflexivity|].
  rewrite compress_cons. destruct (eqb a b) eqn:E.
  - apply EQ in E. subst. rewrite IH. simpl. tauto.
  - simpl in *. tauto.
Qed.

Lemma compress_nil l : compress l = [] <-> l = [].
Proof.
  split; intros H; [|subst; reflexivity].
  destruct l as [|a l]; auto. assert (In a (compress (a :: l))) by (apply compress_in; left; auto).
  rewrite H in H0. destruct H0.
Qed.

Lemma compress_snoc l v : l <> [] -> compress (l ++ [v]) =
  if eqb (last l dflt) v then compress l else compress l ++ [v].
Proof.
  induction l as [|a l IH]; [congruence|]. intros _.
  destruct l as [|b t].
  - simpl. destruct (eqb a v) eqn:E; auto. apply EQ in E. now subst.
  - change (last (a :: b :: t) dflt) with (last (b :: t) dflt).
    change ((a :: b :: t) ++ [v]) with (a :: b :: (t ++ [v])). rewrite !compress_cons.
    change (b :: t ++ [v]) with ((b :: t) ++ [v]). rewrite IH by discriminate.
    destruct (eqb a b), (eqb (last (b :: t) dflt) v); reflexivity.
Qed.

Lemma compress_last l : l <> [] -> last (compress l) dflt = last l dflt.
Proof.
  induction l as [|a l IH]; [congruence|]. intros _. destruct l as [|b t]; [reflexivity|].
  change (last (a :: b :: t) dflt) with (last (b :: t) dflt). rewrite compress_cons.
  destruct (eqb a b); [apply IH; discriminate|].
  assert (compress (b :: t) <> []) by (rewrite compress_nil; discriminate).
  rewrite <- IH by discriminate. destruct (compress (b :: t)); [congruence|reflexivity].
Qed.

Lemma compress_length l : length (compress l) <= length l.
Proof.
  induction l as [|a l IH]; [auto|]. destruct l as [|b t]; [auto|].
  rewrite compress_cons. destruct (eqb a b); cbn [length] in *; lia.
Qed.

Lemma last_nth_gen (l : list A) : l <> [] -> last l dflt = nth (length l - 1) l dflt.
Proof.
  induction l as [|a l IH]; [congruence|]. intros _. destruct l as [|b l]; [reflexivity|].
  change (last (a :: b :: l) dflt) with (last (b :: l) dflt). rewrite IH by discriminate.
  simpl. now rewrite Nat.sub_0_r.
Qed.

Lemma slice_one e (l : list A) : e < length l -> slice e (S e) l = [nth e l dflt].
Proof.
  unfold slice. replace (S e - e) with 1 by lia. revert e.
  induction l as [|a l IH]; intros e He; simpl in He; [lia|]. destruct e; [reflexivity|].
  simpl skipn. rewrite IH by lia. reflexivity.
Qed.

Lemma slice_snoc b e (l : list A) : b <= e < length l -> slice b (S e) l = slice b e l ++ [nth e l dflt].
Proof. intros H. rewrite (slice_app b e (S e)) by lia. rewrite slice_one by lia. reflexivity. Qed.

Lemma upd_put (l : list A) i v : i < length l -> upd l i v = put i (S i) l [v].
Proof.
  unfold put. revert i. induction l as [|a l IH]; intros i Hi; simpl in *; [lia|].
  destruct i; [reflexivity|]. simpl. f_equal. apply IH. lia.
Qed.

Lemma removeDuplicates_ok data begin :
  begin <= length data ->
  removeDuplicates eqb dflt data begin = Ok (firstn begin data ++ compress (skipn begin data)).
Proof.
  intros Hb. unfold removeDuplicates.
  destruct (Nat.eqb_spec (length data) begin) as [E|Hne].
  { subst. rewrite skipn_all, firstn_all. simpl. now rewrite app_nil_r. }
  set (body := fun '(data, unique) d => _).
  set (I := fun (d : nat) (s : list A * nat) =>
    let '(cur, u) := s in
    length cur = length data /\ begin <= u < d /\
    slice 0 begin cur = slice 0 begin data /\
    slice begin (S u) cur = compress (slice begin d data) /\
    slice d (length data) cur = slice d (length data) data).
  destruct (foldM_seq_inv body I (begin + 1) (length data - (begin + 1)) (data, begin)) as (s & E & HI).
  - unfold I. repeat split; auto; try lia.
    replace (begin + 1) with (S begin) by lia. rewrite slice_one by lia. reflexivity.
  - intros d [cur u] Hd (L & Hu & O & K & R). unfold body.
    rewrite !(rd_ok cur _ dflt) by lia. cbn [obind].
    assert (Ev : nth d cur dflt = nth d data dflt).
    { assert (Ec : forall x : list A, length x = length data -> nth d x dflt = nth 0 (slice d (length data) x) dflt).
      { intros x Hx. rewrite nth_slice by lia. f_equal. lia. }
      rewrite (Ec cur L), (Ec data eq_refl), R. reflexivity. }
    assert (Hns : slice begin d data <> []).
    { intros Hc. apply (f_equal (@length A)) in Hc. rewrite slice_length in Hc by lia. simpl in Hc. lia. }
    assert (Eu : nth u cur dflt = last (slice begin d data) dflt).
    { rewrite <- compress_last by auto. rewrite <- K.
      rewrite slice_snoc by lia. rewrite last_last. reflexivity. }
    assert (Hd' : d < length data) by lia.
    assert (Rd : slice (S d) (length data) cur = slice (S d) (length data) data).
    { rewrite (slice_app d (S d)) in R by lia. rewrite (slice_app d (S d) (length data) data) in R by lia.
      apply app_inv_len in R; [apply R|]. rewrite !slice_length by lia. reflexivity. }
    rewrite Eu, Ev.
    destruct (eqb (last (slice begin d data) dflt) (nth d data dflt)) eqn:Ee; cbn [negb].
    + eexists; split; [reflexivity|]. unfold I. repeat split; auto; try lia.
      rewrite (slice_snoc begin d data), compress_snoc by (auto; lia). rewrite Ee. exact K.
    + assert (Su : S u <= d) by lia.
      rewrite wr_ok by lia. cbn [obind]. eexists; split; [reflexivity|]. unfold I.
      rewrite upd_length. repeat split; auto; try lia.
      * rewrite upd_put by lia. rewrite slice_put_before by lia. exact O.
      * rewrite slice_snoc by (rewrite upd_length; lia). rewrite nth_upd_eq by lia.
        rewrite upd_put by lia. rewrite slice_put_before by lia. rewrite K.
        rewrite (slice_snoc begin d data), compress_snoc by (auto; lia). now rewrite Ee.
      * rewrite upd_put by lia. rewrite slice_put_after by (cbn [length]; lia). exact Rd.
  - destruct s as [cur u]. rewrite E. cbn [obind]. destruct HI as (L & Hu & O & K & _).
    f_equal. unfold resize. replace (u + 1 - length cur) with 0 by lia. simpl. rewrite app_nil_r.
    assert (E1 : firstn (u + 1) cur = slice 0 begin cur ++ slice begin (S u) cur).
    { rewrite <- slice_app by lia. unfold slice. rewrite Nat.sub_0_r. cbn [skipn]. f_equal. lia. }
    rewrite E1, O, K. unfold slice. rewrite Nat.sub_0_r. simpl skipn. f_equal. f_equal.
    replace (begin + 1 + (length data - (begin + 1)) - begin) with (length (skipn begin data)) by (rewrite skipn_length; lia).
    apply firstn_all.
Qed.

Hypothesis STO : strict_total_order ltb eqb.
Variable sort : list A -> list A.
Hypothesis SORT : sort_contract ltb sort.

Lemma compress_strict l : sorted ltb l -> strictly_sorted ltb (compress l).
Proof.
  pose proof (sto_swo _ _ STO) as SWO.
  induction l as [|a l IH]; intros H; [constructor|]. destruct l as [|b t]; [repeat constructor|].
  apply StronglySorted_inv in H. destruct H as [Hs Hf].
  rewrite compress_cons. destruct (eqb a b) eqn:E; [apply IH; exact Hs|].
  constructor; [apply IH; exact Hs|].
  apply Forall_forall. intros x Hx. rewrite compress_in in Hx.
  rewrite Forall_forall in Hf.
  destruct (ltb a x) eqn:Ex; auto. exfalso.
  assert (Hab : le_of ltb a b) by (apply Hf; left; auto).
  assert (Hbx : le_of ltb b x).
  { simpl in Hx; destruct Hx as [->|Hx].
    - unfold le_of. destruct (ltb x x) eqn:Exx; auto. now rewrite (swo_asym _ SWO _ _ Exx) in Exx.
    - apply StronglySorted_inv in Hs. destruct Hs as [_ Hs]. rewrite Forall_forall in Hs. auto. }
  assert (Hba : le_of ltb b a) by (eapply (swo_le_trans _ SWO); [exact Hbx|exact Ex]).
  assert (a = b) by (apply (sto_antisym _ _ STO); auto).
  assert (eqb a b = true) by (apply EQ; auto). congruence.
Qed.

Lemma sortAndRemoveDuplicates_ok data begin :
  begin <= length data ->
  exists tail, sortAndRemoveDuplicates eqb sort dflt data begin = Ok (firstn begin data ++ tail) /\
    strictly_sorted ltb tail /\ (forall x, In x tail <-> In x (skipn begin data)).
Proof.
  intros Hb. unfold sortAndRemoveDuplicates, sort_range.
  replace (begin <=? length data) with true by (symmetry; apply Nat.leb_le; auto).
  rewrite Nat.leb_refl. cbn [andb obind].
  assert (Es : slice begin (length data) data = skipn begin data).
  { unfold slice. rewrite <- skipn_length. apply firstn_all. }
  rewrite Es. destruct (SORT (skipn begin data)) as [P S].
  assert (Ep : put begin (length data) data (sort (skipn begin data)) = firstn begin data ++ sort (skipn begin data)).
  { unfold put. rewrite skipn_all, app_nil_r. reflexivity. }
  rewrite Ep.
  assert (Lf : length (firstn begin data) = begin) by (rewrite firstn_length; lia).
  rewrite removeDuplicates_ok by (rewrite app_length; lia).
  exists (compress (sort (skipn begin data))). split; [|split].
  - f_equal. rewrite firstn_app, skipn_app, Lf, Nat.sub_diag.
    rewrite (firstn_all2 (firstn begin data)), (skipn_all2 (firstn begin data)) by lia.
    simpl. now rewrite app_nil_r.
  - apply compress_strict; auto.
  - intros x. rewrite compress_in. split; apply Permutation_in; auto. now apply Permutation_sym.
Qed.

Lemma mergeThreadedUniqueData_ok data : data <> [] ->
  exists out, mergeThreadedUniqueData eqb sort dflt data = Ok out /\
    strictly_sorted ltb out /\ (forall x, In x out <-> In x (concat data)).
Proof.
  intros H. destruct data as [|d0 rest]; [congruence|].
  destruct (join_threads_ok d0 rest) as (dist & E & _).
  unfold mergeThreadedUniqueData. rewrite E. cbn [obind].
  destruct (sortAndRemoveDuplicates_ok (concat (d0 :: rest)) 0) as (tl & E' & S & I); [lia|].
  exists tl. split; [exact E'|]. split; auto.
Qed.

Lemma map_out_ok {B C} (f : B -> outcome C) (R : B -> C -> Prop) l :
  (forall b, In b l -> exists c, f b = Ok c /\ R b c) ->
  exists out, map_out f l = Ok out /\ Forall2 R l out.
Proof.
  induction l as [|b l IH]; intros H; simpl; [eauto|].
  destruct (H b) as (c & E & Rc); [left; auto|]. rewrite E. cbn [obind].
  destruct IH as (out & E' & F); [intros; apply H; right; auto|]. rewrite E'. cbn [obind]. eauto.
Qed.

Lemma strictly_sorted_sorted l : strictly_sorted ltb l -> sorted ltb l.
Proof.
  intros H. induction H as [|a l H IH F]; constructor; auto.
  eapply Forall_impl; [|exact F]. intros x Hx. apply (swo_asym _ (sto_swo _ _ STO)). exact Hx.
Qed.

Lemma sortWithUniqueMerge_ok sched data :
  (forall i n, Permutation (sched i n) (seq 0 n)) -> data <> [] ->
  exists out, sortWithUniqueMerge ltb eqb sort dflt sched data = Ok out /\
    strictly_sorted ltb out /\ (forall x, In x out <-> In x (concat data)).
Proof.
  intros Hs Hne. unfold sortWithUniqueMerge.
  destruct (map_out_ok (fun d => sortAndRemoveDuplicates eqb sort dflt d 0)
    (fun d d' => strictly_sorted ltb d' /\ forall x, In x d' <-> In x d) data) as (data' & E & F).
  { intros d _. destruct (sortAndRemoveDuplicates_ok d 0) as (tl & E & S & I); [lia|]. exists tl. auto. }
  rewrite E. cbn [obind].
  assert (Hc : forall x, In x (concat data') <-> In x (concat data)).
  { clear -F. induction F as [|d d' l l' [_ H] F IH]; [reflexivity|]. intros x. simpl.
    rewrite !in_app_iff, H, IH. reflexivity. }
  destruct data' as [|d0 rest]; [inversion F; subst; congruence|].
  destruct (join_threads_ok d0 rest) as (dist & Ej & Ld & H0 & Hl & Hm & Hsl).
  rewrite Ej. cbn [obind].
  destruct (inplaceMerge_ok ltb (sto_swo _ _ STO) sched (concat (d0 :: rest)) dist) as (m & Em & Lm & Pm & _); auto.
  - destruct dist; simpl in Ld; [lia|discriminate].
  - lia.
  - intros t Ht. rewrite Hsl by lia. apply strictly_sorted_sorted.
    assert (Hin : In (nth t (d0 :: rest) []) (d0 :: rest)) by (apply nth_In; lia).
    revert Hin. generalize (nth t (d0 :: rest) []). clear -F. intros x Hin.
    induction F as [|a a' l1 l2 [S _] F IH]; [destruct Hin|].
    destruct Hin as [<-|Hin]; auto.
  - rewrite Em. cbn [obind].
    destruct (sortAndRemoveDuplicates_ok m 0) as (tl & E' & S & I); [lia|].
    exists tl. split; [exact E'|]. split; auto. intros x. rewrite I. simpl skipn.
    rewrite <- Hc. split; apply Permutation_in; auto. now apply Permutation_sym.
Qed.
End Dup.

(** ** Prefix sums *)
Local Open Scope Z_scope.

Lemma zsum_app a b : zsum (a ++ b) = zsum a + zsum b.
Proof. induction a; simpl; auto. unfold zsum in *. simpl. rewrite IHa. ring. Qed.

Lemma wrap_wrap W z : wrap W (wrap W z) = wrap W z.
Proof. unfold wrap. apply Zmod_mod. Qed.
Lemma wrap_plus_l W a b : wrap W (wrap W a + b) = wrap W (a + b).
Proof. unfold wrap. apply Zplus_mod_idemp_l. Qed.
Lemma wrap_plus_r W a b : wrap W (a + wrap W b) = wrap W (a + b).
Proof. unfold wrap. apply Zplus_mod_idemp_r. Qed.

Lemma sizesToOffsets_gen W sizes : forall off, wrap W off = off ->
  let '(out, total) := sizesToOffsets W sizes off in
  length out = length sizes /\
  (forall i, (i < length sizes)%nat -> nth i out 0 = wrap W (off + zsum (firstn i sizes))) /\
  total = wrap W (off + zsum sizes).
Proof.
  induction sizes as [|s r IH]; intros off Hoff; simpl.
  - repeat split; intros; try lia. rewrite Z.add_0_r. auto.
  - specialize (IH (wrap W (off + s)) (wrap_wrap _ _)).
    destruct (sizesToOffsets W r (wrap W (off + s))) as [out total].
    destruct IH as (L & N & T). simpl. repeat split.
    + now rewrite L.
    + intros [|i] Hi; simpl; [rewrite Z.add_0_r; auto|].
      rewrite N by lia. rewrite wrap_plus_l. f_equal. unfold zsum. simpl. ring.
    + rewrite T, wrap_plus_l. f_equal. ring.
Qed.

Lemma sizesToOffsets_ok W sizes off : 0 <= off < 2 ^ W ->
  let '(out, total) := sizesToOffsets W sizes off in
  length out = length sizes /\
  (forall i, (i < length sizes)%nat -> nth i out 0 = wrap W (off + zsum (firstn i sizes))) /\
  total = wrap W (off + zsum sizes).
Proof. intros. apply sizesToOffsets_gen. unfold wrap. now apply Z.mod_small. Qed.

(** *** two-dimensional version *)
Notation get2 s t i := (nth i (nth t s []) 0).

Lemma nth_upd2 (s : list (list Z)) t row t' : (t < length s)%nat ->
  nth t' (upd s t row) [] = if Nat.eqb t t' then row else nth t' s [].
Proof. intros. apply nth_upd. auto. Qed.

Lemma col_nth s i t : nth t (col s i) 0 = get2 s t i.
Proof.
  unfold col. revert t. induction s as [|r s IH]; intros t; [destruct t, i; reflexivity|].
  destruct t; simpl; auto.
Qed.

Lemma col_length s i : length (col s i) = length s.
Proof. apply map_length. Qed.

Lemma firstn_snoc (l : list Z) k : (k < length l)%nat -> firstn (S k) l = firstn k l ++ [nth k l 0].
Proof.
  revert k. induction l as [|a l IH]; intros k Hk; simpl in *; [lia|]. destruct k; [reflexivity|].
  simpl. f_equal. apply IH. lia.
Qed.

Lemma sizesToOffsets2_ok W sizes offsets w :
  sizes <> [] -> (forall row, In row sizes -> length row = w) -> length offsets = w ->
  (forall i, (i < w)%nat -> 0 <= nth i offsets 0 < 2 ^ W) ->
  exists out sum, sizesToOffsets2 W sizes offsets = Ok (out, sum) /\
    length out = length sizes /\ (forall t, (t < length sizes)%nat -> length (nth t out []) = w) /\ length sum = w /\
    (forall i t, (i < w)%nat -> (t < length sizes)%nat ->
       get2 out t i = wrap W (nth i offsets 0 + zsum (firstn t (col sizes i)))) /\
    (forall i, (i < w)%nat -> nth i sum 0 = wrap W (nth i offsets 0 + zsum (col sizes i))).
Proof.
  intros Hne Hrow Hoff Hrep.
  assert (Hrow' : forall t, (t < length sizes)%nat -> length (nth t sizes []) = w).
  { intros t Ht. apply Hrow. apply nth_In; auto. }
  unfold sizesToOffsets2. destruct sizes as [|front rest] eqn:Es; [congruence|].
  rewrite <- Es in *. assert (Hf : length front = w) by (apply Hrow; rewrite Es; left; auto).
  rewrite Hf. clear Hf.
  set (I := fun (k : nat) (st : list (list Z) * list Z) =>
    let '(out, sum) := st in
    length out = length sizes /\ (forall t, (t < length sizes)%nat -> length (nth t out []) = w) /\ length sum = w /\
    (forall i t, (i < w)%nat -> (t < length sizes)%nat ->
       get2 out t i = if (i <? k)%nat then wrap W (nth i offsets 0 + zsum (firstn t (col sizes i))) else get2 sizes t i) /\
    (forall i, (i < w)%nat ->
       nth i sum 0 = if (i <? k)%nat then wrap W (nth i offsets 0 + zsum (col sizes i)) else nth i offsets 0)).
  destruct (foldM_seq_inv (fun st i => foldM (sizesToOffsets2_step W i) (seq 0 (length sizes)) st) I 0 w (sizes, offsets))
    as ([out sum] & E & HI).
  - unfold I. repeat split; auto.
  - intros i [s0 sum0] Hi (L0 & R0 & Ls0 & G0 & N0).
    assert (Hi' : (i < w)%nat) by lia.
    set (J := fun (k : nat) (st : list (list Z) * list Z) =>
      let '(out, sum) := st in
      length out = length sizes /\ (forall t, (t < length sizes)%nat -> length (nth t out []) = w) /\ length sum = w /\
      (forall j t, (j < w)%nat -> (t < length sizes)%nat ->
         get2 out t j = if (j =? i)%nat && (t <? k)%nat
                        then wrap W (nth i offsets 0 + zsum (firstn t (col sizes i))) else get2 s0 t j) /\
      (forall j, (j < w)%nat ->
         nth j sum 0 = if (j =? i)%nat then wrap W (nth i offsets 0 + zsum (firstn k (col sizes i))) else nth j sum0 0)).
    destruct (foldM_seq_inv (sizesToOffsets2_step W i) J 0 (length sizes) (s0, sum0)) as ([s1 sum1] & E1 & HJ).
    + unfold J. repeat split; auto.
      * intros j t Hj Ht. destruct (j =? i)%nat; reflexivity.
      * intros j Hj. destruct (Nat.eqb_spec j i); auto. subst j. simpl.
        rewrite N0 by auto. rewrite Nat.ltb_irrefl. rewrite Z.add_0_r. unfold wrap.
        symmetry. apply Z.mod_small. auto.
    + intros t [s sum] Ht (L & R & Ls & G & N).
      assert (Ht' : (t < length sizes)%nat) by lia.
      unfold sizesToOffsets2_step. rewrite (rd_ok s t []) by lia. cbn [obind].
      rewrite (rd_ok (nth t s []) i 0) by (rewrite R; lia). cbn [obind].
      rewrite (rd_ok sum i 0) by lia. cbn [obind].
      rewrite wr_ok by (rewrite R; lia). cbn [obind].
      rewrite wr_ok by lia. cbn [obind]. rewrite wr_ok by lia. cbn [obind].
      eexists; split; [reflexivity|]. unfold J.
      assert (Gi : get2 s t i = get2 sizes t i).
      { rewrite G by auto. rewrite Nat.eqb_refl, Nat.ltb_irrefl. simpl. rewrite G0 by auto.
        now rewrite Nat.ltb_irrefl. }
      assert (Si : nth i sum 0 = wrap W (nth i offsets 0 + zsum (firstn t (col sizes i)))).
      { rewrite N by auto. now rewrite Nat.eqb_refl. }
      repeat split.
      * now rewrite upd_length.
      * intros t' Ht''. rewrite nth_upd2 by lia. destruct (Nat.eqb_spec t t'); auto.
        rewrite upd_length. auto.
      * now rewrite upd_length.
      * intros j t' Hj Ht''. rewrite nth_upd2 by lia. destruct (Nat.eqb_spec t t') as [<-|Hn].
        -- rewrite nth_upd by (rewrite R; lia). rewrite (Nat.eqb_sym i j).
           destruct (Nat.eqb_spec j i) as [->|Hn']; cbn [andb].
           ++ replace (t <? S t)%nat with true by (symmetry; apply Nat.ltb_lt; lia). exact Si.
           ++ rewrite G by auto. destruct (Nat.eqb_spec j i); [congruence|]. reflexivity.
        -- rewrite G by auto. destruct (j =? i)%nat; cbn [andb]; auto.
           destruct (Nat.ltb_spec t' t), (Nat.ltb_spec t' (S t)); auto; lia.
      * intros j Hj. rewrite nth_upd by lia. rewrite (Nat.eqb_sym i j).
        destruct (Nat.eqb_spec j i) as [->|Hn].
        -- rewrite Si, Gi, wrap_plus_l.
           rewrite firstn_snoc by (rewrite col_length; lia). rewrite zsum_app, col_nth. simpl.
           f_equal. ring.
        -- rewrite N by auto. destruct (Nat.eqb_spec j i); [congruence|reflexivity].
    + exists (s1, sum1). split; [exact E1|]. destruct HJ as (L & R & Ls & G & N). unfold I.
      repeat split; auto.
      * intros j t Hj Ht. rewrite G by auto.
        replace (t <? 0 + length sizes)%nat with true by (symmetry; apply Nat.ltb_lt; lia).
        rewrite andb_true_r.
        destruct (Nat.eqb_spec j i) as [->|Hn].
        -- replace (i <? S i)%nat with true by (symmetry; apply Nat.ltb_lt; lia). reflexivity.
        -- rewrite G0 by auto. destruct (Nat.ltb_spec j i), (Nat.ltb_spec j (S i)); auto; lia.
      * intros j Hj. rewrite N by auto.
        destruct (Nat.eqb_spec j i) as [->|Hn].
        -- replace (i <? S i)%nat with true by (symmetry; apply Nat.ltb_lt; lia).
           simpl (0 + _)%nat. rewrite <- (col_length sizes i) at 1. now rewrite firstn_all.
        -- rewrite N0 by auto. destruct (Nat.ltb_spec j i), (Nat.ltb_spec j (S i)); auto; lia.
  - exists out, sum. split; [exact E|]. destruct HI as (L & R & Ls & G & N). repeat split; auto.
    + intros i t Hi Ht. rewrite G by auto. destruct (Nat.ltb_spec i (0 + w)); auto; lia.
    + intros i Hi. rewrite N by auto. destruct (Nat.ltb_spec i (0 + w)); auto; lia.
Qed.

(** *** thread distributions *)
Lemma combine_map_nth {A B C} (f : A * B -> C) (la : list A) (lb : list B) t da db dc :
  length la = length lb -> (t < length la)%nat ->
  nth t (map f (combine la lb)) dc = f (nth t la da, nth t lb db).
Proof.
  revert lb t. induction la as [|a la IH]; intros [|b lb] t HL Ht; simpl in *; try lia.
  destruct t; auto. apply IH; lia.
Qed.

Lemma threadDistribution_ok W dist t :
  (t < length dist)%nat -> 0 <= W ->
  length (threadDistributionToFullDistribution W dist) = length dist /\
  nth t (threadDistributionToFullDistribution W dist) [] =
  map (fun v => wrap W (v + zsum (map (fun d => last d 0) (firstn t dist)))) (nth t dist []).
Proof.
  intros Ht HW. unfold threadDistributionToFullDistribution.
  set (offs := map _ dist).
  assert (H0 : 0 <= 0 < 2 ^ W) by (split; [lia|apply Z.pow_pos_nonneg; lia]).
  pose proof (sizesToOffsets_ok W offs 0 H0) as S.
  destruct (sizesToOffsets W offs 0) as [o tot]. destruct S as (L & N & _).
  assert (Lo : length offs = length dist) by apply map_length.
  assert (Lo' : length dist = length o) by lia.
  split; [rewrite map_length, combine_length; lia|].
  rewrite (combine_map_nth _ dist o t [] 0 []) by auto.
  apply map_ext. intros v. rewrite N by lia. rewrite wrap_plus_r, Z.add_0_l.
  assert (E : forall l, wrap W (zsum (map (fun d => match d with [] => 0 | _ => wrap W (back d) end) l)) =
              wrap W (zsum (map (fun d => last d 0) l))).
  { induction l as [|d l IH]; [reflexivity|]. simpl.
    rewrite <- wrap_plus_r, IH, wrap_plus_r. destruct d as [|x d]; [reflexivity|].
    unfold back. rewrite wrap_plus_l. reflexivity. }
  unfold offs. rewrite firstn_map. rewrite <- wrap_plus_r, E, wrap_plus_r. reflexivity.
Qed.

(** *** distribution stored in one vector *)
Lemma wrap_zsum_ext W f g (l : list nat) :
  (forall x, In x l -> wrap W (f x) = wrap W (g x)) ->
  wrap W (zsum (map f l)) = wrap W (zsum (map g l)).
Proof.
  induction l as [|a l IH]; intros H; [reflexivity|]. simpl.
  rewrite <- wrap_plus_r, IH, wrap_plus_r by (intros; apply H; right; auto).
  rewrite <- wrap_plus_l, H, wrap_plus_l by (left; auto). reflexivity.
Qed.

Lemma nth_map_seq {B} (f : nat -> B) n k d : (k < n)%nat -> nth k (map f (seq 0 n)) d = f k.
Proof.
  intros. rewrite (nth_indep _ d (f 0%nat)) by (rewrite map_length, seq_length; lia).
  rewrite map_nth, seq_nth by lia. reflexivity.
Qed.

Lemma list_as_map {B} (l : list B) d : l = map (fun k => nth k l d) (seq 0 (length l)).
Proof.
  apply (nth_ext _ _ d d).
  - now rewrite map_length, seq_length.
  - intros k Hk. now rewrite nth_map_seq.
Qed.

Lemma firstn_seq n k b : (k <= n)%nat -> firstn k (seq b n) = seq b k.
Proof.
  revert n b. induction k; intros n b H; [reflexivity|]. destruct n; [lia|]. simpl. f_equal. apply IHk. lia.
Qed.

Lemma add_range_ok W off b n data :
  (b + n <= length data)%nat ->
  exists out, foldM (fun data i => obind (rd data i) (fun v => wr data i (wrap W (v + off)))) (seq b n) data = Ok out /\
    length out = length data /\
    (forall i, nth i out 0 = if (b <=? i)%nat && (i <? b + n)%nat then wrap W (nth i data 0 + off) else nth i data 0).
Proof.
  intros Hb.
  set (I := fun k (out : list Z) => length out = length data /\
    (forall i, nth i out 0 = if (b <=? i)%nat && (i <? k)%nat then wrap W (nth i data 0 + off) else nth i data 0)).
  destruct (foldM_seq_inv (fun data i => obind (rd data i) (fun v => wr data i (wrap W (v + off)))) I b n data)
    as (out & E & HI).
  - split; auto. intros i. destruct (Nat.leb_spec b i), (Nat.ltb_spec i b); auto; lia.
  - intros i cur Hi (L & N). rewrite (rd_ok cur i 0) by lia. cbn [obind]. rewrite wr_ok by lia.
    eexists; split; [reflexivity|]. split; [now rewrite upd_length|].
    intros j. rewrite nth_upd by lia. destruct (Nat.eqb_spec i j) as [<-|Hn].
    + rewrite N. destruct (Nat.leb_spec b i), (Nat.ltb_spec i i), (Nat.ltb_spec i (S i)); cbn [andb]; auto; lia.
    + rewrite N. destruct (Nat.leb_spec b j), (Nat.ltb_spec j i), (Nat.ltb_spec j (S i)); cbn [andb]; auto; lia.
  - exists out. split; [exact E|]. exact HI.
Qed.

Lemma threadDistribution2_ok W sched data dist :
  0 <= W -> dist <> [] -> mono_list dist -> (last dist 0 < length data)%nat ->
  Permutation sched (seq 0 (length dist - 1)) ->
  exists out, threadDistributionToFullDistribution2 W sched data dist = Ok out /\
    length out = length data /\
    (forall t i, (t + 1 < length dist)%nat -> (nth t dist 0 < i <= nth (t + 1) dist 0)%nat ->
       nth i out 0 = wrap W (nth i data 0 + zsum (map (part_total data dist) (seq 0 t)))) /\
    (forall i, (i <= hd 0 dist \/ last dist 0 < i)%nat -> nth i out 0 = nth i data 0).
Proof.
  intros HW Hne Hm Hl Hs. unfold threadDistributionToFullDistribution2.
  destruct dist as [|d0 dr] eqn:Ed; [congruence|]. rewrite <- Ed in *.
  assert (Hpos : (length dist > 0)%nat) by (rewrite Ed; simpl; lia).
  assert (Hlt : forall t, (t < length dist)%nat -> (nth t dist 0 <= last dist 0)%nat).
  { intros t Ht. rewrite last_nth by auto. apply Hm. lia. }
  set (threads := (length dist - 1)%nat) in *.
  (* the offsets *)
  set (body := fun offsets t => _ : outcome (list Z)).
  set (J := fun k (o : list Z) => length o = length dist /\
    (forall t, (t < length dist)%nat -> nth t o 0 = if (t <? k)%nat then
        (if (nth t dist 0 =? nth (t + 1) dist 0)%nat then 0 else wrap W (nth (nth (t + 1) dist 0%nat) data 0)) else 0)).
  destruct (foldM_seq_inv body J 0 threads (repeat 0 (length dist))) as (o & Eo & Lo & No).
  - split; [apply repeat_length|]. intros t Ht. rewrite nth_repeat_lt; auto.
  - intros t o Ht (L & N). unfold body. rewrite !(rd_ok dist _ 0%nat) by lia. cbn [obind].
    destruct (Nat.eqb_spec (nth t dist 0%nat) (nth (t + 1) dist 0%nat)) as [Ee|Hn].
    + eexists; split; [reflexivity|]. split; auto. intros t' Ht'. rewrite N by auto.
      destruct (Nat.ltb_spec t' t), (Nat.ltb_spec t' (S t)); auto; try lia.
      replace t' with t by lia. destruct (Nat.eqb_spec (nth t dist 0%nat) (nth (t + 1) dist 0%nat)); auto; lia.
    + rewrite (rd_ok data _ 0) by (specialize (Hlt (t + 1)%nat ltac:(lia)); lia). cbn [obind].
      rewrite wr_ok by lia. eexists; split; [reflexivity|]. split; [now rewrite upd_length|].
      intros t' Ht'. rewrite nth_upd by lia. destruct (Nat.eqb_spec t t') as [<-|Hn'].
      * replace (t <? S t)%nat with true by (symmetry; apply Nat.ltb_lt; lia).
        destruct (Nat.eqb_spec (nth t dist 0%nat) (nth (t + 1) dist 0%nat)); auto; lia.
      * rewrite N by auto. destruct (Nat.ltb_spec t' t), (Nat.ltb_spec t' (S t)); auto; lia.
  - rewrite Eo. cbn [obind].
    assert (H0 : 0 <= 0 < 2 ^ W) by (split; [lia|apply Z.pow_pos_nonneg; lia]).
    pose proof (sizesToOffsets_ok W o 0 H0) as S.
    destruct (sizesToOffsets W o 0) as [offs tot]. destruct S as (Lf & Nf & _).
    assert (Noff : forall t, (t < threads)%nat -> nth t offs 0 = wrap W (zsum (map (part_total data dist) (seq 0 t)))).
    { intros t Ht. rewrite Nf by lia. rewrite Z.add_0_l.
      rewrite (list_as_map o 0), firstn_map, firstn_seq by lia.
      apply wrap_zsum_ext. intros x Hx. apply in_seq in Hx. rewrite No by lia.
      destruct (Nat.ltb_spec x (0 + threads)); [|lia]. unfold part_total.
      destruct (Nat.eqb_spec (nth x dist 0%nat) (nth (x + 1) dist 0%nat)); auto. apply wrap_wrap. }
    set (body2 := fun dt t => _ : outcome (list Z)).
    assert (Hnd : NoDup sched) by (eapply Permutation_NoDup; [symmetry; exact Hs|apply seq_NoDup]).
    assert (Hin : forall t, In t sched <-> (t < threads)%nat).
    { intros t. split; intros H.
      - apply (Permutation_in _ Hs) in H. apply in_seq in H. lia.
      - apply (Permutation_in _ (Permutation_sym Hs)). apply in_seq. lia. }
    set (I := fun (pre : list nat) (out : list Z) => length out = length data /\
      (forall t i, In t pre -> (t < threads)%nat -> (nth t dist 0 < i <= nth (t + 1) dist 0)%nat ->
         nth i out 0 = wrap W (nth i data 0 + zsum (map (part_total data dist) (seq 0 t)))) /\
      (forall i, (forall t, In t pre -> (t < threads)%nat -> ~ (nth t dist 0 < i <= nth (t + 1) dist 0)%nat) ->
         nth i out 0 = nth i data 0)).
    destruct (foldM_inv body2 I sched data) as (out & E & Lout & Nout & Uout).
    + repeat split; auto. intros t i [].
    + intros pre t post cur Eq (L & N & U).
      assert (Ht : (t < threads)%nat) by (apply Hin; rewrite Eq; apply in_or_app; right; left; auto).
      assert (Hnot : ~ In t pre).
      { rewrite Eq in Hnd. apply NoDup_remove_2 in Hnd. intros Hc. apply Hnd. apply in_or_app; auto. }
      unfold body2. rewrite (rd_ok offs t 0) by lia. cbn [obind].
      rewrite !(rd_ok dist _ 0%nat) by lia. cbn [obind].
      set (b := nth t dist 0%nat). set (e := nth (t + 1) dist 0%nat).
      assert (Hbe : (b <= e)%nat) by (apply Hm; lia).
      assert (Hel : (e <= last dist 0)%nat) by (apply Hlt; lia).
      destruct (add_range_ok W (nth t offs 0) (b + 1) (e - b) cur) as (cur' & E' & L' & N'); [lia|].
      rewrite E'. eexists; split; [reflexivity|].
      assert (Hdisj : forall t' i, In t' pre -> (t' < threads)%nat -> (nth t' dist 0 < i <= nth (t' + 1) dist 0)%nat ->
                ~ (b + 1 <= i < b + 1 + (e - b))%nat).
      { intros t' i Hi Ht' Hr Hc. assert (t' <> t) by (intros ->; auto).
        destruct (lt_dec t' t).
        - assert (nth (t' + 1) dist 0 <= b)%nat by (apply Hm; lia). lia.
        - assert (e <= nth t' dist 0)%nat by (apply Hm; lia). lia. }
      unfold I. repeat split.
      * lia.
      * intros t' i Hi Ht' Hr. apply in_app_or in Hi. destruct Hi as [Hi|[<-|[]]].
        -- rewrite N'. specialize (Hdisj t' i Hi Ht' Hr).
           destruct (Nat.leb_spec (b + 1) i), (Nat.ltb_spec i (b + 1 + (e - b))); cbn [andb]; try lia; apply (N t'); auto.
        -- rewrite N'. fold b e in Hr.
           destruct (Nat.leb_spec (b + 1) i), (Nat.ltb_spec i (b + 1 + (e - b))); cbn [andb]; try lia.
           rewrite Noff by auto. rewrite wrap_plus_r. f_equal. f_equal.
           apply U. intros t' Hi' Ht'' Hc. apply (Hdisj t' i Hi' Ht'' Hc). lia.
      * intros i Hi. rewrite N'.
        assert (Hni : ~ (b < i <= e)%nat) by (apply (Hi t); auto; apply in_or_app; right; left; auto).
        destruct (Nat.leb_spec (b + 1) i), (Nat.ltb_spec i (b + 1 + (e - b))); cbn [andb]; try lia;
          apply U; intros t' Ht'; apply Hi; apply in_or_app; auto.
    + exists out. split; [exact E|]. repeat split; auto.
      * intros t i Ht Hr. apply Nout; auto; try lia. apply Hin. lia.
      * intros i Hi. apply Uout. intros t _ Ht Hc.
        assert (hd 0%nat dist <= nth t dist 0)%nat.
        { replace (hd 0%nat dist) with (nth 0 dist 0%nat) by (rewrite Ed; reflexivity). apply Hm. lia. }
        specialize (Hlt (t + 1)%nat ltac:(lia)). lia.
Qed.

(** ** permute *)
Lemma permute_ok {A} (d0 d : A) data perm es n :
  (0 < es)%nat -> length data = (es * n)%nat -> (n <= length perm)%nat ->
  (forall i, (i < n)%nat -> (nth i perm 0 < n)%nat) ->
  exists out, permute d0 data perm es = Ok out /\ length out = length data /\
    (forall i e, (i < n)%nat -> (e < es)%nat ->
       nth (es * i + e) out d = nth (es * nth i perm 0 + e) data d)%nat.
Proof.
  intros Hes HL Hp Hr. unfold permute. cbv zeta.
  destruct es as [|es'] eqn:Ees; [lia|]. rewrite <- Ees in *. clear Ees.
  set (inner := permute_step data perm es).
  set (I := fun k (out : list A) => length out = length data /\
    (forall i e, (i < n)%nat -> (e < k)%nat -> nth (es * i + e) out d = nth (es * nth i perm 0 + e) data d)%nat).
  destruct (foldM_seq_inv (fun dt e => foldM (inner e) (seq 0 (length dt / es)) dt) I 0 es (repeat d0 (length data)))
    as (out & E & HI).
  - split; [now rewrite repeat_length|]. intros; lia.
  - intros e dt He (L & N).
    replace (length dt / es)%nat with n by (rewrite L, HL, Nat.mul_comm, Nat.div_mul; lia).
    set (J := fun k (out : list A) => length out = length data /\
      (forall i e', (i < n)%nat -> (e' < e)%nat \/ (e' = e /\ i < k)%nat ->
         nth (es * i + e') out d = nth (es * nth i perm 0 + e') data d)%nat).
    destruct (foldM_seq_inv (inner e) J 0 n dt) as (dt' & E' & L' & N').
    + split; auto. intros i e' Hi [He'|[_ He']]; [|lia]. apply N; auto.
    + intros i cur Hi (Lc & Nc). unfold inner, permute_step.
      rewrite (rd_ok perm i 0%nat) by lia. cbn [obind].
      specialize (Hr i ltac:(lia)).
      rewrite (rd_ok data _ d) by nia. cbn [obind]. rewrite wr_ok by nia.
      eexists; split; [reflexivity|]. split; [now rewrite upd_length|].
      intros i' e' Hi' Hor. rewrite nth_upd by nia.
      destruct (Nat.eqb_spec (es * i + e) (es * i' + e')) as [Eq|Hn].
      * assert (i = i' /\ e = e') as [-> ->]; [|reflexivity].
        assert (e' < es)%nat by lia.
        assert (i = i') by nia. subst. split; auto. lia.
      * apply Nc; auto. destruct Hor as [?|[-> ?]]; [left; auto|right]. split; auto.
        assert (i' <> i) by (intros ->; apply Hn; reflexivity). lia.
    + exists dt'. split; [exact E'|]. split; auto. intros i e' Hi He'. apply N'; auto. lia.
  - exists out. split; [exact E|]. destruct HI as [L N]. split; auto.
Qed.

(** ** rounding *)
Lemma div_ceil a b : 0 < a -> 0 < b ->
  a <= ((a - 1) / b + 1) * b /\ ((a - 1) / b + 1) * b < a + b.
Proof.
  intros. pose proof (Z.div_mod (a - 1) b ltac:(lia)). pose proof (Z.mod_pos_bound (a - 1) b ltac:(lia)). nia.
Qed.

Lemma round_up_ok W num align :
  0 < num < 2 ^ W -> 0 < align < 2 ^ W -> (exists m, (align | m) /\ num <= m < 2 ^ W) ->
  exists r, round_up W num align = Ok r /\ (align | r) /\ num <= r /\
    (forall m, (align | m) -> num <= m -> r <= m).
Proof.
  intros Hn Ha (m & [k Hk] & Hm). unfold round_up.
  destruct (Z.eqb_spec align 0); [lia|].
  unfold wrap. rewrite (Z.mod_small (num - 1)) by lia.
  destruct (div_ceil num align) as [H1 H2]; try lia.
  set (r := ((num - 1) / align + 1) * align) in *.
  assert (Hleast : forall m, (align | m) -> num <= m -> r <= m).
  { intros m' [k' ->] Hm'. unfold r in *. set (q := (num - 1) / align + 1) in *. clearbody q.
    assert (q <= k') by (apply Z.lt_succ_r; apply (Z.mul_lt_mono_pos_r align); lia).
    apply Z.mul_le_mono_nonneg_r; lia. }
  exists r. rewrite Z.mod_small.
  - repeat split; auto. exists ((num - 1) / align + 1). reflexivity.
  - assert (r <= m) by (apply Hleast; [exists k; auto|lia]). lia.
Qed.

Lemma round_up_zero_pow2 W a : 0 <= a < W -> round_up W 0 (2 ^ a) = Ok 0.
Proof.
  intros H. unfold round_up.
  assert (0 < 2 ^ a) by (apply Z.pow_pos_nonneg; lia).
  assert (0 < 2 ^ (W - a)) by (apply Z.pow_pos_nonneg; lia).
  assert (EW : 2 ^ W = 2 ^ (W - a) * 2 ^ a) by (rewrite <- Z.pow_add_r by lia; f_equal; lia).
  destruct (Z.eqb_spec (2 ^ a) 0); [lia|]. f_equal. unfold wrap.
  replace ((0 - 1) mod 2 ^ W) with (2 ^ W - 1).
  2:{ apply (Z.mod_unique _ _ (-1)); lia. }
  replace ((2 ^ W - 1) / 2 ^ a) with (2 ^ (W - a) - 1).
  2:{ apply (Z.div_unique _ _ _ (2 ^ a - 1)); [lia|]. rewrite EW. ring. }
  replace ((2 ^ (W - a) - 1 + 1) * 2 ^ a) with (2 ^ W) by (rewrite EW; ring).
  apply Z_mod_same_full.
Qed.

Lemma round_down_ok W num align :
  0 <= num < 2 ^ W -> 0 < align ->
  exists r, round_down W num align = Ok r /\ (align | r) /\ 0 <= r <= num /\
    (forall m, (align | m) -> m <= num -> m <= r).
Proof.
  intros Hn Ha. unfold round_down. destruct (Z.eqb_spec align 0); [lia|].
  pose proof (Z.div_mod num align ltac:(lia)). pose proof (Z.mod_pos_bound num align ltac:(lia)).
  assert (0 <= num / align) by (apply Z.div_pos; lia).
  exists (num / align * align). unfold wrap. rewrite Z.mod_small by nia. repeat split.
  - exists (num / align). reflexivity.
  - nia.
  - nia.
  - intros m [k ->] Hm.
    assert (k <= num / align) by (apply Z.div_le_lower_bound; lia).
    apply Z.mul_le_mono_nonneg_r; lia.
Qed.

Lemma divide_round_up_ok W num den :
  0 < num < 2 ^ W -> 0 < den ->
  exists q, divide_round_up W num den = Ok q /\ num <= q * den /\
    (forall m, num <= m * den -> q <= m).
Proof.
  intros Hn Hd. unfold divide_round_up. destruct (Z.eqb_spec den 0); [lia|].
  unfold wrap. rewrite (Z.mod_small (num - 1)) by lia.
  destruct (div_ceil num den) as [H1 H2]; try lia.
  assert (0 <= (num - 1) / den) by (apply Z.div_pos; lia).
  assert ((num - 1) / den <= num - 1) by (apply Z.div_le_upper_bound; nia).
  rewrite Z.mod_small by lia. eexists; split; [reflexivity|]. split; auto.
  intros m Hm. set (q := (num - 1) / den + 1) in *. clearbody q.
  apply Z.lt_succ_r. apply (Z.mul_lt_mono_pos_r den); lia.
Qed.

Lemma my_int_pow_rec_ok base : forall fuel e, 0 <= e -> (Z.to_nat e < fuel)%nat ->
  my_int_pow_rec fuel base e = Some (base ^ e).
Proof.
  induction fuel as [|f IH]; intros e He Hf; [lia|]. cbn [my_int_pow_rec].
  destruct (Z.ltb_spec e 0); [lia|]. destruct (Z.eqb_spec e 0) as [->|]; [reflexivity|].
  destruct (Z.eqb_spec e 1) as [->|]; [now rewrite Z.pow_1_r|].
  rewrite Z.quot_div_nonneg, Z.rem_mod_nonneg by lia.
  pose proof (Z.div_mod e 2 ltac:(lia)) as D. pose proof (Z.mod_pos_bound e 2 ltac:(lia)) as M.
  assert (0 <= e / 2) by (apply Z.div_pos; lia).
  rewrite IH by lia. f_equal. rewrite <- Z.pow_add_r by lia.
  destruct (Z.eqb_spec (e mod 2) 1).
  - rewrite <- (Z.pow_1_r base) at 2. rewrite <- Z.pow_add_r by lia. f_equal. lia.
  - f_equal. lia.
Qed.
