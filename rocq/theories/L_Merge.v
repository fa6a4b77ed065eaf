(** * Lemmas: merging, sorting, duplicates *)
From Coq Require Import List Bool Arith Lia Permutation Sorted.
From Verif Require Import Base S_Order M_Utils.
Import ListNotations.

Section Merge.
Context {A : Type}.
Variable ltb : A -> A -> bool.
Hypothesis SWO : strict_weak_order ltb.
Notation le := (le_of ltb).
Notation sorted := (sorted ltb).

Lemma is_sorted_spec l : is_sorted ltb l = true <-> sorted l.
Proof.
  split.
  - intros H. apply Sorted_StronglySorted; [exact (swo_le_trans _ SWO)|].
    induction l as [|a l IH]; [constructor|]. destruct l as [|b l]; [repeat constructor|].
    simpl in H. apply andb_true_iff in H. destruct H as [H1 H2].
    constructor; [apply IH; exact H2|]. constructor. unfold le_of. now destruct (ltb b a).
  - intros H. induction H as [|a l Hs IH Hf]; [reflexivity|].
    destruct l as [|b l]; [reflexivity|]. simpl.
    inversion Hf; subst. unfold le_of in H1. rewrite H1. simpl. exact IH.
Qed.

Lemma merge_nil_r l : merge ltb l [] = l.
Proof. destruct l; reflexivity. Qed.

Lemma merge_cons a t1 b t2 : merge ltb (a :: t1) (b :: t2) =
  if ltb b a then b :: merge ltb (a :: t1) t2 else a :: merge ltb t1 (b :: t2).
Proof. reflexivity. Qed.

Lemma merge_perm l1 : forall l2, Permutation (l1 ++ l2) (merge ltb l1 l2).
Proof.
  induction l1 as [|a t1 IH1]; intros l2; [reflexivity|].
  induction l2 as [|b t2 IH2].
  - rewrite app_nil_r, merge_nil_r. reflexivity.
  - rewrite merge_cons. destruct (ltb b a).
    + rewrite <- IH2. symmetry. apply (Permutation_middle (a :: t1) t2 b).
    + simpl. constructor. apply IH1.
Qed.

Lemma merge_sorted l1 : forall l2, sorted l1 -> sorted l2 -> sorted (merge ltb l1 l2).
Proof.
  induction l1 as [|a t1 IH1]; intros l2 H1 H2; [exact H2|].
  induction l2 as [|b t2 IH2]; [exact H1|].
  rewrite merge_cons.
  apply StronglySorted_inv in H1 as H1'. destruct H1' as [S1 F1].
  apply StronglySorted_inv in H2 as H2'. destruct H2' as [S2 F2].
  destruct (ltb b a) eqn:E.
  - constructor; [apply IH2; exact S2|].
    apply (Permutation_Forall (merge_perm (a :: t1) t2)).
    apply Forall_app. split; [|exact F2].
    assert (Hba : le b a) by (apply (swo_asym _ SWO); exact E).
    constructor; [exact Hba|]. eapply Forall_impl; [|exact F1].
    intros x Hx. eapply (swo_le_trans _ SWO); eauto.
  - constructor; [apply IH1; auto|].
    apply (Permutation_Forall (merge_perm t1 (b :: t2))).
    apply Forall_app. split; [exact F1|].
    constructor; [exact E|]. eapply Forall_impl; [|exact F2].
    intros x Hx. eapply (swo_le_trans _ SWO); eauto.
Qed.

Lemma put_perm b e (l new : list A) : b <= e -> Permutation (slice b e l) new ->
  Permutation l (put b e l new).
Proof.
  intros H P. rewrite (split_slice b e l) at 1 by auto. unfold put.
  apply Permutation_app_head. apply Permutation_app_tail. exact P.
Qed.

(** two adjacent slices *)
Lemma inplace_merge_ok data b m e :
  b <= m <= e -> e <= length data -> sorted (slice b m data) -> sorted (slice m e data) ->
  exists new, inplace_merge ltb data b m e = Ok (put b e data new) /\
    Permutation (slice b e data) new /\ sorted new.
Proof.
  intros H1 H2 S1 S2. unfold inplace_merge.
  apply is_sorted_spec in S1 as B1. apply is_sorted_spec in S2 as B2.
  rewrite B1, B2.
  replace (b <=? m) with true by (symmetry; apply Nat.leb_le; lia).
  replace (m <=? e) with true by (symmetry; apply Nat.leb_le; lia).
  replace (e <=? length data) with true by (symmetry; apply Nat.leb_le; lia).
  simpl. eexists; split; [reflexivity|]. split.
  - rewrite (slice_app b m e) by lia. apply merge_perm.
  - apply merge_sorted; auto.
Qed.

(** *** The merge tree *)
Definition mono (d : nat -> nat) (n : nat) : Prop := forall i j, i <= j <= n -> d i <= d j.

Section Level.
Variable D : list nat.           (* padded distribution *)
Variable align : nat.
Hypothesis HD : length D = S align.
Notation d k := (nth k D 0).
Hypothesis Hmono : mono (fun k => d k) align.

Lemma rd_d k : k <= align -> rd D k = Ok (d k).
Proof. intros. apply rd_ok. lia. Qed.

Definition outside (data data' : list A) : Prop :=
  slice 0 (d 0) data' = slice 0 (d 0) data /\
  slice (d align) (length data) data' = slice (d align) (length data) data.

Definition level_step i : list A -> nat -> outcome (list A) :=
  (fun data t =>
     obind (rd D (i * t)) (fun b =>
     obind (rd D (i * t + i / 2)) (fun m =>
     obind (rd D (i * t + i)) (fun e =>
     inplace_merge ltb data b m e)))).

Lemma level_ok h q ord data :
  0 < h -> 2 * h * q = align -> d align <= length data ->
  Permutation ord (seq 0 q) ->
  (forall u, u < 2 * q -> sorted (slice (d (h * u)) (d (h * u + h)) data)) ->
  exists data', foldM (level_step (h * 2)) ord data = Ok data' /\
    length data' = length data /\ Permutation data data' /\ outside data data' /\
    (forall t, t < q -> sorted (slice (d (h * 2 * t)) (d (h * 2 * t + h * 2)) data')).
Proof.
  intros Hh Hq Hlen Hord Hs.
  assert (Hnd : NoDup ord) by (eapply Permutation_NoDup; [symmetry; exact Hord|apply seq_NoDup]).
  assert (Hin : forall t, In t ord <-> t < q).
  { intros t. split; intros H.
    - apply (Permutation_in _ Hord) in H. apply in_seq in H. lia.
    - apply (Permutation_in _ (Permutation_sym Hord)). apply in_seq. lia. }
  set (I := fun (pre : list nat) (dt : list A) =>
    length dt = length data /\ Permutation data dt /\ outside data dt /\
    (forall t, t < q -> In t pre -> sorted (slice (d (h * 2 * t)) (d (h * 2 * t + h * 2)) dt)) /\
    (forall t, t < q -> ~ In t pre ->
       slice (d (h * 2 * t)) (d (h * 2 * t + h * 2)) dt = slice (d (h * 2 * t)) (d (h * 2 * t + h * 2)) data)).
  destruct (foldM_inv (level_step (h * 2)) I ord data) as (data' & E & HI).
  - repeat split; auto. intros t _ [].
  - intros pre t post dt Eo (L & P & O & S1 & S2).
    assert (Htq : t < q) by (apply Hin; rewrite Eo; apply in_or_app; right; left; auto).
    assert (Hnot : ~ In t pre).
    { rewrite Eo in Hnd. apply NoDup_remove_2 in Hnd. intros Hc. apply Hnd. apply in_or_app; auto. }
    assert (Hb : h * 2 * t + h * 2 <= align) by nia.
    unfold level_step. rewrite rd_d by lia. cbn [obind].
    replace (h * 2 / 2) with h by (symmetry; apply Nat.div_mul; lia).
    rewrite rd_d by lia. cbn [obind]. rewrite rd_d by lia. cbn [obind].
    specialize (S2 t Htq Hnot) as Eq.
    set (b := d (h * 2 * t)) in *. set (m := d (h * 2 * t + h)) in *. set (e := d (h * 2 * t + h * 2)) in *.
    assert (Hbm : b <= m) by (apply (Hmono (h * 2 * t) (h * 2 * t + h)); lia).
    assert (Hme : m <= e) by (apply (Hmono (h * 2 * t + h) (h * 2 * t + h * 2)); lia).
    assert (Hea : e <= d align) by (apply (Hmono (h * 2 * t + h * 2) align); lia).
    assert (H0b : d 0 <= b) by (apply (Hmono 0 (h * 2 * t)); lia).
    (* the two halves are the original, sorted ones *)
    rewrite (slice_app b m e dt), (slice_app b m e data) in Eq by lia.
    assert (Ebm : slice b m dt = slice b m data /\ slice m e dt = slice m e data).
    { apply app_inv_len; [|exact Eq]. rewrite !slice_length by lia. reflexivity. }
    destruct Ebm as [Ebm Eme].
    assert (Sl : sorted (slice b m dt)).
    { rewrite Ebm. specialize (Hs (2 * t)). replace (h * (2 * t)) with (h * 2 * t) in Hs by lia.
      apply Hs; lia. }
    assert (Sr : sorted (slice m e dt)).
    { rewrite Eme. specialize (Hs (2 * t + 1)).
      replace (h * (2 * t + 1)) with (h * 2 * t + h) in Hs by lia.
      replace (h * 2 * t + h + h) with (h * 2 * t + h * 2) in Hs by lia. apply Hs; lia. }
    destruct (inplace_merge_ok dt b m e) as (new & En & Pn & Sn); auto; try lia.
    rewrite En.
    assert (Ln : length new = e - b).
    { rewrite <- (Permutation_length Pn), slice_length; lia. }
    eexists; split; [reflexivity|].
    assert (Hother : forall t', t' < q -> t' <> t ->
      slice (d (h * 2 * t')) (d (h * 2 * t' + h * 2)) (put b e dt new) =
      slice (d (h * 2 * t')) (d (h * 2 * t' + h * 2)) dt).
    { intros t' Ht' Hne. destruct (lt_dec t' t).
      - apply slice_put_before. split; [|lia].
        apply (Hmono (h * 2 * t' + h * 2) (h * 2 * t)); nia.
      - apply slice_put_after; auto; try lia.
        apply (Hmono (h * 2 * t + h * 2) (h * 2 * t')); nia. }
    unfold I. repeat split.
    + rewrite put_length; lia.
    + rewrite P. apply put_perm; auto; lia.
    + destruct O as [O1 _]. rewrite <- O1. apply slice_put_before; lia.
    + destruct O as [_ O2]. rewrite <- O2. apply slice_put_after; auto; lia.
    + intros t' Ht' Hi. destruct (Nat.eq_dec t' t) as [->|Hne].
      * fold b e. rewrite slice_put_same by lia. exact Sn.
      * rewrite Hother by auto. apply S1; auto.
        apply in_app_or in Hi. destruct Hi as [Hi|[Hi|[]]]; auto; congruence.
    + intros t' Ht' Hi.
      assert (t' <> t) by (intros ->; apply Hi; apply in_or_app; right; left; auto).
      rewrite Hother by auto. apply S2; auto. intros Hc; apply Hi; apply in_or_app; auto.
  - exists data'. destruct HI as (L & P & O & S1 & S2). repeat split; auto; try apply O.
    intros t Ht. apply S1; auto. apply Hin; auto.
Qed.

Lemma levels_ok sched : (forall i n, Permutation (sched i n) (seq 0 n)) ->
  forall L j fuel data,
  2 ^ (j + L) = align -> L <= fuel -> d align <= length data ->
  (forall u, u < 2 ^ L -> sorted (slice (d (2 ^ j * u)) (d (2 ^ j * u + 2 ^ j)) data)) ->
  exists data', merge_levels ltb sched fuel (2 ^ j * 2) align D data = Ok data' /\
    length data' = length data /\ Permutation data data' /\ outside data data' /\
    sorted (slice (d 0) (d align) data').
Proof.
  intros Hsched. induction L as [|L IH]; intros j fuel data Ha Hf Hlen Hs.
  - exists data. rewrite Nat.add_0_r in Ha.
    assert (E : merge_levels ltb sched fuel (2 ^ j * 2) align D data = Ok data).
    { destruct fuel; simpl; auto. destruct (Nat.leb_spec (2 ^ j * 2) align); auto.
      assert (2 ^ j <> 0) by (apply Nat.pow_nonzero; lia). lia. }
    repeat split; auto.
    specialize (Hs 0 ltac:(simpl; lia)). rewrite Nat.mul_0_r in Hs. rewrite Ha in Hs. exact Hs.
  - destruct fuel as [|f]; [lia|]. cbn [merge_levels].
    assert (Hp : 2 ^ j <> 0) by (apply Nat.pow_nonzero; lia).
    assert (HpL : 2 ^ L <> 0) by (apply Nat.pow_nonzero; lia).
    assert (Ha' : 2 * 2 ^ j * 2 ^ L = align).
    { rewrite <- Ha. rewrite Nat.pow_add_r, Nat.pow_succ_r'. lia. }
    destruct (Nat.leb_spec (2 ^ j * 2) align); [|nia].
    replace (align / (2 ^ j * 2)) with (2 ^ L).
    2:{ rewrite <- Ha'. replace (2 * 2 ^ j * 2 ^ L) with (2 ^ L * (2 ^ j * 2)) by lia.
        rewrite Nat.div_mul; lia. }
    destruct (level_ok (2 ^ j) (2 ^ L) (sched (2 ^ j * 2) (2 ^ L)) data)
      as (d1 & E1 & L1 & P1 & O1 & S1); auto; try lia.
    unfold level_step in E1. rewrite E1. simpl obind.
    destruct (IH (S j) f d1) as (d2 & E2 & L2 & P2 & O2 & S2); try lia.
    { rewrite <- Ha. f_equal. lia. }
    { intros u Hu. rewrite Nat.pow_succ_r'. replace (2 * 2 ^ j) with (2 ^ j * 2) by lia. apply S1; auto. }
    rewrite Nat.pow_succ_r' in E2. replace (2 * 2 ^ j * 2) with (2 ^ j * 2 * 2) in E2 by lia.
    rewrite E2. exists d2. repeat split; auto; try lia.
    + now rewrite P1.
    + destruct O1 as [O1 _], O2 as [O2 _]. now rewrite O2.
    + destruct O1 as [_ O1], O2 as [_ O2]. rewrite L1 in O2. now rewrite O2.
Qed.
End Level.

Lemma align_loop_spec n : forall fuel j, n <= 2 ^ j * 2 ^ fuel ->
  exists L, align_loop fuel (2 ^ j) n = 2 ^ (j + L) /\ n <= 2 ^ (j + L) /\
    (forall k, k < L -> 2 ^ (j + k) < n).
Proof.
  induction fuel as [|f IH]; intros j H.
  - exists 0. simpl in H. rewrite Nat.add_0_r. repeat split; simpl; try lia.
  - cbn [align_loop]. destruct (Nat.ltb_spec (2 ^ j) n) as [Hlt|Hge].
    + replace (2 ^ j * 2) with (2 ^ S j) by (rewrite Nat.pow_succ_r'; lia).
      destruct (IH (S j)) as (L & E & Hn & Hk).
      { rewrite Nat.pow_succ_r' in *. lia. }
      exists (S L). rewrite Nat.add_succ_r, <- Nat.add_succ_l. repeat split; auto.
      intros k Hk'. destruct k; [now rewrite Nat.add_0_r|].
      rewrite Nat.add_succ_r, <- Nat.add_succ_l. apply Hk. lia.
    + exists 0. rewrite Nat.add_0_r. repeat split; auto. lia.
Qed.

Lemma pow2_ge n : n < 2 ^ n.
Proof. induction n; simpl; lia. Qed.

(** monotone lists *)
Lemma last_nth (l : list nat) : l <> [] -> last l 0 = nth (length l - 1) l 0.
Proof.
  induction l as [|a l IH]; [congruence|]. intros _. destruct l as [|b l]; [reflexivity|].
  change (last (a :: b :: l) 0) with (last (b :: l) 0). rewrite IH by discriminate.
  simpl. now rewrite Nat.sub_0_r.
Qed.

Lemma padded_nth l c k : l <> [] -> nth k (l ++ repeat (last l 0) c) 0 =
  if k <? length l then nth k l 0 else if k <? length l + c then last l 0 else 0.
Proof.
  intros Hl. destruct (Nat.ltb_spec k (length l)).
  - now rewrite app_nth1.
  - rewrite app_nth2 by lia. destruct (Nat.ltb_spec k (length l + c)).
    + rewrite nth_repeat_lt; auto. lia.
    + apply nth_overflow. rewrite repeat_length. lia.
Qed.

Lemma padded_mono l c : l <> [] -> mono_list l ->
  mono (fun k => nth k (l ++ repeat (last l 0) c) 0) (length l + c - 1).
Proof.
  intros Hl Hm i j Hij. rewrite !padded_nth by auto.
  assert (length l > 0) by (destruct l; simpl in *; [congruence|lia]).
  destruct (Nat.ltb_spec i (length l)); destruct (Nat.ltb_spec j (length l)); try lia.
  - apply Hm; lia.
  - destruct (Nat.ltb_spec j (length l + c)); [|lia].
    rewrite last_nth by auto. apply Hm; lia.
  - destruct (Nat.ltb_spec i (length l + c)); destruct (Nat.ltb_spec j (length l + c)); lia.
Qed.

Lemma sorted_nil_slice b data : sorted (slice b b data).
Proof. rewrite slice_nil. constructor. Qed.

Lemma inplaceMerge_ok sched data dist :
  (forall i n, Permutation (sched i n) (seq 0 n)) ->
  dist <> [] -> mono_list dist -> last dist 0 <= length data ->
  (forall t, t + 1 < length dist -> sorted (slice (nth t dist 0) (nth (t + 1) dist 0) data)) ->
  exists out, inplaceMerge ltb sched data dist = Ok out /\
    length out = length data /\ Permutation data out /\
    sorted (slice (hd 0 dist) (last dist 0) out) /\
    slice 0 (hd 0 dist) out = slice 0 (hd 0 dist) data /\
    slice (last dist 0) (length data) out = slice (last dist 0) (length data) data.
Proof.
  intros Hsched Hne Hm Hlast Hseg. unfold inplaceMerge.
  destruct dist as [|d0 dr] eqn:Edist; [congruence|]. rewrite <- Edist in *.
  assert (Hpos : length dist > 0) by (rewrite Edist; simpl; lia).
  destruct (align_loop_spec (length dist) (length dist) 0) as (L & Ea & Hle & _).
  { pose proof (pow2_ge (length dist)). simpl; lia. }
  simpl in Ea, Hle. rewrite Ea.
  set (align := 2 ^ L) in *. set (c := align - (length dist - 1)).
  set (D := dist ++ repeat (last dist 0) c).
  assert (HD : length D = S align) by (unfold D, c; rewrite app_length, repeat_length; lia).
  assert (Hmono : mono (fun k => nth k D 0) align).
  { replace align with (length dist + c - 1) by (unfold c; lia). apply padded_mono; auto. }
  assert (Hda : nth align D 0 = last dist 0).
  { unfold D. rewrite padded_nth by auto.
    destruct (Nat.ltb_spec align (length dist)); [lia|].
    destruct (Nat.ltb_spec align (length dist + c)); auto. unfold c in *; lia. }
  assert (Hd0 : nth 0 D 0 = hd 0 dist) by (unfold D; rewrite Edist; reflexivity).
  destruct (levels_ok D align HD Hmono sched Hsched L 0 align data) as (out & E & Lo & P & O & S);
    auto; try lia.
  { unfold align. pose proof (pow2_ge L). lia. }
  { intros u Hu. fold align in Hu. change (2 ^ 0) with 1. rewrite Nat.mul_1_l.
    unfold D. rewrite !padded_nth by auto.
    destruct (Nat.ltb_spec u (length dist)).
    - destruct (Nat.ltb_spec (u + 1) (length dist)); [apply Hseg; auto|].
      destruct (Nat.ltb_spec (u + 1) (length dist + c)); [|unfold c in *; lia].
      rewrite last_nth by auto. replace u with (length dist - 1) by lia. apply sorted_nil_slice.
    - destruct (Nat.ltb_spec u (length dist + c)); [|unfold c in *; lia].
      destruct (Nat.ltb_spec (u + 1) (length dist)); [lia|].
      destruct (Nat.ltb_spec (u + 1) (length dist + c)); [|unfold c in *; lia]. apply sorted_nil_slice. }
  simpl in E. exists out. unfold outside in O. rewrite Hda, Hd0 in *.
  split; [exact E|]. repeat split; auto; apply O.
Qed.

Lemma mergeAppendedData_ok sched data d0 dist :
  (forall i n, Permutation (sched i n) (seq 0 n)) ->
  dist <> [] -> mono_list dist -> last dist 0 <= length data ->
  sorted (slice 0 (hd 0 dist) data) ->
  (forall t, t + 1 < length dist -> sorted (slice (nth t dist 0) (nth (t + 1) dist 0) data)) ->
  exists out, mergeAppendedData ltb sched data (d0 :: dist) = Ok out /\
    length out = length data /\ Permutation data out /\
    sorted (slice 0 (last dist 0) out) /\
    slice (last dist 0) (length data) out = slice (last dist 0) (length data) data.
Proof.
  intros Hsched Hne Hm Hlast Hfirst Hseg. unfold mergeAppendedData.
  destruct dist as [|d1 dr] eqn:Edist; [congruence|]. rewrite <- Edist in *.
  assert (Hpos : length dist > 0) by (rewrite Edist; simpl; lia).
  destruct (align_loop_spec (length dist) (length dist) 0) as (L & Ea & Hle & _).
  { pose proof (pow2_ge (length dist)). simpl; lia. }
  simpl in Ea, Hle. rewrite Ea.
  set (align := 2 ^ L) in *. simpl length.
  set (c := align + 2 - S (length dist)).
  set (D := dist ++ repeat (last dist 0) c).
  assert (HD : length D = S align) by (unfold D, c; rewrite app_length, repeat_length; lia).
  assert (Hmono : mono (fun k => nth k D 0) align).
  { replace align with (length dist + c - 1) by (unfold c; lia). apply padded_mono; auto. }
  assert (Hda : nth align D 0 = last dist 0).
  { unfold D. rewrite padded_nth by auto.
    destruct (Nat.ltb_spec align (length dist)); [lia|].
    destruct (Nat.ltb_spec align (length dist + c)); auto. unfold c in *; lia. }
  assert (Hd0 : nth 0 D 0 = hd 0 dist) by (unfold D; rewrite Edist; reflexivity).
  assert (HhD : hd 0 D = hd 0 dist) by (unfold D; rewrite Edist; reflexivity).
  assert (HlD : last D 0 = last dist 0).
  { rewrite last_nth by (destruct D; simpl in HD; [lia|discriminate]).
    rewrite HD. simpl. rewrite Nat.sub_0_r. exact Hda. }
  destruct (levels_ok D align HD Hmono sched Hsched L 0 align data) as (out & E & Lo & P & O & S);
    auto; try lia.
  { unfold align. pose proof (pow2_ge L). lia. }
  { intros u Hu. fold align in Hu. change (2 ^ 0) with 1. rewrite Nat.mul_1_l.
    unfold D. rewrite !padded_nth by auto.
    destruct (Nat.ltb_spec u (length dist)).
    - destruct (Nat.ltb_spec (u + 1) (length dist)); [apply Hseg; auto|].
      destruct (Nat.ltb_spec (u + 1) (length dist + c)); [|unfold c in *; lia].
      rewrite last_nth by auto. replace u with (length dist - 1) by lia. apply sorted_nil_slice.
    - destruct (Nat.ltb_spec u (length dist + c)); [|unfold c in *; lia].
      destruct (Nat.ltb_spec (u + 1) (length dist)); [lia|].
      destruct (Nat.ltb_spec (u + 1) (length dist + c)); [|unfold c in *; lia]. apply sorted_nil_slice. }
  simpl in E. rewrite E. simpl obind. rewrite HhD, HlD.
  unfold outside in O. rewrite Hda, Hd0 in *. destruct O as [O1 O2].
  assert (Hfl : hd 0 dist <= last dist 0).
  { rewrite last_nth by auto. replace (hd 0 dist) with (nth 0 dist 0) by (destruct dist; reflexivity).
    apply Hm. lia. }
  destruct (inplace_merge_ok out 0 (hd 0 dist) (last dist 0)) as (new & En & Pn & Sn); auto; try lia.
  { now rewrite O1. }
  exists (put 0 (last dist 0) out new).
  assert (Ln : length new = last dist 0 - 0).
  { rewrite <- (Permutation_length Pn), slice_length; lia. }
  split; [exact En|]. repeat split.
  - rewrite put_length; lia.
  - rewrite P. apply put_perm; auto. lia.
  - rewrite slice_put_same by lia. exact Sn.
  - rewrite slice_put_after by lia. exact O2.
Qed.

(** *** sorting the parts *)
Section WithSort.
Variable sort : list A -> list A.
Hypothesis SORT : sort_contract ltb sort.

Lemma sort_parts_ok ord data dist :
  dist <> [] -> mono_list dist -> last dist 0 <= length data ->
  Permutation ord (seq 0 (length dist - 1)) ->
  exists out, foldM (fun data t =>
      obind (rd dist t) (fun b => obind (rd dist (t + 1)) (fun e => sort_range sort data b e)))
      ord data = Ok out /\
    length out = length data /\ Permutation data out /\
    slice 0 (hd 0 dist) out = slice 0 (hd 0 dist) data /\
    slice (last dist 0) (length data) out = slice (last dist 0) (length data) data /\
    (forall t, t + 1 < length dist -> sorted (slice (nth t dist 0) (nth (t + 1) dist 0) out)).
Proof.
  intros Hne Hm Hlast Hord.
  assert (Hpos : length dist > 0) by (destruct dist; simpl in *; [congruence|lia]).
  assert (Hin : forall t, In t ord <-> t + 1 < length dist).
  { intros t. split; intros H.
    - apply (Permutation_in _ Hord) in H. apply in_seq in H. lia.
    - apply (Permutation_in _ (Permutation_sym Hord)). apply in_seq. lia. }
  assert (Hh : nth 0 dist 0 = hd 0 dist) by (destruct dist; reflexivity).
  set (I := fun (pre : list nat) (dt : list A) =>
    length dt = length data /\ Permutation data dt /\
    slice 0 (hd 0 dist) dt = slice 0 (hd 0 dist) data /\
    slice (last dist 0) (length data) dt = slice (last dist 0) (length data) data /\
    (forall t, t + 1 < length dist -> In t pre -> sorted (slice (nth t dist 0) (nth (t + 1) dist 0) dt))).
  edestruct (foldM_inv (fun data t =>
      obind (rd dist t) (fun b => obind (rd dist (t + 1)) (fun e => sort_range sort data b e))) I ord data)
      as (out & E & HI).
  - repeat split; auto. intros t _ [].
  - intros pre t post dt Eo (L & P & O1 & O2 & S1).
    assert (Ht : t + 1 < length dist) by (apply Hin; rewrite Eo; apply in_or_app; right; left; auto).
    rewrite !(rd_ok dist _ 0) by lia. simpl.
    assert (Hbe : nth t dist 0 <= nth (t + 1) dist 0) by (apply Hm; lia).
    assert (Hel : nth (t + 1) dist 0 <= last dist 0) by (rewrite last_nth by auto; apply Hm; lia).
    assert (H0b : hd 0 dist <= nth t dist 0) by (rewrite <- Hh; apply Hm; lia).
    set (b := nth t dist 0) in *. set (e := nth (t + 1) dist 0) in *.
    unfold sort_range.
    replace (b <=? e) with true by (symmetry; apply Nat.leb_le; lia).
    replace (e <=? length dt) with true by (symmetry; apply Nat.leb_le; lia). simpl.
    destruct (SORT (slice b e dt)) as [Ps Ss].
    assert (Ln : length (sort (slice b e dt)) = e - b).
    { rewrite <- (Permutation_length Ps), slice_length; lia. }
    eexists; split; [reflexivity|]. unfold I. repeat split.
    + rewrite put_length; lia.
    + rewrite P. apply put_perm; auto.
    + rewrite slice_put_before by lia. exact O1.
    + rewrite slice_put_after by lia. exact O2.
    + intros t' Ht' Hi. destruct (Nat.eq_dec t' t) as [->|Hne'].
      * fold b e. rewrite slice_put_same by lia. exact Ss.
      * apply in_app_or in Hi. destruct Hi as [Hi|[Hi|[]]]; [|congruence].
        specialize (S1 t' Ht' Hi). destruct (lt_dec t' t).
        -- rewrite slice_put_before; auto. split; [|lia]. unfold b. apply Hm. lia.
        -- rewrite slice_put_after; auto; try lia. unfold e. apply Hm. lia.
  - exists out. destruct HI as (L & P & O1 & O2 & S1). repeat split; auto.
    intros t Ht. apply S1; auto. apply Hin; auto.
Qed.

Lemma sortWithInplaceMerge_ok ssched sched data dist :
  Permutation ssched (seq 0 (length dist - 1)) ->
  (forall i n, Permutation (sched i n) (seq 0 n)) ->
  dist <> [] -> mono_list dist -> last dist 0 <= length data ->
  exists out, sortWithInplaceMerge ltb sort ssched sched data dist = Ok out /\
    length out = length data /\ Permutation data out /\
    sorted (slice (hd 0 dist) (last dist 0) out) /\
    slice 0 (hd 0 dist) out = slice 0 (hd 0 dist) data /\
    slice (last dist 0) (length data) out = slice (last dist 0) (length data) data.
Proof.
  intros Hss Hsched Hne Hm Hlast. unfold sortWithInplaceMerge.
  destruct (sort_parts_ok ssched data dist Hne Hm Hlast Hss) as (d1 & E1 & L1 & P1 & O1 & O1' & S1).
  rewrite E1. simpl obind.
  destruct (inplaceMerge_ok sched d1 dist Hsched Hne Hm) as (d2 & E2 & L2 & P2 & S2 & O2 & O2'); auto; try lia.
  exists d2. split; [exact E2|]. repeat split; auto; try lia.
  - now rewrite P1.
  - now rewrite O2.
  - rewrite L1 in O2'. now rewrite O2'.
Qed.
End WithSort.

(** *** joining thread-local vectors *)
Lemma join_threads_ok d0 rest :
  exists dist, join_threads (A := A) (d0 :: rest) = Ok (concat (d0 :: rest), dist) /\
    length dist = S (length (d0 :: rest)) /\
    hd 0 dist = 0 /\ last dist 0 = length (concat (d0 :: rest)) /\ mono_list dist /\
    (forall t, t < length (d0 :: rest) ->
       slice (nth t dist 0) (nth (t + 1) dist 0) (concat (d0 :: rest)) = nth t (d0 :: rest) []).
Proof.
  unfold join_threads.
  set (f := fun '(d, dist) (dt : list A) => (d ++ dt, dist ++ [length (d ++ dt)])).
  (* dist = prefix lengths *)
  set (pl := fun (ls : list (list A)) => map (fun k => length (concat (firstn k ls))) (seq 0 (S (length ls)))).
  assert (G : forall rest pre, pre <> [] ->
     fold_left f rest (concat pre, pl pre) = (concat (pre ++ rest), pl (pre ++ rest))).
  { induction rest0 as [|a r IH]; intros pre Hp; cbn [fold_left].
    - now rewrite !app_nil_r.
    - replace (f (concat pre, pl pre) a) with (concat (pre ++ [a]), pl (pre ++ [a])).
      + rewrite IH by (destruct pre; discriminate). now rewrite <- app_assoc.
      + unfold f. rewrite concat_app. simpl concat. rewrite app_nil_r. f_equal.
        unfold pl. rewrite app_length. simpl length. rewrite Nat.add_1_r.
        rewrite (seq_S (S (length pre)) 0), map_app. f_equal.
        * apply map_ext_in. intros k Hk. apply in_seq in Hk. rewrite firstn_app.
          replace (k - length pre) with 0 by lia. simpl. now rewrite app_nil_r.
        * cbn [map]. rewrite firstn_all2 by (rewrite app_length; simpl; lia).
          rewrite concat_app. simpl. now rewrite app_nil_r. }
  specialize (G rest [d0] ltac:(discriminate)). simpl ([d0] ++ rest) in G.
  replace (d0, [0; length d0]) with (concat [d0], pl [d0]).
  2:{ unfold pl. simpl. now rewrite app_nil_r. }
  set (ls := d0 :: rest) in *.
  exists (pl ls). split; [f_equal; exact G|]. clear G. clearbody ls.
  assert (Hn : forall k, k <= length ls -> nth k (pl ls) 0 = length (concat (firstn k ls))).
  { intros k Hk. unfold pl.
    rewrite (nth_indep _ 0 (length (concat (firstn 0 ls)))) by (rewrite map_length, seq_length; lia).
    rewrite (map_nth (fun k => length (concat (firstn k ls))) _ 0 k), seq_nth by lia. reflexivity. }
  assert (Hlen : length (pl ls) = S (length ls)) by (unfold pl; rewrite map_length, seq_length; lia).
  assert (Hfs : forall i j, i <= j -> firstn j ls = firstn i ls ++ firstn (j - i) (skipn i ls)).
  { intros i j Hij. pose proof (slice_app 0 i j ls ltac:(lia)) as E. unfold slice in E.
    rewrite !Nat.sub_0_r in E. exact E. }
  split; [exact Hlen|]. split; [reflexivity|]. split; [|split].
  - rewrite last_nth by (destruct (pl ls); simpl in Hlen; [lia|discriminate]).
    rewrite Hlen. replace (S (length ls) - 1) with (length ls) by lia. rewrite Hn by lia. now rewrite firstn_all.
  - intros i j [Hij Hj]. rewrite Hlen in Hj. rewrite !Hn by lia.
    rewrite (Hfs i j Hij), concat_app, app_length. lia.
  - intros t Ht. rewrite !Hn by lia.
    rewrite <- (firstn_skipn t ls) at 3. rewrite concat_app.
    unfold slice. rewrite skipn_app, skipn_all2, Nat.sub_diag by lia. simpl.
    assert (Es : skipn t ls = nth t ls [] :: skipn (S t) ls).
    { clear -Ht. revert t Ht. induction ls as [|a l IH]; intros t Ht; simpl in *; [lia|].
      destruct t; [reflexivity|]. apply IH. lia. }
    rewrite Es. cbn [concat].
    rewrite (Hfs t (t + 1)) by lia. rewrite concat_app, app_length.
    replace (t + 1 - t) with 1 by lia. rewrite Es. simpl firstn. simpl concat. rewrite app_nil_r.
    replace (length (concat (firstn t ls)) + length (nth t ls []) - length (concat (firstn t ls)))
      with (length (nth t ls [])) by lia.
    rewrite firstn_app, firstn_all, Nat.sub_diag. simpl. apply app_nil_r.
Qed.

End Merge.

