(** * Lemmas on the ranks of nodes *)
From Coq Require Import List Arith Bool Lia Sorted Permutation.
From Verif Require Import Base S_Order M_Distributed M_DistMatrix M_DistApply M_NodeInfo S_NodeInfo M_Links S_Links L_Equality L_Equality2 L_TotalFeti L_Csx2 L_Fill2 L_Distributed L_DistMatrix L_NodeInfo L_NodeInfo3 L_NodeInfo4 L_NodeInfo5.
Import ListNotations.
Local Open Scope out_scope.

Lemma lt_le_ss l : StronglySorted lt l -> StronglySorted le l.
Proof. induction 1 as [|a l S IH F]; constructor; auto. eapply Forall_impl; [|exact F]. intros; cbn in *; lia. Qed.
Lemma leading_le_len b l : leading b l <= length l.
Proof. induction l as [|a l IH]; cbn [leading length]; auto. destruct (a <? b); lia. Qed.
Lemma leading_mono l a b : a <= b -> leading a l <= leading b l.
Proof. intros H. induction l as [|x l IH]; cbn [leading]; auto. destruct (Nat.ltb_spec x a), (Nat.ltb_spec x b); lia. Qed.
Lemma leading_before b l : forall i, i < leading b l -> nth i l 0 < b.
Proof. induction l as [|a l IH]; cbn [leading]; [intros; lia|]. destruct (Nat.ltb_spec a b); [|intros; lia]. intros [|i] Hi; cbn [nth]; auto. apply IH. lia. Qed.
Lemma leading_at b l : leading b l < length l -> b <= nth (leading b l) l 0.
Proof. induction l as [|a l IH]; cbn [leading length]; [lia|]. destruct (Nat.ltb_spec a b); cbn [nth]; auto. intros. apply IH. lia. Qed.
Lemma leading_found x l : StronglySorted lt l -> (leading x l < length l /\ nth (leading x l) l 0 = x <-> In x l).
Proof.
  intros S. split; [intros [H E]; rewrite <- E; apply nth_In; auto|]. intros H. apply (In_nth _ _ 0) in H. destruct H as (i & Hi & E).
  destruct (leading_nth x l (lt_le_ss l S)) as [_ Q].
  assert (EQ : leading x l = i); [|rewrite EQ; auto]. assert (~ i < leading x l) by (rewrite (Q i Hi); lia). destruct (Nat.eq_dec (leading x l) i); auto. exfalso.
  assert (nth (leading x l) l 0 < nth i l 0) by (apply L_Distributed.ss_nth; auto; lia). pose proof (leading_at x l ltac:(lia)). lia.
Qed.

Lemma upd_app_here {A} (l : list A) a b r k : length l = k -> upd (l ++ a :: r) k b = l ++ b :: r.
Proof. intros <-. induction l as [|x l IH]; cbn [upd length app]; auto. f_equal. exact IH. Qed.
Lemma skip_below_ok rb x : forall fuel o, o <= leading x rb -> leading x rb <= fuel + o -> skip_below fuel rb x o = Ok (leading x rb).
Proof.
  pose proof (leading_le_len x rb). induction fuel as [|fuel IH]; intros o H1 H2; cbn [skip_below].
  - assert (o = leading x rb) by lia. subst o. destruct (Nat.leb_spec (length rb) (leading x rb)) as [L|L]; auto. rewrite (rd_ok _ _ 0) by lia. cbn [obind]. pose proof (leading_at x rb L).
    rewrite (proj2 (Nat.ltb_ge _ _)) by auto. auto.
  - destruct (Nat.leb_spec (length rb) o) as [L|L]; [f_equal; lia|]. rewrite (rd_ok _ _ 0) by lia. cbn [obind]. destruct (Nat.ltb_spec (nth o rb 0) x) as [Q|Q].
    + apply IH; [|lia]. destruct (Nat.eq_dec o (leading x rb)) as [->|]; [|lia]. pose proof (leading_at x rb L). lia.
    + f_equal. destruct (Nat.eq_dec o (leading x rb)); auto. pose proof (leading_before x rb o). lia.
Qed.

Section Duplication.
  Context (nb : list nat) (rb : nat -> list nat).
  Hypothesis (SR : forall j, In j nb -> StronglySorted lt (rb j)).
  Let rbuf := map rb nb.
  Lemma duplicate_ranks_ok x offset : length offset = length nb -> (forall k, k < length nb -> nth k offset 0 <= leading x (rb (nth k nb 0))) ->
    foldM (duplicate_rank nb rbuf x) (seq 0 (length nb)) (offset, []) = Ok (map (fun j => leading x (rb j)) nb, filter (fun j => mem x (rb j)) nb).
  Proof.
    intros L H.
    destruct (foldM_seq_inv (duplicate_rank nb rbuf x) (fun k st => snd st = filter (fun j => mem x (rb j)) (firstn k nb) /\ fst st = map (fun j => leading x (rb j)) (firstn k nb) ++ skipn k offset) 0 (length nb) (offset, [])) as (st & E & I1 & I2).
    - auto.
    - intros k (off & rs) Hk [I1 I2]. cbn [fst snd] in I1, I2. set (j := nth k nb 0). assert (Hj : In j nb) by (apply nth_In; lia).
      assert (Lo : length off = length nb). { subst off. rewrite app_length, map_length, firstn_length, skipn_length. lia. }
      assert (No : nth k off 0 = nth k offset 0). { subst off. rewrite app_nth2; rewrite map_length, firstn_length; [|lia]. rewrite nth_skipn'. f_equal. lia. }
      unfold duplicate_rank. unfold rbuf. rewrite (rd_ok _ _ []) by (rewrite map_length; lia). cbn [obind]. rewrite (L_Distributed.nth_map rb nb k [] 0) by lia. fold j.
      rewrite (rd_ok _ _ 0) by lia. cbn [obind]. rewrite skip_below_ok; [|rewrite No; apply H; lia|pose proof (leading_le_len x (rb j)); lia]. cbn [obind].
      rewrite wr_ok by lia. cbn [obind].
      assert (Eoff : upd off k (leading x (rb j)) = map (fun j => leading x (rb j)) (firstn (S k) nb) ++ skipn (S k) offset).
      { subst off. rewrite (L_Equality2.firstn_S nb k 0) by lia. rewrite map_app. cbn [map]. fold j. rewrite <- app_assoc. cbn [app].
        assert (Sk : skipn k offset = nth k offset 0 :: skipn (S k) offset). { clear -Hk L. assert (Q : k < length offset) by lia. clear Hk L. revert k Q. induction offset as [|a l IH]; intros k Q; [cbn in Q; lia|]. destruct k; auto. cbn [skipn nth]. apply IH. cbn in Q. lia. }
        rewrite Sk. assert (Lm : length (map (fun j => leading x (rb j)) (firstn k nb)) = k) by (rewrite map_length, firstn_length; lia).
        apply upd_app_here; auto. }
      destruct (leading_found x (rb j) (SR j Hj)) as [F1 F2].
      assert (Found : (if leading x (rb j) <? length (rb j) then y <- rd (rb j) (leading x (rb j)) ;; Ok (y =? x) else Ok false) = Ok (mem x (rb j))).
      { destruct (mem x (rb j)) eqn:M.
        - apply mem_iff in M. destruct (F2 M) as [Q1 Q2]. rewrite (proj2 (Nat.ltb_lt _ _)) by auto. rewrite (rd_ok _ _ 0) by auto. cbn [obind]. rewrite Q2, Nat.eqb_refl. auto.
        - apply mem_false in M. destruct (Nat.ltb_spec (leading x (rb j)) (length (rb j))) as [Q|Q]; auto. rewrite (rd_ok _ _ 0) by auto. cbn [obind]. f_equal. apply Nat.eqb_neq. intros C. apply M, F1; auto. }
      rewrite Found. cbn [obind]. rewrite (L_Equality2.firstn_S nb k 0) in * by lia. fold j in Eoff |- *. rewrite filter_app. cbn [filter].
      destruct (mem x (rb j)).
      + rewrite (rd_ok _ _ 0) by lia. cbn [obind]. fold j. eexists. split; [reflexivity|]. cbn [fst snd]. rewrite I1. auto.
      + eexists. split; [reflexivity|]. cbn [fst snd]. rewrite app_nil_r. auto.
    - rewrite E. rewrite Nat.add_0_l, firstn_all, skipn_all2 in * by lia. rewrite app_nil_r in I2. destruct st. cbn [fst snd] in *. congruence.
  Qed.
  Lemma duplicate_nodes_ok ids : StronglySorted lt ids -> duplicate_nodes nb ids rbuf = Ok (map (fun x => filter (fun j => mem x (rb j)) nb) ids).
  Proof.
    intros S. unfold duplicate_nodes.
    set (f := fun (st : list nat * list (list nat)) x => let '(offset, ranks) := st in '(offset, rs) <- foldM (duplicate_rank nb rbuf x) (seq 0 (length nb)) (offset, []) ;; Ok (offset, ranks ++ [rs])).
    assert (G : forall l offset ranks, StronglySorted lt l -> length offset = length nb -> (forall x, In x l -> forall k, k < length nb -> nth k offset 0 <= leading x (rb (nth k nb 0))) ->
      exists offset', foldM f l (offset, ranks) = Ok (offset', ranks ++ map (fun x => filter (fun j => mem x (rb j)) nb) l)).
    { induction l as [|x l IH]; intros offset ranks Sl Lo H; cbn [foldM map].
      - exists offset. rewrite app_nil_r. auto.
      - apply StronglySorted_inv in Sl. destruct Sl as [Sl F]. rewrite Forall_forall in F. assert (Ef : f (offset, ranks) x = Ok (map (fun j => leading x (rb j)) nb, ranks ++ [filter (fun j => mem x (rb j)) nb])). { unfold f. rewrite duplicate_ranks_ok by (auto; intros; apply H; auto; left; auto). auto. }
        rewrite Ef. cbn [obind].
        destruct (IH (map (fun j => leading x (rb j)) nb) (ranks ++ [filter (fun j => mem x (rb j)) nb])) as (o' & E).
        + auto.
        + apply map_length.
        + intros y Hy k Hk. rewrite (L_Distributed.nth_map _ nb k 0 0) by auto. apply leading_mono. apply Nat.lt_le_incl, F; auto.
        + exists o'. rewrite E, <- app_assoc. auto. }
    destruct (G ids (repeat 0 (length nb)) []) as (o' & E); auto; [apply repeat_length|intros; rewrite nth_repeat_lt by auto; lia|]. rewrite E. auto.
  Qed.
End Duplication.

Lemma exchange_sym {A} P (nbr : nat -> list nat) (F : nat -> nat -> list A) : (forall r j, r < P -> In j (nbr r) -> j < P /\ In r (nbr j)) ->
  exchange (map nbr (seq 0 P)) (map (fun r => map (F r) (nbr r)) (seq 0 P)) = Ok (map (fun r => map (fun j => F j r) (nbr r)) (seq 0 P)).
Proof.
  intros H. unfold exchange. rewrite map_length, seq_length. rewrite combine_self. apply mapM_map. intros r Hr. apply in_seq in Hr. cbn [fst snd]. apply mapM_ok. intros j Hj.
  destruct (H r j ltac:(lia) Hj) as (Lj & Hs). unfold sent. rewrite (rd_ok _ _ []) by (rewrite map_length, seq_length; auto). cbn [obind].
  rewrite (rd_ok _ _ []) by (rewrite map_length, seq_length; auto). cbn [obind]. rewrite !nth_map_seq by auto. apply (rd_map_rank (F j)); auto.
Qed.

Lemma duplication_ok nbm ids : neighborhood nbm ids -> compute_nodes_duplication nbm ids =
  Ok (map (fun r => map (fun x => filter (fun j => mem x (nth j ids [])) (nth r nbm [])) (nth r ids [])) (seq 0 (length ids))).
Proof.
  intros H. set (P := length ids). assert (Ln : length nbm = P) by apply (nh_length _ _ H). unfold compute_nodes_duplication.
  assert (En : nbm = map (fun r => nth r nbm []) (seq 0 P)) by (apply list_as_map; auto).
  assert (Ei : ids = map (fun r => nth r ids []) (seq 0 P)) by (apply list_as_map; auto).
  assert (Es : map (fun x : list nat * list nat => repeat (snd x) (length (fst x))) (combine nbm ids) = map (fun r => map (fun _ => nth r ids []) (nth r nbm [])) (seq 0 P)).
  { rewrite En at 1. rewrite Ei at 1. rewrite combine_map, map_map. apply map_ext. intros r. cbn [fst snd]. induction (nth r nbm []); cbn; congruence. }
  assert (Ee : exchange nbm (map (fun x : list nat * list nat => repeat (snd x) (length (fst x))) (combine nbm ids)) = Ok (map (fun r => map (fun j => nth j ids []) (nth r nbm [])) (seq 0 P))).
  { rewrite Es. rewrite En at 1. apply (exchange_sym P (fun r => nth r nbm []) (fun r _ => nth r ids [])). intros; apply (nh_symmetric _ _ H); auto. }
  rewrite Ee. cbn [obind]. rewrite En at 1. rewrite Ei at 1.
  rewrite !combine_map. apply mapM_map. intros r Hr. apply in_seq in Hr. cbn [fst snd]. apply (duplicate_nodes_ok (nth r nbm []) (fun j => nth j ids [])).
  - intros j Hj. apply (nh_ids _ _ H). apply (nh_symmetric _ _ H r); auto. fold P. lia.
  - apply (nh_ids _ _ H). fold P. lia.
Qed.
