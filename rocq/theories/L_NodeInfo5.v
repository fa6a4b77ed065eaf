(** * Lemmas on the order of nodes *)
From Coq Require Import List Arith Bool Lia Sorted Permutation.
From Verif Require Import Base S_Order M_Utils M_Distributed S_Distributed M_DistMatrix M_NodeInfo S_NodeInfo L_Utils L_Equality L_Fill2 L_Numbering L_Distributed L_DistMatrix L_NodeInfo L_NodeInfo3 L_NodeInfo4.
Import ListNotations.
Local Open Scope out_scope.

Lemma node_before_swo fronts ids : strict_weak_order (node_before fronts ids).
Proof.
  constructor; unfold le_of, node_before.
  - intros a b. destruct (Nat.eqb_spec (nth a fronts 0) (nth b fronts 0)) as [E|E], (Nat.eqb_spec (nth b fronts 0) (nth a fronts 0)) as [E'|E']; try congruence; rewrite Nat.ltb_lt, Nat.ltb_ge; lia.
  - intros a b c. destruct (Nat.eqb_spec (nth b fronts 0) (nth a fronts 0)), (Nat.eqb_spec (nth c fronts 0) (nth b fronts 0)), (Nat.eqb_spec (nth c fronts 0) (nth a fronts 0)); rewrite !Nat.ltb_ge; lia.
Qed.
Lemma key_swo (k : nat -> nat) : strict_weak_order (fun i j => k i <? k j).
Proof. constructor; unfold le_of; [intros a b; rewrite Nat.ltb_lt, Nat.ltb_ge; lia|intros a b c; rewrite !Nat.ltb_ge; lia]. Qed.
Lemma ss_nth_gen {A} (R : A -> A -> Prop) l d : StronglySorted R l -> forall m n, m < n < length l -> R (nth m l d) (nth n l d).
Proof.
  induction 1 as [|a l S IH F]; intros m n [L1 L2]; [cbn in L2; lia|]. destruct n as [|n]; [lia|]. cbn [length] in L2. destruct m as [|m]; cbn [nth]; [|apply IH; lia]. rewrite Forall_forall in F. apply F, nth_In; lia.
Qed.
Lemma leading_nth b l : StronglySorted le l -> leading b l <= length l /\ forall n, n < length l -> (n < leading b l <-> nth n l 0 < b).
Proof.
  induction 1 as [|a l S IH F]; cbn [leading length]; [split; auto; intros; lia|]. destruct IH as [IH1 IH2]. rewrite Forall_forall in F. destruct (Nat.ltb_spec a b) as [L|L].
  - split; [lia|]. intros [|n] Hn; cbn [nth]; [lia|]. rewrite <- IH2 by lia. lia.
  - split; [lia|]. intros [|n] Hn; cbn [nth]; [lia|]. split; [lia|]. assert (Hl : n < length l) by lia. specialize (F (nth n l 0) (nth_In _ _ Hl)). lia.
Qed.
Lemma mapM_rd {A} (l : list A) d idx : (forall i, In i idx -> i < length l) -> mapM (rd l) idx = Ok (map (fun i => nth i l d) idx).
Proof. intros H. rewrite <- (map_id idx) at 1. apply mapM_map. intros i Hi. apply rd_ok; auto. Qed.
Lemma le_nodup_lt l : StronglySorted le l -> NoDup l -> StronglySorted lt l.
Proof. induction 1 as [|a l S IH F]; intros N; constructor; apply NoDup_cons_iff in N; destruct N as [Na N]; auto. rewrite Forall_forall in *. intros y Hy. specialize (F y Hy). destruct (Nat.eq_dec a y) as [->|]; [tauto|lia]. Qed.
Lemma sorted_le l : sorted Nat.ltb l -> StronglySorted le l.
Proof. induction 1 as [|a l S IH F]; constructor; auto. rewrite Forall_forall in *. intros y Hy. specialize (F y Hy). unfold le_of in F. apply Nat.ltb_ge in F. auto. Qed.

Section Rank.
  Context (sortby : (nat -> nat -> bool) -> list nat -> list nat) (SORT : sorts sortby) (rank : nat) (s : node_store).
  Hypothesis (ND : NoDup (ns_ids s)) (LR : length (ns_ranks s) = length (ns_ids s)) (NE : forall n, n < length (ns_ids s) -> ranks_of s n <> []).
  Let size := length (ns_ids s).
  Let fronts := map (hd 0) (ns_ranks s).
  Let p := sortby (node_before fronts (ns_ids s)) (seq 0 size).
  Let q := sortby (fun i j => nth i p 0 <? nth j p 0) (seq 0 size).
  Definition sorted_store : node_store :=
    {| ns_ids := map (id_of s) p; ns_ranks := map (ranks_of s) p; ns_nhalo := leading rank (map (owner_of s) p) |}.
  Definition new_number (n : nat) : nat := nth n q 0.

  Lemma p_perm : Permutation (seq 0 size) p.
  Proof. apply (SORT _ (node_before_swo fronts (ns_ids s))). Qed.
  Lemma p_len : length p = size.
  Proof. rewrite <- (Permutation_length p_perm), seq_length. auto. Qed.
  Lemma p_lt i : In i p -> i < size.
  Proof. intros H. apply (Permutation_in _ (Permutation_sym p_perm)), in_seq in H. lia. Qed.
  Lemma p_nodup : NoDup p.
  Proof. apply (Permutation_NoDup p_perm), seq_NoDup. Qed.
  Lemma front_of i : nth i fronts 0 = owner_of s i.
  Proof. unfold fronts, owner_of, ranks_of. exact (map_nth (hd 0) (ns_ranks s) [] i). Qed.
  Lemma q_perm : Permutation (seq 0 size) q.
  Proof. apply (SORT _ (key_swo (fun i => nth i p 0))). Qed.
  Lemma pq : map (fun k => nth k p 0) q = seq 0 size.
  Proof.
    assert (Pm : Permutation (map (fun k => nth k p 0) q) (seq 0 size)).
    { rewrite p_perm. rewrite <- q_perm. rewrite <- p_len. rewrite <- (list_as_map p 0 _ eq_refl). auto. }
    apply ss_ext.
    - apply le_nodup_lt; [|apply (Permutation_NoDup (Permutation_sym Pm)), seq_NoDup]. destruct (SORT _ (key_swo (fun i => nth i p 0)) (seq 0 size)) as [_ S]. fold q in S. unfold sorted in S.
      apply (ss_map_in (le_of (fun i j => nth i p 0 <? nth j p 0))); auto. intros a b _ _ L. unfold le_of in L. apply Nat.ltb_ge in L. auto.
    - clear. generalize 0. induction size as [|n IH]; intros a; cbn [seq]; constructor; auto. apply Forall_forall. intros x Hx. apply in_seq in Hx. lia.
    - intros x. split; apply Permutation_in; auto. apply Permutation_sym; auto.
  Qed.
  Lemma q_len : length q = size.
  Proof. rewrite <- (Permutation_length q_perm), seq_length. auto. Qed.
  Lemma new_lt n : n < size -> new_number n < size.
  Proof. intros H. unfold new_number. assert (Q : In (nth n q 0) (seq 0 size)) by (apply (Permutation_in _ (Permutation_sym q_perm)), nth_In; rewrite q_len; auto). apply in_seq in Q. lia. Qed.
  Lemma new_old n : n < size -> nth (new_number n) p 0 = n.
  Proof. intros H. unfold new_number. rewrite <- (nth_map (fun k => nth k p 0) q n 0 0) by (rewrite q_len; auto). rewrite pq. rewrite seq_nth by auto. auto. Qed.
  Lemma sorted_size : length (ns_ids sorted_store) = size.
  Proof. cbn [sorted_store ns_ids]. rewrite map_length, p_len. auto. Qed.
  Lemma sorted_id k : k < size -> id_of sorted_store k = id_of s (nth k p 0).
  Proof. intros H. unfold id_of at 1. cbn [sorted_store ns_ids]. apply nth_map. rewrite p_len; auto. Qed.
  Lemma sorted_ranks k : k < size -> ranks_of sorted_store k = ranks_of s (nth k p 0).
  Proof. intros H. unfold ranks_of at 1. cbn [sorted_store ns_ranks]. apply nth_map. rewrite p_len; auto. Qed.
  Lemma new_id n : n < size -> id_of sorted_store (new_number n) = id_of s n.
  Proof. intros H. rewrite sorted_id by (apply new_lt; auto). rewrite new_old by auto. auto. Qed.
  Lemma sorted_pairs : Permutation (combine (ns_ids s) (ns_ranks s)) (combine (ns_ids sorted_store) (ns_ranks sorted_store)).
  Proof.
    cbn [sorted_store ns_ids ns_ranks]. rewrite combine_map. rewrite <- p_perm. rewrite <- combine_map. unfold id_of, ranks_of. rewrite <- (list_as_map (ns_ids s) 0 size eq_refl). rewrite <- (list_as_map (ns_ranks s) [] size LR). auto.
  Qed.
  Lemma fronts_ok l : (forall i, In i l -> i < size) -> mapM (fun rs => rd rs 0) (map (ranks_of s) l) = Ok (map (owner_of s) l).
  Proof. intros H. apply mapM_map. intros i Hi. unfold owner_of. specialize (NE i (H i Hi)). destruct (ranks_of s i) as [|a r]; [congruence|]. auto. Qed.
  Lemma sorted_order m n : m < n < size -> owner_of s (nth m p 0) < owner_of s (nth n p 0) \/ owner_of s (nth m p 0) = owner_of s (nth n p 0) /\ id_of s (nth m p 0) < id_of s (nth n p 0).
  Proof.
    intros H. destruct (SORT _ (node_before_swo fronts (ns_ids s)) (seq 0 size)) as [_ S]. fold p in S. unfold sorted in S. pose proof (ss_nth_gen _ p 0 S m n ltac:(rewrite p_len; auto)) as Q. unfold le_of, node_before in Q. rewrite !front_of in Q.
    destruct (Nat.eqb_spec (owner_of s (nth n p 0)) (owner_of s (nth m p 0))) as [E|E]; apply Nat.ltb_ge in Q; [|lia]. right. split; auto. fold (id_of s (nth n p 0)) in Q. fold (id_of s (nth m p 0)) in Q.
    destruct (Nat.eq_dec (id_of s (nth m p 0)) (id_of s (nth n p 0))) as [E'|]; [|lia]. exfalso. unfold id_of in E'. apply (proj1 (NoDup_nth _ 0) ND) in E'; [|apply p_lt, nth_In; rewrite p_len; lia|apply p_lt, nth_In; rewrite p_len; lia].
    apply (proj1 (NoDup_nth p 0) p_nodup) in E'; rewrite ?p_len; lia.
  Qed.
  Lemma sorted_ordered : ordered_nodes rank sorted_store.
  Proof.
    constructor.
    - rewrite sorted_size. intros m n H. unfold owner_of. rewrite !sorted_ranks, !sorted_id by lia. apply sorted_order; auto.
    - rewrite sorted_size. cbn [sorted_store ns_nhalo]. assert (S : StronglySorted le (map (owner_of s) p)).
      { assert (Q : forall m n, m < n < size -> owner_of s (nth m p 0) <= owner_of s (nth n p 0)) by (intros m n H; destruct (sorted_order m n H); lia). rewrite <- p_len in Q. clear -Q. induction p as [|a l IH]; cbn [map]; constructor.
        - apply IH. intros m n H. apply (Q (S m) (S n)). cbn [length]. lia.
        - apply Forall_forall. intros y Hy. apply in_map_iff in Hy. destruct Hy as (b & <- & Hb). apply (In_nth _ _ 0) in Hb. destruct Hb as (i & Hi & <-). apply (Q 0 (S i)). cbn [length]. lia. }
      destruct (leading_nth rank _ S) as [L1 L2]. rewrite map_length, p_len in L1, L2. split; auto. intros n Hn. rewrite L2 by auto. rewrite (nth_map (owner_of s) p n 0 0) by (rewrite p_len; auto). unfold owner_of at 2. rewrite sorted_ranks by auto. tauto.
  Qed.
  Lemma remap_list l : valid_nodes s l -> mapM (rd q) l = Ok (map new_number l).
  Proof. intros V. apply mapM_rd. intros i Hi. rewrite q_len. apply V; auto. Qed.
  Lemma localremap_ok e : (forall l, In l e -> valid_nodes s l) -> localremap q e = Ok (map (map new_number) e).
  Proof. intros V. unfold localremap. rewrite <- (map_id e) at 1. apply mapM_map. intros l Hl. apply remap_list; auto. Qed.
  Lemma remap_ids l : valid_nodes s l -> map (id_of sorted_store) (map new_number l) = map (id_of s) l.
  Proof. intros V. rewrite map_map. apply map_ext_in. intros n Hn. apply new_id, V; auto. Qed.
  Lemma remap_valid l : valid_nodes s l -> valid_nodes sorted_store (map new_number l).
  Proof. intros V n Hn. apply in_map_iff in Hn. destruct Hn as (k & <- & Hk). rewrite sorted_size. apply new_lt, V; auto. Qed.
  Lemma remap_same e : (forall l, In l e -> valid_nodes s l) -> same_nodes s e sorted_store (map (map new_number) e).
  Proof. intros V. unfold same_nodes. rewrite map_map. apply map_ext_in. intros l Hl. apply remap_ids; auto. Qed.
  Definition new_region (rg : region) : region :=
    {| rg_all := rg_all rg; rg_elements := option_map (map (map new_number)) (rg_elements rg);
       rg_nodes := if rg_all rg then rg_nodes rg else option_map (fun l => sortby Nat.ltb (map new_number l)) (rg_nodes rg) |}.
  Lemma remap_region_ok rg : valid_region s rg -> remap_region sortby q rg = Ok (new_region rg).
  Proof.
    intros [V1 V2]. unfold remap_region, new_region. destruct (rg_elements rg) as [e|] eqn:Ee; [rewrite localremap_ok by (apply V1; auto)|]; cbn [obind option_map]; (destruct (rg_all rg); [auto|]); (destruct (rg_nodes rg) as [l|] eqn:El; [rewrite remap_list by (apply V2; auto)|]; auto).
  Qed.
  Lemma new_region_same rg : valid_region s rg -> same_region s rg sorted_store (new_region rg) /\ valid_region sorted_store (new_region rg).
  Proof.
    intros [V1 V2]. unfold same_region, valid_region, new_region. cbn [rg_all rg_elements rg_nodes]. split.
    - split; auto. split; [destruct (rg_elements rg) as [e|]; cbn [option_map]; auto; apply remap_same; apply V1; auto|]. destruct (rg_all rg); auto. destruct (rg_nodes rg) as [l|]; cbn [option_map]; auto.
      destruct (SORT _ nat_swo (map new_number l)) as [Pm S]. split; [|apply sorted_le; auto]. rewrite <- remap_ids by (apply V2; auto). apply Permutation_map; auto.
    - split.
      + destruct (rg_elements rg) as [e|]; cbn [option_map]; [|discriminate]. intros e' [= <-] l Hl. apply in_map_iff in Hl. destruct Hl as (l' & <- & Hl'). apply remap_valid. apply (V1 e); auto.
      + destruct (rg_all rg); [intros l Hl n Hn; rewrite sorted_size; apply (V2 l); auto|]. destruct (rg_nodes rg) as [l|]; cbn [option_map]; [|discriminate]. intros l' [= <-] n Hn. destruct (SORT _ nat_swo (map new_number l)) as [Pm _]. apply (Permutation_in _ (Permutation_sym Pm)) in Hn. revert n Hn. apply remap_valid, V2; auto.
  Qed.
  Lemma sort_nodes_ok elements regions : (forall l, In l elements -> valid_nodes s l) -> (forall rg, In rg regions -> valid_region s rg) ->
    sort_nodes sortby rank s elements regions = Ok (sorted_store, map (map new_number) elements, map new_region regions).
  Proof.
    intros VE VR. unfold sort_nodes. cbv zeta. fold size.
    assert (E1 : mapM (fun rs => rd rs 0) (ns_ranks s) = Ok fronts).
    { unfold fronts. rewrite (list_as_map (ns_ranks s) [] size LR), map_map. apply (fronts_ok (seq 0 size)). intros i Hi. apply in_seq in Hi. lia. }
    rewrite E1. cbn [obind]. fold p. unfold permuted. rewrite (mapM_rd _ 0) by (intros i Hi; apply p_lt; auto). cbn [obind]. rewrite (mapM_rd _ []) by (intros i Hi; rewrite LR; apply p_lt; auto). cbn [obind].
    change (map (fun i => nth i (ns_ranks s) []) p) with (map (ranks_of s) p). rewrite fronts_ok by (apply p_lt). cbn [obind]. fold q. rewrite localremap_ok by auto. cbn [obind].
    rewrite (mapM_ok _ new_region) by (intros rg Hrg; apply remap_region_ok; auto). cbn [obind]. auto.
  Qed.
End Rank.
