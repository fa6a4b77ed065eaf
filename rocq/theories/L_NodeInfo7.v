(** * Lemmas on the mesh after the order and the numbering of nodes *)
From Coq Require Import List Arith Bool Lia Sorted Permutation.
From Verif Require Import Base S_Order M_Utils M_Distributed S_Distributed M_DistMatrix S_DistMatrix M_NodeInfo S_NodeInfo L_Utils L_Equality L_TotalFeti L_Fill2 L_Numbering L_Distributed L_DistMatrix L_VectorFeti L_DistApply L_NodeInfo L_NodeInfo3 L_NodeInfo4 L_NodeInfo5 L_NodeInfo6.
Import ListNotations.
Local Open Scope out_scope.

Lemma in_combine_nth {A B} (a : list A) (b : list B) da db x : length a = length b -> (In x (combine a b) <-> exists n, n < length a /\ x = (nth n a da, nth n b db)).
Proof.
  revert b. induction a as [|u a IH]; intros [|v b] L; try discriminate; cbn [combine length].
  - split; [intros []|intros (n & Hn & _); cbn in Hn; lia].
  - cbn [length] in L. cbn [In]. rewrite IH by lia. split.
    + intros [<-|(n & Hn & ->)]; [exists 0; split; [lia|auto]|exists (S n); split; [lia|auto]].
    + intros ([|n] & Hn & ->); [left; auto|right; exists n; split; [lia|auto]].
Qed.
Lemma combine_fst {A B} (a : list A) (b : list B) : length a = length b -> map fst (combine a b) = a.
Proof. revert b. induction a as [|u a IH]; intros [|v b] L; try discriminate; cbn [combine map fst]; auto. cbn [length] in L. rewrite IH by lia. auto. Qed.
Lemma seq_ss a n : StronglySorted lt (seq a n).
Proof. revert a. induction n as [|n IH]; intros a; cbn [seq]; constructor; auto. apply Forall_forall. intros x Hx. apply in_seq in Hx. lia. Qed.

(** nodes of ranks are permuted *)
Definition same_pairs (s s' : node_store) : Prop := length (ns_ranks s') = length (ns_ids s') /\ Permutation (combine (ns_ids s) (ns_ranks s)) (combine (ns_ids s') (ns_ranks s')).
Lemma same_ids s s' : length (ns_ranks s) = length (ns_ids s) -> same_pairs s s' -> Permutation (ns_ids s) (ns_ids s').
Proof. intros L [L' Pm]. apply (Permutation_map fst) in Pm. rewrite !combine_fst in Pm by auto. auto. Qed.
Lemma same_node s s' n : length (ns_ranks s) = length (ns_ids s) -> same_pairs s s' -> n < length (ns_ids s') -> exists k, k < length (ns_ids s) /\ id_of s' n = id_of s k /\ ranks_of s' n = ranks_of s k.
Proof.
  intros L [L' Pm] Hn. assert (Q : In (id_of s' n, ranks_of s' n) (combine (ns_ids s') (ns_ranks s'))) by (apply (in_combine_nth _ _ 0 []); auto; exists n; auto).
  apply (Permutation_in _ (Permutation_sym Pm)) in Q. apply (in_combine_nth _ _ 0 []) in Q; auto. destruct Q as (k & Hk & [= E1 E2]). exists k. auto.
Qed.
Lemma permuted_shared nb ss ss' : shared_nodes nb ss -> length ss' = length ss -> (forall r, r < length ss -> same_pairs (nth r ss no_store) (nth r ss' no_store)) -> shared_nodes nb ss'.
Proof.
  intros SN L SP. assert (IDS : forall r x, r < length ss -> (In x (ns_ids (nth r ss' no_store)) <-> In x (ns_ids (nth r ss no_store)))).
  { intros r x Hr. pose proof (same_ids _ _ (rk_len _ _ SN r Hr) (SP r Hr)) as Pm. split; apply Permutation_in; auto. apply Permutation_sym; auto. }
  assert (IN : forall s, In s ss' -> exists r, r < length ss /\ s = nth r ss' no_store) by (intros s Hs; apply (In_nth _ _ no_store) in Hs; destruct Hs as (r & Hr & <-); exists r; split; auto; lia).
  assert (ND : forall r n, r < length ss -> n < length (ns_ids (nth r ss' no_store)) -> exists k, k < length (ns_ids (nth r ss no_store)) /\ id_of (nth r ss' no_store) n = id_of (nth r ss no_store) k /\ ranks_of (nth r ss' no_store) n = ranks_of (nth r ss no_store) k).
  { intros r n Hr Hn. apply same_node; auto. apply (rk_len _ _ SN r Hr). }
  constructor.
  - rewrite L. apply (sn_length _ _ SN).
  - intros s Hs. destruct (IN s Hs) as (r & Hr & ->). split; [|apply SP; auto]. apply (Permutation_NoDup (same_ids _ _ (rk_len _ _ SN r Hr) (SP r Hr))). apply (ids_nodup _ _ SN r Hr).
  - intros s n Hs Hn. destruct (IN s Hs) as (r & Hr & ->). destruct (ND r n Hr Hn) as (k & Hk & _ & ->). apply (rk_sorted _ _ SN r Hr); auto.
  - intros s n t Hs Hn. destruct (IN s Hs) as (r & Hr & ->). destruct (ND r n Hr Hn) as (k & Hk & -> & ->). rewrite (rk_iff _ _ SN r k t Hr Hk), L. split; intros [Q1 Q2]; split; auto; apply IDS; auto.
  - rewrite L. intros r n t Hr Hn. destruct (ND r n Hr Hn) as (k & Hk & _ & ->). apply (rk_nb _ _ SN r Hr k); auto.
  - rewrite L. apply (sn_increasing _ _ SN).
  - rewrite L. apply (sn_symmetric _ _ SN).
Qed.

(** the regions of a rank after the order of its nodes *)
Lemma new_region_given sortby rank s rg : sorts sortby -> NoDup (ns_ids s) -> length (ns_ranks s) = length (ns_ids s) -> input_region s rg ->
  given_region (sorted_store sortby rank s) (new_region sortby s rg) /\
  forall x, In x (map (id_of (sorted_store sortby rank s)) (given_nodes (new_region sortby s rg))) <-> In x (map (id_of s) (given_nodes rg)).
Proof.
  intros SORT ND LR ([V1 V2] & HA & HG). assert (SZ := sorted_size sortby SORT rank s). set (s' := sorted_store sortby rank s) in *.
  unfold given_region, given_nodes, new_region. cbn [rg_nodes rg_elements]. destruct (rg_all rg) eqn:A.
  - rewrite HA by auto. split; [split; [|apply seq_ss]|].
    + intros n Hn. apply in_seq in Hn. rewrite SZ. lia.
    + intros x. assert (Pm : Permutation (ns_ids s) (ns_ids s')). { apply same_ids; auto. split; [cbn [s' sorted_store ns_ranks ns_ids]; rewrite !map_length; auto|]. apply sorted_pairs; auto. }
      rewrite <- SZ at 1. rewrite <- (list_as_map (ns_ids s') 0 _ eq_refl : ns_ids s' = map (id_of s') _). rewrite <- (list_as_map (ns_ids s) 0 _ eq_refl : ns_ids s = map (id_of s) _). split; apply Permutation_in; auto. apply Permutation_sym; auto.
  - destruct (rg_nodes rg) as [l|] eqn:El; cbn [option_map].
    + destruct (SORT _ nat_swo (map (new_number sortby s) l)) as [Pm S]. assert (V := V2 l eq_refl). assert (RI := remap_ids sortby SORT rank s LR l V). fold s' in RI. split; [split|].
      * intros n Hn. apply (Permutation_in _ (Permutation_sym Pm)) in Hn. revert n Hn. apply (remap_valid sortby SORT rank s LR l V).
      * apply le_nodup_lt; [apply sorted_le; auto|]. apply (Permutation_NoDup Pm). apply (NoDup_map_inv (id_of s')). rewrite RI. clear -ND HG V. induction HG as [|a l Na N IH]; cbn [map]; constructor; [|apply IH; intros n Hn; apply V; right; auto].
        intros C. apply in_map_iff in C. destruct C as (b & E & Hb). unfold id_of in E. apply (proj1 (NoDup_nth _ 0) ND) in E; [subst; auto|apply V; right; auto|apply V; left; auto].
      * intros x. rewrite <- RI. split; apply Permutation_in, Permutation_map; auto. apply Permutation_sym; auto.
    + destruct (rg_elements rg) as [e|] eqn:Ee; [|congruence]. cbn [option_map]. split; [split; [|discriminate]|].
      * intros n Hn. apply in_concat in Hn. destruct Hn as (l & Hl & Hn). apply in_map_iff in Hl. destruct Hl as (l' & <- & Hl'). revert n Hn. apply (remap_valid sortby SORT rank s LR). apply (V1 e); auto.
      * intros x. rewrite !concat_map. rewrite map_map. rewrite (map_ext_in _ (map (id_of s))); [tauto|]. intros l Hl. apply (remap_ids sortby SORT rank s LR). apply (V1 e); auto.
Qed.

Section Numbers.
  Context (nb : list (list nat)) (ss : list node_store) (SN : shared_nodes nb ss) (elements : list (list (list nat))) (infos : list region_info) (rg : list (list nat)).
  Hypothesis (NR : numbered_region nb ss rg infos) (ALL : forall r, r < length ss -> nth r rg [] = seq 0 (length (ns_ids (nth r ss no_store)))).
  Hypothesis (EL : forall r e, r < length ss -> In e (nth r elements []) -> NoDup e /\ valid_nodes (nth r ss no_store) e).
  Let ms := mesh_parts ss elements infos.
  Lemma parts_length : length ms = length ss.
  Proof. unfold ms, mesh_parts. rewrite map_length, seq_length. auto. Qed.
  Lemma part_nth r : r < length ss -> nth r ms no_part = {| mp_info := ri_info (nth r infos no_rinfo); mp_ranks := ns_ranks (nth r ss no_store); mp_elements := nth r elements [] |}.
  Proof. intros H. unfold ms, mesh_parts. rewrite nth_map_seq by auto. auto. Qed.
  Lemma part_in p : In p ms -> exists r, r < length ss /\ p = nth r ms no_part.
  Proof. intros H. apply (In_nth _ _ no_part) in H. rewrite parts_length in H. destruct H as (r & Hr & <-). eauto. Qed.
  Lemma part_size r : r < length ss -> length (u_position (ri_info (nth r infos no_rinfo))) = length (ns_ids (nth r ss no_store)).
  Proof. intros H. rewrite (nr_nodes _ _ _ _ NR) by auto. rewrite ALL, seq_length by auto. auto. Qed.
  Lemma part_same r t k l : r < length ss -> t < length ss -> k < length (ns_ids (nth r ss no_store)) -> l < length (ns_ids (nth t ss no_store)) ->
    (node_of (nth r ms no_part) k = node_of (nth t ms no_part) l <-> id_of (nth r ss no_store) k = id_of (nth t ss no_store) l).
  Proof.
    intros Hr Ht Hk Hl. unfold node_of. rewrite !part_nth by auto. cbn [mp_info]. pose proof (nr_same _ _ _ _ NR r t k l Hr Ht) as Q. unfold number, region_id in Q. rewrite !ALL, !seq_length, !seq_nth in Q by auto. apply Q; auto.
  Qed.
  Lemma mesh_ok : distributed_mesh nb ms.
  Proof.
    constructor.
    - replace (map mp_info ms) with (map ri_info infos); [apply (nr_numbered _ _ _ _ NR)|]. unfold ms, mesh_parts. rewrite map_map. cbn [mp_info]. rewrite (list_as_map infos no_rinfo (length ss) (nr_length _ _ _ _ NR)) at 1. rewrite map_map. auto.
    - intros p Hp. destruct (part_in p Hp) as (r & Hr & ->). rewrite part_nth by auto. cbn [mp_info]. apply (nr_position _ _ _ _ NR). apply nth_In. rewrite (nr_length _ _ _ _ NR). auto.
    - intros p Hp. destruct (part_in p Hp) as (r & Hr & ->). rewrite part_nth by auto. cbn [mp_info mp_ranks]. rewrite part_size by auto. apply (rk_len _ _ SN r Hr).
    - intros p n Hp. destruct (part_in p Hp) as (r & Hr & ->). rewrite part_nth by auto. cbn [mp_ranks]. rewrite (rk_len _ _ SN r Hr). apply (rk_sorted _ _ SN r Hr).
    - intros p n t Hp. destruct (part_in p Hp) as (r & Hr & ->). rewrite part_nth by auto. cbn [mp_ranks]. rewrite (rk_len _ _ SN r Hr). intros Hn. change (nth n (ns_ranks (nth r ss no_store)) []) with (ranks_of (nth r ss no_store) n). rewrite (rk_iff _ _ SN r n t Hr Hn). rewrite parts_length.
      assert (Q : t < length ss -> (In (id_of (nth r ss no_store) n) (ns_ids (nth t ss no_store)) <-> In (node_of (nth r ms no_part) n) (u_position (mp_info (nth t ms no_part))))).
      { intros Ht. split; intros Hin; apply (In_nth _ _ 0) in Hin; destruct Hin as (k & Hk & E).
        - replace (node_of (nth r ms no_part) n) with (node_of (nth t ms no_part) k) by (apply part_same; auto). unfold node_of. apply nth_In. rewrite part_nth by auto. cbn [mp_info]. rewrite part_size; auto.
        - rewrite part_nth in Hk by auto. cbn [mp_info] in Hk. rewrite part_size in Hk by auto. change (node_of (nth t ms no_part) k = node_of (nth r ms no_part) n) in E. apply part_same in E; auto. rewrite <- E. apply nth_In; auto. }
      rewrite part_nth in Q at 1 by auto. split; intros [Q1 Q2]; split; auto; apply Q; auto.
    - rewrite parts_length. intros r n t Hr. rewrite part_nth by auto. cbn [mp_ranks]. rewrite (rk_len _ _ SN r Hr). apply (rk_nb _ _ SN r Hr).
    - intros p e Hp. destruct (part_in p Hp) as (r & Hr & ->). rewrite part_nth by auto. cbn [mp_ranks mp_elements]. rewrite (rk_len _ _ SN r Hr). apply EL; auto.
  Qed.
  (** common elements by numbers and by IDs *)
  Lemma common_ok r1 n1 r2 n2 : r1 < length ss -> r2 < length ss -> n1 < length (ns_ids (nth r1 ss no_store)) -> n2 < length (ns_ids (nth r2 ss no_store)) ->
    (common_element ms (node_of (nth r1 ms no_part) n1) (node_of (nth r2 ms no_part) n2) <->
     exists r e, r < length ss /\ In e (map (map (id_of (nth r ss no_store))) (nth r elements [])) /\ In (id_of (nth r1 ss no_store) n1) e /\ In (id_of (nth r2 ss no_store) n2) e).
  Proof.
    intros H1 H2 L1 L2. assert (Q : forall r e t n, r < length ss -> In e (nth r elements []) -> t < length ss -> n < length (ns_ids (nth t ss no_store)) ->
      (In (node_of (nth t ms no_part) n) (map (node_of (nth r ms no_part)) e) <-> In (id_of (nth t ss no_store) n) (map (id_of (nth r ss no_store)) e))).
    { intros r e t n Hr He Ht Hn. destruct (EL r e Hr He) as [_ V]. rewrite !in_map_iff. split; intros (k & E & Hk); exists k; split; auto; apply (part_same r t k n); auto. }
    unfold common_element. split.
    - intros (p & e & Hp & He & Q1 & Q2). destruct (part_in p Hp) as (r & Hr & ->). rewrite part_nth in He by auto. cbn [mp_elements] in He. apply (Q r e r1 n1) in Q1; auto. apply (Q r e r2 n2) in Q2; auto. exists r, (map (id_of (nth r ss no_store)) e). split; auto. split; auto. apply in_map; auto.
    - intros (r & e' & Hr & He & Q1 & Q2). apply in_map_iff in He. destruct He as (e & <- & He). exists (nth r ms no_part), e. split; [apply nth_In; rewrite parts_length; auto|]. split; [rewrite part_nth by auto; auto|]. split; apply Q; auto.
  Qed.
End Numbers.

(** ** the order of all ranks *)
Section Chain.
  Context (sortby : (nat -> nat -> bool) -> list nat -> list nat) (SORT : sorts sortby) (nb : list (list nat)) (ss : list node_store) (SN : shared_nodes nb ss).
  Context (elements : list (list (list nat))) (regions : list (list region)).
  Hypothesis (LE : length elements = length ss) (LG : length regions = length ss).
  Hypothesis (EL : forall r e, r < length ss -> In e (nth r elements []) -> NoDup e /\ valid_nodes (nth r ss no_store) e).
  Hypothesis (RG : forall r rg, r < length ss -> In rg (nth r regions []) -> valid_region (nth r ss no_store) rg).
  Let st r := nth r ss no_store.
  Definition sorted_stores : list node_store := map (fun r => sorted_store sortby r (nth r ss no_store)) (seq 0 (length ss)).
  Definition new_elements : list (list (list nat)) := map (fun r => map (map (new_number sortby (nth r ss no_store))) (nth r elements [])) (seq 0 (length ss)).
  Definition new_regions : list (list region) := map (fun r => map (new_region sortby (nth r ss no_store)) (nth r regions [])) (seq 0 (length ss)).
  Lemma sort_all_ok : mapM (fun x : nat * (node_store * (list (list nat) * list region)) => let '(r, (s, (e, g))) := x in sort_nodes sortby r s e g) (combine (seq 0 (length ss)) (combine ss (combine elements regions)))
    = Ok (map (fun x : node_store * (list (list nat) * list region) => (fst x, fst (snd x), snd (snd x))) (combine sorted_stores (combine new_elements new_regions))).
  Proof.
    replace (combine (seq 0 (length ss)) (combine ss (combine elements regions))) with (map (fun r => (r, (st r, (nth r elements [], nth r regions [])))) (seq 0 (length ss))).
    2:{ symmetry. rewrite (list_as_map ss no_store _ eq_refl) at 2. rewrite (list_as_map elements [] _ LE) at 1. rewrite (list_as_map regions [] _ LG) at 1. rewrite !combine_map, combine_self. auto. }
    unfold sorted_stores, new_elements, new_regions. rewrite !combine_map, map_map. cbn [fst snd]. apply mapM_map. intros r Hr. apply in_seq in Hr. assert (Hr' : r < length ss) by lia. apply sort_nodes_ok; auto.
    - apply (rk_len _ _ SN r Hr').
    - intros n Hn C. assert (Q : In r []) by (rewrite <- C; apply (rk_self _ _ SN r Hr' n Hn)). destruct Q.
    - intros e He. apply EL; auto.
  Qed.
  Lemma sorted_nth r : r < length ss -> nth r sorted_stores no_store = sorted_store sortby r (nth r ss no_store).
  Proof. intros H. unfold sorted_stores. rewrite nth_map_seq by auto. auto. Qed.
  Lemma sorted_len : length sorted_stores = length ss.
  Proof. unfold sorted_stores. rewrite map_length, seq_length. auto. Qed.
  Lemma sorted_same r : r < length ss -> same_pairs (nth r ss no_store) (nth r sorted_stores no_store).
  Proof. intros H. rewrite sorted_nth by auto. split; [cbn [sorted_store ns_ids ns_ranks]; rewrite !map_length; auto|]. apply sorted_pairs; auto. apply (rk_len _ _ SN r H). Qed.
  Lemma sorted_shared : shared_nodes nb sorted_stores.
  Proof. apply (permuted_shared nb ss); auto; [apply sorted_len|apply sorted_same]. Qed.
  Lemma sorted_ordered_ranks : ordered_ranks sorted_stores.
  Proof. intros r Hr. rewrite sorted_len in Hr. rewrite sorted_nth by auto. apply sorted_ordered; auto; [apply (ids_nodup _ _ SN r Hr)|apply (rk_len _ _ SN r Hr)]. Qed.
  Lemma new_elements_ids r : r < length ss -> map (map (id_of (nth r sorted_stores no_store))) (nth r new_elements []) = map (map (id_of (nth r ss no_store))) (nth r elements []).
  Proof. intros H. rewrite sorted_nth by auto. unfold new_elements. rewrite nth_map_seq by auto. apply (remap_same sortby SORT r _ (rk_len _ _ SN r H)). intros l Hl. apply EL; auto. Qed.
  Lemma new_elements_ok r e : r < length ss -> In e (nth r new_elements []) -> NoDup e /\ valid_nodes (nth r sorted_stores no_store) e.
  Proof.
    intros H He. rewrite sorted_nth by auto. unfold new_elements in He. rewrite nth_map_seq in He by auto. apply in_map_iff in He. destruct He as (l & <- & Hl). destruct (EL r l H Hl) as [N V]. split; [|apply remap_valid; auto; apply (rk_len _ _ SN r H)].
    apply (NoDup_map_inv (id_of (sorted_store sortby r (nth r ss no_store)))). rewrite (remap_ids sortby SORT r _ (rk_len _ _ SN r H)) by auto. apply (ids_nodup_map _ _ SN r l H N V).
  Qed.
End Chain.
