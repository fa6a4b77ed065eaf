(** * Lemmas on the nodes of regions and on the mesh after the numbering *)
From Coq Require Import List Arith Bool Lia Sorted Permutation.
From Verif Require Import Base S_Order M_Utils M_Distributed S_Distributed M_DistMatrix S_DistMatrix M_NodeInfo S_NodeInfo L_Utils L_Equality L_TotalFeti L_Fill2 L_Numbering L_Distributed L_DistMatrix L_VectorFeti L_DistApply L_NodeInfo L_NodeInfo3 L_NodeInfo4 L_NodeInfo5.
Import ListNotations.
Local Open Scope out_scope.

Lemma as_table {A} (ss : list node_store) m (regions : list (list A)) d : table ss m regions -> regions = map (fun r => map (fun i => nth i (nth r regions []) d) (seq 0 m)) (seq 0 (length ss)).
Proof.
  intros [L H]. rewrite (list_as_map regions [] (length ss) L) at 1. apply map_ext_in. intros r Hr. apply in_seq in Hr. apply list_as_map. apply H. lia.
Qed.
Lemma nth_region_map {A} i (d : A) (ss : list node_store) m (f : nat -> nat -> A) : i < m -> nth_region i d (map (fun r => map (f r) (seq 0 m)) (seq 0 (length ss))) = map (fun r => f r i) (seq 0 (length ss)).
Proof. intros Hi. unfold nth_region. rewrite map_map. apply map_ext. intros r. apply nth_map_seq; auto. Qed.
Lemma nth_region_nth {A} i (d : A) (ss : list node_store) (regions : list (list A)) r : length regions = length ss -> r < length ss -> nth r (nth_region i d regions) d = nth i (nth r regions []) d.
Proof. intros L H. unfold nth_region. apply (nth_map (fun l => nth i l d)). lia. Qed.
Lemma nth_region_length {A} i (d : A) (regions : list (list A)) : length (nth_region i d regions) = length regions.
Proof. apply map_length. Qed.

Section Mesh.
  Context (nb : list (list nat)) (ss : list node_store) (SN : shared_nodes nb ss) (ORD : ordered_ranks ss) (m : nat).
  Let P := length ss.
  Let st r := nth r ss no_store.
  Lemma nb_map : map (fun r => nth r nb []) (seq 0 (length ss)) = nb.
  Proof. symmetry. apply list_as_map. apply (sn_length _ _ SN). Qed.
  Lemma ss_map : map (fun r => nth r ss no_store) (seq 0 (length ss)) = ss.
  Proof. symmetry. apply list_as_map. auto. Qed.

  Lemma sync_regions sortby regions : sorts sortby -> table ss m regions -> (forall i, i < m -> region_nodes ss (nth_region i [] regions)) ->
    exists out, synchronize_region_nodes sortby nb ss regions = Ok out /\ table ss m out /\
      forall i, i < m -> region_nodes ss (nth_region i [] out) /\ agreed_region ss (nth_region i [] out) /\
        forall r x, r < length ss -> In x (ns_ids (nth r ss no_store)) -> (in_region ss (nth_region i [] out) r x <-> exists t, in_region ss (nth_region i [] regions) t x).
  Proof.
    intros SORT T RN. assert (Lr : length regions = P) by apply T. set (R := fun r i => nth i (nth r regions []) []).
    assert (RR : forall r i, r < P -> nth r (nth_region i [] regions) [] = R r i) by (intros; apply (nth_region_nth i [] ss); auto).
    destruct (synchronize_ok nb ss SN ORD m R) with (sortby := sortby) as (out & E & L & Ho).
    - intros r i Hr Hi. rewrite <- RR by auto. apply RN; auto.
    - intros r i Hr Hi. rewrite <- RR by auto. apply RN; auto.
    - auto.
    - rewrite nb_map, ss_map in E. unfold R in E. rewrite <- (as_table ss m regions [] T) in E. exists out. split; auto. split; [split; auto; intros r Hr; apply Ho; auto|]. intros i Hi.
      assert (OO : forall r, r < P -> nth r (nth_region i [] out) [] = nth i (nth r out []) []) by (intros; apply (nth_region_nth i [] ss); auto).
      assert (RN' : region_nodes ss (nth_region i [] out)) by (split; [rewrite nth_region_length; auto|]; intros r Hr; rewrite OO by auto; destruct (Ho r Hr) as [_ Q]; destruct (Q i Hi) as (Q1 & Q2 & _); auto).
      assert (IFF : forall r x, r < length ss -> In x (ns_ids (nth r ss no_store)) -> (in_region ss (nth_region i [] out) r x <-> exists t, in_region ss (nth_region i [] regions) t x)).
      { intros r x Hr Hx. unfold in_region. rewrite OO by auto. destruct (Ho r Hr) as [_ Q]. destruct (Q i Hi) as (_ & Q2 & Q3). apply (In_nth _ _ 0) in Hx. destruct Hx as (n & Hn & En). change (id_of (st r) n = x) in En. split.
        - intros [_ Hin]. apply in_map_iff in Hin. destruct Hin as (k & Ek & Hk). apply Q3 in Hk; [|apply Q2; auto]. destruct Hk as (t & Ht & Hk). exists t. split; auto. rewrite RR by auto. rewrite <- Ek. auto.
        - intros (t & Ht & Hk). rewrite RR in Hk by auto. split; auto. rewrite <- En. apply in_map. apply Q3; auto. exists t. split; auto. fold (st r). rewrite En. auto. }
      split; auto. split; auto. intros r t x Hin Ht Hx. apply IFF; auto. apply (IFF r x) in Hin; auto; [apply Hin|].
      destruct Hin as [Hr Hin]. apply in_map_iff in Hin. destruct Hin as (n & <- & Hn). apply nth_In. apply (proj2 RN' r Hr); auto.
  Qed.
  Lemma info_regions regions : table ss m regions -> (forall i, i < m -> region_nodes ss (nth_region i [] regions) /\ agreed_region ss (nth_region i [] regions)) ->
    exists infos, compute_node_info nb ss regions = Ok infos /\ table ss m infos /\ forall i, i < m -> numbered_region nb ss (nth_region i [] regions) (nth_region i no_rinfo infos).
  Proof.
    intros T RN. assert (Lr : length regions = P) by apply T. set (R := fun r i => nth i (nth r regions []) []).
    assert (RR : forall r i, r < P -> nth r (nth_region i [] regions) [] = R r i) by (intros; apply (nth_region_nth i [] ss); auto).
    assert (H1 : forall r i, r < length ss -> i < m -> StronglySorted lt (R r i)) by (intros r i Hr Hi; rewrite <- RR by auto; apply RN; auto).
    assert (H2 : forall r i, r < length ss -> i < m -> valid_nodes (nth r ss no_store) (R r i)) by (intros r i Hr Hi; rewrite <- RR by auto; apply RN; auto).
    assert (H3 : forall i r t x, i < m -> r < length ss -> In x (map (id_of (nth r ss no_store)) (R r i)) -> t < length ss -> In x (ns_ids (nth t ss no_store)) -> In x (map (id_of (nth t ss no_store)) (R t i))).
    { intros i r t x Hi Hr Hx Ht Hxt. destruct (RN i Hi) as [_ A]. destruct (A r t x) as [_ Q]; auto; [split; auto; rewrite RR by auto; auto|]. rewrite RR in Q by auto. auto. }
    pose proof (compute_ok nb ss SN ORD m R H1 H2 H3) as E. rewrite nb_map, ss_map in E. unfold R in E at 1. rewrite <- (as_table ss m regions [] T) in E.
    eexists. split; [exact E|]. split; [split; [rewrite map_length, seq_length; auto|intros r Hr; rewrite nth_map_seq by auto; rewrite map_length, seq_length; auto]|].
    intros i Hi. rewrite nth_region_map by auto. replace (nth_region i [] regions) with (map (fun r => R r i) (seq 0 (length ss))); [apply (final_numbered nb ss SN ORD m R); auto|].
    assert (Q := nth_region_map i [] ss m R Hi). unfold R in Q at 1. rewrite <- (as_table ss m regions [] T) in Q. symmetry. exact Q.
  Qed.

  (** ** the nodes of regions *)
  Lemma boundary_nodes_ok sortby s rg : sorts sortby -> given_region s rg -> exists l, boundary_region_nodes sortby rg = Ok l /\ StronglySorted lt l /\ forall n, In n l <-> In n (given_nodes rg).
  Proof.
    intros SORT [_ G]. unfold boundary_region_nodes, given_nodes. destruct (rg_nodes rg) as [l|]; [exists l; repeat split; tauto|]. destruct (rg_elements rg) as [e|]; [|congruence].
    destruct (sortAndRemoveDuplicates_ok Nat.ltb Nat.eqb 0 Nat.eqb_eq nat_sto (sortby Nat.ltb) (SORT _ nat_swo) (concat e) 0) as (tail & E & S & I); [lia|].
    exists tail. split; [exact E|]. split; [apply strictly_ss; auto|exact I].
  Qed.
  Lemma regions_ok sortby regions : sorts sortby -> table ss m regions -> (forall r i, r < length ss -> i < m -> given_region (nth r ss no_store) (nth i (nth r regions []) no_region)) ->
    exists nodes, mapM (mapM (boundary_region_nodes sortby)) regions = Ok nodes /\ table ss m nodes /\
      forall i, i < m -> region_nodes ss (nth_region i [] nodes) /\ forall r, r < length ss -> forall n, In n (nth r (nth_region i [] nodes) []) <-> In n (given_nodes (nth i (nth r regions []) no_region)).
  Proof.
    intros SORT T G. set (rg := fun r i => nth i (nth r regions []) no_region). assert (ET : regions = map (fun r => map (rg r) (seq 0 m)) (seq 0 (length ss))) by (apply as_table; auto).
    destruct (mapM_exists (mapM (boundary_region_nodes sortby)) (fun r => map (rg r) (seq 0 m))
      (fun r out => length out = m /\ forall i, i < m -> StronglySorted lt (nth i out []) /\ forall n, In n (nth i out []) <-> In n (given_nodes (rg r i))) [] (seq 0 (length ss))) as (nodes & E & L & Ho).
    - intros r Hr. apply in_seq in Hr. destruct (mapM_exists (boundary_region_nodes sortby) (rg r) (fun i l => StronglySorted lt l /\ forall n, In n l <-> In n (given_nodes (rg r i))) [] (seq 0 m)) as (out & E & L & Ho).
      + intros i Hi. apply in_seq in Hi. apply (boundary_nodes_ok sortby (nth r ss no_store)); auto. apply G; lia.
      + exists out. split; auto. rewrite seq_length in L. split; auto. intros i Hi. apply Ho. rewrite (nth_error_nth' _ 0) by (rewrite seq_length; auto). rewrite seq_nth by auto. auto.
    - exists nodes. rewrite <- ET in E. rewrite seq_length in L. assert (Q : forall r, r < length ss -> length (nth r nodes []) = m /\ forall i, i < m -> StronglySorted lt (nth i (nth r nodes []) []) /\ forall n, In n (nth i (nth r nodes []) []) <-> In n (given_nodes (rg r i))).
      { intros r Hr. apply Ho. rewrite (nth_error_nth' _ 0) by (rewrite seq_length; auto). rewrite seq_nth by auto. auto. }
      split; auto. split; [split; auto; intros r Hr; apply Q; auto|]. intros i Hi.
      assert (NR : forall r, r < length ss -> nth r (nth_region i [] nodes) [] = nth i (nth r nodes []) []) by (intros; apply (nth_region_nth i [] ss); auto).
      split; [split; [rewrite nth_region_length; auto|]|]; intros r Hr; rewrite NR by auto; destruct (Q r Hr) as [_ Q']; destruct (Q' i Hi) as [Q1 Q2]; auto. split; auto. intros n Hn. apply Q2 in Hn. apply (G r i Hr Hi); auto.
  Qed.
  Lemma boundary_regions sortby regions : sorts sortby -> table ss m regions -> (forall r i, r < length ss -> i < m -> given_region (nth r ss no_store) (nth i (nth r regions []) no_region)) ->
    exists nodes infos, compute_regions_boundary_nodes sortby nb ss regions = Ok (nodes, infos, map (fun i => hd_error i) infos) /\ table ss m nodes /\ table ss m infos /\
      forall i, i < m -> region_nodes ss (nth_region i [] nodes) /\ numbered_region nb ss (nth_region i [] nodes) (nth_region i no_rinfo infos) /\
        forall r x, r < length ss -> In x (ns_ids (nth r ss no_store)) ->
          (in_region ss (nth_region i [] nodes) r x <-> exists t, t < length ss /\ In x (map (id_of (nth t ss no_store)) (given_nodes (nth i (nth t regions []) no_region)))).
  Proof.
    intros SORT T G. destruct (regions_ok sortby regions SORT T G) as (n0 & E0 & T0 & H0). destruct (sync_regions sortby n0 SORT T0) as (nodes & E1 & T1 & H1); [intros i Hi; apply H0; auto|].
    destruct (info_regions nodes T1) as (infos & E2 & T2 & H2); [intros i Hi; destruct (H1 i Hi) as (Q1 & Q2 & _); auto|].
    exists nodes, infos. split; [unfold compute_regions_boundary_nodes; rewrite E0; cbn [obind]; rewrite E1; cbn [obind]; rewrite E2; auto|]. split; auto. split; auto. intros i Hi. destruct (H1 i Hi) as (Q1 & _ & Q3). split; auto. split; [apply H2; auto|].
    intros r x Hr Hx. rewrite Q3 by auto. destruct (H0 i Hi) as [_ HI]. split; intros (t & Ht & Hin); exists t; split; auto; apply in_map_iff in Hin; destruct Hin as (n & <- & Hn); apply in_map; apply HI; auto.
  Qed.

  Lemma thread_nodes_ok sortby elements chunk : sorts sortby -> (forall e, In e chunk -> e < length elements) ->
    exists l, thread_nodes sortby elements chunk = Ok l /\ forall n, In n l <-> In n (nodes_of_elements elements chunk).
  Proof.
    intros SORT V. unfold thread_nodes. assert (E : forall c l, (forall e, In e c -> e < length elements) -> foldM (fun nodes e => enodes <- rd elements e ;; Ok (nodes ++ enodes)) c l = Ok (l ++ nodes_of_elements elements c)).
    { induction c as [|e c IH]; intros l Hc; cbn [foldM nodes_of_elements flat_map]; [rewrite app_nil_r; auto|]. rewrite (rd_ok _ _ []) by (apply Hc; left; auto). cbn [obind]. rewrite IH by (intros; apply Hc; right; auto). rewrite <- app_assoc. auto. }
    rewrite E by auto. cbn [obind app]. destruct (sortAndRemoveDuplicates_ok Nat.ltb Nat.eqb 0 Nat.eqb_eq nat_sto (sortby Nat.ltb) (SORT _ nat_swo) (nodes_of_elements elements chunk) 0) as (tail & Et & S & I); [lia|]. exists tail. split; [exact Et|exact I].
  Qed.
  Lemma element_nodes_ok sortby elements region : sorts sortby -> (forall e, In e (concat region) -> e < length elements) ->
    exists l, element_region_nodes sortby elements region = Ok l /\ StronglySorted lt l /\ forall n, In n l <-> In n (nodes_of_elements elements (concat region)).
  Proof.
    intros SORT V. unfold element_region_nodes. destruct (Nat.eqb_spec (length (concat region)) 0) as [Z|Z].
    - exists []. apply length_zero_iff_nil in Z. rewrite Z. split; auto. split; [constructor|]. cbn. tauto.
    - assert (Hth : exists rn, mapM (thread_nodes sortby elements) region = Ok rn /\ length rn = length region /\ forall n, In n (concat rn) <-> In n (nodes_of_elements elements (concat region))).
      { clear Z. induction region as [|c region IH]; cbn [mapM concat]; [exists []; repeat split; auto|]. destruct (thread_nodes_ok sortby elements c SORT) as (l & E & I); [intros; apply V; cbn [concat]; apply in_or_app; auto|]. destruct IH as (rn & Er & L & Ir); [intros; apply V; cbn [concat]; apply in_or_app; auto|].
        rewrite E. cbn [obind]. rewrite Er. cbn [obind]. exists (l :: rn). split; auto. split; [cbn [length]; auto|]. intros n. cbn [concat]. unfold nodes_of_elements in *. rewrite in_app_iff, flat_map_app, in_app_iff, I, Ir. tauto. }
      destruct Hth as (rn & Er & L & Ir). rewrite Er. cbn [obind]. destruct (mergeThreadedUniqueData_ok Nat.ltb Nat.eqb 0 Nat.eqb_eq nat_sto (sortby Nat.ltb) (SORT _ nat_swo) rn) as (out & E & S & I).
      + intros ->. destruct region; [cbn in Z; lia|discriminate].
      + exists out. split; auto. split; [apply strictly_ss; auto|]. intros n. rewrite I. auto.
  Qed.
  Lemma element_regions sortby elements regions : sorts sortby -> table ss m regions -> length elements = length ss ->
    (forall r e, r < length ss -> In e (nth r elements []) -> valid_nodes (nth r ss no_store) e) ->
    (forall r i e, r < length ss -> i < m -> In e (concat (nth i (nth r regions []) [])) -> e < length (nth r elements [])) ->
    exists nodes infos, compute_regions_element_nodes sortby nb ss elements regions = Ok (nodes, infos) /\ table ss m nodes /\ table ss m infos /\
      forall i, i < m -> region_nodes ss (nth_region i [] nodes) /\ numbered_region nb ss (nth_region i [] nodes) (nth_region i no_rinfo infos) /\
        forall r x, r < length ss -> In x (ns_ids (nth r ss no_store)) ->
          (in_region ss (nth_region i [] nodes) r x <-> exists t, t < length ss /\ In x (map (id_of (nth t ss no_store)) (nodes_of_elements (nth t elements []) (concat (nth i (nth t regions []) []))))).
  Proof.
    intros SORT T Le VE VR. set (rg := fun r i => nth i (nth r regions []) []).
    assert (HE : exists n0, mapM (fun x : list (list nat) * list (list (list nat)) => mapM (element_region_nodes sortby (fst x)) (snd x)) (combine elements regions) = Ok n0 /\ table ss m n0 /\
      forall i, i < m -> region_nodes ss (nth_region i [] n0) /\ forall r, r < length ss -> forall n, In n (nth r (nth_region i [] n0) []) <-> In n (nodes_of_elements (nth r elements []) (concat (rg r i)))).
    { assert (ET : combine elements regions = map (fun r => (nth r elements [], map (rg r) (seq 0 m))) (seq 0 (length ss))) by (rewrite <- combine_map; f_equal; [apply list_as_map; auto|apply as_table; auto]). rewrite ET. clear ET.
      destruct (mapM_exists (fun x : list (list nat) * list (list (list nat)) => mapM (element_region_nodes sortby (fst x)) (snd x)) (fun r => (nth r elements [], map (rg r) (seq 0 m)))
        (fun r out => length out = m /\ forall i, i < m -> StronglySorted lt (nth i out []) /\ forall n, In n (nth i out []) <-> In n (nodes_of_elements (nth r elements []) (concat (rg r i)))) [] (seq 0 (length ss))) as (nodes & E & L & Ho).
      - intros r Hr. apply in_seq in Hr. cbn [fst snd]. destruct (mapM_exists (element_region_nodes sortby (nth r elements [])) (rg r) (fun i l => StronglySorted lt l /\ forall n, In n l <-> In n (nodes_of_elements (nth r elements []) (concat (rg r i)))) [] (seq 0 m)) as (out & E & L & Ho).
        + intros i Hi. apply in_seq in Hi. apply element_nodes_ok; auto. intros e He. apply (VR r i); auto; lia.
        + exists out. split; auto. rewrite seq_length in L. split; auto. intros i Hi. apply Ho. rewrite (nth_error_nth' _ 0) by (rewrite seq_length; auto). rewrite seq_nth by auto. auto.
      - exists nodes. rewrite seq_length in L. assert (Q : forall r, r < length ss -> length (nth r nodes []) = m /\ forall i, i < m -> StronglySorted lt (nth i (nth r nodes []) []) /\ forall n, In n (nth i (nth r nodes []) []) <-> In n (nodes_of_elements (nth r elements []) (concat (rg r i)))).
        { intros r Hr. apply Ho. rewrite (nth_error_nth' _ 0) by (rewrite seq_length; auto). rewrite seq_nth by auto. auto. }
        split; auto. split; [split; auto; intros r Hr; apply Q; auto|]. intros i Hi.
        assert (NR : forall r, r < length ss -> nth r (nth_region i [] nodes) [] = nth i (nth r nodes []) []) by (intros; apply (nth_region_nth i [] ss); auto).
        split; [split; [rewrite nth_region_length; auto|]|]; intros r Hr; rewrite NR by auto; destruct (Q r Hr) as [_ Q']; destruct (Q' i Hi) as [Q1 Q2]; auto. split; auto. intros n Hn. apply Q2 in Hn. unfold nodes_of_elements in Hn. apply in_flat_map in Hn. destruct Hn as (e & He & Hn). apply (VE r (nth e (nth r elements []) [])); auto. apply nth_In. apply (VR r i); auto. }
    destruct HE as (n0 & E0 & T0 & H0). destruct (sync_regions sortby n0 SORT T0) as (nodes & E1 & T1 & H1); [intros i Hi; apply H0; auto|].
    destruct (info_regions nodes T1) as (infos & E2 & T2 & H2); [intros i Hi; destruct (H1 i Hi) as (Q1 & Q2 & _); auto|].
    exists nodes, infos. split; [unfold compute_regions_element_nodes; rewrite E0; cbn [obind]; rewrite E1; cbn [obind]; rewrite E2; auto|]. split; auto. split; auto. intros i Hi. destruct (H1 i Hi) as (Q1 & _ & Q3). split; auto. split; [apply H2; auto|].
    intros r x Hr Hx. rewrite Q3 by auto. destruct (H0 i Hi) as [_ HI]. split; intros (t & Ht & Hin); exists t; split; auto; apply in_map_iff in Hin; destruct Hin as (n & <- & Hn); apply in_map; apply HI; auto.
  Qed.
End Mesh.

(** regionstore.cpp: the number of a node of the region *)
Lemma get_position_ok nodes info n : StronglySorted lt nodes -> length (u_position (ri_info info)) = length nodes -> In n nodes ->
  exists k, k < length nodes /\ nth k nodes 0 = n /\ get_position nodes info n = Ok (nth k (u_position (ri_info info)) 0).
Proof.
  intros S L Hn. destruct (find_rank_in n nodes Hn) as [F1 F2]. exists (find_rank n nodes). split; auto. split; auto. unfold get_position. rewrite (lower_bound_at nodes n (find_rank n nodes)); [apply rd_ok; lia|lia| |intros; lia]. intros i Hi. rewrite <- F2. apply ss_nth; auto.
Qed.
