(** * C116-C120: the order of nodes, the nodes of regions and their global numbers *)
From Coq Require Import List Arith Bool Lia Sorted Permutation.
From Verif Require Import Base S_Order M_Utils M_Distributed S_Distributed M_DistMatrix S_DistMatrix M_NodeInfo S_NodeInfo L_Utils L_Sort L_Numbering L_Distributed L_NodeInfo L_NodeInfo3 L_NodeInfo5 L_NodeInfo6 L_NodeInfo7.
Import ListNotations.
Local Open Scope out_scope.

(** ** C116: sortNodes orders the nodes of a rank by their lowest ranks and IDs; ranks, elements and regions follow the nodes *)
Theorem sort_nodes_exact : forall sortby rank s elements regions,
  sorts sortby -> NoDup (ns_ids s) -> length (ns_ranks s) = length (ns_ids s) -> (forall n, n < length (ns_ids s) -> ranks_of s n <> []) ->
  (forall e, In e elements -> valid_nodes s e) -> (forall rg, In rg regions -> valid_region s rg) ->
  exists s' elements' regions', sort_nodes sortby rank s elements regions = Ok (s', elements', regions') /\
    Permutation (combine (ns_ids s) (ns_ranks s)) (combine (ns_ids s') (ns_ranks s')) /\ length (ns_ranks s') = length (ns_ids s') /\ ordered_nodes rank s' /\
    same_nodes s elements s' elements' /\ (forall e, In e elements' -> valid_nodes s' e) /\
    Forall2 (fun rg rg' => same_region s rg s' rg' /\ valid_region s' rg') regions regions'.
Proof.
  intros sortby rank s elements regions SORT ND LR NE VE VR.
  exists (sorted_store sortby rank s), (map (map (new_number sortby s)) elements), (map (new_region sortby s) regions).
  split; [apply sort_nodes_ok; auto|]. split; [apply sorted_pairs; auto|]. split; [cbn [sorted_store ns_ids ns_ranks]; rewrite !map_length; auto|]. split; [apply sorted_ordered; auto|]. split; [apply remap_same; auto|]. split.
  - intros e He. apply in_map_iff in He. destruct He as (l & <- & Hl). apply remap_valid; auto.
  - clear VE. induction regions as [|rg regions IH]; cbn [map]; constructor; [apply new_region_same; auto; apply VR; left; auto|apply IH; intros; apply VR; right; auto].
Qed.

(** ** C117: after synchronizeRegionNodes a node of a region is in the region on all ranks that have the node *)
Theorem synchronize_regions_exact : forall sortby nb ss m regions,
  sorts sortby -> shared_nodes nb ss -> ordered_ranks ss -> table ss m regions -> (forall i, i < m -> region_nodes ss (nth_region i [] regions)) ->
  exists out, synchronize_region_nodes sortby nb ss regions = Ok out /\ table ss m out /\
    forall i, i < m -> region_nodes ss (nth_region i [] out) /\ agreed_region ss (nth_region i [] out) /\
      forall r x, r < length ss -> In x (ns_ids (nth r ss no_store)) -> (in_region ss (nth_region i [] out) r x <-> exists t, in_region ss (nth_region i [] regions) t x).
Proof. intros sortby nb ss m regions SORT SN ORD T RN. apply sync_regions; auto. Qed.

(** ** C118: computeNodeInfo numbers the nodes of every region *)
Theorem node_info_exact : forall nb ss m regions,
  shared_nodes nb ss -> ordered_ranks ss -> table ss m regions -> (forall i, i < m -> region_nodes ss (nth_region i [] regions) /\ agreed_region ss (nth_region i [] regions)) ->
  exists infos, compute_node_info nb ss regions = Ok infos /\ table ss m infos /\ forall i, i < m -> numbered_region nb ss (nth_region i [] regions) (nth_region i no_rinfo infos).
Proof. intros nb ss m regions SN ORD T RN. apply info_regions; auto. Qed.

(** ** C119: the nodes of regions and their numbers *)
Theorem boundary_regions_exact : forall sortby nb ss m regions,
  sorts sortby -> shared_nodes nb ss -> ordered_ranks ss -> table ss m regions ->
  (forall r i, r < length ss -> i < m -> given_region (nth r ss no_store) (nth i (nth r regions []) no_region)) ->
  exists nodes infos, compute_regions_boundary_nodes sortby nb ss regions = Ok (nodes, infos, map (fun i => hd_error i) infos) /\ table ss m nodes /\ table ss m infos /\
    forall i, i < m -> region_nodes ss (nth_region i [] nodes) /\ numbered_region nb ss (nth_region i [] nodes) (nth_region i no_rinfo infos) /\
      forall r x, r < length ss -> In x (ns_ids (nth r ss no_store)) ->
        (in_region ss (nth_region i [] nodes) r x <-> exists t, t < length ss /\ In x (map (id_of (nth t ss no_store)) (given_nodes (nth i (nth t regions []) no_region)))).
Proof. intros sortby nb ss m regions SORT SN ORD T G. apply boundary_regions; auto. Qed.

Theorem element_regions_exact : forall sortby nb ss m elements regions,
  sorts sortby -> shared_nodes nb ss -> ordered_ranks ss -> table ss m regions -> length elements = length ss ->
  (forall r e, r < length ss -> In e (nth r elements []) -> valid_nodes (nth r ss no_store) e) ->
  (forall r i e, r < length ss -> i < m -> In e (concat (nth i (nth r regions []) [])) -> e < length (nth r elements [])) ->
  exists nodes infos, compute_regions_element_nodes sortby nb ss elements regions = Ok (nodes, infos) /\ table ss m nodes /\ table ss m infos /\
    forall i, i < m -> region_nodes ss (nth_region i [] nodes) /\ numbered_region nb ss (nth_region i [] nodes) (nth_region i no_rinfo infos) /\
      forall r x, r < length ss -> In x (ns_ids (nth r ss no_store)) ->
        (in_region ss (nth_region i [] nodes) r x <-> exists t, t < length ss /\ In x (map (id_of (nth t ss no_store)) (nodes_of_elements (nth t elements []) (concat (nth i (nth t regions []) []))))).
Proof. intros sortby nb ss m elements regions SORT SN ORD T LE VE VR. apply element_regions; auto. Qed.

(** RegionStore::getPosition gives the number of a node of the region *)
Theorem region_position_exact : forall nb ss rg infos r n,
  region_nodes ss rg -> numbered_region nb ss rg infos -> r < length ss -> In n (nth r rg []) ->
  exists k, k < length (nth r rg []) /\ nth k (nth r rg []) 0 = n /\ get_position (nth r rg []) (nth r infos no_rinfo) n = Ok (number infos r k).
Proof. intros nb ss rg infos r n RN NR Hr Hn. apply get_position_ok; auto; [apply RN; auto|apply (nr_nodes _ _ _ _ NR); auto]. Qed.

(** ** C120: sortNodes and computeRegionsBoundaryNodes make the mesh that the patterns of distributed vectors and matrices (C104-C115) assume *)
Theorem numbered_mesh_exact : forall sortby nb ss m elements regions,
  sorts sortby -> shared_nodes nb ss -> length elements = length ss -> table ss (S m) regions ->
  (forall r e, r < length ss -> In e (nth r elements []) -> NoDup e /\ valid_nodes (nth r ss no_store) e) ->
  (forall r rg, r < length ss -> In rg (nth r regions []) -> input_region (nth r ss no_store) rg) ->
  (forall r, r < length ss -> rg_all (nth 0 (nth r regions []) no_region) = true) ->
  exists ss' elements' regions' nodes infos uniq,
    mapM (fun x : nat * (node_store * (list (list nat) * list region)) => let '(r, (s, (e, g))) := x in sort_nodes sortby r s e g) (combine (seq 0 (length ss)) (combine ss (combine elements regions)))
      = Ok (map (fun x : node_store * (list (list nat) * list region) => (fst x, fst (snd x), snd (snd x))) (combine ss' (combine elements' regions'))) /\
    compute_regions_boundary_nodes sortby nb ss' regions' = Ok (nodes, infos, map Some uniq) /\
    let ms := mesh_parts ss' elements' uniq in
    distributed_mesh nb ms /\ ordered_ranks ss' /\ length ss' = length ss /\ (forall r, r < length ss -> Permutation (ns_ids (nth r ss no_store)) (ns_ids (nth r ss' no_store))) /\
    (** numbers of nodes are as their IDs *)
    (forall r t k l, r < length ss -> t < length ss -> k < length (ns_ids (nth r ss no_store)) -> l < length (ns_ids (nth t ss no_store)) ->
      (node_of (nth r ms no_part) k = node_of (nth t ms no_part) l <-> id_of (nth r ss' no_store) k = id_of (nth t ss' no_store) l)) /\
    (** common elements are those of the input *)
    (forall r t k l, r < length ss -> t < length ss -> k < length (ns_ids (nth r ss no_store)) -> l < length (ns_ids (nth t ss no_store)) ->
      (common_element ms (node_of (nth r ms no_part) k) (node_of (nth t ms no_part) l) <->
       exists q e, q < length ss /\ In e (map (map (id_of (nth q ss no_store))) (nth q elements [])) /\ In (id_of (nth r ss' no_store) k) e /\ In (id_of (nth t ss' no_store) l) e)) /\
    (** the nodes of regions are those of the input *)
    forall i, i < S m -> numbered_region nb ss' (nth_region i [] nodes) (nth_region i no_rinfo infos) /\
      forall r x, r < length ss -> In x (ns_ids (nth r ss no_store)) ->
        (in_region ss' (nth_region i [] nodes) r x <-> exists t, t < length ss /\ In x (map (id_of (nth t ss no_store)) (given_nodes (nth i (nth t regions []) no_region)))).
Proof.
  intros sortby nb ss m elements regions SORT SN LE [LG T] EL RG ALL.
  assert (SN' := sorted_shared sortby SORT nb ss SN). assert (OR' := sorted_ordered_ranks sortby SORT nb ss SN). assert (L' := sorted_len sortby ss).
  set (ss' := sorted_stores sortby ss) in *. set (el' := new_elements sortby ss elements). set (rg' := new_regions sortby ss regions).
  assert (SP : forall r, r < length ss -> same_pairs (nth r ss no_store) (nth r ss' no_store)) by (apply (sorted_same sortby SORT nb ss SN)).
  assert (PI : forall r, r < length ss -> Permutation (ns_ids (nth r ss no_store)) (ns_ids (nth r ss' no_store))) by (intros r Hr; apply same_ids; auto; apply (rk_len _ _ SN r Hr)).
  assert (LI : forall r, r < length ss -> length (ns_ids (nth r ss no_store)) = length (ns_ids (nth r ss' no_store))) by (intros r Hr; apply Permutation_length; auto).
  assert (NR' : forall r i, r < length ss -> i < S m -> nth i (nth r rg' []) no_region = new_region sortby (nth r ss no_store) (nth i (nth r regions []) no_region)).
  { intros r i Hr Hi. unfold rg', new_regions. rewrite nth_map_seq by auto. apply nth_map. rewrite T by auto. auto. }
  assert (NG : forall r i, r < length ss -> i < S m -> input_region (nth r ss no_store) (nth i (nth r regions []) no_region)) by (intros r i Hr Hi; apply RG; auto; apply nth_In; rewrite T by auto; auto).
  assert (GV : forall r i, r < length ss -> i < S m -> given_region (nth r ss' no_store) (nth i (nth r rg' []) no_region) /\
    forall x, In x (map (id_of (nth r ss' no_store)) (given_nodes (nth i (nth r rg' []) no_region))) <-> In x (map (id_of (nth r ss no_store)) (given_nodes (nth i (nth r regions []) no_region)))).
  { intros r i Hr Hi. rewrite NR' by auto. unfold ss'. rewrite sorted_nth by auto. apply new_region_given; auto; [apply (ids_nodup _ _ SN r Hr)|apply (rk_len _ _ SN r Hr)]. }
  assert (T' : table ss' (S m) rg').
  { split; [unfold rg', new_regions; rewrite map_length, seq_length; auto|]. rewrite L'. intros r Hr. unfold rg', new_regions. rewrite nth_map_seq by auto. rewrite map_length. auto. }
  destruct (boundary_regions nb ss' SN' OR' (S m) sortby rg' SORT T') as (nodes & infos & E & Tn & Ti & H); [rewrite L'; intros r i Hr Hi; apply GV; auto|]. rewrite L' in H.
  exists ss', el', rg', nodes, infos, (nth_region 0 no_rinfo infos).
  split; [apply (sort_all_ok sortby SORT nb); auto; intros r rg Hr Hrg; apply (RG r rg Hr Hrg)|].
  split. { rewrite E. f_equal. f_equal. unfold nth_region. rewrite map_map. apply map_ext_in. intros l Hl. apply (In_nth _ _ []) in Hl. destruct Hl as (r & Hr & <-). destruct Ti as [Q1 Q2]. specialize (Q2 r ltac:(lia)). destruct (nth r infos []); [discriminate|auto]. }
  cbv zeta.
  assert (A0 : forall r, r < length ss' -> nth r (nth_region 0 [] nodes) [] = seq 0 (length (ns_ids (nth r ss' no_store)))).
  { rewrite L'. intros r Hr. destruct (H 0 ltac:(lia)) as (RN & _ & HI). destruct RN as [_ RN]. rewrite L' in RN. destruct (RN r Hr) as [RS RV]. apply ss_ext; [auto|apply seq_ss|]. intros n. rewrite in_seq. split; [intros Hn; apply RV in Hn; lia|]. intros Hn.
    assert (Q : in_region ss' (nth_region 0 [] nodes) r (id_of (nth r ss' no_store) n)).
    { apply HI; auto; [apply nth_In; lia|]. exists r. split; auto. apply GV; auto; [lia|]. destruct (NG r 0 Hr ltac:(lia)) as (_ & Q & _). unfold given_nodes. rewrite (Q (ALL r Hr)). rewrite <- (list_as_map (ns_ids (nth r ss no_store)) 0 _ eq_refl : ns_ids (nth r ss no_store) = map (id_of (nth r ss no_store)) _).
      apply (Permutation_in _ (Permutation_sym (PI r Hr))). apply nth_In. lia. }
    destruct Q as [_ Q]. apply in_map_iff in Q. destruct Q as (k & Ek & Hk). apply (id_inj _ _ SN' r) in Ek; [subst; auto|rewrite L'; auto|apply RV; auto|lia]. }
  assert (EL' : forall r e, r < length ss' -> In e (nth r el' []) -> NoDup e /\ valid_nodes (nth r ss' no_store) e) by (rewrite L'; intros r e Hr; apply (new_elements_ok sortby SORT nb ss SN elements EL); auto).
  destruct (H 0 ltac:(lia)) as (_ & NR0 & _).
  split; [apply (mesh_ok nb ss' SN' el' _ _ NR0 A0 EL')|]. split; auto. split; auto. split; auto. split.
  - intros r t k l Hr Ht Hk Hl. apply (part_same nb ss' el' _ _ NR0 A0); rewrite ?L', <- ?LI; auto.
  - split.
    + intros r t k l Hr Ht Hk Hl. rewrite (common_ok nb ss' el' _ _ NR0 A0 EL') by (rewrite ?L', <- ?LI; auto). rewrite L'.
      split; intros (q & e & Hq & He & Q); exists q, e; (split; [auto|]); (split; [|auto]); [rewrite <- (new_elements_ids sortby SORT nb ss SN elements EL) by auto|rewrite (new_elements_ids sortby SORT nb ss SN elements EL) by auto]; auto.
    + intros i Hi. destruct (H i Hi) as (_ & Q1 & Q2). split; auto. intros r x Hr Hx. rewrite Q2 by (auto; apply (Permutation_in _ (PI r Hr)); auto).
      split; intros (t & Ht & Q); exists t; split; auto; apply GV; auto.
Qed.

(** ** Three ranks: the hypotheses can be met *)
Definition ex_nb : list (list nat) := [[1; 2]; [0; 2]; [0; 1]].
Definition ex_ss : list node_store :=
  [ {| ns_ids := [5; 3; 9; 2]; ns_ranks := [[0]; [0]; [0; 1]; [0; 1; 2]]; ns_nhalo := 0 |};
    {| ns_ids := [4; 9; 7; 2]; ns_ranks := [[1; 2]; [0; 1]; [1]; [0; 1; 2]]; ns_nhalo := 0 |};
    {| ns_ids := [8; 2; 4]; ns_ranks := [[2]; [0; 1; 2]; [1; 2]]; ns_nhalo := 0 |} ].
Definition ex_elements : list (list (list nat)) := [[[0; 1; 2]; [1; 2; 3]]; [[0; 1; 3]; [0; 2; 3]]; [[0; 1; 2]]].
Definition all_of (n : nat) : region := {| rg_all := true; rg_elements := None; rg_nodes := Some (seq 0 n) |}.
Definition nodes_region (l : list nat) : region := {| rg_all := false; rg_elements := None; rg_nodes := Some l |}.
Definition faces_region (e : list (list nat)) : region := {| rg_all := false; rg_elements := Some e; rg_nodes := None |}.
Definition ex_regions : list (list region) :=
  [ [all_of 4; nodes_region [2; 0]; faces_region []]; [all_of 4; nodes_region []; faces_region [[3; 0]; [0; 2]]]; [all_of 3; nodes_region [2]; faces_region []] ].

Ltac small := repeat match goal with H : _ \/ _ |- _ => destruct H as [H|H] | H : False |- _ => destruct H | H : _ = _ |- _ => progress (subst; cbn in * ) end.
Ltac nd := repeat (apply NoDup_cons; [cbn; intuition lia|]); apply NoDup_nil.
Lemma isort_sorts : sorts (fun ltb => isort ltb).
Proof. intros ltb O. apply isort_contract; auto. Qed.
Lemma ex_shared : shared_nodes ex_nb ex_ss.
Proof.
  constructor.
  - reflexivity.
  - intros s Hs. cbn in Hs. small; (split; [nd|reflexivity]).
  - intros s n Hs Hn. cbn in Hs. small; (do 4 (destruct n as [|n]; [cbn; repeat constructor; lia|])); cbn in Hn; lia.
  - intros s n t Hs Hn. cbn in Hs. small; (do 4 (destruct n as [|n]; [cbn; do 3 (destruct t as [|t]; [cbn; intuition lia|]); cbn; intuition lia|])); cbn in Hn; lia.
  - intros r n t Hr Hn Ht Ne. cbn in Hr. do 3 (destruct r as [|r]; [do 4 (destruct n as [|n]; [cbn in Ht; cbn; lia|]); cbn in Hn; lia|]). lia.
  - intros r Hr. cbn in Hr. do 3 (destruct r as [|r]; [cbn; repeat constructor; lia|]). lia.
  - intros r j Hr Hj. cbn in Hr. do 3 (destruct r as [|r]; [cbn in Hj; small; cbn; lia|]). lia.
Qed.
Lemma ex_input r rg : r < 3 -> In rg (nth r ex_regions []) -> input_region (nth r ex_ss no_store) rg.
Proof.
  intros Hr Hrg. do 3 (destruct r as [|r]; [cbn in Hrg; small; (split; [split; [intros e [= <-] l Hl n Hn; cbn in *; small; cbn; lia|intros l [= <-] n Hn; cbn in *; small; cbn; lia]|split; [try discriminate; reflexivity|cbn; first [discriminate|nd]]])|]). lia.
Qed.
Lemma ex_mesh r e : r < 3 -> In e (nth r ex_elements []) -> NoDup e /\ valid_nodes (nth r ex_ss no_store) e.
Proof. intros Hr He. do 3 (destruct r as [|r]; [cbn in He; small; (split; [nd|intros n Hn; cbn in *; small; cbn; lia])|]). lia. Qed.

(** IDs 9 (rank 0) and 4 (rank 2) are added to the second region of rank 1, which numbers the nodes of the third region for rank 2 *)
Example numbered_mesh_example : exists out ss' regions',
  mapM (fun x : nat * (node_store * (list (list nat) * list region)) => let '(r, (s, (e, g))) := x in sort_nodes (fun ltb => isort ltb) r s e g) (combine (seq 0 3) (combine ex_ss (combine ex_elements ex_regions))) = Ok out /\
  ss' = map (fun x : node_store * list (list nat) * list region => fst (fst x)) out /\ regions' = map (fun x : node_store * list (list nat) * list region => snd x) out /\
  map ns_ids ss' = [[2; 3; 5; 9]; [2; 9; 4; 7]; [2; 4; 8]] /\ map ns_nhalo ss' = [0; 2; 2] /\
  exists nodes infos uniq, compute_regions_boundary_nodes (fun ltb => isort ltb) ex_nb ss' regions' = Ok (nodes, infos, uniq) /\
    nth_region 0 [] nodes = [[0; 1; 2; 3]; [0; 1; 2; 3]; [0; 1; 2]] /\ nth_region 1 [] nodes = [[2; 3]; [1; 2]; [1]] /\ nth_region 2 [] nodes = [[0]; [0; 2; 3]; [0; 1]] /\
    map (map (fun i => u_position (ri_info i))) infos = [[[0; 1; 2; 3]; [0; 1]; [0]]; [[0; 3; 4; 5]; [1; 2]; [0; 1; 2]]; [[0; 4; 6]; [2]; [0; 1]]].
Proof. eexists. eexists. eexists. split; [vm_compute; reflexivity|]. split; [reflexivity|]. split; [reflexivity|]. split; [reflexivity|]. split; [reflexivity|]. do 3 eexists. split; [vm_compute; reflexivity|]. repeat split; reflexivity. Qed.
Example numbered_mesh_instance : sorts (fun ltb => isort ltb) /\ shared_nodes ex_nb ex_ss /\ table ex_ss 3 ex_regions /\
  (forall r e, r < 3 -> In e (nth r ex_elements []) -> NoDup e /\ valid_nodes (nth r ex_ss no_store) e) /\ (forall r rg, r < 3 -> In rg (nth r ex_regions []) -> input_region (nth r ex_ss no_store) rg) /\
  (forall r, r < 3 -> rg_all (nth 0 (nth r ex_regions []) no_region) = true).
Proof.
  split; [apply isort_sorts|]. split; [apply ex_shared|]. split; [split; [reflexivity|intros r Hr; cbn in Hr; do 3 (destruct r as [|r]; [reflexivity|]); lia]|]. split; [apply ex_mesh|]. split; [apply ex_input|].
  intros r Hr. do 3 (destruct r as [|r]; [reflexivity|]). lia.
Qed.
(** regions of elements: the element 1 of rank 0 by threads 0, 1 and the element 0 of rank 2 *)
Example element_regions_example : exists out ss' elements',
  mapM (fun x : nat * (node_store * (list (list nat) * list region)) => let '(r, (s, (e, g))) := x in sort_nodes (fun ltb => isort ltb) r s e g) (combine (seq 0 3) (combine ex_ss (combine ex_elements ex_regions))) = Ok out /\
  ss' = map (fun x : node_store * list (list nat) * list region => fst (fst x)) out /\ elements' = map (fun x : node_store * list (list nat) * list region => snd (fst x)) out /\
  exists nodes infos, compute_regions_element_nodes (fun ltb => isort ltb) ex_nb ss' elements' [[[[]; [1]]]; [[[]; []]]; [[[0]; []]]] = Ok (nodes, infos) /\
    nth_region 0 [] nodes = [[0; 1; 3]; [0; 1; 2]; [0; 1; 2]] /\ map (map (fun i => u_position (ri_info i))) infos = [[[0; 1; 2]]; [[0; 2; 3]]; [[0; 3; 4]]].
Proof. eexists. eexists. eexists. split; [vm_compute; reflexivity|]. split; [reflexivity|]. split; [reflexivity|]. do 2 eexists. split; [vm_compute; reflexivity|]. repeat split; reflexivity. Qed.

Print Assumptions sort_nodes_exact.
Print Assumptions synchronize_regions_exact.
Print Assumptions node_info_exact.
Print Assumptions boundary_regions_exact.
Print Assumptions element_regions_exact.
Print Assumptions region_position_exact.
Print Assumptions numbered_mesh_exact.
