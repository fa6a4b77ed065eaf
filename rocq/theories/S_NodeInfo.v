(** * What the order of nodes, the nodes of regions and their global numbers are

    A node is identified by its ID.  Every rank has a list of nodes; the position of a node in this list is its local number. *)
From Coq Require Import List Arith Bool Sorted Permutation.
From Verif Require Import Base S_Order M_Distributed S_Distributed M_DistMatrix S_DistMatrix M_NodeInfo.
Import ListNotations.

Definition no_store : node_store := {| ns_ids := []; ns_ranks := []; ns_nhalo := 0 |}.
(** the ID, the ranks and the lowest rank (the owner) of the local node [n] *)
Definition id_of (s : node_store) (n : nat) : nat := nth n (ns_ids s) 0.
Definition ranks_of (s : node_store) (n : nat) : list nat := nth n (ns_ranks s) [].
Definition owner_of (s : node_store) (n : nat) : nat := hd 0 (ranks_of s n).

(** [nb], [ss]: the neighbours and the nodes of every rank *)
Record shared_nodes (nb : list (list nat)) (ss : list node_store) : Prop := {
  sn_length : length nb = length ss;
  sn_ids : forall s, In s ss -> NoDup (ns_ids s) /\ length (ns_ranks s) = length (ns_ids s);
  (** the ranks of a node are increasing and they are exactly those that have the node *)
  sn_sorted : forall s n, In s ss -> n < length (ns_ids s) -> StronglySorted lt (ranks_of s n);
  sn_ranks : forall s n t, In s ss -> n < length (ns_ids s) -> (In t (ranks_of s n) <-> t < length ss /\ In (id_of s n) (ns_ids (nth t ss no_store)));
  (** ranks with a common node are neighbours *)
  sn_neighbours : forall r n t, r < length ss -> n < length (ns_ids (nth r ss no_store)) -> In t (ranks_of (nth r ss no_store) n) -> t <> r -> In t (nth r nb []);
  (** the lists of neighbours are increasing and symmetric *)
  sn_increasing : forall r, r < length ss -> StronglySorted lt (nth r nb []);
  sn_symmetric : forall r j, r < length ss -> In j (nth r nb []) -> j < length ss /\ j <> r /\ In r (nth j nb []) }.

(** the nodes of a rank are ordered by their owners and then by IDs; the first [ns_nhalo] ones are owned by lower ranks *)
Record ordered_nodes (rank : nat) (s : node_store) : Prop := {
  on_order : forall m n, m < n < length (ns_ids s) -> owner_of s m < owner_of s n \/ owner_of s m = owner_of s n /\ id_of s m < id_of s n;
  on_halo : ns_nhalo s <= length (ns_ids s) /\ forall n, n < length (ns_ids s) -> (n < ns_nhalo s <-> owner_of s n < rank) }.
Definition ordered_ranks (ss : list node_store) : Prop := forall r, r < length ss -> ordered_nodes r (nth r ss no_store).

(** std::sort with any comparison *)
Definition sorts (sortby : (nat -> nat -> bool) -> list nat -> list nat) : Prop := forall ltb, strict_weak_order ltb -> sort_contract ltb (sortby ltb).

(** the local numbers [data] mean in [s] the same nodes as [data'] in [s'] *)
Definition same_nodes (s : node_store) (data : list (list nat)) (s' : node_store) (data' : list (list nat)) : Prop := map (map (id_of s')) data' = map (map (id_of s)) data.
Definition valid_nodes (s : node_store) (data : list nat) : Prop := forall n, In n data -> n < length (ns_ids s).
Definition valid_region (s : node_store) (rg : region) : Prop :=
  (forall e, rg_elements rg = Some e -> forall l, In l e -> valid_nodes s l) /\ (forall l, rg_nodes rg = Some l -> valid_nodes s l).
(** the elements of a region keep their nodes; so do its nodes, which are ordered, but ALL_NODES is left as it is *)
Definition same_region (s : node_store) (rg : region) (s' : node_store) (rg' : region) : Prop :=
  rg_all rg' = rg_all rg /\
  match rg_elements rg, rg_elements rg' with Some e, Some e' => same_nodes s e s' e' | None, None => True | _, _ => False end /\
  if rg_all rg then rg_nodes rg' = rg_nodes rg
  else match rg_nodes rg, rg_nodes rg' with Some l, Some l' => Permutation (map (id_of s) l) (map (id_of s') l') /\ StronglySorted le l' | None, None => True | _, _ => False end.

(** a region of all ranks: the increasing local numbers of its nodes *)
Definition region_nodes (ss : list node_store) (rg : list (list nat)) : Prop :=
  length rg = length ss /\ forall r, r < length ss -> StronglySorted lt (nth r rg []) /\ valid_nodes (nth r ss no_store) (nth r rg []).
(** the node [x] is in the region on the rank [r] *)
Definition in_region (ss : list node_store) (rg : list (list nat)) (r x : nat) : Prop := r < length ss /\ In x (map (id_of (nth r ss no_store)) (nth r rg [])).
(** a node of the region is in the region on all its ranks *)
Definition agreed_region (ss : list node_store) (rg : list (list nat)) : Prop :=
  forall r t x, in_region ss rg r x -> t < length ss -> In x (ns_ids (nth t ss no_store)) -> in_region ss rg t x.

Definition no_rinfo : region_info := {| ri_info := no_info; ri_total := 0 |}.
(** the number of the [k]-th node of the region on the rank [r], the ID of this node and its owner *)
Definition number (infos : list region_info) (r k : nat) : nat := nth k (u_position (ri_info (nth r infos no_rinfo))) 0.
Definition region_id (ss : list node_store) (rg : list (list nat)) (r k : nat) : nat := id_of (nth r ss no_store) (nth k (nth r rg []) 0).
Definition region_owner (ss : list node_store) (rg : list (list nat)) (r k : nat) : nat := owner_of (nth r ss no_store) (nth k (nth r rg []) 0).

(** the nodes of a region are numbered from zero without gaps, every node has the same number on all its ranks, the owners have consecutive numbers *)
Record numbered_region (nb : list (list nat)) (ss : list node_store) (rg : list (list nat)) (infos : list region_info) : Prop := {
  nr_length : length infos = length ss;
  nr_numbered : numbered nb (map ri_info infos);
  nr_position : forall i, In i infos -> u_position (ri_info i) = halo_nodes (ri_info i) ++ seq (u_offset (ri_info i)) (u_size (ri_info i));
  nr_nodes : forall r, r < length ss -> length (u_position (ri_info (nth r infos no_rinfo))) = length (nth r rg []);
  nr_same : forall r t k l, r < length ss -> t < length ss -> k < length (nth r rg []) -> l < length (nth t rg []) ->
    (number infos r k = number infos t l <-> region_id ss rg r k = region_id ss rg t l);
  nr_owner : forall r k, r < length ss -> k < length (nth r rg []) -> forall t, t < length ss -> (owns (ri_info (nth t infos no_rinfo)) (number infos r k) <-> t = region_owner ss rg r k);
  nr_total : forall i, In i infos -> forall p, p < ri_total i <-> exists r k, r < length ss /\ k < length (nth r rg []) /\ number infos r k = p }.

(** the [i]-th region of every rank *)
Definition nth_region {A} (i : nat) (d : A) (regions : list (list A)) : list A := map (fun l => nth i l d) regions.
(** [m] regions on every rank *)
Definition table {A} (ss : list node_store) (m : nat) (regions : list (list A)) : Prop := length regions = length ss /\ forall r, r < length ss -> length (nth r regions []) = m.

(** the nodes given for a region of the boundary: its nodes if it has them, otherwise those of its elements *)
Definition no_region : region := {| rg_all := false; rg_elements := None; rg_nodes := None |}.
Definition given_nodes (rg : region) : list nat :=
  match rg_nodes rg, rg_elements rg with Some nodes, _ => nodes | None, Some elements => concat elements | None, None => [] end.
(** nodes are given increasing; elements can be given in any order *)
Definition given_region (s : node_store) (rg : region) : Prop :=
  valid_nodes s (given_nodes rg) /\ match rg_nodes rg with Some nodes => StronglySorted lt nodes | None => rg_elements rg <> None end.
(** the nodes of the listed elements *)
Definition nodes_of_elements (elements : list (list nat)) (listed : list nat) : list nat := flat_map (fun e => nth e elements []) listed.

(** a region as the input gives it: ALL_NODES has all nodes of the rank; other nodes are given at most once, in any order *)
Definition input_region (s : node_store) (rg : region) : Prop :=
  valid_region s rg /\ (rg_all rg = true -> rg_nodes rg = Some (seq 0 (length (ns_ids s)))) /\
  match rg_nodes rg with Some nodes => NoDup nodes | None => rg_elements rg <> None end.
(** the mesh of the ranks: nodes, elements and the numbers of all nodes *)
Definition mesh_parts (ss : list node_store) (elements : list (list (list nat))) (infos : list region_info) : list mesh_part :=
  map (fun r => {| mp_info := ri_info (nth r infos no_rinfo); mp_ranks := ns_ranks (nth r ss no_store); mp_elements := nth r elements [] |}) (seq 0 (length ss)).
