(** * What the ranks of nodes, the links of nodes and the neighbours of elements are

    A node and an element are identified by their IDs. *)
From Coq Require Import List Arith ZArith Bool Sorted Permutation.
From Verif Require Import Base S_Order M_Distributed M_DistApply M_NodeInfo S_NodeInfo M_Links.
Import ListNotations.

(** [nbm], [ids]: the neighbours of every rank, the rank itself included, and the IDs of the nodes of every rank *)
Record neighborhood (nbm ids : list (list nat)) : Prop := {
  nh_length : length nbm = length ids;
  nh_ids : forall r, r < length ids -> StronglySorted lt (nth r ids []);
  nh_increasing : forall r, r < length ids -> StronglySorted lt (nth r nbm []);
  nh_symmetric : forall r j, r < length ids -> In j (nth r nbm []) -> j < length ids /\ In r (nth j nbm []);
  (** ranks with a common node are neighbours *)
  nh_common : forall r t x, r < length ids -> t < length ids -> In x (nth r ids []) -> In x (nth t ids []) -> In t (nth r nbm []);
  nh_me : forall r, r < length ids -> In r (nth r nbm []) }.
(** the neighbours without the rank itself, the nodes with their ranks *)
Definition without_me (nbm : list (list nat)) : list (list nat) := map (fun r => filter (fun j => negb (j =? r)) (nth r nbm [])) (seq 0 (length nbm)).
Definition stores (ids : list (list nat)) (ranks : list (list (list nat))) : list node_store := map (fun x : list nat * list (list nat) => {| ns_ids := fst x; ns_ranks := snd x; ns_nhalo := 0 |}) (combine ids ranks).

Definition no_mesh : rank_mesh := {| rm_nodes := no_store; rm_ndist := []; rm_elements := [] |}.
(** the parts of [size] items of threads; the first thread has an item if there is any *)
Definition thread_parts (size : nat) (dist : list nat) : Prop := 2 <= length dist /\ hd 0 dist = 0 /\ last dist 0 = size /\ mono_list dist /\ (0 < size -> 0 < nth 1 dist 0).
(** the meshes of ranks: the nodes are sorted by IDs *)
Record linked_mesh (nb : list (list nat)) (ms : list rank_mesh) : Prop := {
  lm_shared : shared_nodes nb (map rm_nodes ms);
  lm_ids : forall m, In m ms -> StronglySorted lt (ns_ids (rm_nodes m));
  lm_threads : forall m, In m ms -> thread_parts (length (ns_ids (rm_nodes m))) (rm_ndist m);
  lm_valid : forall m e, In m ms -> In e (concat (rm_elements m)) -> valid_nodes (rm_nodes m) (snd e) }.
(** iterations of parallel loops run in any order *)
Record any_order (m : rank_mesh) (o : rank_order) : Prop := {
  ao_fill : parallel_order (length (rm_elements m)) (ro_fill o);
  ao_sort : parallel_order (length (rm_elements m)) (ro_sort o);
  ao_merge : forall i n, parallel_order n (ro_merge o i n);
  ao_send : parallel_order (length (rm_ndist m) - 1) (ro_send o);
  ao_join : forall i n, parallel_order n (ro_join o i n) }.

(** the elements of a rank and of all ranks: the ID of an element and the IDs of its nodes *)
Definition rank_elements (m : rank_mesh) : list (nat * list nat) := map (fun e : nat * list nat => (fst e, map (id_of (rm_nodes m)) (snd e))) (concat (rm_elements m)).
Definition mesh_elements (ms : list rank_mesh) : list (nat * list nat) := flat_map rank_elements ms.
(** the elements with the node [x], an element is listed as many times as the node is listed in it *)
Definition links_to (es : list (nat * list nat)) (x : nat) : list nat := flat_map (fun e : nat * list nat => repeat (fst e) (count_occ Nat.eq_dec (snd e) x)) es.
(** the last node of every rank is a node of an element (of any rank) *)
Definition used_last (ms : list rank_mesh) : Prop := forall m, In m ms -> ns_ids (rm_nodes m) <> [] -> exists e, In e (mesh_elements ms) /\ In (last (ns_ids (rm_nodes m)) 0) (snd e).
(** every node has a record with the IDs of all elements of the whole mesh that contain the node, in order; there are no other records *)
Definition linked_nodes (es : list (nat * list nat)) (s : node_store) (ne : list nat * list nat) : Prop :=
  (ns_ids s <> [] -> length (fst ne) = S (length (ns_ids s)) /\ hd 0 (fst ne) = 0 /\ last (fst ne) 0 = length (snd ne)) /\
  (ns_ids s = [] -> ne = ([], [])) /\
  forall n, n < length (ns_ids s) -> exists l, record ne n = Ok l /\ StronglySorted le l /\ Permutation l (links_to es (id_of s n)).

(** the IDs of elements are unique and an element does not contain a node twice *)
Definition regular_mesh (ms : list rank_mesh) : Prop := NoDup (map fst (mesh_elements ms)) /\ forall e, In e (mesh_elements ms) -> NoDup (snd e).
(** the increasing IDs of the elements other than [id] that contain all nodes [face] *)
Definition sharing (es : list (nat * list nat)) (id : nat) (face l : list nat) : Prop :=
  StronglySorted lt l /\ forall i, In i l <-> i <> id /\ exists nodes, In (i, nodes) es /\ incl face nodes.
(** the IDs of the nodes of a face given by positions in the nodes of an element *)
Definition face_nodes (e : nat * list nat) (face : list nat) : list nat := map (fun i => nth i (snd e) 0) face.
(** the faces of the elements of a rank, by threads as the elements *)
Definition given_faces (m : rank_mesh) (faces : list (list (list (list nat)))) : Prop :=
  map (@length _) faces = map (@length _) (rm_elements m) /\
  forall e fs, In (e, fs) (combine (concat (rm_elements m)) (concat faces)) -> forall f, In f fs -> f <> [] /\ forall i, In i f -> i < length (snd e).
(** [ls]: for every face the other elements that share it *)
Definition sharing_faces (es : list (nat * list nat)) (e : nat * list nat) (faces ls : list (list nat)) : Prop := Forall2 (fun f l => sharing es (fst e) (face_nodes e f) l) faces ls.
(** the stored neighbours: their number and IDs for every face, or the only neighbour (-1 if there is none) *)
Definition all_neighbors (ls : list (list nat)) : list Z := flat_map (fun l => Z.of_nat (length l) :: map Z.of_nat l) ls.
Definition one_neighbor (ls : list (list nat)) : list Z := map (fun l => match l with [] => (-1)%Z | i :: _ => Z.of_nat i end) ls.
Definition no_element : nat * list nat := (0, []).
(** the elements of a rank with their faces *)
Definition element_faces (m : rank_mesh) (faces : list (list (list (list nat)))) : list ((nat * list nat) * list (list nat)) := combine (rank_elements m) (concat faces).
(** a face of an element of any rank and the other elements that share it *)
Definition shared_face (ms : list rank_mesh) (faces : list (list (list (list (list nat))))) (l : list nat) : Prop :=
  exists m fs e ef f, In (m, fs) (combine ms faces) /\ In (e, ef) (element_faces m fs) /\ In f ef /\ sharing (mesh_elements ms) (fst e) (face_nodes e f) l.
(** the stored neighbours of all elements of all ranks *)
Definition stored_neighbors (ms : list rank_mesh) (faces : list (list (list (list (list nat))))) (stored : list (list nat) -> list Z) (rows : list (list (list Z))) : Prop :=
  Forall2 (fun mf rs => Forall2 (fun ef d => exists ls, sharing_faces (mesh_elements ms) (fst ef) (snd ef) ls /\ d = stored ls) (element_faces (fst mf) (snd mf)) rs) (combine ms faces) rows.
