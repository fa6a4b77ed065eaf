(** * What a matrix distributed among processes is

    Every rank has elements on its nodes (local numbers); [u_position] gives the global numbers of nodes.  The rows of a rank are those of its nodes. *)
From Coq Require Import List Arith Bool Sorted.
From Verif Require Import Base M_Distributed S_Distributed M_DistMatrix.
Import ListNotations.

Definition no_part : mesh_part := {| mp_info := no_info; mp_ranks := []; mp_elements := [] |}.
(** the global number of the local node [n] *)
Definition node_of (m : mesh_part) (n : nat) : nat := nth n (u_position (mp_info m)) 0.

Record distributed_mesh (nb : list (list nat)) (ms : list mesh_part) : Prop := {
  dm_numbered : numbered nb (map mp_info ms);
  (** the copies of nodes of other ranks are followed by the own nodes *)
  dm_position : forall m, In m ms -> u_position (mp_info m) = halo_nodes (mp_info m) ++ seq (u_offset (mp_info m)) (u_size (mp_info m));
  dm_length : forall m, In m ms -> length (mp_ranks m) = length (u_position (mp_info m));
  (** the ranks of a node are increasing and they are exactly those that have the node *)
  dm_sorted : forall m n, In m ms -> n < length (mp_ranks m) -> StronglySorted lt (nth n (mp_ranks m) []);
  dm_ranks : forall m n s, In m ms -> n < length (mp_ranks m) ->
    (In s (nth n (mp_ranks m) []) <-> s < length ms /\ In (node_of m n) (u_position (mp_info (nth s ms no_part))));
  (** ranks with a common node are neighbours *)
  dm_neighbours : forall r n s, r < length ms -> n < length (mp_ranks (nth r ms no_part)) -> In s (nth n (mp_ranks (nth r ms no_part)) []) -> s <> r -> In s (nth r nb []);
  (** no element has a node twice *)
  dm_elements : forall m e, In m ms -> In e (mp_elements m) -> NoDup e /\ forall n, In n e -> n < length (mp_ranks m) }.

(** the nodes [p] and [q] (global numbers) have a common element, on whichever rank *)
Definition common_element (ms : list mesh_part) (p q : nat) : Prop :=
  exists m e, In m ms /\ In e (mp_elements m) /\ In p (map (node_of m) e) /\ In q (map (node_of m) e).

(** the pattern of a rank: the row of the DOF [d] of the local node [n] has a column for each DOF of the node itself and of all nodes in common elements *)
Definition rows_of_mesh (dofs : nat) (ms : list mesh_part) (m : mesh_part) (p : dpattern) : Prop :=
  length (dp_row p) = length (mp_ranks m) * dofs + 1 /\ nth 0 (dp_row p) 0 = 0 /\ nth (length (mp_ranks m) * dofs) (dp_row p) 0 = length (dp_column p) /\
  forall n d, n < length (mp_ranks m) -> d < dofs ->
    let b := nth (n * dofs + d) (dp_row p) 0 in let e := nth (n * dofs + d + 1) (dp_row p) 0 in
    b <= e <= length (dp_column p) /\ StronglySorted lt (slice b e (dp_column p)) /\
    forall c, In c (slice b e (dp_column p)) <-> c / dofs = node_of m n \/ common_element ms (node_of m n) (c / dofs).

(** the entries (row, column) of the matrix of an element, by rows; DOFs are ordered by components *)
Definition element_entries (dofs : nat) (m : mesh_part) (e : list nat) : list (nat * nat) :=
  flat_map (fun rd => flat_map (fun from => flat_map (fun cd => map (fun to => (from * dofs + rd, node_of m to * dofs + cd)) e) (seq 0 dofs)) e) (seq 0 dofs).
(** the position [k] of the values is that of the entry [x] *)
Definition is_entry (p : dpattern) (x : nat * nat) (k : nat) : Prop :=
  nth (fst x) (dp_row p) 0 <= k < nth (fst x + 1) (dp_row p) 0 /\ nth k (dp_column p) 0 = snd x.
Definition elements_of (m : mesh_part) (interval : nat * nat) : list (list nat) := slice (fst interval) (snd interval) (mp_elements m).
Definition permutation_of_mesh (dofs : nat) (m : mesh_part) (intervals : list (nat * nat)) (p : dpattern) : Prop :=
  Forall2 (is_entry p) (flat_map (fun i => flat_map (element_entries dofs m) (elements_of m i)) intervals) (dp_permutation p) /\
  length (dp_offset p) = length intervals /\
  forall i, i < length intervals -> nth i (dp_offset p) 0 = length (flat_map (fun i => flat_map (element_entries dofs m) (elements_of m i)) (firstn i intervals)).
