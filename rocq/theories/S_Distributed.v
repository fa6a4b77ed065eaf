(** * What a vector distributed among processes is

    Nodes have global numbers; rank [r] owns the nodes [u_offset], ..., [u_offset + u_size - 1] and has copies of some nodes of lower ranks (the halo).
    Every node has [dofs] DOFs: node [n] the DOFs [dofs * n], ..., [dofs * n + dofs - 1]. *)
From Coq Require Import List Arith Bool Sorted.
From Verif Require Import Base M_Distributed.
Import ListNotations.

Definition halo_nodes (u : uniq_info) : list nat := firstn (u_nhalo u) (u_position u).
Definition owns (u : uniq_info) (p : nat) : Prop := u_offset u <= p < u_offset u + u_size u.
Definition no_info : uniq_info := {| u_nhalo := 0; u_position := []; u_offset := 0; u_size := 0 |}.

(** [us], [nb]: the numbering and the neighbours of every rank *)
Record numbered (nb : list (list nat)) (us : list uniq_info) : Prop := {
  nu_length : length nb = length us;
  (** the nodes of a rank follow those of the previous one *)
  nu_offsets : forall r, S r < length us -> u_offset (nth (S r) us no_info) = u_offset (nth r us no_info) + u_size (nth r us no_info);
  nu_halo : forall r, r < length us -> u_nhalo (nth r us no_info) <= length (u_position (nth r us no_info)) /\ StronglySorted lt (halo_nodes (nth r us no_info));
  (** a node of the halo is owned by a lower rank and this rank is a neighbour *)
  nu_owner : forall r p, r < length us -> In p (halo_nodes (nth r us no_info)) -> exists o, o < r /\ owns (nth o us no_info) p /\ In o (nth r nb []);
  (** the lists of neighbours are increasing and symmetric *)
  nu_sorted : forall r, r < length us -> StronglySorted lt (nth r nb []);
  nu_symmetric : forall r j, r < length us -> In j (nth r nb []) -> j < length us /\ j <> r /\ In r (nth j nb []) }.

(** the DOFs of the entries of the vector of a rank *)
Definition stored_dofs (dofs : nat) (u : uniq_info) : list nat :=
  flat_map (fun n => map (fun d => dofs * n + d) (seq 0 dofs)) (halo_nodes u ++ seq (u_offset u) (u_size u)).

Section Values.
  Context {T : Type} (zero : T) (add : T -> T -> T) (dofs : nat) (us : list uniq_info).

  (** a vector for every rank *)
  Definition is_vector (vs : list (list T)) : Prop :=
    length vs = length us /\ forall r, r < length us -> length (nth r vs []) = length (stored_dofs dofs (nth r us no_info)).
  (** the value of the DOF [g] on the rank [r] *)
  Definition has_value (vs : list (list T)) (r g : nat) (x : T) : Prop :=
    r < length us /\ exists p, nth_error (stored_dofs dofs (nth r us no_info)) p = Some g /\ nth_error (nth r vs []) p = Some x.
  (** all values of the DOF [g], in the order of ranks *)
  Definition values (vs : list (list T)) (g : nat) : list T :=
    flat_map (fun r => map snd (filter (fun x : nat * T => fst x =? g) (combine (stored_dofs dofs (nth r us no_info)) (nth r vs [])))) (seq 0 (length us)).
  Definition total (l : list T) : T := match l with [] => zero | x :: l => fold_left add l x end.
  (** the rank that owns the DOF [g] *)
  Definition owner (r g : nat) : Prop := r < length us /\ owns (nth r us no_info) (g / dofs).
End Values.

(** vectors [Vs] for several right-hand sides stored by rows: the values of every rank *)
Definition by_rank {T} (n : nat) (Vs : list (list (list T))) : list (list T) := map (fun r => concat (map (fun vs => nth r vs []) Vs)) (seq 0 n).
