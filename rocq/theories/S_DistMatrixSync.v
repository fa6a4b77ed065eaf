(** * The values of a matrix distributed among processes *)
From Coq Require Import List Arith Bool.
From Verif Require Import Base M_Distributed S_Distributed M_DistMatrix S_DistMatrix S_Assembly.
Import ListNotations.

Definition no_pattern : dpattern := {| dp_row := []; dp_column := []; dp_permutation := []; dp_offset := [] |}.
(** the entries (row, column), global numbers of DOFs, of the values of a rank: those of the first row first *)
Definition entry_keys (dofs : nat) (u : uniq_info) (p : dpattern) : list (nat * nat) :=
  flat_map (fun i => map (pair (nth i (stored_dofs dofs u) 0)) (slice (nth i (dp_row p) 0) (nth (i + 1) (dp_row p) 0) (dp_column p))) (seq 0 (length (stored_dofs dofs u))).

Section Values.
  Context {T : Type} (zero : T) (add : T -> T -> T) (dofs : nat) (us : list uniq_info) (ps : list dpattern).
  Definition keys (r : nat) : list (nat * nat) := entry_keys dofs (nth r us no_info) (nth r ps no_pattern).

  (** values for every rank *)
  Definition is_matrix (vs : list (list T)) : Prop := length vs = length us /\ forall r, r < length us -> length (nth r vs []) = length (dp_column (nth r ps no_pattern)).
  (** the value of the entry (g, c) on the rank [r] *)
  Definition has_entry (vs : list (list T)) (r g c : nat) (x : T) : Prop :=
    r < length us /\ exists k, nth_error (keys r) k = Some (g, c) /\ nth_error (nth r vs []) k = Some x.
  Definition is_key (g c : nat) (x : nat * nat) : bool := (fst x =? g) && (snd x =? c).
  (** all values of the entry (g, c), in the order of ranks *)
  Definition entry_values (vs : list (list T)) (g c : nat) : list T :=
    flat_map (fun r => map snd (filter (fun x : nat * nat * T => is_key g c (fst x)) (combine (keys r) (nth r vs [])))) (seq 0 (length us)).
End Values.

(** ** Assembly: the elements of a rank in the order of intervals with their matrices; nodes are given by global numbers *)
Definition rank_elements {T} (m : mesh_part) (intervals : list (nat * nat)) (Ks : list (list T)) : list (list nat * list T) :=
  flat_map (fun i => combine (map (map (node_of m)) (elements_of m i)) (slice (fst i) (snd i) Ks)) intervals.
(** the sum of the values that the elements of a rank give to the entry (g, c) *)
Definition rank_value {T} (zero : T) (add : T -> T -> T) (dofs : nat) (m : mesh_part) (intervals : list (nat * nat)) (Ks : list (list T)) (g c : nat) : T :=
  assembled dofs zero add true (rank_elements m intervals Ks) g c zero.
(** the ranks that have the node of the DOF [g] *)
Definition ranks_with (dofs : nat) (ms : list mesh_part) (g : nat) : list nat :=
  filter (fun r => memb (g / dofs) (u_position (mp_info (nth r ms no_part)))) (seq 0 (length ms)).
(** matrices for all elements of all ranks: those of an interval have elements with the same number of nodes *)
Definition element_matrices {T} (dofs : nat) (ms : list mesh_part) (intervals : list (list (nat * nat))) (isize : nat -> nat -> nat) (Ks : nat -> list (list T)) : Prop :=
  forall r, r < length ms -> length (Ks r) = length (mp_elements (nth r ms no_part)) /\
    forall i, i < length (nth r intervals []) -> let v := nth i (nth r intervals []) (0, 0) in
      (forall e, In e (elements_of (nth r ms no_part) v) -> dofs * length e = isize r i) /\
      (forall K, In K (slice (fst v) (snd v) (Ks r)) -> length K = isize r i * isize r i).
(** the matrices of the interval [i] of the rank [r] *)
Definition interval_matrices {T} (intervals : list (list (nat * nat))) (Ks : nat -> list (list T)) (r i : nat) : list (list T) :=
  let v := nth i (nth r intervals []) (0, 0) in slice (fst v) (snd v) (Ks r).
