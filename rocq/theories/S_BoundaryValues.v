(** * Specification: prescribed values (C137) *)
From Coq Require Import List Bool Arith Sorting.Sorted.
From Verif Require Import M_BoundaryValues.
Import ListNotations.

(** region [b] prescribes component [d] of node [n]; [sets c d]: configuration [c] contains component [d] *)
Definition prescribes {C V} (sets : C -> nat -> bool) (b : boundary C V) (n d : nat) : Prop :=
  exists c ns, configured b = Some c /\ sets c d = true /\ In ns (threads b) /\ In n ns.

(** the value of the last region that prescribes the component *)
Definition last_value {C V} (sets : C -> nat -> bool) (regions : list (boundary C V)) (n d : nat) (v : V) : Prop :=
  exists before b after, regions = before ++ b :: after /\ prescribes sets b n d /\
    (forall b', In b' after -> ~ prescribes sets b' n d) /\ v = value b n d.

(** every index of the pattern is a prescribed component of a node, in increasing order *)
Definition exact_indices {C V} (sets : C -> nat -> bool) (dim : nat) (regions : list (boundary C V)) (ind : list nat) : Prop :=
  StronglySorted lt ind /\
  (forall i, In i ind <-> exists b n d, In b regions /\ prescribes sets b n d /\ d < dim /\ i = n * dim + d).

(** every prescribed component has the value of the last region *)
Definition exact_values {C V} (sets : C -> nat -> bool) (dim : nat) (regions : list (boundary C V)) (ind : list nat) (vals : list V) : Prop :=
  length vals = length ind /\
  (forall k n d, nth_error ind k = Some (n * dim + d) -> d < dim -> exists v, nth_error vals k = Some v /\ last_value sets regions n d v).

(** the nodes of the regions are nodes of the process *)
Definition nodes_below {C V} (size : nat) (regions : list (boundary C V)) : Prop :=
  forall b ns n, In b regions -> In ns (threads b) -> In n ns -> n < size.
