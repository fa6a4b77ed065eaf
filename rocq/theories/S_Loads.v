(** * Specification: loads (C138) *)
From Coq Require Import List Arith.
From Verif Require Import M_Loads.
Import ListNotations.

Section Loads.
Context {V : Type}.
Variable add : V -> V -> V.
Variable zero : V.

Definition addition : Prop :=
  (forall a b, add a b = add b a) /\ (forall a b c, add a (add b c) = add (add a b) c) /\ (forall a, add zero a = a).

Definition total {A} (l : list A) (f : A -> V) : V := fold_right add zero (map f l).

(** what an element with given nodes and vector adds to component [d] of node [n]: the vector is stored by components *)
Definition element_load (e : element) (n d : nat) : V :=
  total (seq 0 (length (fst e))) (fun k => if nth k (fst e) 0 =? n then nth (d * length (fst e) + k) (snd e) zero else zero).
Definition node_load (m : nat * list V) (n d : nat) : V := if fst m =? n then nth d (snd m) zero else zero.

Definition elements_load (intervals : list (list element)) (n d : nat) : V :=
  total intervals (fun es => total es (fun e => element_load e n d)).
Definition region_load (r : region) (n d : nat) : V :=
  add (if dimension r =? 0 then zero else elements_load (faces r) n d) (total (nodes r) (fun ns => total ns (fun m => node_load m n d))).
Definition load (intervals : list (list element)) (regions : list region) (n d : nat) : V :=
  add (elements_load intervals n d) (total regions (fun r => region_load r n d)).

(** every element has a value for each component of each of its nodes, the nodes are nodes of the process *)
Definition good_elements (dofs size : nat) (intervals : list (list (@element V))) : Prop :=
  forall es e, In es intervals -> In e es -> length (snd e) = dofs * length (fst e) /\ forall n, In n (fst e) -> n < size.
Definition good_nodes (dofs size : nat) (threads : list (list (nat * list V))) : Prop :=
  forall ns m, In ns threads -> In m ns -> length (snd m) = dofs /\ fst m < size.
Definition good_region (dofs size : nat) (r : region) : Prop := good_elements dofs size (faces r) /\ good_nodes dofs size (nodes r).
(** no force is given in the nodes of the region *)
Definition no_nodal_loads (r : @region V) : Prop := forall ns m x, In ns (nodes r) -> In m ns -> In x (snd m) -> x = zero.
End Loads.
