(** * The product with a matrix distributed among processes *)
From Coq Require Import List Arith Sorted.
From Verif Require Import Base M_Distributed S_Distributed M_DistMatrix S_DistMatrix S_DistMatrixSync S_Assembly M_DistApply.
Import ListNotations.

(** [z] is the entry [g] of the product: the function [rowop] of the pairs (entry of the row [g] of the matrix, entry of [x] in its column), for all columns in increasing order, and of the former entry [g] of [y].
    The row is the one that is stored by the owner of [g], the entries of [x] and [y] are those of their owners; the columns are the DOFs of the same node and of nodes in common elements (on any rank). *)
Definition row_product {T} (dofs : nat) (ms : list mesh_part) (us : list uniq_info) (ps : list dpattern) (rowop : list (T * T) -> T -> T) (M x y : list (list T)) (g : nat) (z : T) : Prop :=
  exists o y0 columns pairs, owner dofs us o g /\ has_value dofs us y o g y0 /\
    StronglySorted lt columns /\ (forall c, In c columns <-> c / dofs = g / dofs \/ common_element ms (g / dofs) (c / dofs)) /\
    z = rowop pairs y0 /\
    Forall2 (fun c p => has_entry dofs us ps M o g c (fst p) /\ exists q, owner dofs us q c /\ has_value dofs us x q c (snd p)) columns pairs.

(** the same with the row of the matrix assembled from the elements [es] (nodes in global numbers with their matrices) *)
Definition assembled_row_product {T} (zero : T) (add : T -> T -> T) (dofs : nat) (ms : list mesh_part) (us : list uniq_info) (es : list (list nat * list T)) (rowop : list (T * T) -> T -> T) (x y : list (list T)) (g : nat) (z : T) : Prop :=
  exists o y0 columns pairs, owner dofs us o g /\ has_value dofs us y o g y0 /\
    StronglySorted lt columns /\ (forall c, In c columns <-> c / dofs = g / dofs \/ common_element ms (g / dofs) (c / dofs)) /\
    z = rowop pairs y0 /\
    Forall2 (fun c p => fst p = assembled dofs zero add true es g c zero /\ exists q, owner dofs us q c /\ has_value dofs us x q c (snd p)) columns pairs.

(** calls with vectors and matrices of the right sizes *)
Definition valid_call {T} (dofs : nat) (us : list uniq_info) (ps : list dpattern) (c : acall T) : Prop :=
  match c with AVector _ vs => is_vector dofs us vs | AProduct _ M xs ys => is_matrix us ps M /\ is_vector dofs us xs /\ is_vector dofs us ys end.
