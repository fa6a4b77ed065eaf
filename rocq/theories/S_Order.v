(** * Specification vocabulary: orders, sorting, parallel loops *)
From Coq Require Import List Bool Permutation Sorted.
Import ListNotations.

(** [a <= b] in terms of C++'s [operator<] *)
Definition le_of {A} (ltb : A -> A -> bool) (a b : A) : Prop := ltb b a = false.

(** C++ "strict weak ordering" (Compare requirements) *)
Record strict_weak_order {A} (ltb : A -> A -> bool) : Prop := {
  swo_asym : forall a b, ltb a b = true -> ltb b a = false;
  swo_le_trans : forall a b c, le_of ltb a b -> le_of ltb b c -> le_of ltb a c
}.

(** an order in which equivalent elements are equal, and [operator==] *)
Record strict_total_order {A} (ltb eqb : A -> A -> bool) : Prop := {
  sto_swo : strict_weak_order ltb;
  sto_antisym : forall a b, le_of ltb a b -> le_of ltb b a -> a = b;
  sto_eqb : forall a b, eqb a b = true <-> a = b
}.

Definition sorted {A} (ltb : A -> A -> bool) (l : list A) : Prop := StronglySorted (le_of ltb) l.
Definition strictly_sorted {A} (ltb : A -> A -> bool) (l : list A) : Prop :=
  StronglySorted (fun a b => ltb a b = true) l.

(** contract of std::sort *)
Definition sort_contract {A} (ltb : A -> A -> bool) (sort : list A -> list A) : Prop :=
  forall l, Permutation l (sort l) /\ sorted ltb (sort l).

(** the order of the iterations of a parallel loop is arbitrary, every iteration runs once *)
Definition parallel_order (n : nat) (l : list nat) : Prop := Permutation l (seq 0 n).

(** one representative of every run of equal neighbours *)
Fixpoint compress {A} (eqb : A -> A -> bool) (l : list A) : list A :=
  match l with
  | [] => []
  | a :: t =>
    match t with
    | [] => [a]
    | b :: _ => if eqb a b then compress eqb t else a :: compress eqb t
    end
  end.

(** non-decreasing list of boundaries *)
Definition mono_list (l : list nat) : Prop :=
  forall i j, i <= j < length l -> nth i l 0 <= nth j l 0.
