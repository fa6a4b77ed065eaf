(** * The problem without domains

    DOFs, copies and positions as in S_Equality; [K d i j] and [f d i]: the matrix and the load of domain [d]. *)
From Coq Require Import List Arith Bool Reals.
From Verif Require Import Base S_Equality.
Import ListNotations.
Local Open Scope R_scope.

Section Assembled.
  Variables (n : nat) (first : nat -> nat) (N : nat) (copies : nat -> list nat) (fixed : nat -> bool) (ix : nat -> nat -> nat) (len : nat -> nat).
  Variables (K : nat -> nat -> nat -> R) (f : nat -> nat -> R) (value : nat -> R).
  (** every position of the vector of a domain is the copy of a DOF *)
  Definition covered : Prop := forall d j, In d (all_domains n first) -> (j < len d)%nat -> exists g, (g < N)%nat /\ In d (copies g) /\ ix d g = j.
  (** the element of the assembled matrix, the assembled load *)
  Definition assembled_matrix (g g' : nat) : R := Sum (copies g) (fun d => if existsb (Nat.eqb d) (copies g') then K d (ix d g) (ix d g') else 0).
  Definition assembled_load (g : nat) : R := Sum (copies g) (fun d => f d (ix d g)).
  (** [U g]: the value of DOF [g] *)
  Definition solves_assembled (U : nat -> R) : Prop :=
    (forall g, (g < N)%nat -> fixed g = false -> Sum (seq 0 N) (fun g' => assembled_matrix g g' * U g') = assembled_load g) /\
    (forall g, (g < N)%nat -> fixed g = true -> U g = value g).
  (** the vectors of the domains are the restrictions of [U] *)
  Definition restricts (U : nat -> R) (u : nat -> nat -> R) : Prop := forall d g, (g < N)%nat -> In d (copies g) -> u d (ix d g) = U g.
  (** at every free DOF the forces of all its domains are together the load *)
  Definition balanced (u : nat -> nat -> R) : Prop :=
    forall g, (g < N)%nat -> fixed g = false -> Sum (copies g) (fun d => Sum (seq 0 (len d)) (fun j => K d (ix d g) j * u d j)) = assembled_load g.
End Assembled.
