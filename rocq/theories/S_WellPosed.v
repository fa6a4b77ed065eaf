(** * Problems with one solution *)
From Coq Require Import List Arith Bool Reals.
From Verif Require Import Base S_Equality S_Feti S_Assembled.
Import ListNotations.
Local Open Scope R_scope.

Section WellPosed.
  Variables (n : nat) (first : nat -> nat) (N : nat) (copies : nat -> list nat) (fixed : nat -> bool) (ix : nat -> nat -> nat) (len : nat -> nat).
  Variables (K : nat -> nat -> nat -> R) (ksize : nat -> nat) (Rk : nat -> nat -> nat -> R).
  (** without load and with the value 0 for all fixed DOFs the assembled problem has no solution but 0 (DOFs of no domain do not matter) *)
  Definition well_posed : Prop :=
    forall U, solves_assembled N copies fixed ix K (fun _ _ => 0) (fun _ => 0) U -> forall g, (g < N)%nat -> copies g <> [] -> U g = 0.
  (** the kernels of a domain are linearly independent *)
  Definition kernels_independent : Prop :=
    forall d a, In d (everything n first) -> (forall j, (j < len d)%nat -> Sum (seq 0 (ksize d)) (fun k => Rk d k j * a k) = 0) -> forall k, (k < ksize d)%nat -> a k = 0.
  (** two vectors have the same values *)
  Definition same_values (U U' : nat -> R) : Prop := forall g, (g < N)%nat -> copies g <> [] -> U g = U' g.
End WellPosed.
