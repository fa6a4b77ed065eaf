(** * Vocabulary of the theorems about the power method *)
From Coq Require Import List Reals.
From Verif Require Import S_Mprgp.
Local Open Scope R_scope.

(** all eigenvalues of the symmetric operator are between [l] and [u]: the Rayleigh quotients are *)
Definition spectrum_between (n : nat) (H : list R -> list R) (l u : R) : Prop :=
  forall v, length v = n -> l * scalar_product v v <= scalar_product v (H v) <= u * scalar_product v v.

(** the same for the vectors that satisfy the homogeneous constraints G v = 0 *)
Definition constrained_spectrum_below (n : nat) (G H : list R -> list R) (u : R) : Prop :=
  forall v, length v = n -> is_zero (G v) -> scalar_product v (H v) <= u * scalar_product v v.
