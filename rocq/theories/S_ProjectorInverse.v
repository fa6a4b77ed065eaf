(** * What the inverse of G G^T should be *)
From Coq Require Import List Arith Bool Reals.
From Verif Require Import Base S_Dual S_Equality M_TotalFeti S_Feti M_Projector M_ProjectorRanks S_Projector M_ProjectorGGt S_ProjectorGGt.
Import ListNotations.
Local Open Scope R_scope.

(** ** Matrices of size [K] *)
Definition mat_vec (K : nat) (A : nat -> nat -> R) (x : list R) : list R := map (fun i => Sum (seq 0 K) (fun j => A i j * nth j x 0)) (seq 0 K).
Definition transpose (A : nat -> nat -> R) (i j : nat) : R := A j i.
Definition symmetric (K : nat) (A : nat -> nat -> R) : Prop := forall i j, (i < K)%nat -> (j < K)%nat -> A i j = A j i.
Definition positive (K : nat) (A : nat -> nat -> R) : Prop :=
  forall x : nat -> R, (exists i, (i < K)%nat /\ x i <> 0) -> 0 < Sum (seq 0 K) (fun i => x i * Sum (seq 0 K) (fun j => A i j * x j)).

(** ** The contract of the direct solver for a symmetric positive definite matrix [A] *)
Definition solves (K : nat) (A : nat -> nat -> R) (solve : list R -> list R) : Prop :=
  symmetric K A -> positive K A -> forall b, length b = K -> length (solve b) = K /\ mat_vec K A (solve b) = b.
(** A^-1 = F^T F: the forward step multiplies by F, the backward step by F^T *)
Definition factorizes (K : nat) (A : nat -> nat -> R) (forward backward : list R -> list R) : Prop :=
  symmetric K A -> positive K A -> exists F, forall b, length b = K ->
    forward b = mat_vec K F b /\ backward b = mat_vec K (transpose F) b /\ mat_vec K A (mat_vec K (transpose F) (mat_vec K F b)) = b.

Section Inverse.
  Variables (n : nat) (first : nat -> nat) (L : list (list nat)).
  Variables (len : nat -> nat) (row : nat -> nat -> list (nat * R)).
  Variables (ksize : nat -> nat) (Rk : nat -> nat -> nat -> R).
  (** the rows of G are linearly independent *)
  Definition independent : Prop :=
    forall w, (forall m, (m < length L)%nat -> Gt_of n first len row ksize Rk w m = 0) -> forall d k, In d (everything n first) -> (k < ksize d)%nat -> w d k = 0.
  (** what rank [r] stores of the inverse [J] *)
  Definition rows_of_inverse (J : inverse) (r : nat) (res : inverse_rows * ggt_type) : Prop :=
    match J with
    | Whole A => res = (IWhole (kernel_rows n first ksize (own first r) A), GGT)
    | Factors Lo Up => res = (IFactors (kernel_rows n first ksize (own first r) Lo) (kernel_rows n first ksize (own first r) Up), LU)
    | Nothing => res = (INothing, NONE) /\ forall d, In d (everything n first) -> ksize d = 0%nat
    end.
End Inverse.
