(** * The operators of PCPG in Total FETI and their assumptions

    Domains, multipliers, kernels and vectors as in S_Feti, S_Projector and S_Reconstruct. *)
From Coq Require Import List Arith Bool Reals.
From Verif Require Import Base S_Dual S_Equality M_TotalFeti S_Feti M_Projector S_Projector S_ProjectorRanks S_Reconstruct S_Precond M_DualVector S_Mprgp.
From Verif Require M_Pcpg S_Pcpg.
Import ListNotations.
Local Open Scope R_scope.

(** the vector as a function of the position *)
Definition as_function (v : list R) (m : nat) : R := nth m v 0.

Section Global.
  Variables (n : nat) (first : nat -> nat) (L : list (list nat)) (len : nat -> nat) (row : nat -> nat -> list (nat * R)).
  Variables (ksize : nat -> nat) (Rk : nat -> nat -> nat -> R) (J : inverse).
  Local Notation all := (everything n first).

  (** a vector of all multipliers *)
  Definition multipliers_of (g : nat -> R) : list R := map g (multiplier_list L).
  (** kernel [k] of domain [d] is after the kernels of the domains before *)
  Definition as_kernels (a : list R) (d k : nat) : R := nth (kernels ksize (seq (first 0%nat) (d - first 0%nat)) + k) a 0.

  (** the operators of PCPG on whole vectors: the dual operator [F], the preconditioner [S] and the projector *)
  Definition global (h : R) (conjugate : bool) (F S : (nat -> R) -> nat -> R) : M_Pcpg.operators (exact h) :=
    M_Pcpg.Build_operators (exact h)
      (fun v => multipliers_of (F (as_function v)))
      (fun v => multipliers_of (S (as_function v)))
      (fun v => kernel_vector ksize all (G_of L len row Rk (as_function v)))
      (fun a => multipliers_of (Gt_of n first len row ksize Rk (as_kernels a)))
      (fun a => kernel_vector ksize all (inverse_of n first ksize J (as_kernels a)))
      conjugate.

  (** the result depends only on the values of the multipliers *)
  Definition respects (F : (nat -> R) -> nat -> R) : Prop :=
    forall x y, (forall m, (m < length L)%nat -> x m = y m) -> forall m, (m < length L)%nat -> F x m = F y m.

  Variable K : nat -> nat -> nat -> R.
  (** symmetric positive semidefinite matrices of the domains *)
  Definition semidefinite : Prop :=
    (forall d i j, In d all -> (i < len d)%nat -> (j < len d)%nat -> K d i j = K d j i) /\
    (forall d v, In d all -> 0 <= Sum (seq 0 (len d)) (fun i => v i * times (len d) (K d) v i)).
  (** the rows of R span the kernel of K *)
  Definition spans_kernel : Prop :=
    forall d v, In d all -> (forall i, (i < len d)%nat -> times (len d) (K d) v i = 0) ->
      exists a, forall j, (j < len d)%nat -> v j = Sum (seq 0 (ksize d)) (fun k => Rk d k j * a k).
  (** the rows of B are linearly independent *)
  Definition independent : Prop :=
    forall x, (forall d j, In d all -> (j < len d)%nat -> Bt_of L row x d j = 0) -> forall m, (m < length L)%nat -> x m = 0.

  (** the preconditioners: none, lumped, Dirichlet *)
  Definition is_preconditioner (S : (nat -> R) -> nat -> R) : Prop :=
    (forall x m, S x m = x m) \/ (forall x m, S x m = lumped_of n first L len row K x m) \/ (forall x, is_dirichlet n first L len row K x (S x)).
End Global.
