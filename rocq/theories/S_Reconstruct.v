(** * The primal problem of FETI over the real numbers

    K u + B^T lambda = f in every domain and B u = c; [K d i j] are the elements of the matrix of domain [d]. *)
From Coq Require Import List Arith Bool Reals.
From Verif Require Import Base S_Dual S_Equality M_TotalFeti S_Feti S_Projector.
Import ListNotations.
Local Open Scope R_scope.

Section Primal.
  Variables (n : nat) (first : nat -> nat) (L : list (list nat)) (len : nat -> nat) (row : nat -> nat -> list (nat * R)) (ksize : nat -> nat) (Rk : nat -> nat -> nat -> R).
  Variables (K kplus : nat -> nat -> nat -> R).
  Definition K_of (u : nat -> nat -> R) (d i : nat) : R := Sum (seq 0 (len d)) (fun j => K d i j * u d j).
  (** the rows of R are in the kernel of K *)
  Definition kernels_of : Prop := forall d k i, In d (everything n first) -> (k < ksize d)%nat -> (i < len d)%nat -> Sum (seq 0 (len d)) (fun j => K d i j * Rk d k j) = 0.
  (** K+ solves K u = g whenever g is orthogonal to the kernels *)
  Definition generalized_inverse : Prop := forall g d i, In d (everything n first) -> (i < len d)%nat ->
    (forall k, (k < ksize d)%nat -> Sum (seq 0 (len d)) (fun j => Rk d k j * g d j) = 0) -> K_of (Kplus_of len kplus g) d i = g d i.
  (** the equations *)
  Definition equilibrium (f u : nat -> nat -> R) (lambda : nat -> R) : Prop :=
    forall d i, In d (everything n first) -> (i < len d)%nat -> K_of u d i + Bt_of L row lambda d i = f d i.
  Definition compatible (c : nat -> R) (u : nat -> nat -> R) : Prop := forall m, (m < length L)%nat -> B_of n first len row u m = c m.
  (** K u + B^T lambda - f, squared and added over all domains *)
  Definition residual (f u : nat -> nat -> R) (lambda : nat -> R) : R :=
    Sum (everything n first) (fun d => Sum (seq 0 (len d)) (fun i => (K_of u d i + Bt_of L row lambda d i - f d i) * (K_of u d i + Bt_of L row lambda d i - f d i))).
  Definition load (f : nat -> nat -> R) (lambda : nat -> R) : R :=
    Sum (everything n first) (fun d => Sum (seq 0 (len d)) (fun i => (f d i - Bt_of L row lambda d i) * (f d i - Bt_of L row lambda d i))).
  (** what the product with K of an own domain does *)
  Definition multiplies (r : nat) (applyK : nat -> list R -> list R) : Prop :=
    forall d v, In d (own first r) -> length v = len d -> applyK (d - first r)%nat v = dense len (K_of (fun _ j => nth j v 0)) d.
End Primal.
