(** * Vocabulary of the theorems about SMALBE: the coarse space, the constrained problem *)
From Coq Require Import List Reals.
From Verif Require Import S_Mprgp.
From Verif Require M_Smalbe.
Import ListNotations.
Local Open Scope R_scope.

(** linear maps of vectors of size n to vectors of size m *)
Definition linear_map (n m : nat) (A : list R -> list R) : Prop :=
  (forall x, length x = n -> length (A x) = m) /\
  (forall x a y, length x = n -> length y = n ->
     A (combination x a y) = combination (A x) a (A y)).

(** The functions of the projector for the constraints G x = e: G G^T = L U, U is the transpose of L; the projector is orthogonal. *)
Record coarse_space (n m : nat) (G Gt invL invU invLG GtinvU project : list R -> list R) : Prop := {
  cs_G : linear_map n m G;
  cs_Gt : linear_map m n Gt;
  cs_adjoint : forall x v, length x = n -> length v = m -> scalar_product (G x) v = scalar_product x (Gt v);
  cs_invL : linear_map m m invL;
  cs_invU : linear_map m m invU;
  cs_transposed : forall u v, length u = m -> length v = m -> scalar_product (invL u) v = scalar_product u (invU v);
  cs_factors : forall v, length v = m -> invL (G (Gt (invU v))) = v;
  cs_regular : forall v, length v = m -> is_zero (invL v) -> is_zero v;
  cs_invLG : forall x, length x = n -> invLG x = invL (G x);
  cs_GtinvU : forall v, length v = m -> GtinvU v = Gt (invU v);
  cs_project : forall x, length x = n -> project x = combination x (-1) (Gt (invU (invL (G x))))
}.

(** the operator of the problem: positive definite where the constraints are homogeneous *)
Record constrained_operator (n : nat) (G F : list R -> list R) : Prop := {
  co_linear : linear n F;
  co_symmetric : symmetric n F;
  co_definite : forall x, length x = n -> is_zero (G x) -> ~ is_zero x -> 0 < scalar_product x (F x)
}.

(** [x] minimizes the energy among the vectors between the bounds that satisfy G y = e *)
Definition solves_constrained (n eq : nat) (lb ub : list R) (G F : list R -> list R) (d e x : list R) : Prop :=
  length x = n /\ feasible eq lb ub x /\ G x = e /\
  forall y, length y = n -> feasible eq lb ub y -> G y = e -> energy F d x <= energy F d y.

(** the multipliers [a] of the constraints: the gradient of the Lagrangian F x - d + Gt a points inside the bounds *)
Definition lagrange_multipliers (n eq : nat) (lb ub : list R) (Gt F : list R -> list R) (d x a : list R) : Prop :=
  forall y, length y = n -> feasible eq lb ub y ->
    0 <= scalar_product (combination (combination (F x) (-1) d) 1 (Gt a)) (combination y (-1) x).
