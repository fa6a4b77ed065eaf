(** * Vocabulary of the theorems about the iterative solvers: exact arithmetic, feasible points,
    operators, the minimized function *)
From Coq Require Import List Reals Bool.
From Verif Require Import Base M_DualVector.
Import ListNotations.
Local Open Scope R_scope.

Definition Rltb (a b : R) : bool := if Rlt_dec a b then true else false.
Definition Rleb (a b : R) : bool := if Rle_dec a b then true else false.

(** exact arithmetic: the real numbers, with any number in the place of the largest double *)
Definition exact (largest : R) : scalar :=
  {| num := R; zero := 0; one := 1; add := Rplus; sub := Rminus; mul := Rmult; div := Rdiv;
     opp := Ropp; ltb := Rltb; leb := Rleb; sqrt := R_sqrt.sqrt; huge := largest |}.

(** x + a y *)
Definition combination (x : list R) (a : R) (y : list R) : list R :=
  map (fun uv => fst uv + a * snd uv) (combine x y).

(** the scalar product *)
Definition scalar_product (x y : list R) : R :=
  fold_right (fun uv sum => fst uv * snd uv + sum) 0 (combine x y).

Definition is_zero (x : list R) : Prop := Forall (fun a => a = 0) x.

(** linear operators on vectors of size n *)
Definition linear (n : nat) (H : list R -> list R) : Prop :=
  (forall x, length x = n -> length (H x) = n) /\
  (forall x a y, length x = n -> length y = n ->
     H (combination x a y) = combination (H x) a (H y)).

Definition symmetric (n : nat) (H : list R -> list R) : Prop :=
  forall x y, length x = n -> length y = n ->
    scalar_product x (H y) = scalar_product (H x) y.

Definition positive_definite (n : nat) (H : list R -> list R) : Prop :=
  forall x, length x = n -> ~ is_zero x -> 0 < scalar_product x (H x).

(** the entries [eq], [eq + 1], ... are between the bounds *)
Definition feasible (eq : nat) (lb ub x : list R) : Prop :=
  forall j l u a, nth_error lb j = Some l -> nth_error ub j = Some u ->
    nth_error x (eq + j) = Some a -> l <= a <= u.

(** 1/2 x . H x - b . x *)
Definition energy (H : list R -> list R) (b x : list R) : R :=
  / 2 * scalar_product x (H x) - scalar_product b x.

(** minimize the energy subject to bounds of all but the first [eq] variables *)
Record bounded_program (n eq : nat) (lb ub : list R) (H : list R -> list R) (b : list R) : Prop := {
  bp_size : (eq + length lb = n)%nat;
  bp_ub : length ub = length lb;
  bp_b : length b = n;
  bp_bounds : Forall2 Rle lb ub;
  bp_linear : linear n H;
  bp_symmetric : symmetric n H;
  bp_definite : positive_definite n H
}.

(** what is needed of a preconditioner *)
Definition preconditioner (n : nat) (M : list R -> list R) : Prop :=
  (forall x, length x = n -> length (M x) = n) /\ positive_definite n M.

(** the projected gradient at x for the step alpha: the gradient where there are no bounds, the
    scaled way to the nearest point between the bounds elsewhere *)
Definition projected_entry (alpha l u g x : R) : R :=
  (x - Rmax l (Rmin u (x - alpha * g))) / alpha.
Fixpoint projected_entries (alpha : R) (lb ub g x : list R) : list R :=
  match lb, ub, g, x with
  | l :: lb, u :: ub, b :: g, a :: x =>
      projected_entry alpha l u b a :: projected_entries alpha lb ub g x
  | _, _, _, _ => []
  end.
Definition projected_gradient (eq : nat) (alpha : R) (lb ub g x : list R) : list R :=
  firstn eq g ++ projected_entries alpha lb ub (skipn eq g) (skipn eq x).

Definition norm (x : list R) : R := R_sqrt.sqrt (scalar_product x x).
