(** * Dense vectors of dual variables as used by the iterative FETI solvers
    (/repo/src/math/math.h: copy, set, scale, add, dot; /repo/src/feti/common/vector_dual.cpp)

    Simplifications:
    - the numbers are an arbitrary [scalar]; the theorems say which one they are about;
    - a distributed vector is the vector of all its entries, each of them once, and the reductions
      over the processes are folds over all the entries (M_Dual.v models the distribution);
    - all vectors of a solver have the same size, so the loops are maps. *)
From Coq Require Import List Bool.
Import ListNotations.

Record scalar := {
  num : Type;
  zero : num;
  one : num;
  add : num -> num -> num;
  sub : num -> num -> num;
  mul : num -> num -> num;
  div : num -> num -> num;
  opp : num -> num;
  ltb : num -> num -> bool;
  leb : num -> num -> bool;
  sqrt : num -> num;
  huge : num                                       (* std::numeric_limits<double>::max() *)
}.

Section Vectors.
Variable K : scalar.
Local Notation T := (num K).

(** std::min and std::max *)
Definition min (a b : T) : T := if ltb K b a then b else a.
Definition max (a b : T) : T := if ltb K a b then b else a.

Fixpoint zip (f : T -> T -> T) (x y : list T) : list T :=
  match x, y with
  | a :: x, b :: y => f a b :: zip f x y
  | _, _ => []
  end.

(** math::add(x, alpha, y): x += alpha * y *)
Definition vadd (x : list T) (alpha : T) (y : list T) : list T :=
  zip (fun a b => add K a (mul K alpha b)) x y.

(** math::scale(alpha, x) *)
Definition vscale (alpha : T) (x : list T) : list T := map (mul K alpha) x.

(** Vector_Dual::dot *)
Fixpoint dot (x y : list T) : T :=
  match x, y with
  | a :: x, b :: y => add K (mul K a b) (dot x y)
  | _, _ => zero K
  end.

(** math::set(x, 0) *)
Definition vzero (n : nat) : list T := repeat (zero K) n.

End Vectors.
