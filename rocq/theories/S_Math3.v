(** * Specification: row combinations of a dense matrix, bases, orthonormal rows *)
From Coq Require Import List Arith.
Import ListNotations.

Section Lin.
Context {T : Type}.
Variable zero : T.
Variables add mul : T -> T -> T.

(** f 0 + f 1 + ... + f (n-1) *)
Fixpoint sum (n : nat) (f : nat -> T) : T := match n with 0 => zero | S k => add (sum k f) (f k) end.

(** element c of the combination of the rows of A (n rows) with coefficients y *)
Definition combo (n : nat) (y : nat -> T) (A : nat -> nat -> T) (c : nat) : T := sum n (fun r => mul (y r) (A r c)).

(** the n rows (of m elements) are linearly independent *)
Definition independent (n m : nat) (A : nat -> nat -> T) : Prop :=
  forall y, (forall c, c < m -> combo n y A c = zero) -> forall r, r < n -> y r = zero.

(** every combination of the rows of A is a combination of the rows of B *)
Definition spanned (n m : nat) (A B : nat -> nat -> T) : Prop :=
  forall y, exists x, forall c, c < m -> combo n y A c = combo n x B c.
End Lin.

(** a row-major array as a matrix *)
Definition mat {T} (zero : T) (m : nat) (l : list T) (r c : nat) : T := nth (r * m + c) l zero.

(** scalar product of two rows *)
Definition row_dot {T} (zero : T) (add mul : T -> T -> T) (m : nat) (A : nat -> nat -> T) (i j : nat) : T :=
  sum zero add m (fun c => mul (A i c) (A j c)).

(** the n rows are orthonormal *)
Definition orthonormal {T} (zero one : T) (add mul : T -> T -> T) (n m : nat) (A : nat -> nat -> T) : Prop :=
  forall i j, i < n -> j < n -> row_dot zero add mul m A i j = if i =? j then one else zero.
