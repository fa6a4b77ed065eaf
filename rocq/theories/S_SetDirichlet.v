(** * Specification: prescribed values in a linear system (C139) *)
From Coq Require Import List Arith.
From Verif Require Import M_SetDirichlet.
Import ListNotations.

Section SetDirichlet.
Context {T : Type}.
Variables (zero : T) (add mul : T -> T -> T).

(** the product of a row and a vector *)
Definition product (r : list (nat * T)) (x : nat -> T) : T := fold_right (fun e s => add (mul (snd e) (x (fst e))) s) zero r.

(** row [r] of A x = b *)
Definition equation (A : list (list (nat * T))) (b : list T) (x : nat -> T) (r : nat) : Prop := product (nth r A []) x = nth r b zero.

Definition solves (A : list (list (nat * T))) (b : list T) (x : nat -> T) : Prop := forall r, r < length A -> equation A b x r.

(** the prescribed values hold, and the original equations in all rows that are not prescribed *)
Definition solves_prescribed (dirichlet : list (nat * T)) (A : list (list (nat * T))) (b : list T) (x : nat -> T) : Prop :=
  (forall i v, In (i, v) dirichlet -> x i = v) /\ (forall r, r < length A -> ~ In r (map fst dirichlet) -> equation A b x r).

Definition stored (A : list (list (nat * T))) (r c : nat) : Prop := In c (map fst (nth r A [])).

(** columns are in range and not repeated, the diagonal is stored, and entries are stored in pairs *)
Definition good_matrix (A : list (list (nat * T))) : Prop :=
  forall r, r < length A ->
    NoDup (map fst (nth r A [])) /\ stored A r r /\ (forall c, stored A r c -> c < length A /\ stored A c r).
End SetDirichlet.

Definition symmetric {T} (A : list (list (nat * T))) : Prop := forall r c a, In (c, a) (nth r A []) -> In (r, a) (nth c A []).
