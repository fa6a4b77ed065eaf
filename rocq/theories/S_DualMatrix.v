(** * Matrices whose rows are dual vectors *)
From Coq Require Import List Arith.
From Verif Require Import Base M_Dual S_Dual.
Import ListNotations.

Section Matrix.
  Context {T : Type}.
  Variables (first : nat -> nat) (L : list (list nat)) (nb : nat -> list nat).
  (** [v r k m]: the value of multiplier [m] in row [k] on rank [r]; the array of rank [r], row by row *)
  Definition matrix (rows : nat) (v : nat -> nat -> nat -> T) (r : nat) : list T := concat (map (fun k => vector first L (fun r m => v r k m) r) (seq 0 rows)).
  (** buffers for [c] rows *)
  Definition sized (c r : nat) (b : list (list T)) : Prop := map (@length T) b = map (fun q => length (common first L r q) * c) (nb r).
End Matrix.
