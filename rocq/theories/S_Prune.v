(** * Specification vocabulary for sorting permutations, pruning, pivots and trails *)
From Coq Require Import List Bool Arith.
From Verif Require Import Base M_Csx M_Prune S_Csx.
Import ListNotations.

(** rows and columns that store at least one entry, ascending *)
Definition used_rows {T} (m : csx T) : list nat :=
  filter (fun r => existsb (fun e => e_row e =? r) (entries m)) (seq 0 (nrows m)).
Definition used_cols {T} (m : csx T) : list nat :=
  filter (fun c => existsb (fun e => e_col e =? c) (entries m)) (seq 0 (ncols m)).

(** what a pruning operation is expected to keep *)
Definition kept_rows {T} (m : csx T) (prune : bool) : list nat := if prune then used_rows m else seq 0 (nrows m).
Definition kept_cols {T} (m : csx T) (prune : bool) : list nat := if prune then used_cols m else seq 0 (ncols m).

(** an entry of the pruned matrix in the numbering of the source *)
Definition original {T} (rows cols : list nat) (e : entry T) : entry T :=
  (nth (e_row e) rows 0, nth (e_col e) cols 0, e_val e).

(** columns stored in row [i] (order R), rows stored in column [i] (order C) *)
Definition stored {T} (rc : order) (m : csx T) (i : nat) : list nat :=
  match rc with
  | OrdR => map e_col (filter (fun e => e_row e =? i) (entries m))
  | OrdC => map e_row (filter (fun e => e_col e =? i) (entries m))
  end.

(** number of rows / columns, and the number of positions in one of them *)
Definition lines_of {T} (rc : order) (m : csx T) : nat := match rc with OrdR => nrows m | OrdC => ncols m end.
Definition width_of {T} (rc : order) (m : csx T) : nat := match rc with OrdR => ncols m | OrdC => nrows m end.

(** [x] is the first (last) of the positions, or [none] if there is none *)
Definition extremal (k : pivtrl) (none : nat) (l : list nat) (x : nat) : Prop :=
  match l with
  | [] => x = none
  | _ => In x l /\ forall y, In y l -> match k with Pivots => x <= y | Trails => y <= x end
  end.

(** greatest of the values other than [none] up to position [i] (0 if there is none), least of the
    values other than [none] from position [i] on ([none - 1] if there is none) *)
Definition greatest_before (none : nat) (v : list nat) (i : nat) : nat :=
  fold_right Nat.max 0 (filter (fun x => negb (x =? none)) (firstn (i + 1) v)).
Definition least_after (none : nat) (v : list nat) (i : nat) : nat :=
  fold_right Nat.min (none - 1) (filter (fun x => negb (x =? none)) (skipn i v)).
