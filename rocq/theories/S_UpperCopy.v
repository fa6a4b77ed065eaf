(** * Specification: the compressed rows of a matrix and its upper triangle (C140) *)
From Coq Require Import List Arith.
Import ListNotations.

(** where the rows begin and end: [s], s + the size of the first row, ... *)
Fixpoint offsets {E} (s : nat) (R : list (list E)) : list nat :=
  match R with [] => [s] | r :: R => s :: offsets (s + length r) R end.

(** the arrays of the compressed rows with indices from [base] *)
Definition csr_rows {T} (base : nat) (R : list (list (nat * T))) : list nat := offsets base R.
Definition csr_cols {T} (base : nat) (R : list (list (nat * T))) : list nat := map (fun e => fst e + base) (concat R).
Definition csr_vals {T} (R : list (list (nat * T))) : list T := map snd (concat R).

(** entries on and above the diagonal; the first row has the index [i] *)
Fixpoint upper_from {T} (i : nat) (R : list (list (nat * T))) : list (list (nat * T)) :=
  match R with [] => [] | r :: R => filter (fun e => i <=? fst e) r :: upper_from (S i) R end.
Definition upper {T} (R : list (list (nat * T))) : list (list (nat * T)) := upper_from 0 R.
