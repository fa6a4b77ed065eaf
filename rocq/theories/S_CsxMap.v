(** * Specification vocabulary for the operations with value maps *)
From Coq Require Import List Bool Arith Permutation.
From Verif Require Import Base M_Csx S_Csx.
Import ListNotations.

(** the matrix with the same pattern and other values *)
Definition set_values {T U} (m : csx T) (v : list U) : csx U :=
  Csx (nrows m) (ncols m) (nnz m) (ord m) (upl m) (ptrs m) (idxs m) v.

(** transposed entry *)
Definition swapped {T} (e : entry T) : entry T := (e_col e, e_row e, e_val e).

(** in the lower (upper) triangle including the diagonal *)
Definition in_triangle {T} (u : uplo) (e : entry T) : bool :=
  match u with UploNone => true | UploL => e_col e <=? e_row e | UploU => e_row e <=? e_col e end.

(** an entry outside of the stored triangle is kept as its mirror image *)
Definition folded {T} (u : uplo) (e : entry T) : entry T := if in_triangle u e then e else swapped e.

(** an entry together with its mirror image *)
Definition mirrored {T} (conj : T -> T) (e : entry T) : list (entry T) :=
  if e_row e =? e_col e then [e] else [e; (e_col e, e_row e, conj (e_val e))].
