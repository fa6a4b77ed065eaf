(** * Specification vocabulary for sparse matrices

    What a compressed matrix means, read off the three arrays only. *)
From Coq Require Import List Arith Permutation Sorted.
From Verif Require Import Base S_Order M_Csx.
Import ListNotations.

(** extents of the arrays as allocated for the declared sizes; contents arbitrary *)
Definition allocated {T} (m : csx T) : Prop :=
  length (ptrs m) = size_primary m + 1 /\ length (idxs m) = nnz m /\ length (vals m) = nnz m.

(** a well-formed compressed matrix (indices of a row need not be sorted or distinct) *)
Record valid {T} (m : csx T) : Prop := {
  v_alloc : allocated m;
  v_first : nth 0 (ptrs m) 0 = 0;
  v_last : nth (size_primary m) (ptrs m) 0 = nnz m;
  v_mono : forall p, p < size_primary m -> nth p (ptrs m) 0 <= nth (p + 1) (ptrs m) 0;
  v_range : forall c, In c (idxs m) -> c < size_secdary m }.

(** stored (secondary index, value) pairs of primary index [p], in storage order *)
Definition line {T} (m : csx T) (p : nat) : list (nat * T) :=
  combine (slice (nth p (ptrs m) 0) (nth (p + 1) (ptrs m) 0) (idxs m))
          (slice (nth p (ptrs m) 0) (nth (p + 1) (ptrs m) 0) (vals m)).

(** an entry: row, column, value *)
Definition entry (T : Type) : Type := (nat * nat * T)%type.
Definition e_row {T} (e : entry T) : nat := fst (fst e).
Definition e_col {T} (e : entry T) : nat := snd (fst e).
Definition e_val {T} (e : entry T) : T := snd e.

(** primary index, secondary index, value -> row, column, value *)
Definition coords {T} (o : order) (p : nat) (x : nat * T) : entry T :=
  match o with OrdR => (p, fst x, snd x) | OrdC => (fst x, p, snd x) end.

(** all stored entries *)
Definition entries {T} (m : csx T) : list (entry T) :=
  flat_map (fun p => map (coords (ord m) p) (line m p)) (seq 0 (size_primary m)).

(** indices of every row (order R) / column (order C) are non-decreasing / strictly increasing *)
Definition ascending {T} (m : csx T) : Prop :=
  forall p, p < size_primary m -> sorted Nat.ltb (map fst (line m p)).
Definition strictly_ascending {T} (m : csx T) : Prop :=
  forall p, p < size_primary m -> strictly_sorted Nat.ltb (map fst (line m p)).

(** no position is stored twice *)
Definition distinct {T} (m : csx T) : Prop := NoDup (map fst (entries m)).

(** a permutation of [0..n-1] together with its inverse *)
Definition perm_ok (p : perm) (n : nat) : Prop :=
  length (dst_to_src p) = n /\ length (src_to_dst p) = n /\
  (forall i, i < n -> nth i (dst_to_src p) 0 < n /\ nth i (src_to_dst p) 0 < n /\
     nth (nth i (dst_to_src p) 0) (src_to_dst p) 0 = i /\
     nth (nth i (src_to_dst p) 0) (dst_to_src p) 0 = i).

(** position of a source index in the destination; a missing permutation is the identity *)
Definition moved (p : option perm) (i : nat) : nat :=
  match p with None => i | Some p => nth i (src_to_dst p) 0 end.

Definition in_window {T} (w : window) (e : entry T) : bool :=
  (row_start w <=? e_row e) && (e_row e <? row_end w) && (col_start w <=? e_col e) && (e_col e <? col_end w).

Definition shifted {T} (dr dc : nat) (e : entry T) : entry T := (e_row e - dr, e_col e - dc, e_val e).
