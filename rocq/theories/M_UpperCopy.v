(** * The upper triangle for the sequential direct solver: copyPattern and copyValues

    /repo/src/analysis/linearsystem/sequentialsolver.h:41-79 for symmetric types of the matrix (for the other types the matrix is copied without changes).

    Simplifications: esint is nat; the arrays of the new matrix are filled by an arbitrary value when they are allocated; the number of nonzeros of the
    new matrix is 0 before copyPattern (its constructor), and resize keeps the number (primitives/matrix_csr.h:98-102). *)
From Coq Require Import List Bool Arith.
From Verif Require Import Base.
Import ListNotations.
Local Open Scope out_scope.

Section UpperCopy.
Context {T : Type}.
Variable base : nat. (* Indexing::CSR *)

(** the range of the loops over c in row i, lines 45, 54 and 72 *)
Definition row_range (rows : list nat) (i : nat) : outcome (list nat) :=
  s <- rd rows i ;; e <- rd rows (S i) ;; Ok (seq (s - base) ((e - base) - (s - base))).

(** lines 46-48 *)
Definition count_entry (cols : list nat) (i nnz c : nat) : outcome nat :=
  col <- rd cols c ;; if i <=? col - base then Ok (S nnz) else Ok nnz.
(** lines 44-50 *)
Definition count_upper (nrows : nat) (rows cols : list nat) : outcome nat :=
  foldM (fun nnz i => range <- row_range rows i ;; foldM (count_entry cols i) range nnz) (seq 0 nrows) 0.

(** lines 55-57 and 73-75: the value of the array [data] at c is appended at the offset *)
Definition copy_entry {D} (cols : list nat) (data : list D) (i : nat) (s : list D * nat) (c : nat) : outcome (list D * nat) :=
  col <- rd cols c ;;
  if i <=? col - base then
    v <- rd data c ;; buf <- wr (fst s) (snd s) v ;; Ok (buf, S (snd s))
  else Ok s.

(** lines 54-59 *)
Definition pattern_row (rows cols : list nat) (s : list nat * (list nat * nat)) (i : nat) : outcome (list nat * (list nat * nat)) :=
  range <- row_range rows i ;;
  s' <- foldM (copy_entry cols cols i) range (snd s) ;;
  newrows <- wr (fst s) (S i) (snd s' + base) ;;
  Ok (newrows, s').

(** lines 43-61; the result: the arrays rows and cols of the new matrix *)
Definition copy_pattern (fill : nat) (nrows : nat) (rows cols : list nat) : outcome (list nat * list nat) :=
  nnz <- count_upper nrows rows cols ;;
  newrows <- wr (repeat fill (S nrows)) 0 base ;;
  s <- foldM (pattern_row rows cols) (seq 0 nrows) (newrows, (repeat fill nnz, 0)) ;;
  Ok (fst s, fst (snd s)).

(** lines 70-78; [newvals] is the array of the new matrix *)
Definition copy_values (nrows : nat) (rows cols : list nat) (vals newvals : list T) : outcome (list T) :=
  s <- foldM (fun s i => range <- row_range rows i ;; foldM (copy_entry cols vals i) range s) (seq 0 nrows) (newvals, 0) ;;
  Ok (fst s).
End UpperCopy.
