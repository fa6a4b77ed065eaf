(** * Prescribed values in the direct solvers: setDirichlet

    /repo/src/analysis/linearsystem/directsolver.cpp:14-93, called by mklpdsssolver.h:37, suitesparse.h:37 and sequentialsolver.h:95.

    Simplifications: one process, so the halo is empty, begin is 0 and end is the number of rows, nothing is sent and lines 64-92 do nothing; a matrix is
    the list of its rows, a row the list of its columns and values (the arrays rows and cols are not changed and Indexing::CSR only shifts them); the
    numbers are those of any ring; std::binary_search is taken by its contract (the indices are sorted). *)
From Coq Require Import List Bool Arith.
From Verif Require Import Base.
Import ListNotations.
Local Open Scope out_scope.

Section SetDirichlet.
Context {T : Type}.
Variables (zero one : T) (mul sub : T -> T -> T).

Definition row : Type := list (nat * T).

(** lines 48-56: for the entries of a row in column [col], the value times the prescribed value is moved to the right-hand side *)
Fixpoint eliminate (col : nat) (v : T) (r : row) (b : T) : row * T :=
  match r with
  | [] => ([], b)
  | (c, a) :: r =>
    if c =? col then let (r, b) := eliminate col v r (sub b (mul a v)) in ((c, zero) :: r, b)
    else let (r, b) := eliminate col v r b in ((c, a) :: r, b)
  end.

(** lines 42-60: one entry of the row of the prescribed DOF [i]; the state: matrix, right-hand side, the new row i.  Row i is not accessed by the
    elimination, which is for rows c other than i, so it is written at the end. *)
Definition set_entry (indices : list nat) (i : nat) (s : list row * list T * row) (e : nat * T) : outcome (list row * list T * row) :=
  let '(A, b, new) := s in
  let c := fst e in
  if c =? i then Ok (A, b, new ++ [(c, one)])
  else if (c <? length A) && negb (existsb (Nat.eqb c) indices) then
    rc <- rd A c ;; bc <- rd b c ;; v <- rd b i ;;
    let (rc, bc) := eliminate i v rc bc in
    A <- wr A c rc ;; b <- wr b c bc ;;
    Ok (A, b, new ++ [(c, zero)])
  else Ok (A, b, new ++ [(c, zero)]).

(** lines 34-61 *)
Definition set_one (indices : list nat) (s : list row * list T) (d : nat * T) : outcome (list row * list T) :=
  b <- wr (snd s) (fst d) (snd d) ;;
  r <- rd (fst s) (fst d) ;;
  s' <- foldM (set_entry indices (fst d)) r (fst s, b, []) ;;
  let '(A, b, new) := s' in
  A <- wr A (fst d) new ;;
  Ok (A, b).

(** lines 33-62 *)
Definition set_dirichlet (dirichlet : list (nat * T)) (A : list row) (b : list T) : outcome (list row * list T) :=
  foldM (set_one (map fst dirichlet)) dirichlet (A, b).
End SetDirichlet.
