(** * Specification vocabulary for the matrix helpers of the kernel computation *)
From Coq Require Import List Bool Arith Permutation.
From Verif Require Import Base S_Order M_Csx M_Dnx M_Math S_Csx S_Dnx.
Import ListNotations.

(** the numbers 0..n-1 in some order *)
Definition is_perm (p : list nat) (n : nat) : Prop := Permutation p (seq 0 n).

(** values of a symmetric matrix of which only the upper triangle is stored *)
Definition upper_values {T} (m : csx T) (i j : nat) : list T := values_at m (Nat.min i j) (Nat.max i j).

(** only positions of the upper triangle are stored *)
Definition upper {T} (m : csx T) : Prop := forall e, In e (entries m) -> e_row e <= e_col e.

(** every diagonal position is stored *)
Definition has_diagonal {T} (m : csx T) : Prop := forall i, i < nrows m -> exists e, In e (entries m) /\ e_row e = i /\ e_col e = i.

(** element (i, j) of a full row-major matrix *)
Definition full_at {T} (n : nat) (v : list T) (i j : nat) : option T := nth_error v (i * n + j).

(** ** windows of sparse matrices *)
Section Window.
Context {T : Type}.
Variable cplx : bool.
Variable conj : T -> T.

(** what the other triangle of a symmetric or Hermitian matrix holds *)
Definition mirror (sym : symmetry) (v : T) : T := if is_herm sym then cnj cplx conj true v else v.

(** element (i, j) of the represented matrix; [None] is a structural zero.  A triangle of a symmetric or
    Hermitian matrix also stands for its mirror image *)
Definition element (sym : symmetry) (m : csx T) (i j : nat) : option T :=
  match lookup m i j with
  | Some v => Some v
  | None => if uplo_eqb (upl m) UploNone || unsymmetric sym then None else option_map (mirror sym) (lookup m j i)
  end.

(** the stored data is what the declared shape and symmetry promise: only the declared triangle is stored,
    a fully stored symmetric or Hermitian matrix has mirrored values, and so has every diagonal *)
Definition consistent (sym : symmetry) (m : csx T) : Prop :=
  (forall e, In e (entries m) -> in_part (upl m) (e_row e) (e_col e) = true) /\
  (unsymmetric sym = false -> forall i j, upl m = UploNone \/ i = j -> lookup m j i = option_map (mirror sym) (lookup m i j)).

(** the window is kept entirely: the matrix has no missing part, or the window is a diagonal block (whose
    missing part is known from symmetry), or it lies in the stored triangle *)
Definition present (sym : symmetry) (m : csx T) (w : window) : Prop :=
  upl m = UploNone \/ unsymmetric sym = true \/ symmetric_block w = true \/
  (forall i j, row_start w <= i < row_end w -> col_start w <= j < col_end w -> in_part (upl m) i j = true).

(** element (i, j) of the transposed and conjugated window *)
Definition window_at (zero : T) (sym : symmetry) (m : csx T) (w : window) (t cj : bool) (i j : nat) : T :=
  let a := row_start w + (if t then j else i) in
  let b := col_start w + (if t then i else j) in
  match element sym m a b with Some v => cnj cplx conj cj v | None => zero end.
End Window.

(** the stored positions of a dense matrix, row by row *)
Definition row_major (shape : uplo) (nr nc : nat) : list (nat * nat) :=
  flat_map (fun i => map (pair i) (filter (in_part shape i) (seq 0 nc))) (seq 0 nr).
