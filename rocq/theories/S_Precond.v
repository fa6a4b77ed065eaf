(** * What the preconditioners of the dual problem compute

    Domains, multipliers, rows of B and vectors as in S_Feti; [k d i j] are the elements of the symmetric matrix K of domain [d]. *)
From Coq Require Import List Arith Bool Sorted Reals.
From Verif Require Import Base M_Csx M_Dnx S_Csx S_Dnx M_Math S_Math S_Dual S_Equality S_Feti.
Import ListNotations.
Local Open Scope R_scope.

(** ** Matrices *)

(** element (i, j) of a stored matrix; positions that are not stored are zeros *)
Definition element0 (A : csx R) (i j : nat) : R := match lookup A i j with Some v => v | None => 0 end.

(** [A] is the upper triangle (with the diagonal) of the symmetric [n] x [n] matrix [a] *)
Record stores (n : nat) (a : nat -> nat -> R) (A : csx R) : Prop := {
  s_valid : valid A; s_order : ord A = OrdR; s_rows : nrows A = n; s_cols : ncols A = n; s_shape : upl A = UploU;
  s_upper : upper A; s_diagonal : has_diagonal A; s_distinct : distinct A;
  s_elements : forall i j, (i <= j)%nat -> (j < n)%nat -> element0 A i j = a i j;
  s_symmetric : forall i j, (i < n)%nat -> (j < n)%nat -> a i j = a j i }.

(** the solver solves the systems with the matrix [a] *)
Definition solves_system (n : nat) (a : nat -> nat -> R) (asolve : csx R -> list R -> list R) : Prop :=
  forall A v, stores n a A -> length v = n ->
    length (asolve A v) = n /\ forall i, (i < n)%nat -> Sum (seq 0 n) (fun j => a i j * nth j (asolve A v) 0) = nth i v 0.

(** ** One domain: [n] degrees of freedom, those with [s] are on the surface *)
Section Domain.
  Variables (n : nat) (s : nat -> bool) (a : nat -> nat -> R).

  Definition surface_list : list nat := filter s (seq 0 n).
  Definition interior_list : list nat := filter (fun i => negb (s i)) (seq 0 n).
  (** the block of the interior *)
  Definition interior_block (p q : nat) : R := a (nth p interior_list 0%nat) (nth q interior_list 0%nat).

  (** a w *)
  Definition times (w : nat -> R) (i : nat) : R := Sum (seq 0 n) (fun j => a i j * w j).
  (** [w] has the values [v] on the surface and no forces act in the interior (the discrete harmonic extension of [v]) *)
  Definition extension (v w : nat -> R) : Prop :=
    forall i, (i < n)%nat -> if s i then w i = v i else times w i = 0.

  (** the Schur complement: column [j] are the forces on the surface that hold its degree of freedom [j] at 1 and the others at 0 *)
  Definition is_schur (S : nat -> nat -> R) : Prop :=
    forall j, (j < length surface_list)%nat ->
      exists w, extension (fun c => if (c =? nth j surface_list 0)%nat then 1 else 0) w /\
        forall i, (i < length surface_list)%nat -> S i j = times w (nth i surface_list 0%nat).
  (** its stored form: the upper triangle row by row *)
  Definition packed_upper (m : nat) (S : nat -> nat -> R) : list R :=
    flat_map (fun i => map (S i) (seq i (m - i))) (seq 0 m).
End Domain.

(** ** All domains *)
Section All.
  Variables (n : nat) (first : nat -> nat) (L : list (list nat)) (len : nat -> nat) (row : nat -> nat -> list (nat * R)) (k : nat -> nat -> nat -> R).

  (** the degrees of freedom with constraints *)
  Definition surface (d j : nat) : bool :=
    existsb (fun m => existsb (fun e => (fst e =? j)%nat) (row m d)) (multiplier_list L).
  (** the lumped preconditioner B K B^T *)
  Definition lumped_of (x : nat -> R) (m : nat) : R := B_of n first len row (fun d => times (len d) (k d) (Bt_of L row x d)) m.
  (** the Dirichlet preconditioner B K w where [w] is the extension of B^T x in every domain *)
  Definition is_dirichlet (x y : nat -> R) : Prop :=
    exists w, (forall d, In d (everything n first) -> extension (len d) (surface d) (k d) (Bt_of L row x d) (w d)) /\
      forall m, (m < length L)%nat -> y m = B_of n first len row (fun d => times (len d) (k d) (w d)) m.
End All.
