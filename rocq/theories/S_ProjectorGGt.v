(** * What the matrix G G^T of the projector should be

    Notation as in S_Projector.  The kernels of all domains are numbered in the order of the domains. *)
From Coq Require Import List Arith Bool Reals.
From Verif Require Import Base M_Indexing S_Dual S_DualGraph S_Equality M_TotalFeti S_Feti M_Projector S_Projector.
Import ListNotations.

(** row [i] of a CSR matrix whose indices start with Indexing::CSR: elements (column, value) *)
Definition csr_line {T} (rows cols : list nat) (vals : list T) (i : nat) : list (nat * T) :=
  slice (nth i rows 0 - Indexing_CSR) (nth (i + 1) rows 0 - Indexing_CSR) (combine cols vals).

(** the upper triangle of the symmetric matrix [A] of size [K], in the CSR format with indices from Indexing::CSR *)
Record upper_csr (K : nat) (A : nat -> nat -> R) (rows cols : list nat) (vals : list R) : Prop := {
  uc_rows : length rows = K + 1 /\ nth 0 rows 0 = Indexing_CSR /\ forall i, i < K -> nth i rows 0 <= nth (i + 1) rows 0;
  uc_nnz : length cols + Indexing_CSR = nth K rows 0 /\ length vals = length cols;
  (** the columns of a row increase, none is in front of the diagonal *)
  uc_cols : forall i a b x y, i < K -> csr_line rows cols vals i = a ++ x :: y :: b -> fst x < fst y;
  uc_range : forall i x, i < K -> In x (csr_line rows cols vals i) -> i + Indexing_CSR <= fst x < K + Indexing_CSR;
  (** what is not stored is zero *)
  uc_vals : forall i j, i <= j < K -> Sum (csr_line rows cols vals i) (fun x => if fst x =? j + Indexing_CSR then snd x else 0%R) = A i j }.

Section GGt.
  Variables (n : nat) (first : nat -> nat) (L : list (list nat)).
  Variables (len : nat -> nat) (row : nat -> nat -> list (nat * R)).
  Variables (ksize : nat -> nat) (Rk : nat -> nat -> nat -> R).

  (** the numbering of the kernels: (domain, kernel) *)
  Definition kernel_list : list (nat * nat) := flat_map (fun d => map (pair d) (seq 0 (ksize d))) (everything n first).
  Definition on_kernels {A} (F : nat -> nat -> nat -> nat -> A) (i j : nat) : A :=
    let p := nth i kernel_list (0, 0) in let q := nth j kernel_list (0, 0) in F (fst p) (snd p) (fst q) (snd q).
  Definition GGt_of : nat -> nat -> R := on_kernels (GGt L len row Rk).
End GGt.

(** the elements of the upper triangle that can be non-zero: pairs of kernels of domains with a common multiplier *)
Section Pattern.
  Variables (n : nat) (first : nat -> nat) (L : list (list nat)) (ksize : nat -> nat).
  Definition upper_pairs : list (nat * nat) :=
    flat_map (fun i => map (pair i) (filter (fun j => (i <=? j) && on_kernels n first ksize (fun d _ d' _ => glued L (all_multipliers L) d d') i j) (seq 0 (length (kernel_list n first ksize)))))
      (seq 0 (length (kernel_list n first ksize))).
End Pattern.
