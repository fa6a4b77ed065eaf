(** * What the matrices G and Gt of a rank should be

    Notation as in S_Projector and S_DualGraph.  Gt has the rows of the own kernels followed by the rows of the kernels of the visible domains
    of higher ranks; G is the part of the own kernels. *)
From Coq Require Import List Arith Bool Reals.
From Verif Require Import Base M_Dual S_Dual M_DualGraph S_DualGraph S_Feti M_Projector S_Projector M_ProjectorG.
Import ListNotations.

(** the first [nrows] rows of a matrix in the CSR format: elements (column, value) *)
Definition csr_rows {T} (nrows : nat) (rows cols : list nat) (vals : list T) : list (list (nat * T)) :=
  map (fun i => slice (nth i rows 0) (nth (i + 1) rows 0) (combine cols vals)) (seq 0 nrows).

Section G.
  Variables (n : nat) (first : nat -> nat) (L : list (list nat)).
  Variables (len : nat -> nat) (row : nat -> nat -> list (nat * R)).
  Variables (ksize : nat -> nat) (Rk : nat -> nat -> nat -> R).

  (** the domains with rows in Gt *)
  Definition in_Gt (r : nat) : list nat := filter (fun d => first r <=? d) (filter (visible first L r) (all_of n first)).
  Definition Gt_stored (r : nat) : list (list (nat * R)) := flat_map (fun d => map (G_line first L len row Rk r d) (seq 0 (ksize d))) (in_Gt r).

  Record G_ok (r : nat) (vs : smap vertex) (M : gmatrix R) : Prop := {
    go_Gt : csr_rows (gt_nrows M) (g_rows M) (g_cols M) (g_vals M) = Gt_stored r;
    go_G : csr_rows (g_nrows M) (g_rows M) (g_cols M) (g_vals M) = G_stored first L len row ksize Rk r;
    go_rows : length (g_rows M) = gt_nrows M + 1 /\ nth 0 (g_rows M) 0 = 0 /\ nth (g_nrows M) (g_rows M) 0 = g_nnz M;
    go_sorted : forall i, i < gt_nrows M -> nth i (g_rows M) 0 <= nth (i + 1) (g_rows M) 0;
    go_nnz : length (g_cols M) = nth (gt_nrows M) (g_rows M) 0 /\ length (g_vals M) = nth (gt_nrows M) (g_rows M) 0;
    (** the vertices know the rows of their kernels *)
    go_loffset : forall d v, In (d, v) vs -> first r <= d -> v_loffset v = length (flat_map (fun d => seq 0 (ksize d)) (filter (fun d' => d' <? d) (in_Gt r))) }.
End G.
