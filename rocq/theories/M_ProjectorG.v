(** * The matrices G and Gt of the projector

    /repo/src/feti/projector/tfeti.orthogonal.symmetric.cpp:95-179: TFETIOrthogonalSymmetric::_setG and _updateG.

    Simplifications: numbers, B1 and R1 as in M_TotalFeti and M_Projector (B1: lists of rows), the vertices as in M_DualGraph; G has the arrays of
    Gt (shallowCopy), only its numbers of rows and of non-zeros differ.  [alloc]: the content of new arrays (resize does not initialise them). *)
From Coq Require Import List Arith Bool.
From Verif Require Import Base M_Nb M_Exchange M_Dual M_DualGraph M_Projector.
Import ListNotations.
Local Open Scope out_scope.

(** map::find(k) and map::lower_bound(k), as the rest of the map *)
Fixpoint from_key {V} (k : nat) (m : smap V) : smap V :=
  match m with [] => [] | (j, v) :: m' => if j =? k then m else from_key k m' end.
(** the elements in front of lower_bound(k) *)
Fixpoint below {V} (k : nat) (m : smap V) : smap V :=
  match m with [] => [] | (j, v) :: m' => if j <? k then (j, v) :: below k m' else [] end.

(** Gt.rows, cols, vals; Gt.nrows; G.nrows, G.nnz *)
Record gmatrix (T : Type) := { g_rows : list nat; g_cols : list nat; g_vals : list T; gt_nrows : nat; g_nrows : nat; g_nnz : nat }.
Arguments g_rows {T}. Arguments g_cols {T}. Arguments g_vals {T}. Arguments gt_nrows {T}. Arguments g_nrows {T}. Arguments g_nnz {T}.

Definition with_loffset (o : nat) (v : vertex) : vertex :=
  {| v_offset := v_offset v; v_rank := v_rank v; v_goffset := v_goffset v; v_loffset := o; v_ksize := v_ksize v; v_indices := v_indices v; v_total := v_total v |}.
Record counts := { Gtrows : nat; Gtnnz : nat; Grows : nat; Gnnz : nat }.
(** tfeti.orthogonal.symmetric.cpp:101-111, from [vbegin] to the end *)
Fixpoint count_rows (dend : nat) (vs : smap vertex) (c : counts) : smap vertex * counts :=
  match vs with
  | [] => ([], c)
  | (d, v) :: vs =>
    let '(vs, c') := count_rows dend vs
      {| Gtrows := Gtrows c + v_ksize v; Gtnnz := Gtnnz c + v_ksize v * v_total v;
         Grows := if d <? dend then Grows c + v_ksize v else Grows c; Gnnz := if d <? dend then Gnnz c + v_ksize v * v_total v else Gnnz c |} in
    ((d, with_loffset (Gtrows c) v) :: vs, c')
  end.
(** all vertices: those in front of [vbegin] are kept *)
Fixpoint set_loffsets (dbegin dend : nat) (vs : smap vertex) : smap vertex * counts :=
  let none := {| Gtrows := 0; Gtnnz := 0; Grows := 0; Gnnz := 0 |} in
  match vs with
  | [] => ([], none)
  | (d, v) :: vs' =>
    if d =? dbegin then count_rows dend vs none
    else let '(vs', c) := set_loffsets dbegin dend vs' in ((d, v) :: vs', c)
  end.

(** tfeti.orthogonal.symmetric.cpp:119-123 *)
Definition fill_cols (st : list nat * nat) (i : nat * nat * list nat) : outcome (list nat * nat) :=
  foldM (fun st cc => let '(cols, c) := st in cols <- wr cols c (fst (fst i) + cc) ;; Ok (cols, c + 1)) (seq 0 (snd (fst i))) st.
(** tfeti.orthogonal.symmetric.cpp:117-124; the state is (rows, cols, ri) *)
Definition set_row (v : vertex) (st : list nat * list nat * nat) (kr : nat) : outcome (list nat * list nat * nat) :=
  let '(rows, cols, ri) := st in
  b <- rd rows ri ;;
  rows <- wr rows (ri + 1) (b + v_total v) ;;
  c <- rd rows ri ;;
  '(cols, _) <- foldM fill_cols (v_indices v) (cols, c) ;;
  Ok (rows, cols, ri + 1).

Section G.
  Context {T : Type}.
  Variables (zero : T) (sub mul : T -> T -> T).

  (** TFETIOrthogonalSymmetric::_setG, tfeti.orthogonal.symmetric.cpp:95-131 *)
  Definition set_G (alloc : nat -> nat -> list nat * list nat * list T) (D : decomposition) (vs : smap vertex) : outcome (smap vertex * gmatrix T) :=
    let '(vs, c) := set_loffsets (dbegin D) (dend D) vs in
    let '(rows, cols, vals) := alloc (Gtrows c) (Gtnnz c) in
    rows <- wr rows 0 0 ;;
    '(rows, cols, _) <- foldM (fun st dv => foldM (set_row (snd dv)) (seq 0 (v_ksize (snd dv))) st) (from_key (dbegin D) vs) (rows, cols, 0) ;;
    Ok (vs, {| g_rows := rows; g_cols := cols; g_vals := vals; gt_nrows := Gtrows c; g_nrows := Grows c; g_nnz := Gnnz c |}).

  Definition with_vals (M : gmatrix T) (vals : list T) : gmatrix T :=
    {| g_rows := g_rows M; g_cols := g_cols M; g_vals := vals; gt_nrows := gt_nrows M; g_nrows := g_nrows M; g_nnz := g_nnz M |}.
  (** math::set(G, 0), tfeti.orthogonal.symmetric.cpp:140 *)
  Definition clear_G (M : gmatrix T) : outcome (list T) := foldM (fun vals i => wr vals i zero) (seq 0 (g_nnz M)) (g_vals M).
  (** tfeti.orthogonal.symmetric.cpp:145-147: row [c] of B1 *)
  Definition update_entry (rows : list nat) (R : kernel T) (ri kr : nat) (vals : list T) (crow : nat * (nat * list (nat * T))) : outcome (list T) :=
    foldM (fun vals e =>
             b <- rd rows ri ;; o <- rd vals (b + fst crow) ;;
             x <- rd (M_Projector.vals R) (M_Projector.ncols R * kr + fst e) ;;
             wr vals (b + fst crow) (sub o (mul x (snd e)))) (snd (snd crow)) vals.
  (** tfeti.orthogonal.symmetric.cpp:142-149; the state is (vals, ri) *)
  Definition update_row (rows : list nat) (B1 : list (list (nat * list (nat * T)))) (R1 : list (kernel T)) (v : vertex) (st : list T * nat) (kr : nat) : outcome (list T * nat) :=
    let '(vals, ri) := st in
    B <- rd B1 (v_offset v) ;; R <- rd R1 (v_offset v) ;;
    vals <- foldM (update_entry rows R ri kr) (combine (seq 0 (length B)) B) vals ;;
    Ok (vals, ri + 1).
  (** tfeti.orthogonal.symmetric.cpp:136-150 *)
  Definition update_own (D : decomposition) (vs : smap vertex) (M : gmatrix T) (B1 : list (list (nat * list (nat * T)))) (R1 : list (kernel T)) : outcome (list T) :=
    vals <- clear_G M ;;
    '(vals, _) <- foldM (fun st dv => foldM (update_row (g_rows M) B1 R1 (snd dv)) (seq 0 (v_ksize (snd dv))) st) (below (dend D) (from_key (dbegin D) vs)) (vals, 0) ;;
    Ok vals.

  (** tfeti.orthogonal.symmetric.cpp:160-162: one neighbour of a block *)
  Definition send_block (vals : list T) (ci size : nat) (sb : list (list T)) (k : nat) : outcome (list (list T)) :=
    foldM (fun sb c => x <- rd vals (ci + c) ;; b <- rd sb k ;; wr sb k (b ++ [x])) (seq 0 size) sb.
  (** tfeti.orthogonal.symmetric.cpp:158-165; the state is (sBuffer, ci) *)
  Definition send_index (vals : list T) (st : list (list T) * nat) (i : nat * nat * list nat) : outcome (list (list T) * nat) :=
    let '(sb, ci) := st in
    sb <- foldM (send_block vals ci (snd (fst i))) (snd i) sb ;; Ok (sb, ci + snd (fst i)).
  (** tfeti.orthogonal.symmetric.cpp:157-165; a negative index of [rows] is undefined *)
  Definition send_row (roffset : nat) (rows : list nat) (vals : list T) (v : vertex) (sb : list (list T)) (kr : nat) : outcome (list (list T)) :=
    if v_goffset v + kr <? roffset then UB
    else
      ci <- rd rows (v_goffset v + kr - roffset) ;;
      '(sb, _) <- foldM (send_index vals) (v_indices v) (sb, ci) ;; Ok sb.
  (** tfeti.orthogonal.symmetric.cpp:152-167 *)
  Definition send_G (D : decomposition) (roffset : nat) (vs : smap vertex) (rows : list nat) (vals : list T) : outcome (list (list T)) :=
    foldM (fun sb dv => foldM (send_row roffset rows vals (snd dv)) (seq 0 (v_ksize (snd dv))) sb) (below (dend D) (from_key (dbegin D) vs)) (repeat [] (length (neighbors D))).

  (** std::copy to an array: beyond its end it is undefined *)
  Definition copy_to (vals : list T) (offset : nat) (b : list T) : outcome (list T) :=
    foldM (fun vals ix => wr vals (offset + fst ix) (snd ix)) (combine (seq 0 (length b)) b) vals.
  (** tfeti.orthogonal.symmetric.cpp:173-176; the state is (vals, offset) *)
  Definition receive_G (M : gmatrix T) (vals : list T) (rb : list (list T)) : outcome (list T) :=
    offset <- rd (g_rows M) (g_nrows M) ;;
    '(vals, _) <- foldM (fun st b => let '(vals, offset) := st in vals <- copy_to vals offset b ;; Ok (vals, offset + length b)) rb (vals, offset) ;;
    Ok vals.

  (** behind the exchange; without its success the program ends (169-171) *)
  Definition update_finish (M : gmatrix T) (vals : list T) (res : option (list (list T))) : outcome (gmatrix T) :=
    match res with
    | None => Fail
    | Some rb => vals <- receive_G M vals rb ;; Ok (with_vals M vals)
    end.
  (** TFETIOrthogonalSymmetric::_updateG, tfeti.orthogonal.symmetric.cpp:133-179 *)
  Definition update_G (limit : nat) (D : decomposition) (roffset : nat) (vs : smap vertex) (M : gmatrix T) (B1 : list (list (nat * list (nat * T)))) (R1 : list (kernel T))
    : nprog (list T) (gmatrix T) :=
    match update_own D vs M B1 R1 with
    | Ok vals =>
      match send_G D roffset vs (g_rows M) vals with
      | Ok sb => nfin (update_finish M vals) (exchange_unknown limit sb (repeat [] (length (neighbors D))) (neighbors D))
      | _ => NCrash
      end
    | _ => NCrash
    end.
End G.
