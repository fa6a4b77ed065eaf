(** * The matrix G G^T of the projector and its inverse

    /repo/src/feti/projector/tfeti.orthogonal.symmetric.cpp:181-307: TFETIOrthogonalSymmetric::_setGGt and _updateGGt.

    Simplifications: numbers, G, Gt, vertices and edges as in M_ProjectorG and M_DualGraph; an index [rows\[i\] - IDX] with
    [rows\[i\] < IDX] is undefined.  A function that all ranks call is a relation between the arguments and the results of the ranks, as in
    M_ProjectorRanks.  [alloc]: the content of new arrays.  The solver (DirectSparseSolver) is given by functions of the matrix and of a right side. *)
From Coq Require Import List Arith Bool ZArith.
From Verif Require Import Base M_Indexing S_Mpi M_Mpi M_Comm M_Distribute M_Scan M_Nb M_Exchange M_Dual M_DualGraph M_Projector M_ProjectorG M_ProjectorRanks.
Import ListNotations.
Local Open Scope out_scope.

(** GGt.rows, cols, vals; GGtDataOffset, GGtDataSize *)
Record ggt (T : Type) := { gg_rows : list nat; gg_cols : list nat; gg_vals : list T; gg_offset : nat; gg_size : nat }.
Arguments gg_rows {T}. Arguments gg_cols {T}. Arguments gg_vals {T}. Arguments gg_offset {T}. Arguments gg_size {T}.

(** the loops over the own kernels: tfeti.orthogonal.symmetric.cpp:189-190, 208-209 and 250-251 *)
Definition over_rows {S} (D : decomposition) (vs : smap vertex) (body : nat -> vertex -> nat -> S -> outcome S) (st : S) : outcome S :=
  foldM (fun st dv => foldM (fun st kr => body (fst dv) (snd dv) kr st) (seq 0 (v_ksize (snd dv))) st) (below (dend D) (from_key (dbegin D) vs)) st.
(** the loops over the kernels of the upper triangle: tfeti.orthogonal.symmetric.cpp:191-193, 212-214 and 253-255; the vertex \[*e\] exists *)
Definition over_upper {S} (vs : smap vertex) (edges : smap (list nat)) (d : nat) (v : vertex) (kr : nat) (body : vertex -> nat -> S -> outcome S) (st : S) : outcome S :=
  foldM (fun st e =>
           w <- mat vs e ;;
           foldM (fun st kc => if v_goffset v + kr <=? v_goffset w + kc then body w kc st else Ok st) (seq 0 (v_ksize w)) st) (edges_of edges d) st.

(** tfeti.orthogonal.symmetric.cpp:188-199 *)
Definition count_upper (D : decomposition) (vs : smap vertex) (edges : smap (list nat)) : outcome nat :=
  over_rows D vs (fun d v kr => over_upper vs edges d v kr (fun _ _ n => Ok (n + 1))) 0.

(** rows\[i\] - IDX *)
Definition row_begin (rows : list nat) (i : nat) : outcome nat := b <- rd rows i ;; if b <? Indexing_CSR then UB else Ok (b - Indexing_CSR).

(** tfeti.orthogonal.symmetric.cpp:215-216; the state is (rows, cols, c) *)
Definition fill_upper (row : nat) (w : vertex) (kc : nat) (st : list nat * list nat * nat) : outcome (list nat * list nat * nat) :=
  let '(rows, cols, c) := st in
  cols <- wr cols c (v_goffset w + kc + Indexing_CSR) ;;
  x <- rd rows (row + 1) ;; rows <- wr rows (row + 1) (x + 1) ;;
  Ok (rows, cols, c + 1).
(** tfeti.orthogonal.symmetric.cpp:210-220 *)
Definition fill_row (vs : smap vertex) (edges : smap (list nat)) (d : nat) (v : vertex) (kr : nat) (st : list nat * list nat) : outcome (list nat * list nat) :=
  let '(rows, cols) := st in
  b <- rd rows (v_goffset v + kr) ;;
  rows <- wr rows (v_goffset v + kr + 1) b ;;
  c <- row_begin rows (v_goffset v + kr) ;;
  '(rows, cols, _) <- over_upper vs edges d v kr (fill_upper (v_goffset v + kr)) (rows, cols, c) ;;
  Ok (rows, cols).
(** tfeti.orthogonal.symmetric.cpp:206-222 *)
Definition fill_GGt (D : decomposition) (vs : smap vertex) (edges : smap (list nat)) (roffset offset : nat) (rows cols : list nat) : outcome (list nat * list nat) :=
  rows <- wr rows 0 Indexing_CSR ;;
  rows <- wr rows roffset (offset + Indexing_CSR) ;;
  over_rows D vs (fill_row vs edges) (rows, cols).

(** tfeti.orthogonal.symmetric.cpp:262-263: while (k < ke && cols\[k\] < cols\[o\]) ++k; [fuel]: ke - k *)
Fixpoint skip_lower (fuel : nat) (cols : list nat) (k ke o : nat) : outcome nat :=
  if k <? ke then
    x <- rd cols k ;; y <- rd cols o ;;
    if x <? y then match fuel with 0 => Fail | S fuel => skip_lower fuel cols (k + 1) ke o end else Ok k
  else Ok k.

Section GGt.
  Context {T : Type}.
  Variables (zero one : T) (add mul : T -> T -> T).

  (** tfeti.orthogonal.symmetric.cpp:261-267: the loop over two rows of Gt that sums to vals\[c\]; [fuel]: the number of elements of both, when
      it is exhausted the loop would not end *)
  Fixpoint merge_rows (fuel : nat) (cols : list nat) (gv : list T) (c k1 ke1 k2 ke2 : nat) (vals : list T) : outcome (list T) :=
    if (k1 <? ke1) && (k2 <? ke2) then
      k1 <- skip_lower (ke1 - k1) cols k1 ke1 k2 ;;
      k2 <- skip_lower (ke2 - k2) cols k2 ke2 k1 ;;
      '(k1, k2, vals) <- (if (k1 <? ke1) && (k2 <? ke2) then
                            x <- rd cols k1 ;; y <- rd cols k2 ;;
                            if x =? y then s <- rd vals c ;; a <- rd gv k1 ;; b <- rd gv k2 ;; vals <- wr vals c (add s (mul a b)) ;; Ok (k1 + 1, k2 + 1, vals)
                            else Ok (k1, k2, vals)
                          else Ok (k1, k2, vals)) ;;
      match fuel with 0 => Fail | S fuel => merge_rows fuel cols gv c k1 ke1 k2 ke2 vals end
    else Ok vals.
  (** tfeti.orthogonal.symmetric.cpp:256-268; the state is (vals, c) *)
  Definition value_upper (G : gmatrix T) (v : vertex) (kr : nat) (w : vertex) (kc : nat) (st : list T * nat) : outcome (list T * nat) :=
    let '(vals, c) := st in
    vals <- wr vals c zero ;;
    k1 <- rd (g_rows G) (v_loffset v + kr) ;; ke1 <- rd (g_rows G) (v_loffset v + kr + 1) ;;
    k2 <- rd (g_rows G) (v_loffset w + kc) ;; ke2 <- rd (g_rows G) (v_loffset w + kc + 1) ;;
    vals <- merge_rows ((ke1 - k1) + (ke2 - k2)) (g_cols G) (g_vals G) c k1 ke1 k2 ke2 vals ;;
    Ok (vals, c + 1).
  (** tfeti.orthogonal.symmetric.cpp:252-272 *)
  Definition value_row (G : gmatrix T) (M : ggt T) (vs : smap vertex) (edges : smap (list nat)) (d : nat) (v : vertex) (kr : nat) (vals : list T) : outcome (list T) :=
    c <- row_begin (gg_rows M) (v_goffset v + kr) ;;
    '(vals, _) <- over_upper vs edges d v kr (value_upper G v kr) (vals, c) ;;
    Ok vals.
  (** tfeti.orthogonal.symmetric.cpp:246-274 *)
  Definition value_GGt (D : decomposition) (vs : smap vertex) (edges : smap (list nat)) (G : gmatrix T) (M : ggt T) : outcome (list T) :=
    over_rows D vs (value_row G M vs edges) (gg_vals M).

  (** tfeti.orthogonal.symmetric.cpp:287-292: [nrows] rows of the identity of size [total], from the row [roffset] *)
  Definition eye (nrows roffset total : nat) : outcome (list T) :=
    foldM (fun e r => wr e (r * total + roffset + r) one) (seq 0 nrows) (repeat zero (nrows * total)).
  (** DirectSparseSolver::solve, solveForward, solveBackward of Matrix_Dense: each row of the matrix is a right side *)
  Definition solve_rows (solve : list T -> list T) (nrows total : nat) (rhs : list T) : list T :=
    flat_map (fun r => solve (slice (r * total) (r * total + total) rhs)) (seq 0 nrows).

  Section Ranks.
    Variables (n : nat) (D : nat -> decomposition) (vs : nat -> smap vertex) (es : nat -> smap (list nat)).
    (** Kernel::roffset, Kernel::total and G.nrows *)
    Variables (roffset : nat -> nat) (total : nat) (nrows : nat -> nat).
    Local Notation ranks f := (forall r, r < n -> f r).
    (** Communication::allGatherInplace *)
    Definition gather_all {A} (arr : nat -> list A) (offset size : nat -> nat) (res : nat -> list A) : Prop :=
      completes n (map (fun r => all_gather_inplace n r (arr r) (offset r) (size r) (fun x => Ret x)) (seq 0 n)) (map res (seq 0 n)).

    (** TFETIOrthogonalSymmetric::_setGGt, tfeti.orthogonal.symmetric.cpp:181-241, without the size of the inverse; [u]: see M_Scan; [alloc r nnz]: the arrays
        of a matrix with [total] rows *)
    Definition run_set_GGt (u : Z) (alloc : nat -> nat -> list nat * list nat * list T) (M : nat -> ggt T) : Prop :=
      exists (cnt : nat -> nat) offs (rows cols : nat -> list nat),
        (ranks (fun r => count_upper (D r) (vs r) (es r) = Ok (cnt r))) /\
        exscan (Unsigned 64) u (map (fun r => Z.of_nat (cnt r)) (seq 0 n)) = Ok offs /\
        let off r := Z.to_nat (fst (nth r offs (0, 0)%Z)) in
        let arrays r := alloc r (Z.to_nat (snd (nth r offs (0, 0)%Z))) in
        (ranks (fun r => fill_GGt (D r) (vs r) (es r) (roffset r) (off r) (fst (fst (arrays r))) (snd (fst (arrays r))) = Ok (rows r, cols r))) /\
        (exists rows' cols' : nat -> list nat, gather_all rows (fun r => roffset r + 1) nrows rows' /\ gather_all cols off cnt cols' /\
           ranks (fun r => M r = {| gg_rows := rows' r; gg_cols := cols' r; gg_vals := snd (arrays r); gg_offset := off r; gg_size := cnt r |})).

    Definition with_values (M : ggt T) (vals : list T) : ggt T :=
      {| gg_rows := gg_rows M; gg_cols := gg_cols M; gg_vals := vals; gg_offset := gg_offset M; gg_size := gg_size M |}.
    (** TFETIOrthogonalSymmetric::_updateGGt, tfeti.orthogonal.symmetric.cpp:243-278: the values *)
    Definition run_values (G : nat -> gmatrix T) (M M' : nat -> ggt T) : Prop :=
      exists vals vals' : nat -> list T,
        (ranks (fun r => value_GGt (D r) (vs r) (es r) (G r) (M r) = Ok (vals r))) /\
        gather_all vals (fun r => gg_offset (M r)) (fun r => gg_size (M r)) vals' /\
        ranks (fun r => M' r = with_values (M r) (vals' r)).

    (** tfeti.orthogonal.symmetric.cpp:281-307: the own rows of the inverse (invGGt, or invL and invU) and the type; [solve], [forward], [backward] of
        GGt.rows, cols, vals and a right side *)
    Variables (solve forward backward : list nat -> list nat -> list T -> list T -> list T).
    Inductive inverse_rows := IWhole (inv : list T) | IFactors (invL invU : list T) | INothing.
    Definition invert (type : ggt_type) (r : nat) (M : ggt T) : outcome (inverse_rows * ggt_type) :=
      let of f := f (gg_rows M) (gg_cols M) (gg_vals M) in
      if total =? 0 then Ok (INothing, NONE)
      else
        e <- eye (nrows r) (roffset r) total ;;
        Ok (match type with
            | GGT => IWhole (solve_rows (of solve) (nrows r) total e)
            | LU => IFactors (solve_rows (of backward) (nrows r) total e) (solve_rows (of forward) (nrows r) total e)
            | NONE => INothing
            end, type).
    (** TFETIOrthogonalSymmetric::_updateGGt *)
    Definition run_update_GGt (type : ggt_type) (G : nat -> gmatrix T) (M M' : nat -> ggt T) (inv : nat -> inverse_rows * ggt_type) : Prop :=
      run_values G M M' /\ ranks (fun r => invert type r (M' r) = Ok (inv r)).
  End Ranks.
End GGt.
