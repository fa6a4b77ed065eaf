(** * Matrices of dual vectors: Matrix_Dual::synchronize and the dual operator applied to a matrix

    /repo/src/feti/common/matrix_dual.cpp:11-49 and /repo/src/feti/dualoperator/totalfeti.implicit.cpp:146-185.  As in M_Dual a rank is a program
    that communicates with its neighbours.  The values are the flat array of the matrix, row by row.  The overflow of int in the positions is not
    modelled; the buffers [send] and [recv] are static members, so they are given as they were left by the previous call. *)
From Coq Require Import List Arith Bool.
From Verif Require Import Base M_Nb M_Exchange M_Dual M_TotalFeti.
Import ListNotations.
Local Open Scope out_scope.

Section Matrix.
  Context {T : Type}.
  Variables (zero : T) (add : T -> T -> T).
  Local Notation vec := (list T).

  (** matrix_dual.cpp:14-21: the buffers are resized if there are none or the first one is too small *)
  Definition prepare (M : dual_map) (nrows : nat) (send recv : list vec) : outcome (list vec * list vec) :=
    small <- match send with [] => Ok true | s :: _ => n0 <- rd (nsize M) 0 ;; Ok (length s <? n0 * nrows) end ;;
    if small : bool then
      let sizes := map (fun s => s * nrows) (nsize M) in
      Ok (init_buffer zero sizes send, init_buffer zero sizes recv)
    else Ok (send, recv).
  (** matrix_dual.cpp:22-34: the rows are packed one after another *)
  Definition pack_rows (M : dual_map) (nrows ncols : nat) (vals : vec) (send : list vec) : outcome (list vec) :=
    '(send, _) <- foldM (fun st r => nmap_loop (length (nmap M)) (fun b e => pack_block vals (r * ncols + b) (r * ncols + e)) (nmap M) 0 st) (seq 0 nrows) (send, repeat 0 (length send)) ;;
    Ok send.
  (** matrix_dual.cpp:36-46 *)
  Definition unpack_rows (M : dual_map) (nrows ncols : nat) (recv : list vec) (vals : vec) : outcome vec :=
    '(vals, _) <- foldM (fun st r => nmap_loop (length (nmap M)) (fun b e => unpack_block add recv (r * ncols + b) (r * ncols + e)) (nmap M) 0 st) (seq 0 nrows) (vals, repeat 0 (length recv)) ;;
    Ok vals.
  (** after the exchange, whose result nobody reads *)
  Definition finish_rows (M : dual_map) (nrows ncols : nat) (vals : vec) (send recv : list vec) (res : option (list vec)) : outcome (vec * list vec * list vec) :=
    let recv := match res with Some r => r | None => recv end in
    vals <- unpack_rows M nrows ncols recv vals ;; Ok (vals, send, recv).
  (** matrix_dual.cpp:11-47; the result is the matrix and the buffers *)
  Definition synchronize_matrix (limit : nat) (D : decomposition) (M : dual_map) (nrows ncols : nat) (vals : vec) (send recv : list vec) : nprog vec (vec * list vec * list vec) :=
    match ('(send, recv) <- prepare M nrows send recv ;; packed <- pack_rows M nrows ncols vals send ;; Ok (packed, recv)) with
    | Ok (send, recv) => nfin (finish_rows M nrows ncols vals send recv) (exchange_known limit send recv (neighbors D))
    | _ => NCrash
    end.

  (** totalfeti.implicit.cpp:149-155 and 162-170: the rows of [y] are computed, those with [filter] false are left ([filter]: of each row, [None]
      without a filter) *)
  Definition apply_row (apply : vec -> outcome vec) (filter : option (list bool)) (ncols : nat) (x y : vec) (r : nat) : outcome vec :=
    b <- match filter with Some f => rd f r | None => Ok true end ;;
    if b : bool then
      if (r * ncols + ncols <=? length x) && (r * ncols + ncols <=? length y) then
        row <- apply (slice (r * ncols) (r * ncols + ncols) x) ;; Ok (put (r * ncols) (r * ncols + ncols) y row)
      else UB
    else Ok y.
  Definition apply_rows (apply : vec -> outcome vec) (filter : option (list bool)) (nrows ncols : nat) (x y : vec) : outcome vec :=
    foldM (apply_row apply filter ncols x) (seq 0 nrows) y.
End Matrix.
