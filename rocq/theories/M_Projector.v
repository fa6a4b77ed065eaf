(** * Projectors

    /repo/src/feti/projector/projector.cpp, /repo/src/feti/projector/vector_kernel.cpp and the local parts of
    /repo/src/feti/projector/tfeti.orthogonal.symmetric.cpp.

    Simplifications: numbers and sizes as in M_TotalFeti; the CSR matrix G is a list of rows of (column, value); a dense matrix is its number of
    columns and its values by rows; loops over threads and domains are sequential (they write different elements); [blas::apply] (gemv) adds from
    the left; [GGTtype] is the argument that a function gets: the matrix invGGt or the pair of invL and invU.
    The communication is separate: [_apply_G] ends with [Vector_Kernel::synchronize] (all_gather_inplace of M_Comm), [_apply_Gt] with
    [Vector_Dual::synchronize] (M_Dual). *)
From Coq Require Import List Arith Bool.
From Verif Require Import Base.
Import ListNotations.
Local Open Scope out_scope.

(** Vector_Kernel::set, vector_kernel.cpp:9-26: the bounds of the threads; [chunk] is 64 / sizeof(T); [distribution] starts with 0 *)
Definition thread_step (chunk size tsize : nat) (distribution : list nat) (t : nat) : outcome (list nat) :=
  prev <- rd distribution (t - 1) ;;
  let next := prev + tsize * chunk in
  let next := if size mod chunk <? t - 1 then next + chunk else next in
  wr distribution t (Nat.min next size).
Definition kernel_distribution (chunk threads size : nat) (old : list nat) : outcome (list nat) :=
  let tsize := Nat.max (size / chunk) 1 in
  let distribution := resize (threads + 1) old 0 in
  distribution <- foldM (thread_step chunk size tsize) (seq 1 threads) distribution ;;
  wr distribution (length distribution - 1) size.

Section Projector.
  Context {T : Type}.
  Variables (zero one : T) (add mul : T -> T -> T) (opp : T -> T).
  Local Notation vec := (list T).

  (** the rows of a thread *)
  Definition thread_rows (dist : list nat) (t : nat) : outcome (list nat) :=
    b <- rd dist t ;; e <- rd dist (t + 1) ;; Ok (seq b (e - b)).

  (** projector.cpp:218-221 *)
  Definition G_row (offset : nat) (G : list (list (nat * T))) (x out : vec) (r : nat) : outcome vec :=
    out <- wr out (r + offset) zero ;;
    row <- rd G r ;;
    foldM (fun out e => o <- rd out (r + offset) ;; v <- rd x (fst e) ;; wr out (r + offset) (add o (mul (snd e) v))) row out.
  (** Projector::_apply_G, projector.cpp:212-225, before the synchronization *)
  Definition apply_G (threads : nat) (dist : list nat) (offset : nat) (G : list (list (nat * T))) (x out : vec) : outcome vec :=
    foldM (fun out t => rows <- thread_rows dist t ;; foldM (G_row offset G x) rows out) (seq 0 threads) out.

  (** one element of blas::apply(y, 1, a, 0, in): the row that starts at [base] *)
  Definition row_product (ncols : nat) (a : vec) (base : nat) (x : vec) : outcome T :=
    foldM (fun s j => v <- rd a (base + j) ;; w <- rd x j ;; Ok (add s (mul v w))) (seq 0 ncols) zero.
  (** projector.cpp:232-243, 247-256 and 259-269: rows of a thread; the result of row [r] is [out\[r + offset\]] *)
  Definition inverse_rows (ncols : nat) (dist : list nat) (offset : nat) (a x : vec) (out : vec) (t : nat) : outcome vec :=
    b <- rd dist t ;; e <- rd dist (t + 1) ;;
    foldM (fun out i => v <- row_product ncols a (ncols * b + i * ncols) x ;; wr out (b + offset + i) v) (seq 0 (e - b)) out.
  Definition apply_dense (ncols threads : nat) (dist : list nat) (offset : nat) (a x out : vec) : outcome vec :=
    foldM (inverse_rows ncols dist offset a x) (seq 0 threads) out.
  (** Projector::_apply_invGGt, projector.cpp:227-244: GGT_TYPE::GGT *)
  Definition apply_invGGt (total threads : nat) (dist : list nat) (invGGt x out : vec) : outcome vec := apply_dense total threads dist 0 invGGt x out.
  (** projector.cpp:245-256: GGT_TYPE::LU, the first half, before the synchronization of [mid] *)
  Definition apply_invL (total threads : nat) (dist : list nat) (roffset : nat) (invL x mid : vec) : outcome vec := apply_dense total threads dist roffset invL x mid.
  (** projector.cpp:257-270: the second half *)
  Definition apply_invU (total threads : nat) (dist : list nat) (invU mid out : vec) : outcome vec := apply_dense total threads dist 0 invU mid out.

  (** Projector::_apply_Gt, projector.cpp:326-335, before the synchronization *)
  Definition Gt_row (G : list (list (nat * T))) (x : vec) (alpha : T) (out : vec) (r : nat) : outcome vec :=
    row <- rd G r ;;
    foldM (fun out e => o <- rd out (fst e) ;; v <- rd x r ;; wr out (fst e) (add o (mul (mul alpha (snd e)) v))) row out.
  Definition apply_Gt (G : list (list (nat * T))) (x : vec) (alpha : T) (out : vec) : outcome vec := foldM (Gt_row G x alpha) (seq 0 (length G)) out.

  (** the kernels of a domain: R1\[d\] with its numbers of rows and columns *)
  Record kernel := { nrows : nat; ncols : nat; vals : vec }.
  (** tfeti.orthogonal.symmetric.cpp:46-50: kernel\[d\].offset *)
  Fixpoint kernel_offsets (from : nat) (R1 : list kernel) : list nat :=
    match R1 with [] => [] | R :: R1 => from :: kernel_offsets (from + nrows R) R1 end.
  Definition kernel_size (R1 : list kernel) : nat := fold_left (fun s R => s + nrows R) R1 0.

  (** Projector::_apply_R, projector.cpp:337-348, one domain: blas::applyT(out, 1, R1, 0, in + offset) *)
  Definition R_column (R : kernel) (offset : nat) (x : vec) (j : nat) : outcome T :=
    foldM (fun s k => v <- rd (vals R) (k * ncols R + j) ;; w <- rd x (offset + k) ;; Ok (add s (mul v w))) (seq 0 (nrows R)) zero.
  Definition R_domain (R : kernel) (offset : nat) (x : vec) : outcome vec :=
    foldM (fun out j => v <- R_column R offset x j ;; Ok (out ++ [v])) (seq 0 (ncols R)) [].
  Definition apply_R (R1 : list kernel) (x : vec) : outcome (list vec) :=
    foldM (fun out Ro => v <- R_domain (fst Ro) (snd Ro) x ;; Ok (out ++ [v])) (combine R1 (kernel_offsets 0 R1)) [].

  (** tfeti.orthogonal.symmetric.cpp:69-75, one domain: blas::apply(e + goffset, -1, R1, 0, f) *)
  Definition e_row (R : kernel) (f : vec) (k : nat) : outcome T :=
    s <- row_product (ncols R) (vals R) (k * ncols R) f ;; Ok (mul (opp one) s).
  Definition e_domain (R : kernel) (f : vec) (goffset : nat) (e : vec) : outcome vec :=
    foldM (fun e k => v <- e_row R f k ;; wr e (goffset + k) v) (seq 0 (nrows R)) e.
  (** before the synchronization; [goffset]: the offsets of the own domains in the vector of all kernels *)
  Definition compute_e (R1 : list kernel) (goffset : list nat) (f : list vec) (e : vec) : outcome vec :=
    foldM (fun e x => e_domain (fst (fst x)) (snd x) (snd (fst x)) e) (combine (combine R1 goffset) f) e.

  (** iterativesolver.cpp:52-56: x\[d\] = iKfBtL\[d\] + Ra\[d\] *)
  Definition reconstruct (ikfbtl ra : list vec) : list vec :=
    map (fun p => map (fun q => add (fst q) (mul one (snd q))) (combine (fst p) (snd p))) (combine ikfbtl ra).
End Projector.
Arguments kernel T : clear implicits.
