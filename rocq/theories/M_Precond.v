(** * The preconditioners of the dual problem: lumped, Dirichlet and implicit Dirichlet

    /repo/src/feti/preconditioner/{lumped,dirichlet,dirichlet.implicit}.cpp and the functions of /repo/src/math/wrappers/math.spblas.h they use.

    Simplifications: the numbers are an arbitrary type with arbitrary operations; indices are natural numbers; the parallel loops over the
    domains are sequential (they write different domains); [Btx] is a new vector in every call ([applyBt] sets all its elements, C93); B1[d].ncols
    is the number of rows of K[d]; the exchange of the copies ([y.synchronize()]) is C59 and follows [precond_apply] in the theorems.
    External: [sort] is std::sort, [alloc] are the new arrays of a sparse matrix, [asolve A b] is DirectSparseSolver of the matrix A, [kmul d]
    is SpBLAS of K[d], BLAS and SpBLAS routines add from the left; [getSC] of the solver (MKL) is not modelled, its result is an argument. *)
From Coq Require Import List Arith Bool ZArith.
From Verif Require Import Base M_Csx M_Dnx S_Csx M_Math M_Equality M_TotalFeti.
Import ListNotations.
Local Open Scope out_scope.

(** ** Numbers of the degrees of freedom *)

(** dirichlet.cpp:55-58, dirichlet.implicit.cpp:55-58 (the first call): [cols] are the columns of all entries of B1[d] *)
Definition mark (n : nat) (cols : list nat) : outcome (list nat) := foldM (fun p c => wr p c 1) cols (repeat 0 n).

(** dirichlet.cpp:59-64, dirichlet.implicit.cpp:59-64 *)
Definition find_indices (p : list nat) : outcome (list nat) :=
  foldM (fun ix i => x <- rd p i ;; Ok (if x =? 1 then ix ++ [i] else ix)) (seq 0 (length p)) [].

(** dirichlet.cpp:71-73, dirichlet.implicit.cpp:65-67: the state is (permutation, j, k) *)
Definition number_step (st : list nat * nat * nat) (i : nat) : outcome (list nat * nat * nat) :=
  let '(p, j, k) := st in
  x <- rd p i ;;
  if x =? 1 then p <- wr p i k ;; Ok (p, j, k + 1) else p <- wr p i j ;; Ok (p, j + 1, k).
Definition number (n : nat) (ix p : list nat) : outcome (list nat) :=
  '(p, _, _) <- foldM number_step (seq 0 (length p)) (p, 0, n - length ix) ;; Ok p.

(** both: (indices, permutation) of a domain *)
Definition surface_first (n : nat) (cols : list nat) : outcome (list nat * list nat) :=
  p <- mark n cols ;; ix <- find_indices p ;; p <- number n ix p ;; Ok (ix, p).

Section Precond.
  Context {T : Type}.
  Variables (zero one : T) (add mul : T -> T -> T) (opp : T -> T) (cplx : bool) (conj : T -> T).
  Variable sort : list (nat * nat * T) -> list (nat * nat * T).
  Variable alloc : nat -> nat -> nat -> list nat * list nat * list T.
  Variable asolve : csx T -> list T -> list T.
  Local Notation vec := (list T).

  (** the columns of all entries of B1[d] in their order *)
  Definition columns (b : list (nat * list (nat * T))) : list nat := flat_map (fun r => map fst (snd r)) b.

  (** ** What all preconditioners share: applyBt, the domain [f], applyB; lumped.cpp:52-57, dirichlet.cpp:86-97, dirichlet.implicit.cpp:109-140 *)
  Definition precond_domain (f : nat -> vec -> outcome vec) (Btx out : list vec) (d : nat) : outcome (list vec) :=
    v <- rd Btx d ;; w <- f d v ;; Ok (out ++ [w]).
  Definition precond_apply (F : feti T) (f : nat -> vec -> outcome vec) (x : vec) : outcome vec :=
    Btx <- all_Btx zero one add mul F x ;;
    KBtx <- foldM (precond_domain f Btx) (seq 0 (length (Kn F))) [] ;;
    apply_B zero add mul F (seq 0 (length (Kn F))) KBtx.

  (** lumped.cpp:50-57 *)
  Definition lumped_apply (F : feti T) (kmul : nat -> vec -> vec) (x : vec) : outcome vec :=
    precond_apply F (fun d v => Ok (kmul d v)) x.

  (** ** Dirichlet *)

  (** dirichlet.cpp:89-91, dirichlet.implicit.cpp:112-114 *)
  Definition gather (ix : list nat) (v : vec) : outcome vec :=
    foldM (fun v i => j <- rd ix i ;; x <- rd v j ;; wr v i x) (seq 0 (length ix)) v.
  (** dirichlet.cpp:93-95, dirichlet.implicit.cpp:136-138; the index is i - 1 *)
  Definition scatter (ix : list nat) (v : vec) : outcome vec :=
    foldM (fun v i => j <- rd ix i ;; x <- rd v i ;; wr v j x) (rev (seq 0 (length ix))) v.

  (** the element (i, j) that gemv / spmv (the upper triangle of a symmetric matrix, row by row) of BLAS reads *)
  Definition blas_at (shape : uplo) (n : nat) (vals : vec) (i j : nat) : T :=
    match shape with
    | UploNone => nth (i * n + j) vals zero
    | _ => nth (Z.to_nat (dense_index shape (Z.of_nat (Nat.min i j)) (Z.of_nat (Nat.max i j)) (Z.of_nat n))) vals zero
    end.
  (** math::blas::apply(y, 1, A, 0, x), w.mkl.blas.cpp:65-84, w.blas.cpp:67-86: the vectors may be longer than the matrix; the rest of y stays *)
  Definition blas_apply (shape : uplo) (n : nat) (vals x y : vec) : outcome vec :=
    if (n <=? length x) && (n <=? length y) then
      Ok (put 0 n y (map (fun i => fold_left (fun s j => add s (mul (blas_at shape n vals i j) (nth j x zero))) (seq 0 n) zero) (seq 0 n)))
    else UB.

  (** dirichlet.cpp:89-95: [sc]: shape and values; [old]: the content of KBtx[d] *)
  Definition dirichlet_domain (ix : list nat) (sc : uplo * vec) (old v : vec) : outcome vec :=
    v <- gather ix v ;;
    y <- blas_apply (fst sc) (length ix) (snd sc) v old ;;
    scatter ix y.
  (** Dirichlet<T>::apply, dirichlet.cpp:84-97 *)
  Definition dirichlet_apply (F : feti T) (ixs : list (list nat)) (scs : list (uplo * vec)) (olds : list vec) (x : vec) : outcome vec :=
    precond_apply F (fun d v => ix <- rd ixs d ;; sc <- rd scs d ;; old <- rd olds d ;; dirichlet_domain ix sc old v) x.

  (** solver.solve(A12t_dn, A11iA12_dn): one right-hand side in every row *)
  Definition solve_each (A : csx T) (n m : nat) (B : vec) : vec := flat_map (fun r => asolve A (slice (r * m) (r * m + m) B)) (seq 0 n).
  (** A21(A21_sp, true) and A21.apply(Y, -1, 1, X, true), w.mkl.spblas.cpp:72-78 and 198-205: the rows of X and Y are the columns of the
      matrices of Y += -1 * A^T * X; Y has [n] rows of length [n], X has [n] rows of length [m] *)
  Definition sub_transposed (A : csx T) (n m : nat) (Y X : vec) : vec :=
    map (fun ba => fold_left (fun s e => if e_col e =? snd ba then add s (mul (mul (opp one) (e_val e)) (nth (fst ba * m + e_row e) X zero)) else s)
                     (entries A) (nth (fst ba * n + snd ba) Y zero))
      (flat_map (fun b => map (pair b) (seq 0 n)) (seq 0 n)).
  (** dirichlet.cpp:132-136: the state is (vals, i) *)
  Definition pack_row (full : bool) (n : nat) (A : vec) (st : vec * nat) (r : nat) : outcome (vec * nat) :=
    let c0 := if full then 0 else r in
    foldM (fun '(vals, i) c => x <- rd A (r * n + c) ;; vals <- wr vals i x ;; Ok (vals, i + 1)) (seq c0 (n - c0)) st.
  (** Dirichlet<T>::_manual, dirichlet.cpp:102-137; [sym]: the symmetry of the type of K, [nsc]: the size of sc, [sc]: its new array for a
      number of elements *)
  Definition manual (K : csx T) (sym : symmetry) (nsc : nat) (perm : list nat) (sc : nat -> vec) : outcome (uplo * vec) :=
    pK <- permute_csr sort K perm ;;
    let size := nrows K in
    let n11 := size - nsc in
    A11 <- sub_csr cplx conj alloc pK sym (Window 0 n11 0 n11) false false false ;;
    A21 <- sub_csr cplx conj alloc pK sym (Window 0 n11 n11 size) false true false ;;
    A22t <- sub_dense cplx conj zero pK sym (Window n11 size n11 size) true false true ;;
    A12t <- sub_dense cplx conj zero pK sym (Window 0 n11 n11 size) true false true ;;
    let X := solve_each (fst A11) (dn_rows A12t) (dn_cols A12t) (dn_vals A12t) in
    let S := sub_transposed (fst A21) (dn_rows A22t) (dn_cols A12t) (dn_vals A22t) X in
    '(vals, _) <- foldM (pack_row (uplo_eqb (upl K) UploNone) (dn_rows A22t) S) (seq 0 (dn_rows A22t)) (sc (dense_nnz (upl K) (dn_rows A22t) (dn_cols A22t)), 0) ;;
    Ok (upl K, vals).
  (** Dirichlet<T>::update of a domain without getSC, dirichlet.cpp:55-64 and 71-75: (indices, sc) *)
  Definition dirichlet_update (b : list (nat * list (nat * T))) (K : csx T) (sym : symmetry) (sc : nat -> vec) : outcome (list nat * (uplo * vec)) :=
    '(ix, p) <- surface_first (nrows K) (columns b) ;;
    S <- manual K sym (length ix) p sc ;;
    Ok (ix, S).

  (** ** Implicit Dirichlet *)

  (** math.spblas.h:53-62: y += alpha * A * x *)
  Definition csr_apply (y : vec) (alpha : T) (A : csx T) (x : vec) : outcome vec :=
    f <- rd (ptrs A) 0 ;;
    if negb (f =? 0) then Fail else
    foldM (fun y r => b <- rd (ptrs A) r ;; e <- rd (ptrs A) (r + 1) ;;
             foldM (fun y c => o <- rd y r ;; a <- rd (vals A) c ;; j <- rd (idxs A) c ;; xj <- rd x j ;; wr y r (add o (mul (mul alpha a) xj))) (seq b (e - b)) y)
      (seq 0 (nrows A)) y.
  (** math.spblas.h:64-73: y += alpha * A^T * x *)
  Definition csr_applyT (y : vec) (alpha : T) (A : csx T) (x : vec) : outcome vec :=
    f <- rd (ptrs A) 0 ;;
    if negb (f =? 0) then Fail else
    foldM (fun y r => b <- rd (ptrs A) r ;; e <- rd (ptrs A) (r + 1) ;;
             foldM (fun y c => j <- rd (idxs A) c ;; o <- rd y j ;; a <- rd (vals A) c ;; xr <- rd x r ;; wr y j (add o (mul (mul alpha a) xr))) (seq b (e - b)) y)
      (seq 0 (nrows A)) y.
  (** dirichlet.implicit.cpp:127-134 *)
  Definition upper_entry (A : csx T) (x : vec) (r : nat) (y : vec) (c : nat) : outcome vec :=
    o <- rd y r ;; a <- rd (vals A) c ;; j <- rd (idxs A) c ;; xj <- rd x j ;;
    y <- wr y r (add o (mul a xj)) ;;
    if r =? j then Ok y else o <- rd y j ;; xr <- rd x r ;; wr y j (add o (mul a xr)).
  Definition upper_apply (A : csx T) (x y : vec) : outcome vec :=
    foldM (fun y r => b <- rd (ptrs A) r ;; e <- rd (ptrs A) (r + 1) ;; foldM (upper_entry A x r) (seq b (e - b)) y) (seq 0 (nrows A)) y.

  (** what the preconditioner keeps of a domain *)
  Record implicit := Implicit { i_indices : list nat; i_A11 : csx T; i_A12 : csx T; i_A22 : csx T }.
  (** dirichlet.implicit.cpp:51-81 [set] with the columns [b] and 84-101 [update]; A11 of [set] is only for the symbolic factorization *)
  Definition implicit_update (b : list (nat * list (nat * T))) (K : csx T) (sym : symmetry) : outcome implicit :=
    '(ix, p) <- surface_first (nrows K) (columns b) ;;
    pK <- permute_csr sort K p ;;
    let size := nrows K in
    let n11 := size - length ix in
    A11 <- sub_csr cplx conj alloc pK sym (Window 0 n11 0 n11) false false false ;;
    A12 <- sub_csr cplx conj alloc pK sym (Window 0 n11 n11 size) false false false ;;
    A22 <- sub_csr cplx conj alloc pK sym (Window n11 size n11 size) false false false ;;
    Ok (Implicit ix (fst A11) (fst A12) (fst A22)).
  (** dirichlet.implicit.cpp:112-138; [n]: the size of KBtx[d]; math::copy (math.h:43) copies as many elements as vx has *)
  Definition implicit_domain (P : implicit) (n : nat) (v : vec) : outcome vec :=
    v <- gather (i_indices P) v ;;
    if ncols (i_A12 P) <=? length v then
      vy <- csr_apply (repeat zero (nrows (i_A12 P))) one (i_A12 P) (firstn (ncols (i_A12 P)) v) ;;
      let vx := asolve (i_A11 P) vy in
      y <- csr_applyT (repeat zero n) (opp one) (i_A12 P) vx ;;
      y <- upper_apply (i_A22 P) v y ;;
      scatter (i_indices P) y
    else UB.
  (** DirichletImplicit<T>::apply, dirichlet.implicit.cpp:107-140 *)
  Definition implicit_dirichlet_apply (F : feti T) (Ps : list implicit) (x : vec) : outcome vec :=
    precond_apply F (fun d v => P <- rd Ps d ;; n <- rd (Kn F) d ;; implicit_domain P n v) x.
End Precond.
Arguments implicit T : clear implicits.
