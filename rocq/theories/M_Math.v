(** * Model of the matrix helpers of the kernel computation: src/math/math.cpp and
      src/math/wrappers/math.spblas.hpp

    Matrix_CSR is modelled by [csx] with order 'R': Indexing::CSR is 0 in both branches of
    src/math/primitives/matrix_info.cpp:6-11.  Matrix_Shape FULL, LOWER, UPPER are [UploNone],
    [UploL], [UploU]; the symmetry of a Matrix_Type (matrix_info.h:42-62 getSymmetry) is an argument.
    A Matrix_Dense is its sizes and the row-major array [vals] (matrix_dense.h:182-199 realloc); the
    leading dimension of the arrays used here is the number of columns.  The index type I is modelled
    by [nat], subtractions that may become negative by [Z].  T is an arbitrary type; [cplx] says
    whether it is a complex type. *)
From Coq Require Import List Bool Arith ZArith.
From Verif Require Import Base M_Csx M_Dnx.
Import ListNotations.
Local Open Scope out_scope.

(** ** math.cpp:37-65 _permute(Matrix_CSR) *)
Section PermuteCsr.
Context {T : Type}.

(** lines 41-45 [__ijv__] with its [operator<] *)
Local Notation ijv := (nat * nat * T)%type.
Definition ijv_ltb (a b : ijv) : bool :=
  if fst (fst a) =? fst (fst b) then snd (fst a) <? snd (fst b) else fst (fst a) <? fst (fst b).

(** lines 50-52 *)
Definition collect_entry (m : csx T) (perm : list nat) (r : nat) (l : list ijv) (c : nat) : outcome (list ijv) :=
  a <- rd perm r ;;
  j <- rd (idxs m) c ;;
  b <- rd perm j ;;
  v <- rd (vals m) c ;;
  Ok (l ++ [(Nat.min a b, Nat.max a b, v)]).

(** lines 48-54 *)
Definition collect_row (m : csx T) (perm : list nat) (l : list ijv) (r : nat) : outcome (list ijv) :=
  b <- rd (ptrs m) r ;;
  e <- rd (ptrs m) (r + 1) ;;
  foldM (collect_entry m perm r) (seq b (e - b)) l.

(** lines 59-63; the state is (rows, cols, vals) and the previous row [r] *)
Definition store_entry (l : list ijv) (s : list nat * list nat * list T * nat) (i : nat) : outcome (list nat * list nat * list T * nat) :=
  let '(p, ix, vs, r) := s in
  x <- rd l i ;;
  p <- (if r =? fst (fst x) then Ok p else k <- rd p (fst (fst x)) ;; wr p (fst (fst x) + 1) k) ;;
  p <- incr p (fst (fst x) + 1) ;;
  ix <- wr ix i (snd (fst x)) ;;
  vs <- wr vs i (snd x) ;;
  Ok (p, ix, vs, fst (fst x)).

(** lines 37-65; [sort] is std::sort *)
Definition permute_csr (sort : list ijv -> list ijv) (m : csx T) (perm : list nat) : outcome (csx T) :=
  if negb (nrows m =? ncols m) then Fail
  else
    l <- foldM (collect_row m perm) (seq 0 (nrows m)) [] ;;
    p <- wr (ptrs m) 0 0 ;;
    s <- foldM (store_entry (sort l)) (seq 0 (nnz m)) (p, idxs m, vals m, nrows m) ;;
    let '(p, ix, vs, _) := s in
    Ok (with_data m p ix vs).
End PermuteCsr.

(** ** math.cpp:67-77 _permute(Matrix_Dense), full shape; [v0] is the copy _A *)
Section PermuteDense.
Context {T : Type}.
Definition permute_dense_elem (nc : nat) (perm : list nat) (v0 : list T) (r : nat) (v : list T) (c : nat) : outcome (list T) :=
  a <- rd perm r ;;
  b <- rd perm c ;;
  x <- rd v0 (a * nc + b) ;;
  wr v (r * nc + c) x.

Definition permute_dense (nr nc : nat) (v : list T) (perm : list nat) : outcome (list T) :=
  if negb (nr =? nc) then Fail
  else foldM (fun w r => foldM (permute_dense_elem nc perm v r) (seq 0 nc) w) (seq 0 nr) v.
End PermuteDense.

(** ** math.cpp:205-214 and 376-385: the ordering used by _getKernel.  [shuffled] is what std::shuffle
       leaves in permVec, [k] is nonsing_size; lines 209-210 sort the two parts *)
Definition perm_vec (sort : list nat -> list nat) (k : nat) (shuffled : list nat) : list nat :=
  sort (firstn k shuffled) ++ sort (skipn k shuffled).
(** lines 211-212: reversePerm, the indices sorted by permVec; [sortby key] is std::sort of indices *)
Definition reverse_perm (sortby : (nat -> nat) -> list nat -> list nat) (pv : list nat) : list nat :=
  sortby (fun i => nth i pv 0) (seq 0 (length pv)).

(** ** math.spblas.hpp *)
Section Submatrix.
Context {T : Type}.
Variable cplx : bool.
Variable conj : T -> T.
Variable zero : T.

(** a dense matrix as the functions below leave it *)
Record dense := Dense { dn_rows : nat; dn_cols : nat; dn_shape : uplo; dn_sym : symmetry; dn_vals : list T }.

(** lines 12-19 denseMatCalcIndexRowMajor *)
Definition dense_index (shape : uplo) (r c ncols : Z) : Z :=
  match shape with
  | UploL => r * ncols + r * (r - 1) / 2 + c
  | UploNone => r * ncols + c
  | UploU => r * ncols - r * (r - 1) / 2 - r + c
  end%Z.

(** matrix_dense.h:182-199 realloc: number of stored values *)
Definition dense_nnz (shape : uplo) (nr nc : nat) : nat :=
  match shape with
  | UploNone => nr * nc
  | _ => Z.to_nat (Z.quot (Z.of_nat nr * Z.of_nat nc - Z.of_nat nr) 2 + Z.of_nat nr)
  end.

(** array write with a computed, possibly negative index *)
Definition wrz (l : list T) (i : Z) (v : T) : outcome (list T) :=
  if Z.ltb i 0 then UB else wr l (Z.to_nat i) v.

Definition unsymmetric (s : symmetry) : bool := match s with SymGeneral | SymStructural => true | _ => false end.
Definition is_sym (s : symmetry) : bool := match s with SymSymmetric => true | _ => false end.
Definition is_herm (s : symmetry) : bool := match s with SymHermitian => true | _ => false end.
Definition uplo_eqb (a b : uplo) : bool :=
  match a, b with UploNone, UploNone | UploL, UploL | UploU, UploU => true | _, _ => false end.
Definition full_or_same (ishape oshape : uplo) : bool := uplo_eqb oshape UploNone || uplo_eqb ishape oshape.

(** lines 58-61 *)
Definition do_copy (t c : bool) (os : symmetry) (ishape oshape : uplo) : bool :=
  (unsymmetric os && negb t && negb c) || (is_sym os && negb c && full_or_same ishape oshape) ||
  (is_herm os && Bool.eqb t c && full_or_same ishape oshape).
Definition do_transpose_copy (t c : bool) (os : symmetry) (ishape oshape : uplo) : bool :=
  (unsymmetric os && t && negb c) || (is_sym os && negb c && negb (uplo_eqb ishape oshape)) ||
  (is_herm os && negb (Bool.eqb t c) && negb (uplo_eqb ishape oshape)).
Definition do_copy_conjugated (t c : bool) (os : symmetry) (ishape oshape : uplo) : bool :=
  (unsymmetric os && negb t && c) || (is_sym os && c && full_or_same ishape oshape) ||
  (is_herm os && negb (Bool.eqb t c) && full_or_same ishape oshape).
Definition do_transposed_conjugated (t c : bool) (os : symmetry) (ishape oshape : uplo) : bool :=
  (unsymmetric os && t && c) || (is_sym os && c && negb (uplo_eqb ishape oshape)) ||
  (is_herm os && Bool.eqb t c && negb (uplo_eqb ishape oshape)).

(** lines 75-92: one stored entry; [i] is its position, [c] its column *)
Definition sub_write (src : csx T) (t cj : bool) (os : symmetry) (oshape : uplo) (ocols : nat) (w : window) (r : nat)
  (v : list T) (i c : nat) : outcome (list T) :=
  x <- rd (vals src) i ;;
  let out_r := Z.of_nat (r - row_start w) in
  let out_c := Z.of_nat (c - col_start w) in
  let n := Z.of_nat ocols in
  v <- (if do_copy t cj os (upl src) oshape || (do_copy_conjugated t cj os (upl src) oshape && negb cplx)
        then wrz v (dense_index oshape out_r out_c n) x else Ok v) ;;
  v <- (if do_copy_conjugated t cj os (upl src) oshape && cplx
        then wrz v (dense_index oshape out_r out_c n) (conj x) else Ok v) ;;
  v <- (if do_transpose_copy t cj os (upl src) oshape || (do_transposed_conjugated t cj os (upl src) oshape && negb cplx)
        then wrz v (dense_index oshape out_c out_r n) x else Ok v) ;;
  (if do_transposed_conjugated t cj os (upl src) oshape && cplx
   then wrz v (dense_index oshape out_c out_r n) (conj x) else Ok v).

Definition symmetric_block (w : window) : bool := (row_start w =? col_start w) && (row_end w =? col_end w).

(** lines 21-98 *)
Definition sub_dense_ (src : csx T) (sym : symmetry) (t cj : bool) (os : symmetry) (oshape : uplo) (w : window) : outcome dense :=
  if uplo_eqb (upl src) UploNone && negb (uplo_eqb oshape UploNone) then Fail
  else if unsymmetric os && negb (uplo_eqb oshape UploNone) then Fail
  else
    let out_rows := row_end w - row_start w in
    let out_cols := col_end w - col_start w in
    let nr := if t then out_cols else out_rows in
    let nc := if t then out_rows else out_cols in
    v <- foldM (fun v r => window_row src (col_start w) (col_end w) (sub_write src t cj os oshape nc w r) v r)
           (seq (row_start w) out_rows) (repeat zero (dense_nnz oshape nr nc)) ;;
    Ok (Dense nr nc oshape (if symmetric_block w then sym else SymGeneral) v).

(** lines 247-268 submatrix(CSR -> dense); the dispatching functions of lines 100-183 only turn arguments
    into template arguments *)
Definition sub_dense (src : csx T) (sym : symmetry) (w : window) (t cj force_full : bool) : outcome dense :=
  let os := if symmetric_block w then sym else SymGeneral in
  let oshape := if force_full || unsymmetric os then UploNone else upl src in
  sub_dense_ src sym t cj os oshape w.

(** lines 186-245 _submatrix(CSR -> CSR) *)
(** lines 211-220 *)
Definition sub_range (src : csx T) (w : window) (s : list nat * list nat) (out_r : nat) : outcome (list nat * list nat) :=
  b <- rd (ptrs src) (out_r + row_start w) ;;
  e <- rd (ptrs src) (out_r + row_start w + 1) ;;
  i <- skip_below (idxs src) (col_start w) (e - b) b ;;
  st <- wr (fst s) out_r i ;;
  j <- skip_below (idxs src) (col_end w) (e - i) i ;;
  en <- wr (snd s) out_r j ;;
  Ok (st, en).

(** lines 236-241 *)
Definition sub_csr_entry (src : csx T) (cj : bool) (lo : nat) (s : list nat * list T * nat) (i : nat) :=
  c <- rd (idxs src) i ;;
  x <- rd (vals src) i ;;
  emit s (c - lo) (if cplx && cj then conj x else x).

(** lines 231-242 *)
Definition sub_csr_row (src : csx T) (cj : bool) (lo : nat) (starts ends : list nat)
  (s : list nat * (list nat * list T * nat)) (out_r : nat) :=
  let '(pt, st) := s in
  pt <- wr pt out_r (snd st) ;;
  b <- rd starts out_r ;;
  e <- rd ends out_r ;;
  st <- foldM (sub_csr_entry src cj lo) (seq b (e - b)) st ;;
  Ok (pt, st).

(** line 224 *)
Definition sub_count (starts ends : list nat) (n r : nat) : outcome nat :=
  b <- rd starts r ;; e <- rd ends r ;; Ok (n + (e - b)).

(** lines 186-245 and 270-285; [alloc rows cols nnz] are the arrays after output.resize *)
Definition sub_csr (alloc : nat -> nat -> nat -> list nat * list nat * list T) (src : csx T) (sym : symmetry) (w : window) (t cj force_full : bool) : outcome (csx T * symmetry) :=
  if t then Fail else if force_full then Fail else
    let out_rows := row_end w - row_start w in
    let out_cols := col_end w - col_start w in
    se <- foldM (sub_range src w) (seq 0 out_rows) (repeat 0 out_rows, repeat 0 out_rows) ;;
    n <- foldM (sub_count (fst se) (snd se)) (seq 0 out_rows) 0 ;;
    let '(p, ix, vs) := alloc out_rows out_cols n in
    s <- foldM (sub_csr_row src cj (col_start w) (fst se) (snd se)) (seq 0 out_rows) (p, (ix, vs, 0)) ;;
    let '(p, (ix, vs, k)) := s in
    p <- wr p out_rows k ;;
    Ok (Csx out_rows out_cols n OrdR (if symmetric_block w then upl src else UploNone) p ix vs,
        if symmetric_block w then sym else SymGeneral).
End Submatrix.

(** ** math.cpp:79-103 _getNullPivots and 297-337 / 463-490 _getRegMat *)
Section RegMat.
Context {T : Type}.
(** [fabs a <= fabs b], the arithmetic of T, std::max and the comparison of indices in std::sort *)
Variable abs_le : T -> T -> bool.
Variables sub mul div max : T -> T -> T.
Variable sort : list nat -> list nat.

(** std::max_element as a linear scan: position of the element that is kept (the comparison is [<=], so
    of equal maxima the last one) *)
Fixpoint max_element (l : list T) (i best : nat) (b : T) : nat :=
  match l with
  | [] => best
  | x :: l' => if abs_le b x then max_element l' (i + 1) i x else max_element l' (i + 1) best b
  end.

Definition swap {A} (l : list A) (i j : nat) : outcome (list A) :=
  a <- rd l i ;; b <- rd l j ;; l <- wr l i b ;; wr l j a.

(** lines 94-95 *)
Definition eliminate (nr nc p : nat) (pivot : T) (r : nat) (N : list T) (c : nat) : outcome (list T) :=
  x <- rd N (r * nc + c) ;;
  f <- rd N (r * nc + nc - p - 1) ;;
  y <- rd N ((nr - p - 1) * nc + c) ;;
  wr N (r * nc + c) (sub x (div (mul f y) pivot)).

(** lines 84-98; the state is (N, piv) *)
Definition pivot_step (nr nc : nat) (s : list T * list nat) (p : nat) : outcome (list T * list nat) :=
  let '(N, piv) := s in
  match firstn (length N - p * nc) N with
  | [] => UB
  | x :: l =>
    let index := max_element l 1 0 x in
    let col := index mod nc in
    let row := index / nc in
    piv <- swap piv col (nc - p - 1) ;;
    N <- foldM (fun N k => swap N (row * nc + k) ((nr - p - 1) * nc + k)) (seq 0 nc) N ;;
    N <- foldM (fun N k => swap N (k * nc + col) (k * nc + nc - p - 1)) (seq 0 (nr - p)) N ;;
    pivot <- rd N ((nr - p - 1) * nc + nc - p - 1) ;;
    N <- foldM (fun N r => foldM (eliminate nr nc p pivot r) (seq 0 (nc - p)) N) (seq 0 (nr - p - 1)) N ;;
    Ok (N, piv)
  end.

(** lines 79-103; R is an [nr] x [nc] row-major matrix *)
Definition null_pivots (nr nc : nat) (R : list T) : outcome (list nat) :=
  s <- foldM (pivot_step nr nc) (seq 0 nr) (R, seq 0 nc) ;;
  l <- foldM (fun l p => x <- rd (snd s) (length (snd s) - p - 1) ;; Ok (l ++ [x])) (seq 0 nr) [] ;;
  Ok (sort l).

(** lines 309-312: rho, the maximum of the first entries of the rows *)
Definition rho_csr (m : csx T) : outcome T :=
  x <- rd (vals m) 0 ;;
  foldM (fun rho r => k <- rd (ptrs m) r ;; v <- rd (vals m) k ;; Ok (max rho v)) (seq 0 (nrows m)) x.

(** lines 322-325 and 330-333: [while (row < lim) { rows[row + 1] = rows[row]; ++row; }] *)
Definition fill_rows (p : list nat) (row lim : nat) : outcome (list nat) :=
  foldM (fun p r => k <- rd p r ;; wr p (r + 1) k) (seq row (lim - row)) p.

(** lines 321-329; the state is (rows, cols, vals, row) *)
Definition reg_step (rho : T) (s : list nat * list nat * list T * nat) (pv : nat) : outcome (list nat * list nat * list T * nat) :=
  let '(p, ix, vs, row) := s in
  p <- fill_rows p row pv ;;
  let row := Nat.max row pv in
  k <- rd p row ;;
  p <- wr p (row + 1) (k + 1) ;;
  k <- rd p row ;;
  ix <- wr ix k pv ;;
  k <- rd p row ;;
  vs <- wr vs k rho ;;
  Ok (p, ix, vs, row + 1).

(** lines 314-334 after the pivots are known; [dst] are the arrays after regMat.resize *)
Definition reg_matrix (n : nat) (rho : T) (pivots : list nat) (dst : list nat * list nat * list T) : outcome (csx T) :=
  let '(p, ix, vs) := dst in
  p <- wr p 0 0 ;;
  s <- foldM (reg_step rho) pivots (p, ix, vs, 0) ;;
  let '(p, ix, vs, row) := s in
  p <- fill_rows p row n ;;
  Ok (Csx n n (length pivots) OrdR UploU p ix vs).

(** ** math.cpp:12-35 _orthonormalize (the active "MGS" part); blas::dot, add, scale, norm with stride 1 by
    their contract, evaluated from left to right; T is a real type *)
Section Mgs.
Variables zero one : T.
Variables add : T -> T -> T.
Variable opp : T -> T.
Variable sqrt : T -> T.

(** blas::dot(m, A + a, 1, A + b, 1) *)
Definition blas_dot (m : nat) (A : list T) (a b : nat) : outcome T :=
  foldM (fun s k => x <- rd A (a + k) ;; y <- rd A (b + k) ;; Ok (add s (mul x y))) (seq 0 m) zero.
(** blas::add(m, A + a, 1, s, A + b, 1) *)
Definition blas_add (m a : nat) (s : T) (b : nat) (A : list T) : outcome (list T) :=
  foldM (fun A k => x <- rd A (a + k) ;; y <- rd A (b + k) ;; wr A (a + k) (add x (mul s y))) (seq 0 m) A.
(** blas::scale(m, s, A + a, 1) *)
Definition blas_scale (m : nat) (s : T) (a : nat) (A : list T) : outcome (list T) :=
  foldM (fun A k => x <- rd A (a + k) ;; wr A (a + k) (mul s x)) (seq 0 m) A.

(** lines 29-30 *)
Definition mgs_sub (m r : nat) (A : list T) (rr : nat) : outcome (list T) :=
  scale <- blas_dot m A (rr * m) (r * m) ;;
  blas_add m (r * m) (opp scale) (rr * m) A.

(** lines 28-32 *)
Definition mgs_row (m : nat) (A : list T) (r : nat) : outcome (list T) :=
  A <- foldM (mgs_sub m r) (seq 0 r) A ;;
  d <- blas_dot m A (r * m) (r * m) ;;
  blas_scale m (div one (sqrt d)) (r * m) A.

(** lines 27-33 *)
Definition orthonormalize (nr m : nat) (A : list T) : outcome (list T) := foldM (mgs_row m) (seq 0 nr) A.

(** lines 297-337; R is a [kr] x ncols(A) row-major matrix; the result is (R, regMat) *)
Definition get_reg_mat (A : csx T) (kr : nat) (R : list T) (alloc : nat -> nat -> nat -> list nat * list nat * list T) : outcome (list T * csx T) :=
  R <- orthonormalize kr (ncols A) R ;;
  pivots <- null_pivots kr (ncols A) R ;;
  rho <- rho_csr A ;;
  G <- reg_matrix (nrows A) rho pivots (alloc (nrows A) (ncols A) (length pivots)) ;;
  Ok (R, G).
End Mgs.
End RegMat.
