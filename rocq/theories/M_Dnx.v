(** * Model of the dense matrix operations: src/math/operations

    A dense matrix is an array with a leading dimension; element (primary i, secondary j) is at
    [i * ld + j].  A view into a larger matrix is the rest of the array from the pointer on, so
    every access is checked against the end of the allocation, and theorems also say which cells
    keep their contents.

    Simplifications.  Only the orders 'R' and 'C' exist; the triangle flags '_' and 'F' are one
    value (also in lincomb_dnx_csy, which compares the characters); the symmetries 'unset' and
    'general' are one value.  Sizes and positions are natural numbers.  std::copy_n and std::fill_n
    are loops over the elements.  Source and destination do not overlap unless the code treats the
    case by comparing pointers.  All allocators are CPU allocators, timers are left out. *)
From Coq Require Import List Bool Arith.
From Verif Require Import Base M_Csx M_CsxMap M_Prune.
Import ListNotations.
Local Open Scope out_scope.

(** src/math/primitives_new/matrix_base_new.h:31-38 *)
Inductive symmetry := SymGeneral | SymStructural | SymSymmetric | SymHermitian.

Definition symmetry_eqb (a b : symmetry) : bool :=
  match a, b with
  | SymGeneral, SymGeneral | SymStructural, SymStructural | SymSymmetric, SymSymmetric | SymHermitian, SymHermitian => true
  | _, _ => false
  end.

(** matrix_base_new.h:97-107 *)
Definition is_structurally_symmetric (s : symmetry) : bool := match s with SymGeneral => false | _ => true end.

(** src/math/primitives_new/matrix_dense_view_new.h:19-30 *)
Record dnx (T : Type) := Dnx {
  d_rows : nat; d_cols : nat; d_ld : nat; d_ord : order; d_upl : uplo; d_sym : symmetry; d_vals : list T }.
Arguments Dnx {T}. Arguments d_rows {T}. Arguments d_cols {T}. Arguments d_ld {T}. Arguments d_ord {T}.
Arguments d_upl {T}. Arguments d_sym {T}. Arguments d_vals {T}.

Definition with_vals {T} (m : dnx T) (v : list T) : dnx T :=
  Dnx (d_rows m) (d_cols m) (d_ld m) (d_ord m) (d_upl m) (d_sym m) v.
Definition with_upl {T} (m : dnx T) (u : uplo) : dnx T :=
  Dnx (d_rows m) (d_cols m) (d_ld m) (d_ord m) u (d_sym m) (d_vals m).

(** matrix_dense_view_new.h:51-62 *)
Definition d_prim {T} (m : dnx T) : nat := match d_ord m with OrdR => d_rows m | OrdC => d_cols m end.
Definition d_sec {T} (m : dnx T) : nat := match d_ord m with OrdR => d_cols m | OrdC => d_rows m end.

(** matrix_dense_view_new.h:63-74 *)
Definition stride_row {T} (m : dnx T) : nat := match d_ord m with OrdR => d_ld m | OrdC => 1 end.
Definition stride_col {T} (m : dnx T) : nat := match d_ord m with OrdR => 1 | OrdC => d_ld m end.

(** matrix_base_new.h:77-95 *)
Definition change_uplo (u : uplo) : uplo := match u with UploNone => UploNone | UploL => UploU | UploU => UploL end.
Definition change_order (o : order) : order := match o with OrdR => OrdC | OrdC => OrdR end.

(** matrix_dense_view_new.h:76-85 *)
Definition submatrix_view {T} (m : dnx T) (w : window) : outcome (dnx T) :=
  if (row_end w <? row_start w) || (d_rows m <? row_end w) || (col_end w <? col_start w) || (d_cols m <? col_end w) then Fail
  else Ok (Dnx (row_end w - row_start w) (col_end w - col_start w) (d_ld m) (d_ord m) (d_upl m) (d_sym m)
               (skipn (row_start w * stride_row m + col_start w * stride_col m) (d_vals m))).

(** matrix_dense_view_new.h:86-97 *)
Definition transposed_view {T} (m : dnx T) : dnx T :=
  Dnx (d_cols m) (d_rows m) (d_ld m) (change_order (d_ord m)) (change_uplo (d_upl m)) (d_sym m) (d_vals m).

Definition same_dims {A B} (s : dnx A) (d : dnx B) : bool := (d_rows s =? d_rows d) && (d_cols s =? d_cols d).

(** ** Triangles: fill_dnx.cpp:43-50, copy_dnx.cpp:58-65, lincomb_matrix_dnx.cpp:115-121, 145-151 *)
Definition move_start {T} (m : dnx T) : bool :=
  match d_upl m, d_ord m with UploU, OrdR | UploL, OrdC => true | _, _ => false end.
Definition move_end {T} (m : dnx T) : bool :=
  match d_upl m, d_ord m with UploL, OrdR | UploU, OrdC => true | _, _ => false end.
Definition line_start {T} (m : dnx T) (i : nat) : nat := if move_start m then i else 0.
Definition line_end {T} (m : dnx T) (i : nat) : nat := if move_end m then i + 1 else d_sec m.

(** [size = end - start] is a size_t: a huge number of elements if it wraps *)
Definition line_span {T} (m : dnx T) (i : nat) : outcome (list nat) :=
  if line_end m i <? line_start m i then UB else Ok (seq (line_start m i) (line_end m i - line_start m i)).

(** ** fill_dnx.cpp:33-55 *)
Definition fill_line {T} (m : dnx T) (x : T) (v : list T) (i : nat) : outcome (list T) :=
  js <- line_span m i ;;
  foldM (fun v j => wr v (i * d_ld m + j) x) js v.

Definition fill_dnx {T} (m : dnx T) (x : T) : outcome (dnx T) :=
  if is_uplo (d_upl m) && negb (d_rows m =? d_cols m) then Fail
  else v <- foldM (fill_line m x) (seq 0 (d_prim m)) (d_vals m) ;; Ok (with_vals m v).

Section Values.
Context {T : Type}.
(** utils::is_complex<T>() and std::conj *)
Variable cplx : bool.
Variable conj : T -> T.
(** math::blas::transpose(nrows, ncols, src, src_ld, dst, dst_ld, order, conj): an external library,
    src/math/wrappers/math.blas.h:91 *)
Variable btrans : nat -> nat -> list T -> nat -> list T -> nat -> order -> bool -> list T.
(** math::blas::transpose_inplace(size, matrix, ld, order, conj), math.blas.h:94 *)
Variable btrans_inplace : nat -> list T -> nat -> order -> bool -> list T.
(** MatrixDenseData_new::set and alloc (matrix_dense_data_new.h:46-67): a fresh matrix; its leading
    dimension is at least the secondary size, its contents are arbitrary, its triangle flag is '_' *)
Variable alloc : nat -> nat -> order -> dnx T.

Definition cnj (b : bool) (x : T) : T := if cplx && b then conj x else x.

(** ** copy_dnx.cpp:44-84 *)
Definition copy_elem (src dst : dnx T) (c : bool) (i : nat) (v : list T) (j : nat) : outcome (list T) :=
  a <- rd (d_vals src) (i * d_ld src + j) ;;
  wr v (i * d_ld dst + j) (cnj c a).

Definition copy_line (src dst : dnx T) (c : bool) (v : list T) (i : nat) : outcome (list T) :=
  js <- line_span dst i ;;
  foldM (copy_elem src dst c i) js v.

Definition copy_dnx (src dst : dnx T) (c : bool) : outcome (dnx T) :=
  if negb (same_dims src dst) then Fail
  else if negb (order_eqb (d_ord src) (d_ord dst)) then Fail
  else if negb (uplo_eqb (d_upl src) (d_upl dst)) then Fail
  else v <- foldM (copy_line src dst c) (seq 0 (d_prim dst)) (d_vals dst) ;; Ok (with_vals dst v).

(** ** transpose_dnx_dnx.cpp:43-64 *)
Definition transpose_dnx (src dst : dnx T) (c : bool) : outcome (dnx T) :=
  if negb ((d_rows src =? d_cols dst) && (d_cols src =? d_rows dst)) then Fail
  else if negb (order_eqb (d_ord src) (d_ord dst)) then Fail
  else Ok (with_vals dst (btrans (d_rows src) (d_cols src) (d_vals src) (d_ld src) (d_vals dst) (d_ld dst) (d_ord src) c)).

(** lines 51-58 with M_src == M_dst *)
Definition transpose_inplace (m : dnx T) (c : bool) : outcome (dnx T) :=
  if negb (d_rows m =? d_cols m) then Fail
  else Ok (with_vals m (btrans_inplace (d_rows m) (d_vals m) (d_ld m) (d_ord m) c)).

(** ** convert_dnx_dny.cpp:45-63 *)
Definition convert_dnx_dny (src dst : dnx T) (c : bool) : outcome (dnx T) :=
  if negb (same_dims src dst) then Fail
  else if order_eqb (d_ord src) (d_ord dst) then copy_dnx src dst c
  else Ok (with_vals dst (btrans (d_rows src) (d_cols src) (d_vals src) (d_ld src) (d_vals dst) (d_ld dst) (d_ord src) c)).

(** ** complete_dnx_dnx.cpp:48-70; source and destination are different matrices *)
Definition complete_dnx (src dst : dnx T) (c : bool) : outcome (dnx T) :=
  if negb (same_dims src dst) then Fail
  else if negb (d_rows src =? d_cols src) then Fail
  else if negb (order_eqb (d_ord src) (d_ord dst)) then Fail
  else if negb (is_uplo (d_upl src)) then Fail
  else
    d <- transpose_dnx src dst c ;;
    r <- copy_dnx src (with_upl d (d_upl src)) false ;;
    Ok (with_upl r (d_upl dst)).

(** ** permute_dnx_dnx.cpp *)
Definition source_of (p : option perm) (i : nat) : outcome nat :=
  match p with None => Ok i | Some p => rd (dst_to_src p) i end.

(** lines 157-160, 175-182, 197-205: the three loops differ in the direction that has no permutation *)
Definition permute_elem (src dst : dnx T) (ps : option perm) (ips ipd : nat) (v : list T) (isd : nat) : outcome (list T) :=
  iss <- source_of ps isd ;;
  a <- rd (d_vals src) (ips * d_ld src + iss) ;;
  wr v (ipd * d_ld dst + isd) a.

Definition permute_line (src dst : dnx T) (pp ps : option perm) (v : list T) (ipd : nat) : outcome (list T) :=
  ips <- source_of pp ipd ;;
  foldM (permute_elem src dst ps ips ipd) (seq 0 (d_sec dst)) v.

Definition permute_lines (src dst : dnx T) (pp ps : option perm) : outcome (dnx T) :=
  v <- foldM (permute_line src dst pp ps) (seq 0 (d_prim dst)) (d_vals dst) ;; Ok (with_vals dst v).

(** lines 67-71 *)
Definition permute_wrong (src dst : dnx T) (rows cols : option perm) : bool :=
  negb (order_eqb (d_ord src) (d_ord dst)) || negb (uplo_eqb (d_upl src) (d_upl dst)) || negb (same_dims src dst)
  || wrong_perm rows (d_rows src) || wrong_perm cols (d_cols src).

(** lines 99-125 *)
Definition permute_full (src dst : dnx T) (rows cols : option perm) : outcome (dnx T) :=
  if permute_wrong src dst rows cols then Fail
  else match rows, cols with
  | None, None => copy_dnx src dst false
  | _, _ =>
    match d_ord src with
    | OrdR => permute_lines src dst rows cols
    | OrdC => permute_lines src dst cols rows
    end
  end.

(** matrix_base_new.h:120-126: for a real T a symmetric matrix is hermitian too *)
Definition is_hermitian (s : symmetry) : bool :=
  match s with SymHermitian => true | SymSymmetric => negb cplx | _ => false end.

(** lines 74-87 *)
Definition permute_triangle (src dst : dnx T) (rows cols : option perm) : outcome (dnx T) :=
  if negb (d_rows src =? d_cols src) then Fail
  else
    t1 <- complete_dnx src (alloc (d_rows src) (d_cols src) (d_ord src)) (is_hermitian (d_sym src)) ;;
    t2 <- permute_full t1 (alloc (d_rows src) (d_cols src) (d_ord src)) rows cols ;;
    copy_dnx (with_upl t2 (d_upl dst)) dst false.

(** lines 59-130, source and destination are different matrices *)
Definition permute_dnx (src dst : dnx T) (rows cols : option perm) : outcome (dnx T) :=
  if permute_wrong src dst rows cols then Fail
  else if is_uplo (d_upl dst) then permute_triangle src dst rows cols
  else permute_full src dst rows cols.

(** lines 59-130 with M_src == M_dst *)
Definition permute_inplace (m : dnx T) (rows cols : option perm) : outcome (dnx T) :=
  if permute_wrong m m rows cols then Fail
  else if is_uplo (d_upl m) then permute_triangle m m rows cols
  else
    t <- permute_full m (alloc (d_rows m) (d_cols m) (d_ord m)) rows cols ;;
    copy_dnx t m false.

(** ** convert_dnx.cpp:39-151 *)
(** lines 118-125; [of_index is] is the value of the expression [std::conj(is)] *)
Variable of_index : nat -> T.
Definition conj_all_line (dst : dnx T) (v : list T) (ip : nat) : outcome (list T) :=
  foldM (fun v is => wr v (ip * d_ld dst + is) (of_index is)) (seq 0 (d_sec dst)) v.
Definition conj_all (dst : dnx T) : outcome (dnx T) :=
  v <- foldM (conj_all_line dst) (seq 0 (d_prim dst)) (d_vals dst) ;; Ok (with_vals dst v).

(** lines 60-91 *)
Definition convert_same_order (src dst : dnx T) (herm : bool) : outcome (dnx T) :=
  if uplo_eqb (d_upl src) (d_upl dst) then copy_dnx src dst false
  else if is_uplo (d_upl src) && negb (is_uplo (d_upl dst)) then complete_dnx src dst herm
  else if negb (is_uplo (d_upl src)) && is_uplo (d_upl dst) then copy_dnx (with_upl src (d_upl dst)) dst false
  else
    t <- convert_dnx_dny src (with_upl (alloc (d_rows src) (d_cols src) (change_order (d_ord src))) (d_upl src)) false ;;
    copy_dnx (transposed_view t) dst herm.

(** lines 92-141 *)
Definition convert_diff_order (src dst : dnx T) (herm : bool) : outcome (dnx T) :=
  if uplo_eqb (d_upl src) (d_upl dst) then
    if is_uplo (d_upl src) then
      t <- convert_dnx_dny src (with_upl (alloc (d_rows src) (d_cols src) (d_ord dst)) (d_upl src)) false ;;
      copy_dnx t dst false
    else convert_dnx_dny src dst false
  else if is_uplo (d_upl src) && negb (is_uplo (d_upl dst)) then
    d <- complete_dnx (transposed_view src) dst herm ;;
    if cplx && herm then conj_all d else Ok d
  else if negb (is_uplo (d_upl src)) && is_uplo (d_upl dst) then
    copy_dnx (with_upl (transposed_view src) (d_upl dst)) dst herm
  else copy_dnx (transposed_view src) dst herm.

(** lines 48-148; source and destination are different matrices *)
Definition convert_dnx (src dst : dnx T) : outcome (dnx T) :=
  if negb (same_dims src dst) then Fail
  else if negb (symmetry_eqb (d_sym src) (d_sym dst)) then Fail
  else if is_structurally_symmetric (d_sym src) && negb (d_rows src =? d_cols src) then Fail
  else if is_structurally_symmetric (d_sym src) then
    let herm := cplx && symmetry_eqb (d_sym src) SymHermitian in
    if order_eqb (d_ord src) (d_ord dst) then convert_same_order src dst herm else convert_diff_order src dst herm
  else convert_dnx_dny src dst false.

(** ** convert_csx_dny.cpp *)
(** lines 78-83 and 92-97: [row[c] = v], [dstvals[r + dstld * c] = v] *)
Definition dense_pos (same : bool) (ld r c : nat) : nat := if same then r * ld + c else r + ld * c.

Definition scatter_elem (src : csx T) (same : bool) (ld r : nat) (v : list T) (i : nat) : outcome (list T) :=
  c <- rd (idxs src) i ;;
  x <- rd (vals src) i ;;
  wr v (dense_pos same ld r c) x.

Definition scatter_line (src : csx T) (same : bool) (ld : nat) (v : list T) (r : nat) : outcome (list T) :=
  b <- rd (ptrs src) r ;;
  e <- rd (ptrs src) (r + 1) ;;
  foldM (scatter_elem src same ld r) (seq b (e - b)) v.

(** lines 42-44, 60-62 *)
Definition convert_wrong (src : csx T) (dst : dnx T) : bool :=
  negb ((nrows src =? d_rows dst) && (ncols src =? d_cols dst)) || negb (uplo_eqb (upl src) (d_upl dst))
  || (is_uplo (d_upl dst) && negb (d_rows dst =? d_cols dst)).

Definition convert_zerofill (zero : T) (src : csx T) (dst : dnx T) : outcome (dnx T) :=
  if convert_wrong src dst then Fail else fill_dnx dst zero.

Definition convert_copyvals (src : csx T) (dst : dnx T) : outcome (dnx T) :=
  if convert_wrong src dst then Fail
  else
    v <- foldM (scatter_line src (order_eqb (ord src) (d_ord dst)) (d_ld dst)) (seq 0 (size_primary src)) (d_vals dst) ;;
    Ok (with_vals dst v).

(** lines 107-123 *)
Definition convert_csx_dny (zero : T) (src : csx T) (dst : dnx T) : outcome (dnx T) :=
  d <- convert_zerofill zero src dst ;;
  convert_copyvals src d.

(** ** submatrix_csx_dny.cpp *)
(** lines 62-66: the triangle flag is not looked at *)
Definition zero_line (zero : T) (m : dnx T) (v : list T) (i : nat) : outcome (list T) :=
  foldM (fun v j => wr v (i * d_ld m + j) zero) (seq 0 (d_sec m)) v.

Definition sub_zerofill (zero : T) (src : csx T) (dst : dnx T) (w : window) : outcome (dnx T) :=
  if (row_end w <? row_start w) || (nrows src <? row_end w) || (col_end w <? col_start w) || (ncols src <? col_end w) then Fail
  else if negb ((d_rows dst =? row_end w - row_start w) && (d_cols dst =? col_end w - col_start w)) then Fail
  else v <- foldM (zero_line zero dst) (seq 0 (d_prim dst)) (d_vals dst) ;; Ok (with_vals dst v).

(** lines 101-124 *)
Definition sub_dense_elem (src : csx T) (w : window) (same : bool) (ld ips : nat) (v : list T) (i iss : nat) : outcome (list T) :=
  x <- rd (vals src) i ;;
  wr v (dense_pos same ld (ips - start_prim src w) (iss - start_sec src w)) x.

Definition sub_copyvals (src : csx T) (dst : dnx T) (w : window) : outcome (dnx T) :=
  if negb ((d_rows dst =? row_end w - row_start w) && (d_cols dst =? col_end w - col_start w)) then Fail
  else
    v <- foldM (fun v ips => window_row src (start_sec src w) (end_sec src w)
                               (sub_dense_elem src w (order_eqb (ord src) (d_ord dst)) (d_ld dst) ips) v ips)
               (prims src w) (d_vals dst) ;;
    Ok (with_vals dst v).

(** lines 133-150 *)
Definition submatrix_csx_dny (zero : T) (src : csx T) (dst : dnx T) (w : window) : outcome (dnx T) :=
  d <- sub_zerofill zero src dst w ;;
  sub_copyvals src d w.

(** ** prune_csx_matx.cpp:239-299 perform_dense; [inv] is pruned_idxs_secdary_inverse *)
Definition prune_elem (src : csx T) (inv : option (list nat)) (ld ipd : nat) (v : list T) (i : nat) : outcome (list T) :=
  iss <- rd (idxs src) i ;;
  isd <- (match inv with None => Ok iss | Some inv => rd inv iss end) ;;
  x <- rd (vals src) i ;;
  wr v (ipd * ld + isd) x.

(** lines 254-268 ([inv = None]), 283-298: empty lines are skipped *)
Definition prune_used_line (src : csx T) (inv : option (list nat)) (ld : nat) (s : list T * nat) (ips : nat) : outcome (list T * nat) :=
  b <- rd (ptrs src) ips ;;
  e <- rd (ptrs src) (ips + 1) ;;
  if b =? e then Ok s
  else v <- foldM (prune_elem src inv ld (snd s)) (seq b (e - b)) (fst s) ;; Ok (v, snd s + 1).

(** lines 269-282 *)
Definition prune_line (src : csx T) (inv : option (list nat)) (ld : nat) (v : list T) (ip : nat) : outcome (list T) :=
  b <- rd (ptrs src) ip ;;
  e <- rd (ptrs src) (ip + 1) ;;
  foldM (prune_elem src inv ld ip) (seq b (e - b)) v.

Definition prune_dense (zero : T) (src : csx T) (dst : dnx T) (rows cols : bool) (s : pruning) (inv : list nat) : outcome (dnx T) :=
  if negb (order_eqb (d_ord dst) (ord src)) then Fail
  else if negb ((d_rows dst =? pruned_nrows src s) && (d_cols dst =? pruned_ncols src s)) then Fail
  else
    d <- fill_dnx dst zero ;;
    match prune_primary src rows cols, prune_secdary src rows cols with
    | true, false =>
      r <- foldM (prune_used_line src None (d_ld dst)) (seq 0 (size_primary src)) (d_vals d, 0) ;; Ok (with_vals d (fst r))
    | false, true =>
      v <- foldM (prune_line src (Some inv) (d_ld dst)) (seq 0 (size_primary src)) (d_vals d) ;; Ok (with_vals d v)
    | true, true =>
      r <- foldM (prune_used_line src (Some inv) (d_ld dst)) (seq 0 (size_primary src)) (d_vals d, 0) ;; Ok (with_vals d (fst r))
    | false, false => Ok d
    end.

(** ** submatrix_dnx_dnx_noncontig.cpp:58-116, supermatrix_dnx_dnx_noncontig.cpp:65-148 *)
Definition mapped (mp : option (list nat)) (i : nat) : outcome nat :=
  match mp with None => Ok i | Some l => rd l i end.
Definition map_size (mp : option (list nat)) (n : nat) : nat := match mp with None => n | Some l => length l end.

Definition gather_elem (src dst : dnx T) (ms : option (list nat)) (ips ipd : nat) (v : list T) (isd : nat) : outcome (list T) :=
  iss <- mapped ms isd ;;
  a <- rd (d_vals src) (ips * d_ld src + iss) ;;
  wr v (ipd * d_ld dst + isd) a.

Definition gather_line (src dst : dnx T) (mp ms : option (list nat)) (v : list T) (ipd : nat) : outcome (list T) :=
  ips <- mapped mp ipd ;;
  foldM (gather_elem src dst ms ips ipd) (seq 0 (d_sec dst)) v.

Definition submatrix_noncontig (src dst : dnx T) (rows cols : option (list nat)) : outcome (dnx T) :=
  if negb (order_eqb (d_ord src) (d_ord dst)) then Fail
  else if negb ((d_rows dst =? map_size rows (d_rows src)) && (d_cols dst =? map_size cols (d_cols src))) then Fail
  else match rows, cols with
  | None, None => copy_dnx src dst false
  | _, _ =>
    let mp := match d_ord src with OrdR => rows | OrdC => cols end in
    let ms := match d_ord src with OrdR => cols | OrdC => rows end in
    v <- foldM (gather_line src dst mp ms) (seq 0 (d_prim dst)) (d_vals dst) ;; Ok (with_vals dst v)
  end.

(** the three modes: [dst = src], [dst += src], atomic [dst += src] *)
Variable add : T -> T -> T.
Inductive mode := Assign | Accumulate | AccumulateAtomic.
Definition mode_op (m : mode) (d s : T) : T := match m with Assign => s | _ => add d s end.

(** lines 68-107: [op(dst_ptr[isd], src_ptr[iss])] *)
Definition spread_elem (src dst : dnx T) (md : mode) (ms : option (list nat)) (ips ipd : nat) (v : list T) (iss : nat) : outcome (list T) :=
  isd <- mapped ms iss ;;
  a <- rd (d_vals src) (ips * d_ld src + iss) ;;
  b <- rd v (ipd * d_ld dst + isd) ;;
  wr v (ipd * d_ld dst + isd) (mode_op md b a).

Definition spread_line (src dst : dnx T) (md : mode) (mp ms : option (list nat)) (v : list T) (ips : nat) : outcome (list T) :=
  ipd <- mapped mp ips ;;
  foldM (spread_elem src dst md ms ips ipd) (seq 0 (d_sec src)) v.

Definition supermatrix_noncontig (src dst : dnx T) (rows cols : option (list nat)) (md : mode) : outcome (dnx T) :=
  if negb (order_eqb (d_ord src) (d_ord dst)) then Fail
  else if negb ((d_rows src =? map_size rows (d_rows dst)) && (d_cols src =? map_size cols (d_cols dst))) then Fail
  else
    let mp := match d_ord dst with OrdR => rows | OrdC => cols end in
    let ms := match d_ord dst with OrdR => cols | OrdC => rows end in
    v <- foldM (spread_line src dst md mp ms) (seq 0 (d_prim src)) (d_vals dst) ;; Ok (with_vals dst v).

(** ** lincomb_matrix_dnx.cpp:55-159; [None] for A or B is the null pointer, [Some None] is the matrix X itself *)
Variable mul : T -> T -> T.
Variable zero one : T.
Variable eqb : T -> T -> bool.

Definition operand : Type := option (option (dnx T)).
Definition deref (x : dnx T) (v : list T) (a : option (dnx T)) : dnx T :=
  match a with None => with_vals x v | Some m => m end.

(** lines 117-127 *)
Definition one_elem (x : dnx T) (alpha : T) (a : option (dnx T)) (i : nat) (v : list T) (j : nat) : outcome (list T) :=
  u <- rd (d_vals (deref x v a)) (i * d_ld (deref x v a) + j) ;;
  wr v (i * d_ld x + j) (mul alpha u).
Definition one_line (x : dnx T) (alpha : T) (a : option (dnx T)) (v : list T) (i : nat) : outcome (list T) :=
  foldM (one_elem x alpha a i) (seq (line_start x i) (line_end x i - line_start x i)) v.

Definition lincomb_wrong (x : dnx T) (a : option (dnx T)) : bool :=
  negb (same_dims (deref x (d_vals x) a) x) || negb (order_eqb (d_ord (deref x (d_vals x) a)) (d_ord x)).

Definition lincomb_one (x : dnx T) (alpha : T) (a : option (dnx T)) : outcome (dnx T) :=
  if lincomb_wrong x a then Fail
  else v <- foldM (one_line x alpha a) (seq 0 (d_prim x)) (d_vals x) ;; Ok (with_vals x v).

(** lines 147-158 *)
Definition two_elem (x : dnx T) (alpha : T) (a : option (dnx T)) (beta : T) (b : option (dnx T)) (i : nat) (v : list T) (j : nat) : outcome (list T) :=
  u <- rd (d_vals (deref x v a)) (i * d_ld (deref x v a) + j) ;;
  w <- rd (d_vals (deref x v b)) (i * d_ld (deref x v b) + j) ;;
  wr v (i * d_ld x + j) (add (mul alpha u) (mul beta w)).
Definition two_line (x : dnx T) (alpha : T) (a : option (dnx T)) (beta : T) (b : option (dnx T)) (v : list T) (i : nat) : outcome (list T) :=
  foldM (two_elem x alpha a beta b i) (seq (line_start x i) (line_end x i - line_start x i)) v.

Definition lincomb_two (x : dnx T) (alpha : T) (a : option (dnx T)) (beta : T) (b : option (dnx T)) : outcome (dnx T) :=
  if lincomb_wrong x a || lincomb_wrong x b then Fail
  else v <- foldM (two_line x alpha a beta b) (seq 0 (d_prim x)) (d_vals x) ;; Ok (with_vals x v).

(** lines 60-77 *)
Definition lincomb_dnx (x : dnx T) (alpha : T) (a : operand) (beta : T) (b : operand) : outcome (dnx T) :=
  match eqb alpha zero, a, eqb beta zero, b with
  | false, None, _, _ => Fail
  | _, _, false, None => Fail
  | true, _, true, _ => fill_dnx x zero
  | false, Some a, true, _ => lincomb_one x alpha a
  | true, _, false, Some b => lincomb_one x beta b
  | false, Some a, false, Some b => lincomb_two x alpha a beta b
  end.

(** ** lincomb_dnx_csy.cpp:55-115 *)
Definition add_elem (beta : T) (src : csx T) (same : bool) (ld r : nat) (v : list T) (i : nat) : outcome (list T) :=
  c <- rd (idxs src) i ;;
  x <- rd (vals src) i ;;
  o <- rd v (dense_pos same ld r c) ;;
  wr v (dense_pos same ld r c) (add o (mul beta x)).
Definition add_line (beta : T) (src : csx T) (same : bool) (ld : nat) (v : list T) (r : nat) : outcome (list T) :=
  b <- rd (ptrs src) r ;;
  e <- rd (ptrs src) (r + 1) ;;
  foldM (add_elem beta src same ld r) (seq b (e - b)) v.

(** lines 65, 67-68 *)
Definition wrong_a (x : dnx T) (a : operand) : bool :=
  match a with
  | None => false
  | Some a => lincomb_wrong x a || negb (uplo_eqb (d_upl (deref x (d_vals x) a)) (d_upl x))
  end.
(** lines 66, 69 *)
Definition wrong_b (x : dnx T) (b : option (csx T)) : bool :=
  match b with
  | None => false
  | Some b => negb ((nrows b =? d_rows x) && (ncols b =? d_cols x)) || negb (uplo_eqb (upl b) (d_upl x))
  end.

Definition lincomb_dnx_csy (x : dnx T) (alpha : T) (a : operand) (beta : T) (b : option (csx T)) : outcome (dnx T) :=
  if negb (eqb alpha zero) && unset a then Fail
  else if negb (eqb beta zero) && unset b then Fail
  else if wrong_a x a then Fail
  else if wrong_b x b then Fail
  else
    y <- (match a with
          | Some None => if eqb alpha one then Ok x else lincomb_dnx x alpha a zero None
          | _ => lincomb_dnx x alpha a zero None
          end) ;;
    match eqb beta zero, b with
    | false, Some b =>
      v <- foldM (add_line beta b (order_eqb (ord b) (d_ord x)) (d_ld x)) (seq 0 (size_primary b)) (d_vals y) ;;
      Ok (with_vals x v)
    | _, _ => Ok y
    end.

(** ** gemv_csx.cpp:55-113 *)
(** lines 82-86 *)
Definition dot_elem (a : csx T) (x : list T) (s : T) (i : nat) : outcome T :=
  col <- rd (idxs a) i ;;
  val <- rd (vals a) i ;;
  u <- rd x col ;;
  Ok (add s (mul val u)).
(** lines 78-88 *)
Definition gemv_row (a : csx T) (x : list T) (alpha beta : T) (y : list T) (row : nat) : outcome (list T) :=
  b <- rd (ptrs a) row ;;
  e <- rd (ptrs a) (row + 1) ;;
  s <- foldM (dot_elem a x) (seq b (e - b)) zero ;;
  o <- rd y row ;;
  wr y row (add (mul alpha s) (mul beta o)).
(** lines 95-97 *)
Definition scale_elem (beta : T) (y : list T) (i : nat) : outcome (list T) :=
  o <- rd y i ;; wr y i (mul o beta).
(** lines 104-108 *)
Definition axpy_elem (a : csx T) (alpha xv : T) (y : list T) (i : nat) : outcome (list T) :=
  row <- rd (idxs a) i ;;
  val <- rd (vals a) i ;;
  o <- rd y row ;;
  wr y row (add o (mul (mul alpha val) xv)).
(** lines 100-109 *)
Definition gemv_col (a : csx T) (x : list T) (alpha : T) (y : list T) (col : nat) : outcome (list T) :=
  b <- rd (ptrs a) col ;;
  e <- rd (ptrs a) (col + 1) ;;
  xv <- rd x col ;;
  foldM (axpy_elem a alpha xv) (seq b (e - b)) y.

(** the vectors x and y have exactly the declared sizes *)
Definition gemv_csx (a : csx T) (x y : list T) (alpha beta : T) : outcome (list T) :=
  if negb (length x =? ncols a) then Fail
  else if negb (length y =? nrows a) then Fail
  else match ord a with
  | OrdR =>
    let y0 := if eqb beta zero then repeat zero (length y) else y in
    foldM (gemv_row a x alpha beta) (seq 0 (nrows a)) y0
  | OrdC =>
    y0 <- (if eqb beta zero then Ok (repeat zero (length y)) else foldM (scale_elem beta) (seq 0 (length y)) y) ;;
    foldM (gemv_col a x alpha) (seq 0 (ncols a)) y0
  end.
End Values.

(** prune_csx_matx.cpp:105-190 with a dense destination (preprocess, then perform_dense) *)
Definition prune_csx_dense {T} (zero : T) (src : csx T) (dst : dnx T) (rows cols : bool) (fill : nat) (vr vc : option (list nat))
  : outcome (dnx T * option (list nat) * option (list nat)) :=
  s <- pruning_setup src rows cols ;;
  if rows && unset vr then Fail
  else if cols && unset vc then Fail
  else if rows && negb (length (match vr with Some v => v | None => [] end) =? pruned_nrows src s) then Fail
  else if cols && negb (length (match vc with Some v => v | None => [] end) =? pruned_ncols src s) then Fail
  else
    l <- pruning_perform src rows cols s (if rows then vr else None) (if cols then vc else None) ;;
    let vs := match ord src with OrdR => snd l | OrdC => fst l end in
    inv <- (if prune_secdary src rows cols
            then match vs with Some v => prune_inverse v (size_secdary src) fill | None => UB end
            else Ok []) ;;
    d <- prune_dense zero src dst rows cols s inv ;;
    Ok (d, fst l, snd l).
