(** * Model of the product with a matrix distributed among processes

    analysis/pattern/matrix.uniform.direct.cpp:346-475: MatrixUniformDirect::Apply, analysis/math/matrix_distributed.h:66-73

    As in M_Distributed a step is modelled for all ranks together.  Simplifications: those of M_Distributed and M_DistMatrix; std::sort by contract, std::set is
    a strictly increasing list; pattern.nrows is the number of rows ([dp_row] has one entry more).  SpBLAS is described by what MKL does for the type
    COMPLEX_STRUCTURALLY_SYMMETRIC that is set in line 421 (w.mkl.spblas.cpp:127-171): the matrix is general, the shape is ignored, and every entry of the result is
    a function [rowop] of the values of the row with the entries of the vector and of the former value.  The limit of Communication on sizes is left out. *)
From Coq Require Import List Arith Bool.
From Verif Require Import Base M_Indexing M_Utils M_Distributed M_DistMatrix.
Import ListNotations.
Local Open Scope out_scope.

(** communication.hpp:246-294: exchangeUnknownSize, one buffer for all neighbours *)
Definition exchange_same {A} (nb : list (list nat)) (sb : list A) : outcome (list (list A)) := mapM (fun ns => mapM (rd sb) ns) nb.
(** communication.hpp:72-117: exchangeKnownSize; the sizes have to agree *)
Definition exchange_known_sizes {A} (nb : list (list nat)) (sb rb : list (list (list A))) : outcome (list (list (list A))) :=
  mapM (fun x : nat * (list nat * list (list A)) =>
    mapM (fun y : nat * list A => d <- sent nb sb (fst y) (fst x) ;; if length d =? length (snd y) then Ok d else UB) (combine (fst (snd x)) (snd (snd x))))
    (combine (seq 0 (length nb)) (combine nb rb)).

(** operator< and operator== of std::pair *)
Definition pair_ltb (a b : nat * nat) : bool := (fst a <? fst b) || ((fst a =? fst b) && (snd a <? snd b)).
Definition pair_eqb (a b : nat * nat) : bool := (fst a =? fst b) && (snd a =? snd b).

(** matrix.uniform.direct.cpp:355-357 *)
Definition own_neighbors (d : decomposition) : outcome (list (nat * nat)) :=
  foldM (fun nn n => j <- rd (d_neighbors d) n ;; f <- rd (d_neighDOF d) n ;; Ok (nn ++ [(j, f)])) (seq 0 (length (d_neighbors d))) [].
(** matrix.uniform.direct.cpp:367-377: neighbors and nDOF *)
Definition merge_neighbors (sort : list (nat * nat) -> list (nat * nat)) (rank : nat) (nn : list (nat * nat)) (rnn : list (list (nat * nat))) : outcome (list (nat * nat)) :=
  nn <- sortAndRemoveDuplicates pair_eqb sort (0, 0) (fold_left (fun nn x => nn ++ x) rnn nn) 0 ;;
  Ok (filter (fun x => negb (fst x =? rank)) nn).

(** std::set::insert *)
Fixpoint set_insert (x : nat) (l : list nat) : list nat :=
  match l with [] => [x] | y :: l' => if x <? y then x :: l else if x =? y then l else y :: set_insert x l' end.
(** matrix.uniform.direct.cpp:391 = 396: std::lower_bound(nDOF.begin(), nDOF.end(), c + 1) - nDOF.begin() - 1 *)
Definition owner_index (nDOF : list nat) (c : nat) : outcome nat := match lower_bound nDOF (c + 1) with 0 => UB | S n => Ok n end.
Definition insert_at (send : list (list nat)) (n r : nat) : outcome (list (list nat)) := s <- rd send n ;; wr send n (set_insert r s).
(** matrix.uniform.direct.cpp:389-398; the state is (lower, higher, send) *)
Definition classify (d : decomposition) (p : dpattern) (nDOF : list nat) (r : nat) (st : list nat * list nat * list (list nat)) (c : nat) : outcome (list nat * list nat * list (list nat)) :=
  x <- rd (dp_column p) c ;;
  if x <? Indexing_CSR then UB
  else
    let g := x - Indexing_CSR in
    '(lower, higher, send) <- (let '(lower, higher, send) := st in
        if g <? d_begin d then n <- owner_index nDOF g ;; send <- insert_at send n r ;; Ok (set_insert g lower, higher, send) else Ok (lower, higher, send)) ;;
    if d_end d <=? g then n <- owner_index nDOF g ;; send <- insert_at send n r ;; Ok (lower, set_insert g higher, send) else Ok (lower, higher, send).
(** the row \[row\[r\] - CSR, row\[r + 1\] - CSR) *)
Definition row_range (p : dpattern) (r : nat) : outcome (nat * nat) :=
  b <- rd (dp_row p) r ;; e <- rd (dp_row p) (r + 1) ;; if (b <? Indexing_CSR) || (e <? b) then UB else Ok (b - Indexing_CSR, e - Indexing_CSR).
(** matrix.uniform.direct.cpp:385-400; [nn]: the number of neighbours *)
Definition classify_rows (d : decomposition) (p : dpattern) (nDOF : list nat) : outcome (list nat * list nat * list (list nat)) :=
  let nhalo := length (d_halo d) in
  foldM (fun st r => '(b, e) <- row_range p r ;; foldM (classify d p nDOF r) (seq b (e - b)) st) (seq nhalo (length (dp_row p) - 1 - nhalo)) ([], [], repeat [] (length nDOF)).

(** matrix.uniform.direct.cpp:404-406 = 410-412: while (ni + 1 < nDOF.size() && nDOF\[ni + 1\] <= c) { ++ni; } *)
Fixpoint next_owner (fuel : nat) (nDOF : list nat) (c ni : nat) : outcome nat :=
  if ni + 1 <? length nDOF then
    f <- rd nDOF (ni + 1) ;;
    if f <=? c then match fuel with 0 => Fail | S fuel => next_owner fuel nDOF c (ni + 1) end else Ok ni
  else Ok ni.
(** matrix.uniform.direct.cpp:403-408 and, with [shift] = msize, 409-414; the state is (ni, ci, rOffset) *)
Definition place (nDOF : list nat) (shift : nat) (st : nat * nat * list (list nat)) (c : nat) : outcome (nat * nat * list (list nat)) :=
  let '(ni, ci, rOffset) := st in
  ni <- next_owner (length nDOF) nDOF c ni ;; rOffset <- push_to rOffset ni (ci + shift) ;; Ok (ni, ci + 1, rOffset).
(** matrix.uniform.direct.cpp:402-414 *)
Definition place_columns (nDOF : list nat) (msize : nat) (lower higher : list nat) : outcome (nat * list (list nat)) :=
  st <- foldM (place nDOF 0) lower (0, 0, repeat [] (length nDOF)) ;;
  '(_, ci, rOffset) <- foldM (place nDOF msize) higher st ;;
  Ok (ci, rOffset).

(** matrix.uniform.direct.cpp:432-435; localM.rows has msize + 1 entries *)
Definition local_rows (d : decomposition) (p : dpattern) : outcome (list nat) :=
  let nhalo := length (d_halo d) in
  rows <- foldM (fun rows r => b <- rd (dp_row p) r ;; e <- rd (dp_row p) (r + 1) ;; l <- rd rows (length rows - 1) ;; if l + e <? b then UB else Ok (rows ++ [l + e - b]))
                (seq nhalo (length (dp_row p) - 1 - nhalo)) [Indexing_CSR] ;;
  if length rows =? d_end d - d_begin d + 1 then Ok rows else UB.
(** matrix.uniform.direct.cpp:439-445 *)
Definition local_column (d : decomposition) (lower higher : list nat) (x : nat) : outcome nat :=
  if x <? Indexing_CSR then UB
  else
    let g := x - Indexing_CSR in
    if g <? d_begin d then Ok (lower_bound lower g + Indexing_CSR)
    else if d_end d <=? g then Ok (lower_bound higher g + length lower + (d_end d - d_begin d) + Indexing_CSR)
    else Ok (x - d_begin d + length lower).
(** matrix.uniform.direct.cpp:425, 437-446 *)
Definition local_columns (d : decomposition) (p : dpattern) (lower higher : list nat) : outcome (list nat) :=
  b <- rd (dp_row p) (length (d_halo d)) ;; e <- rd (dp_row p) (length (dp_row p) - 1) ;;
  if (b <? Indexing_CSR) || (e <? b) then UB
  else mapM (fun c => x <- rd (dp_column p) c ;; local_column d lower higher x) (seq (b - Indexing_CSR) (e - b)).

Section Apply.
  Context {T : Type} (zero : T).

  (** matrix.uniform.direct.h:31-40; localM without the values, which are taken from the matrix *)
  Record apply_data := { a_neighbors : list nat; a_sOffset : list (list nat); a_rOffset : list (list nat); a_sBuffer : list (list T); a_rBuffer : list (list T);
    a_rows : list nat; a_cols : list nat; a_offset : nat; a_localV : list T }.

  (** matrix.uniform.direct.cpp:380-446: what follows after the exchange; [nn]: neighbors with nDOF *)
  Definition init_rank (d : decomposition) (p : dpattern) (nn : list (nat * nat)) : outcome apply_data :=
    let nDOF := map snd nn in
    let msize := d_end d - d_begin d in
    '(lower, higher, send) <- classify_rows d p nDOF ;;
    '(ci, rOffset) <- place_columns nDOF msize lower higher ;;
    rows <- local_rows d p ;;
    cols <- local_columns d p lower higher ;;
    Ok {| a_neighbors := map fst nn; a_sOffset := send; a_rOffset := rOffset; a_sBuffer := map (fun s => repeat zero (length s)) send; a_rBuffer := map (fun s => repeat zero (length s)) rOffset;
          a_rows := rows; a_cols := cols; a_offset := length lower; a_localV := repeat zero (msize + ci) |}.
  (** matrix.uniform.direct.cpp:346-447: Apply::init *)
  Definition ainit (sort : list (nat * nat) -> list (nat * nat)) (ds : list decomposition) (ps : list dpattern) : outcome (list apply_data) :=
    nn <- mapM own_neighbors ds ;;
    rnn <- exchange_same (map d_neighbors ds) nn ;;
    nn <- mapM (fun x : nat * (list (nat * nat) * list (list (nat * nat))) => merge_neighbors sort (fst x) (fst (snd x)) (snd (snd x))) (combine (seq 0 (length ds)) (combine nn rnn)) ;;
    mapM (fun x : decomposition * (dpattern * list (nat * nat)) => init_rank (fst x) (fst (snd x)) (snd (snd x))) (combine ds (combine ps nn)).

  (** matrix.uniform.direct.cpp:455-459 *)
  Definition pack_x (a : apply_data) (x : list T) : outcome (list (list T)) :=
    foldM (fun sb n => off <- rd (a_sOffset a) n ;; buf <- rd sb n ;; buf <- foldM (fun buf i => o <- rd off i ;; v <- rd x o ;; wr buf i v) (seq 0 (length off)) buf ;; wr sb n buf)
          (seq 0 (length (a_sOffset a))) (a_sBuffer a).
  (** matrix.uniform.direct.cpp:463-467 *)
  Definition unpack_x (a : apply_data) (rb : list (list T)) : outcome (list T) :=
    foldM (fun v n => off <- rd (a_rOffset a) n ;; buf <- rd rb n ;; foldM (fun v i => o <- rd off i ;; b <- rd buf i ;; wr v o b) (seq 0 (length off)) v)
          (seq 0 (length (a_rOffset a))) (a_localV a).
  (** matrix.uniform.direct.cpp:468: std::copy *)
  Definition copy_own (d : decomposition) (a : apply_data) (x localV : list T) : outcome (list T) :=
    if length x <? length (d_halo d) then UB else store localV (a_offset a) (skipn (length (d_halo d)) x).

  (** the product with a general CSR matrix by contract *)
  Definition spblas_row (rowop : list (T * T) -> T -> T) (rows cols : list nat) (vals x y : list T) (i : nat) : outcome T :=
    b <- rd rows i ;; e <- rd rows (i + 1) ;;
    if (b <? Indexing_CSR) || (e <? b) then UB
    else
      entries <- mapM (fun k => c <- rd cols k ;; v <- rd vals k ;; if c <? Indexing_CSR then UB else u <- rd x (c - Indexing_CSR) ;; Ok (v, u)) (seq (b - Indexing_CSR) (e - b)) ;;
      y0 <- rd y i ;;
      Ok (rowop entries y0).
  Definition spblas_apply (rowop : list (T * T) -> T -> T) (rows cols : list nat) (vals x y : list T) : outcome (list T) := mapM (spblas_row rowop rows cols vals x y) (seq 0 (length rows - 1)).
  (** matrix.uniform.direct.cpp:452-453, 470-473; [vals]: the values of the matrix, its rows are those of the pattern (set, matrix.uniform.direct.h:61-63) *)
  Definition multiply (rowop : list (T * T) -> T -> T) (d : decomposition) (p : dpattern) (a : apply_data) (localV vals y : list T) : outcome (list T) :=
    o <- rd (dp_row p) (length (d_halo d)) ;;
    z <- spblas_apply rowop (a_rows a) (a_cols a) (skipn (o + Indexing_CSR - Indexing_CSR) vals) localV (skipn (length (d_halo d)) y) ;;
    store y (length (d_halo d)) z.

  Definition with_data (a : apply_data) (sb rb : list (list T)) (localV : list T) : apply_data :=
    {| a_neighbors := a_neighbors a; a_sOffset := a_sOffset a; a_rOffset := a_rOffset a; a_sBuffer := sb; a_rBuffer := rb; a_rows := a_rows a; a_cols := a_cols a; a_offset := a_offset a; a_localV := localV |}.
  (** matrix.uniform.direct.cpp:449-475: Apply::apply; the result is (data of Apply, data of the synchronization of vectors, y) of every rank *)
  Definition apply_matrix (rowop : list (T * T) -> T -> T) (ds : list decomposition) (ps : list dpattern) (st : list apply_data * list (sync_data T)) (ms xs ys : list (list T)) : outcome (list apply_data * list (sync_data T) * list (list T)) :=
    let '(as_, sy) := st in
    sb <- mapM (fun x : apply_data * list T => pack_x (fst x) (snd x)) (combine as_ xs) ;;
    rb <- exchange_known_sizes (map a_neighbors as_) sb (map a_rBuffer as_) ;;
    lv <- mapM (fun x : decomposition * (apply_data * (list (list T) * list T)) => v <- unpack_x (fst (snd x)) (fst (snd (snd x))) ;; copy_own (fst x) (fst (snd x)) (snd (snd (snd x))) v)
               (combine ds (combine as_ (combine rb xs))) ;;
    ys <- mapM (fun x : decomposition * (dpattern * (apply_data * (list T * (list T * list T)))) => let '(d, (p, (a, (v, (vals, y))))) := x in multiply rowop d p a v vals y)
               (combine ds (combine ps (combine as_ (combine lv (combine ms ys))))) ;;
    '(sy, ys) <- scatter_to_upper (sy, ys) ;;
    Ok (map (fun x : apply_data * (list (list T) * (list (list T) * list T)) => with_data (fst x) (fst (snd x)) (fst (snd (snd x))) (snd (snd (snd x)))) (combine as_ (combine sb (combine rb lv))), sy, ys).
End Apply.
Arguments apply_data : clear implicits.

(** a history: calls of the synchronization of vectors and products *)
Inductive acall (T : Type) := AVector (c : sync_call) (vs : list (list T)) | AProduct (rowop : list (T * T) -> T -> T) (ms xs ys : list (list T)).
Arguments AVector {T}. Arguments AProduct {T}.
Definition run_acalls {T} (add : T -> T -> T) (ds : list decomposition) (ps : list dpattern) (calls : list (acall T)) (st : list (apply_data T) * list (sync_data T)) : outcome (list (apply_data T) * list (sync_data T)) :=
  foldM (fun st c => match c with
                     | AVector c vs => '(sy, _) <- run_call add c (snd st, vs) ;; Ok (fst st, sy)
                     | AProduct rowop ms xs ys => '(as_, sy, _) <- apply_matrix rowop ds ps st ms xs ys ;; Ok (as_, sy)
                     end) calls st.
