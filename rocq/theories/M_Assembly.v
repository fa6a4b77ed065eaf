(** * Model of the numbering of DOFs, of the sparsity pattern and of the assembly of the matrices of domains

    analysis/pattern/matrix.uniform.feti.cpp and .h, analysis/assembler/general/filler.h

    Simplifications: esint and int are unbounded; an index of -1 is [None], its use as an index is undefined behaviour.  A serializededata is the
    pair of its boundaries and its data, the division among threads is left out (C13, C17).  The loop over domains (omp parallel for) is
    modelled for one domain: a domain writes only to its own pattern and matrix. *)
From Coq Require Import List Arith Bool.
From Verif Require Import Base M_Indexing.
Import ListNotations.
Local Open Scope out_scope.

(** decomposition.feti.h:16: domain and index *)
Definition dindex := (nat * option nat)%type.
(** decomposition.feti.h:24-27 *)
Definition is_my (dbegin dend d : nat) : bool := (dbegin <=? d) && (d <? dend).

(** ** MatrixUniformFETI::fillDecomposition *)

(** matrix.uniform.feti.cpp:125-133; the state is (distribution, sum) *)
Definition distribution_step (dofs : nat) (st : list nat * nat) (x : nat * list nat) : outcome (list nat * nat) :=
  foldM (fun st dof => let '(dist, sum) := st in dist <- wr dist (fst x * dofs + dof) sum ;; Ok (dist, sum + length (snd x))) (seq 0 dofs) st.
Definition dmap_distribution (dofs : nat) (ndoms : list (list nat)) : outcome (list nat) :=
  '(dist, sum) <- foldM (distribution_step dofs) (combine (seq 0 (length ndoms)) ndoms) (repeat 0 (dofs * length ndoms + 1), 0) ;;
  wr dist (length dist - 1) sum.

(** matrix.uniform.feti.cpp:148-153 and 179-184: one copy of a DOF; the state is (pattern\[\].size, dmap data, di) *)
Definition number_copy (dbegin dend : nat) (st : list nat * list dindex * nat) (d : nat) : outcome (list nat * list dindex * nat) :=
  let '(sizes, data, di) := st in
  old <- rd data di ;;
  if is_my dbegin dend d then
    s <- rd sizes (d - dbegin) ;;
    sizes <- wr sizes (d - dbegin) (s + 1) ;;
    data <- wr data di (d, Some s) ;; Ok (sizes, data, di + 1)
  else data <- wr data di (d, snd old) ;; Ok (sizes, data, di + 1).
Definition number_dof (dbegin dend : nat) (dist : list nat) (doms : list nat) (st : list nat * list dindex) (k : nat) : outcome (list nat * list dindex) :=
  di <- rd dist k ;;
  '(sizes, data, _) <- foldM (number_copy dbegin dend) doms (fst st, snd st, di) ;; Ok (sizes, data).

(** matrix.uniform.feti.cpp:175-186; the state is (sizes, data, dmap) *)
Definition number_node (dofs dbegin dend : nat) (dist : list nat) (st : list nat * list dindex * nat) (doms : list nat) : outcome (list nat * list dindex * nat) :=
  foldM (fun st (_ : nat) => let '(sizes, data, k) := st in
                   '(sizes, data) <- number_dof dbegin dend dist doms (sizes, data) k ;; Ok (sizes, data, k + 1)) (seq 0 dofs) st.

(** matrix.uniform.feti.cpp:144-154 *)
Definition number_surface (dofs dbegin dend : nat) (ndoms : list (list nat)) (dist : list nat) (st : list nat * list dindex) (i : nat) : outcome (list nat * list dindex) :=
  doms <- rd ndoms (i / dofs) ;; number_dof dbegin dend dist doms st i.
(** matrix.uniform.feti.cpp:165-171: the first copy only; the state is (sizes, data, surf, dmap) *)
Definition number_rest_dof (dbegin : nat) (dist : list nat) (doms : list nat) (st : list nat * list dindex * list nat * nat) : outcome (list nat * list dindex * list nat * nat) :=
  let '(sizes, data, surf, k) := st in
  '(sizes, data) <-
     (if match surf with [] => true | s :: _ => negb (s =? k) end then
        di <- rd dist k ;;
        d <- rd doms 0 ;;
        if d <? dbegin then UB
        else
          s <- rd sizes (d - dbegin) ;;
          sizes <- wr sizes (d - dbegin) (s + 1) ;;
          data <- wr data di (d, Some s) ;; Ok (sizes, data)
      else Ok (sizes, data)) ;;
  Ok (sizes, data, match surf with s :: t => if s =? k then t else surf | [] => [] end, k + 1).
Definition number_rest (dofs dbegin : nat) (dist : list nat) (st : list nat * list dindex * list nat * nat) (doms : list nat) : outcome (list nat * list dindex * list nat * nat) :=
  foldM (fun st (_ : nat) => number_rest_dof dbegin dist doms st) (seq 0 dofs) st.

(** the boundaries and the data of dmap, pattern\[\].size (= decomposition.dsize) and pattern\[\].surface *)
Record numbering := { n_dist : list nat; n_data : list dindex; n_sizes : list nat; n_surface : list nat }.
(** matrix.uniform.feti.cpp:125-192; [surface]: empty without BEM; the data of dmap have [dofs] copies of the data of nodes->domains *)
Definition fill_decomposition (dofs dbegin dend : nat) (ndoms : list (list nat)) (surface : list nat) : outcome numbering :=
  dist <- dmap_distribution dofs ndoms ;;
  let data := repeat (0, None) (dofs * length (concat ndoms)) in
  let sizes := repeat 0 (dend - dbegin) in
  if negb (length surface =? 0) then
    '(sizes, data) <- foldM (number_surface dofs dbegin dend ndoms dist) surface (sizes, data) ;;
    '(sizes', data, _, _) <- foldM (number_rest dofs dbegin dist) ndoms (sizes, data, surface, 0) ;;
    Ok {| n_dist := dist; n_data := data; n_sizes := sizes'; n_surface := sizes |}
  else
    '(sizes, data, _) <- foldM (number_node dofs dbegin dend dist) ndoms (sizes, data, 0) ;;
    Ok {| n_dist := dist; n_data := data; n_sizes := sizes; n_surface := repeat 0 (dend - dbegin) |}.
(** the records of dmap *)
Definition dmap_rows (N : numbering) : list (list dindex) :=
  map (fun k => slice (nth k (n_dist N) 0) (nth (k + 1) (n_dist N) 0) (n_data N)) (seq 0 (length (n_dist N) - 1)).

(** ** MatrixUniformFETI::buildPattern *)

(** matrix.uniform.feti.cpp:200-208; the state is (imap, ni) *)
Definition build_imap (total domain : nat) (rows : list (list dindex)) : outcome (list (option nat)) :=
  '(imap, _) <- foldM (fun st row =>
      let '(imap, ni) := st in
      imap <- foldM (fun imap di => if fst di =? domain then wr imap ni (snd di) else Ok imap) row imap ;; Ok (imap, ni + 1)) rows (repeat None total, 0) ;;
  Ok imap.
(** imap\[n * dofs + d\] as an index or compared with an index *)
Definition imap_at (dofs : nat) (imap : list (option nat)) (n d : nat) : outcome nat :=
  x <- rd imap (n * dofs + d) ;; match x with Some i => Ok i | None => UB end.

(** matrix.uniform.feti.cpp:211-217 *)
Definition count_element (dofs : nat) (imap : list (option nat)) (begin : list nat) (enodes : list nat) : outcome (list nat) :=
  foldM (fun begin n => foldM (fun begin d => i <- imap_at dofs imap n d ;; b <- rd begin i ;; wr begin i (b + dofs * length enodes)) (seq 0 dofs) begin) enodes begin.
(** utils::sizesToOffsets without overflow, utils.hpp:12-22 (C07) *)
Fixpoint offsets (sum : nat) (sizes : list nat) : list nat :=
  match sizes with [] => [] | s :: t => sum :: offsets (sum + s) t end.

(** matrix.uniform.feti.cpp:228; the state is (indices, end) *)
Definition push_index (i j : nat) (st : list nat * list nat) : outcome (list nat * list nat) :=
  let '(indices, fin) := st in
  e <- rd fin i ;; fin <- wr fin i (e + 1) ;; indices <- wr indices e j ;; Ok (indices, fin).
(** matrix.uniform.feti.cpp:223-233 *)
Definition push_element (dofs : nat) (full : bool) (imap : list (option nat)) (st : list nat * list nat) (enodes : list nat) : outcome (list nat * list nat) :=
  foldM (fun st from => foldM (fun st to => foldM (fun st rd => foldM (fun st cd =>
      i <- imap_at dofs imap from rd ;; j <- imap_at dofs imap to cd ;;
      if full || (i <=? j) then push_index i j st else Ok st) (seq 0 dofs) st) (seq 0 dofs) st) enodes st) enodes st.

(** matrix.uniform.feti.cpp:240-244; the state is (indices, unique) *)
Definition unique_step (st : list nat * nat) (i : nat) : outcome (list nat * nat) :=
  let '(indices, unique) := st in
  x <- rd indices unique ;; y <- rd indices i ;;
  if x =? y then Ok st else indices <- wr indices (unique + 1) y ;; Ok (indices, unique + 1).
(** matrix.uniform.feti.cpp:238-246; the state is (indices, end) *)
Definition unique_row (sort : list nat -> list nat) (begin : list nat) (st : list nat * list nat) (n : nat) : outcome (list nat * list nat) :=
  let '(indices, fin) := st in
  b <- rd begin n ;; e <- rd fin n ;;
  if (e <? b) || (length indices <? e) then UB
  else
    let indices := put b e indices (sort (slice b e indices)) in
    '(indices, unique) <- foldM unique_step (seq (b + 1) (e - (b + 1))) (indices, b) ;;
    fin <- wr fin n (unique + 1) ;; Ok (indices, fin).

(** matrix.uniform.feti.cpp:255-262; the state is (row, column, offset, size) *)
Definition store_row (begin fin indices : list nat) (st : list nat * list nat * list nat * nat) (n : nat) : outcome (list nat * list nat * list nat * nat) :=
  let '(row, column, offset, size) := st in
  b <- rd begin n ;; e <- rd fin n ;;
  '(row, column) <- foldM (fun st i => x <- rd indices i ;; Ok (fst st ++ [n], snd st ++ [x])) (seq b (e - b)) (row, column) ;;
  Ok (row, column, offset ++ [size], size + (e - b)).

(** matrix.uniform.feti.cpp:275-277 and 286-289: while (ibegin\[coffset\] < x) ++coffset; reading behind the array is undefined *)
Fixpoint search (fuel : nat) (indices : list nat) (ibegin x coffset : nat) : outcome nat :=
  y <- rd indices (ibegin + coffset) ;;
  if y <? x then match fuel with 0 => Fail | S fuel => search fuel indices ibegin x (coffset + 1) end else Ok coffset.
Definition find_position (begin offset indices : list nat) (i j : nat) : outcome nat :=
  b <- rd begin i ;; c <- search (length indices) indices b j 0 ;; o <- rd offset i ;; Ok (o + c).
(** matrix.uniform.feti.cpp:268-295: one element; the state is (permutation, r), (permutation, c) *)
Definition permute_element (dofs : nat) (full : bool) (imap : list (option nat)) (begin offset indices : list nat) (permutation : list nat) (enodes : list nat) : outcome (list nat) :=
  '(permutation, _) <- foldM (fun st rd => foldM (fun st from =>
      let '(permutation, r) := st in
      '(permutation, _) <- foldM (fun st cd => foldM (fun st to =>
          let '(permutation, c) := st in
          i <- imap_at dofs imap from rd ;; j <- imap_at dofs imap to cd ;;
          if full then p <- find_position begin offset indices i j ;; Ok (permutation ++ [p], c + 1)
          else if r <=? c then p <- find_position begin offset indices (Nat.min i j) (Nat.max i j) ;; Ok (permutation ++ [p], c + 1)
          else Ok (permutation, c + 1)) enodes st) (seq 0 dofs) (permutation, 0) ;;
      Ok (permutation, r + 1)) enodes st) (seq 0 dofs) (permutation, 0) ;;
  Ok permutation.

(** pattern\[domain\].row, column; elements\[domain\].permutation, offset *)
Record pattern := { p_size : nat; p_row : list nat; p_column : list nat; p_permutation : list nat; p_offset : list nat }.
(** matrix.uniform.feti.cpp:264-297; [intervals]: eintervals of the domain, (begin, end); the state is (permutation, offset) *)
Definition permute_interval (dofs : nat) (full : bool) (imap : list (option nat)) (begin offset indices : list nat) (elements : list (list nat))
    (st : list nat * list nat) (interval : nat * nat) : outcome (list nat * list nat) :=
  let '(permutation, poffset) := st in
  if (snd interval <? fst interval) || (length elements <? snd interval) then UB
  else
    permutation' <- foldM (permute_element dofs full imap begin offset indices) (slice (fst interval) (snd interval) elements) permutation ;;
    Ok (permutation', poffset ++ [length permutation]).
(** MatrixUniformFETI::buildPattern, matrix.uniform.feti.cpp:195-297, without the regions of the boundary; [elements]: elements->nodes,
    [ebegin], [eend]: domains->elements\[domain\], \[domain + 1\]; [alloc]: what an uninitialised vector contains *)
Definition build_pattern (sort : list nat -> list nat) (alloc : nat -> list nat) (dofs : nat) (full : bool) (N : numbering) (dbegin domain : nat)
    (nodes : nat) (elements : list (list nat)) (ebegin eend : nat) (intervals : list (nat * nat)) : outcome pattern :=
  imap <- build_imap (dofs * nodes) (dbegin + domain) (dmap_rows N) ;;
  size <- rd (n_sizes N) domain ;;
  if (eend <? ebegin) || (length elements <? eend) then UB
  else
    let mine := slice ebegin eend elements in
    begin <- foldM (count_element dofs imap) mine (repeat 0 (size + 1)) ;;
    let begin := offsets 0 begin in
    total <- rd begin (length begin - 1) ;;
    '(indices, fin) <- foldM (push_element dofs full imap) mine (alloc total, begin) ;;
    '(indices, fin) <- foldM (unique_row sort begin) (seq 0 size) (indices, fin) ;;
    '(row, column, offset, _) <- foldM (store_row begin fin indices) (seq 0 size) ([], [], [], 0) ;;
    '(permutation, poffset) <- foldM (permute_interval dofs full imap begin offset indices elements) intervals ([], []) ;;
    Ok {| p_size := size; p_row := row; p_column := column; p_permutation := permutation; p_offset := poffset |}.

(** ** MatrixUniformFETI::set, matrix.uniform.feti.h:64-74 (without BEM) *)
(** the state is (rows, cols, r) *)
Definition set_column (P : pattern) (st : list nat * list nat * nat) (c : nat) : outcome (list nat * list nat * nat) :=
  let '(rows, cols, r) := st in
  x <- rd (p_column P) c ;; cols <- wr cols c (x + Indexing_CSR) ;;
  a <- rd (p_row P) c ;; b <- rd (p_row P) (c - 1) ;;
  if a =? b then Ok (rows, cols, r) else rows <- wr rows r (c + Indexing_CSR) ;; Ok (rows, cols, r + 1).
Definition set_matrix (alloc : nat -> list nat) (P : pattern) : outcome (list nat * list nat) :=
  let nnz := length (p_row P) in
  rows <- wr (alloc (p_size P + 1)) 0 Indexing_CSR ;;
  x <- rd (p_column P) 0 ;;
  cols <- wr (alloc nnz) 0 (x + Indexing_CSR) ;;
  '(rows, cols, r) <- foldM (set_column P) (seq 1 (length (p_column P) - 1)) (rows, cols, 1) ;;
  rows <- wr rows r (length (p_column P) + Indexing_CSR) ;;
  Ok (rows, cols).

(** ** MatrixFillerKernel, filler.h:42-87 *)
Section Fill.
  Context {T : Type}.
  Variables (zero : T) (add : T -> T -> T).
  (** filler.h:52-58 and 62-68: one lane; [matrix]: the lane of the matrix in registers, [size * size] values; the state is (out, i) *)
  Definition fill_lane (full : bool) (size : nat) (permutation : list nat) (position : nat) (matrix : list T) (st : list T * nat) : outcome (list T * nat) :=
    foldM (fun st r => foldM (fun st c =>
        let '(out, i) := st in
        p <- rd permutation (position + i) ;; o <- rd out p ;; x <- rd matrix (r * size + c) ;;
        out <- wr out p (add o x) ;; Ok (out, i + 1)) (if full then seq 0 size else seq r (size - r)) st) (seq 0 size) st.
  (** one call of simd(): [lanes]: the SIMD::size lanes; the state is (out, position, elements) *)
  Definition fill_chunk (full : bool) (size width : nat) (permutation : list nat) (lanes : nat -> list T) (st : list T * nat * nat) : outcome (list T * nat * nat) :=
    let '(out, position, elements) := st in
    let count := Nat.min width elements in
    '(out, _) <- foldM (fun st s => fill_lane full size permutation position (lanes s) st) (seq 0 count) (out, 0) ;;
    Ok (out, position + count * (if full then size * size else size * (size - 1) / 2 + size), elements - count).
  (** all chunks of an interval (heattransfer.cpp:51, structuralmechanics.cpp:80); element [e] is in the lane [e mod width] of the chunk [e / width] *)
  Definition fill_interval (full : bool) (size width : nat) (P : pattern) (out : list T) (i : nat) (matrices : list (list T)) : outcome (list T) :=
    position <- rd (p_offset P) i ;;
    let elements := length matrices in
    let chunks := elements / width + (if elements mod width =? 0 then 0 else 1) in
    '(out, _, _) <- foldM (fun st c => fill_chunk full size width (p_permutation P) (fun s => nth (c * width + s) matrices []) st) (seq 0 chunks) (out, position, elements) ;;
    Ok out.
  (** all intervals of a domain; [size i]: nodes times dofs of the interval; [matrices i]: the matrices of its elements *)
  Definition fill_domain (full : bool) (width : nat) (P : pattern) (size : nat -> nat) (matrices : nat -> list (list T)) (out : list T) : outcome (list T) :=
    foldM (fun out i => fill_interval full (size i) width P out i (matrices i)) (seq 0 (length (p_offset P))) out.
End Fill.

(** ** The constructors: DOFs in a node, matrix.uniform.feti.cpp:72, 98, 101 and vector.uniform.dense.cpp:21-31 *)
Definition matrix_dofs_structural (dimension multiplicity : nat) : nat := (dimension * multiplicity) * multiplicity.
Definition vector_dofs_structural (dimension multiplicity : nat) : nat := dimension * multiplicity.
