(** * Model of the matrix distributed among processes: the pattern

    analysis/pattern/matrix.uniform.direct.cpp:66-250: MatrixUniformDirect::buildPattern

    As in M_Distributed all processes run the same sequence of collective calls and a step is modelled for all ranks together.

    Simplifications: esint is unbounded.  The results of Communication::exchangeUnknownSize are those of C29 ([exchange] below), without the limit on the
    size of a message.  std::sort and std::lower_bound by contract.  [alloc]: what an uninitialised vector contains.  The regions of the boundary (their
    loop repeats that over the elements), the output and pattern.ncols are left out. *)
From Coq Require Import List Arith Bool.
From Verif Require Import Base M_Assembly M_Distributed.
Import ListNotations.
Local Open Scope out_scope.

(** what a process knows of the mesh: nodes->uniqInfo, nodes->ranks and elements->nodes (local numbers of nodes) *)
Record mesh_part := { mp_info : uniq_info; mp_ranks : list (list nat); mp_elements : list (list nat) }.

(** wrappers/mpi/communication.hpp:190-243: exchangeUnknownSize *)
Definition exchange {A} (nb : list (list nat)) (sb : list (list A)) : outcome (list (list A)) :=
  mapM (fun x : nat * list nat => mapM (fun j => sent nb sb j (fst x)) (snd x)) (combine (seq 0 (length nb)) nb).

(** while ( *neigh < *r) { ++neigh; }: reading behind the neighbours is undefined *)
Fixpoint advance (fuel : nat) (nb : list nat) (r k : nat) : outcome nat :=
  x <- rd nb k ;;
  if x <? r then match fuel with 0 => Fail | S fuel => advance fuel nb r (k + 1) end else Ok k.
(** matrix.uniform.direct.cpp:80-89 = 96-106 = 126-137 = 144-159: the loop over the nodes and the other processes that have them; [body] gets the node and the
    index of the process in the list of neighbours *)
Definition over_shared {St} (rank : nat) (nb : list nat) (ranks : list (list nat)) (body : nat -> nat -> St -> outcome St) (st : St) : outcome St :=
  foldM (fun st n =>
      rs <- rd ranks n ;;
      '(st, _) <- foldM (fun sk r => if r =? rank then Ok sk else k <- advance (length nb) nb r (snd sk) ;; st <- body n k (fst sk) ;; Ok (st, k)) rs (st, 0) ;;
      Ok st) (seq 0 (length ranks)) st.

(** buffer\[k\].push_back(x) *)
Definition push_to {A} (buf : list (list A)) (k : nat) (x : A) : outcome (list (list A)) := b <- rd buf k ;; wr buf k (b ++ [x]).

(** matrix.uniform.direct.cpp:73-78: the initial value is for the diagonal *)
Definition count_couplings (m : mesh_part) : outcome (list nat) :=
  foldM (fun begin e => foldM (fun begin n => b <- rd begin n ;; wr begin n (b + (length e - 1))) e begin) (mp_elements m) (repeat 1 (length (mp_ranks m) + 1)).
(** matrix.uniform.direct.cpp:72, 80-89 *)
Definition pack_sizes (rank : nat) (nb : list nat) (m : mesh_part) (begin : list nat) : outcome (list (list nat)) :=
  over_shared rank nb (mp_ranks m) (fun n k s => b <- rd begin n ;; push_to s k (b - 1)) (repeat [] (length nb)).
(** matrix.uniform.direct.cpp:96-106; the state is (begin, rIndex) *)
Definition unpack_size (rSize : list (list nat)) (n k : nat) (st : list nat * list nat) : outcome (list nat * list nat) :=
  let '(begin, rIndex) := st in
  i <- rd rIndex k ;; row <- rd rSize k ;; v <- rd row i ;; b <- rd begin n ;;
  begin <- wr begin n (b + v) ;; rIndex <- wr rIndex k (i + 1) ;; Ok (begin, rIndex).
Definition unpack_sizes (rank : nat) (nb : list nat) (m : mesh_part) (rSize : list (list nat)) (begin : list nat) : outcome (list nat) :=
  '(begin, _) <- over_shared rank nb (mp_ranks m) (unpack_size rSize) (begin, repeat 0 (length nb)) ;; Ok begin.

(** matrix.uniform.direct.cpp:111-123; the state is (indices, end) *)
Definition push_couplings (m : mesh_part) (st : list nat * list nat) : outcome (list nat * list nat) :=
  st <- foldM (fun st n => p <- rd (u_position (mp_info m)) n ;; push_index n p st) (seq 0 (length (mp_ranks m))) st ;;
  foldM (fun st e => foldM (fun st from => foldM (fun st to =>
      if from =? to then Ok st else p <- rd (u_position (mp_info m)) to ;; push_index from p st) e st) e st) (mp_elements m) st.
(** matrix.uniform.direct.cpp:125-137 *)
Definition pack_indices (rank : nat) (nb : list nat) (m : mesh_part) (begin : list nat) (st : list nat * list nat) : outcome (list (list nat)) :=
  let '(indices, fin) := st in
  over_shared rank nb (mp_ranks m) (fun n k s =>
      b <- rd begin n ;; e <- rd fin n ;;
      foldM (fun s i => x <- rd indices i ;; push_to s k x) (seq (b + 1) (e - (b + 1))) s) (repeat [] (length nb)).
(** matrix.uniform.direct.cpp:153-155; the state is ((indices, end), rDataIndex) *)
Definition unpack_index (rIndices : list (list nat)) (n k : nat) (st : (list nat * list nat) * list nat) (i : nat) : outcome ((list nat * list nat) * list nat) :=
  let '(st, rData) := st in
  d <- rd rData k ;; row <- rd rIndices k ;; x <- rd row d ;; st <- push_index n x st ;; rData <- wr rData k (d + 1) ;; Ok (st, rData).
(** matrix.uniform.direct.cpp:144-159; the state is (((indices, end), rDataIndex), rIndex) *)
Definition unpack_node (rSize rIndices : list (list nat)) (n k : nat) (st : (list nat * list nat) * list nat * list nat) : outcome ((list nat * list nat) * list nat * list nat) :=
  let '(st, rIndex) := st in
  i <- rd rIndex k ;; row <- rd rSize k ;; v <- rd row i ;;
  st <- foldM (unpack_index rIndices n k) (seq 0 v) st ;;
  rIndex <- wr rIndex k (i + 1) ;; Ok (st, rIndex).
Definition unpack_indices (rank : nat) (nb : list nat) (m : mesh_part) (rSize rIndices : list (list nat)) (st : list nat * list nat) : outcome (list nat * list nat) :=
  '(st, _, _) <- over_shared rank nb (mp_ranks m) (unpack_node rSize rIndices) (st, repeat 0 (length nb), repeat 0 (length nb)) ;; Ok st.

(** pattern.row, column; elements.permutation, offset *)
Record dpattern := { dp_row : list nat; dp_column : list nat; dp_permutation : list nat; dp_offset : list nat }.

(** matrix.uniform.direct.cpp:183-197; the state is (row, column, offset, size) *)
Definition store_node (dofs : nat) (begin : list nat) (st0 : list nat * list nat) (st : list nat * list nat * list nat * nat) (n : nat) : outcome (list nat * list nat * list nat * nat) :=
  let '(indices, fin) := st0 in
  let '(row, column, offset, size) := st in
  b <- rd begin n ;; e <- rd fin n ;;
  '(row, column) <- foldM (fun st _ =>
      let '(row, column) := st in
      column <- foldM (fun column i => x <- rd indices i ;; Ok (column ++ map (fun c => x * dofs + c) (seq 0 dofs))) (seq b (e - b)) column ;;
      Ok (row ++ [length column], column)) (seq 0 dofs) (row, column) ;;
  Ok (row, column, offset ++ [size], size + dofs * dofs * (e - b)).

(** std::lower_bound in a sorted range: the number of smaller entries in front *)
Fixpoint lower_bound (l : list nat) (x : nat) : nat := match l with [] => 0 | y :: l => if y <? x then S (lower_bound l x) else 0 end.
(** matrix.uniform.direct.cpp:201-213: one element *)
Definition permute_cell (dofs : nat) (m : mesh_part) (begin offset : list nat) (st0 : list nat * list nat) (rd' from cd to : nat) (permutation : list nat) : outcome (list nat) :=
  let '(indices, fin) := st0 in
  b <- rd begin from ;; e <- rd fin from ;; o <- rd offset from ;; p <- rd (u_position (mp_info m)) to ;;
  Ok (permutation ++ [o + rd' * dofs * (e - b) + dofs * lower_bound (slice b e indices) p + cd]).
Definition permute_enodes (dofs : nat) (m : mesh_part) (begin offset : list nat) (st0 : list nat * list nat) (permutation : list nat) (e : list nat) : outcome (list nat) :=
  foldM (fun p rd' => foldM (fun p from => foldM (fun p cd => foldM (fun p to => permute_cell dofs m begin offset st0 rd' from cd to p) e p) (seq 0 dofs) p) e p) (seq 0 dofs) permutation.
(** matrix.uniform.direct.cpp:198-214; the state is (permutation, offset) *)
Definition permute_eintervals (dofs : nat) (m : mesh_part) (begin offset : list nat) (st0 : list nat * list nat) (st : list nat * list nat) (interval : nat * nat) : outcome (list nat * list nat) :=
  let '(permutation, poffset) := st in
  if (snd interval <? fst interval) || (length (mp_elements m) <? snd interval) then UB
  else
    permutation' <- foldM (permute_enodes dofs m begin offset st0) (slice (fst interval) (snd interval) (mp_elements m)) permutation ;;
    Ok (permutation', poffset ++ [length permutation]).
(** matrix.uniform.direct.cpp:161-214, from the collected couplings to the pattern *)
Definition finish_pattern (sort : list nat -> list nat) (dofs : nat) (m : mesh_part) (intervals : list (nat * nat)) (begin : list nat) (st : list nat * list nat) : outcome dpattern :=
  let nodes := seq 0 (length (mp_ranks m)) in
  st <- foldM (unique_row sort begin) nodes st ;;
  '(row, column, offset, _) <- foldM (store_node dofs begin st) nodes ([0], [], [], 0) ;;
  '(permutation, poffset) <- foldM (permute_eintervals dofs m begin offset st) intervals ([], []) ;;
  Ok {| dp_row := row; dp_column := column; dp_permutation := permutation; dp_offset := poffset |}.

(** matrix.uniform.direct.cpp:66-214 *)
Definition build_patterns (sort : list nat -> list nat) (alloc : nat -> nat -> list nat) (dofs : nat) (nb : list (list nat)) (ms : list mesh_part) (intervals : list (list (nat * nat))) : outcome (list dpattern) :=
  let ranks := seq 0 (length ms) in
  counts <- mapM count_couplings ms ;;
  sSize <- mapM (fun x : nat * (list nat * (mesh_part * list nat)) => let '(r, (ns, (m, b))) := x in pack_sizes r ns m b) (combine ranks (combine nb (combine ms counts))) ;;
  rSize <- exchange nb sSize ;;
  counts <- mapM (fun x : nat * (list nat * (mesh_part * (list (list nat) * list nat))) => let '(r, (ns, (m, (rs, b)))) := x in unpack_sizes r ns m rs b)
                 (combine ranks (combine nb (combine ms (combine rSize counts)))) ;;
  let begins := map (offsets 0) counts in
  sts <- mapM (fun x : nat * (mesh_part * list nat) => let '(r, (m, b)) := x in total <- rd b (length b - 1) ;; push_couplings m (alloc r total, b)) (combine ranks (combine ms begins)) ;;
  sIndices <- mapM (fun x : nat * (list nat * (mesh_part * (list nat * (list nat * list nat)))) => let '(r, (ns, (m, (b, st)))) := x in pack_indices r ns m b st)
                   (combine ranks (combine nb (combine ms (combine begins sts)))) ;;
  rIndices <- exchange nb sIndices ;;
  sts <- mapM (fun x : nat * (list nat * (mesh_part * (list (list nat) * (list (list nat) * (list nat * list nat))))) => let '(r, (ns, (m, (rs, (ri, st))))) := x in unpack_indices r ns m rs ri st)
              (combine ranks (combine nb (combine ms (combine rSize (combine rIndices sts))))) ;;
  mapM (fun x : mesh_part * (list (nat * nat) * (list nat * (list nat * list nat))) => let '(m, (iv, (b, st))) := x in finish_pattern sort dofs m iv b st)
       (combine ms (combine intervals (combine begins sts))).
