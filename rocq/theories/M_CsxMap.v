(** * Model of the sparse operations that keep a map of value positions: src/math/operations *_map.cpp

    [perform_pattern] computes pointers, indices and the map; [perform_values] copies values through
    the map and may be called repeatedly with new source values.  [mp0] is the initial contents of the
    freshly allocated map. Simplifications as in M_Csx.v. *)
From Coq Require Import List Bool Arith.
From Verif Require Import Base M_Csx.
Import ListNotations.
Local Open Scope out_scope.

(** values are copied by [n] steps of [dst_vals[i] = src_vals[map[i]]]
    submatrix_csx_csy_map.cpp:153-156 (n = nnz_output) *)
Definition copy_values {T} (src dst : csx T) (mp : list nat) (n : nat) : outcome (csx T) :=
  v <- foldM (value_step (vals src) mp) (seq 0 n) (vals dst) ;;
  Ok (with_data dst (ptrs dst) (idxs dst) v).

(** ** convert_csx_csy_map.cpp *)
(** lines 37-118; with equal orders the map stays unallocated (empty) *)
Definition convert_map_pattern {T} (src dst : csx T) (mp0 : list nat) : outcome (csx T * list nat) :=
  if negb (same_sizes src dst) then Fail
  else if order_eqb (ord src) (ord dst) then
    p <- copy_n (ptrs src) (size_primary src + 1) (ptrs dst) ;;
    i <- copy_n (idxs src) (nnz src) (idxs dst) ;;
    Ok (with_data dst p i (vals dst), [])
  else map_pattern src dst (size_secdary src) mp0.

(** lines 123-150 *)
Definition convert_map_values {T} (src dst : csx T) (mp : list nat) : outcome (csx T) :=
  if negb (same_sizes src dst) then Fail
  else if order_eqb (ord src) (ord dst) then
    v <- copy_n (vals src) (nnz src) (vals dst) ;;
    Ok (with_data dst (ptrs dst) (idxs dst) v)
  else map_values src dst mp.

(** ** submatrix_csx_csy_map.cpp; set_bounds and setup (lines 26-94) are the text of submatrix_csx_csy *)
(** lines 228-238 *)
Definition sub_map_entry (lo : nat) (s : list nat * list nat * nat) (i iss : nat) := emit s (iss - lo) i.

(** lines 214-239 *)
Definition sub_map_row {T} (src : csx T) (w : window) (s : list nat * (list nat * list nat * nat)) (ips : nat) :=
  let '(pt, st) := s in
  pt' <- wr pt (ips - start_prim src w) (snd st) ;;
  st' <- window_row src (start_sec src w) (end_sec src w) (sub_map_entry (start_sec src w)) st ips ;;
  Ok (pt', st').

(** lines 187-241 perform_pattern_same_order *)
Definition sub_map_same {T} (src dst : csx T) (w : window) (mp0 : list nat) (nnz_output : nat) : outcome (csx T * list nat) :=
  s <- foldM (sub_map_row src w) (prims src w) (ptrs dst, (idxs dst, mp0, 0)) ;;
  let '(pt, (ix, mp, _)) := s in
  pt' <- wr pt (size_primary dst) nnz_output ;;
  Ok (with_data dst pt' ix (vals dst), mp).

(** lines 307-315 *)
Definition sub_map_place {T} (src : csx T) (w : window) (ips : nat) (s : list nat * list nat * list nat) (i iss : nat) :=
  place s (iss - start_sec src w) (ips - start_prim src w) i.

(** lines 246-326 perform_pattern_diff_order *)
Definition sub_map_diff {T} (src dst : csx T) (w : window) (mp0 : list nat) : outcome (csx T * list nat) :=
  let n := size_primary dst in
  let lo := start_sec src w in
  let hi := end_sec src w in
  p <- zero_ptrs n (ptrs dst) ;;
  p <- foldM (window_row src lo hi (fun p _ iss => incr p (iss - lo))) (prims src w) p ;;
  p <- cumsum n p ;;
  s <- foldM (fun s ips => window_row src lo hi (sub_map_place src w ips) s ips) (prims src w) (p, idxs dst, mp0) ;;
  let '(p, i, mp) := s in
  p <- shift n p ;;
  Ok (with_data dst p i (vals dst), mp).

(** lines 116-139 *)
Definition sub_map_pattern {T} (src dst : csx T) (w : window) (mp0 : list nat) (nnz_output : nat) : outcome (csx T * list nat) :=
  if negb ((nrows dst =? row_end w - row_start w) && (ncols dst =? col_end w - col_start w)) then Fail
  else if negb (nnz dst =? nnz_output) then Fail
  else if order_eqb (ord src) (ord dst) then sub_map_same src dst w mp0 nnz_output
  else sub_map_diff src dst w mp0.

(** ** permute_csx_csx_map.cpp:55-109 *)
Definition uplo_eqb (a b : uplo) : bool :=
  match a, b with UploNone, UploNone => true | UploL, UploL => true | UploU, UploU => true | _, _ => false end.

(** line 70: [((M_dst->order == 'R') == (M_dst->prop.uplo == 'L'))] *)
Definition triangle_toggle (o : order) (u : uplo) : bool :=
  Bool.eqb (order_eqb o OrdR) (uplo_eqb u UploL).

(** lines 81, 84: index in the destination *)
Definition perm_rd (p : option perm) (i : nat) : outcome nat :=
  match p with None => Ok i | Some p => rd (src_to_dst p) i end.

(** out_data[r].push_back(x) *)
Definition push_back {A} (o : list (list A)) (r : nat) (x : A) : outcome (list (list A)) :=
  l <- rd o r ;; wr o r (l ++ [x]).

(** lines 82-87 *)
Definition scatter_entry {T} (src : csx T) (ps : option perm) (tri toggle : bool) (ipd : nat)
  (o : list (list (nat * nat))) (i : nat) :=
  iss <- rd (idxs src) i ;;
  isd <- perm_rd ps iss ;;
  if negb tri || Bool.eqb (isd <? ipd) toggle then push_back o ipd (isd, i) else push_back o isd (ipd, i).

(** lines 78-88 *)
Definition scatter_row {T} (src : csx T) (pp ps : option perm) (tri toggle : bool) (o : list (list (nat * nat))) (ips : nat) :=
  b <- rd (ptrs src) ips ;;
  e <- rd (ptrs src) (ips + 1) ;;
  ipd <- perm_rd pp ips ;;
  foldM (scatter_entry src ps tri toggle ipd) (seq b (e - b)) o.

(** lines 98-105: the line of [ipd] after sorting *)
Definition write_row (o : list (list (nat * nat))) (s : list nat * (list nat * list nat * nat)) (ipd : nat) :=
  let '(pt, st) := s in
  pt' <- wr pt ipd (snd st) ;;
  l <- rd o ipd ;;
  st' <- foldM (fun st x => emit st (fst x) (snd x)) l st ;;
  Ok (pt', st').

(** [sort]: std::sort with the comparator [l.isd < r.isd] *)
Definition permute_map_pattern {T} (sort : list (nat * nat) -> list (nat * nat)) (src dst : csx T) (rows cols : option perm)
  (mp0 : list nat) : outcome (csx T * list nat) :=
  if negb (order_eqb (ord src) (ord dst)) then Fail
  else if negb (uplo_eqb (upl src) (upl dst)) then Fail
  else if negb (same_sizes src dst) then Fail
  else if wrong_perm rows (nrows src) then Fail
  else if wrong_perm cols (ncols src) then Fail
  else
    let tri := is_uplo (upl src) in
    let toggle := triangle_toggle (ord dst) (upl dst) in
    let pp := match ord src with OrdR => rows | OrdC => cols end in
    let ps := match ord src with OrdR => cols | OrdC => rows end in
    o <- foldM (scatter_row src pp ps tri toggle) (seq 0 (size_primary src)) (repeat [] (size_primary dst)) ;;
    s <- foldM (write_row (map sort o)) (seq 0 (size_primary dst)) (ptrs dst, (idxs dst, mp0, 0)) ;;
    let '(pt, (ix, mp, k)) := s in
    pt' <- wr pt (size_primary dst) k ;;
    Ok (with_data dst pt' ix (vals dst), mp).

(** ** complete_csx_csy_map.cpp *)
(** lines 53-62 *)
Definition diag_entry {T} (src : csx T) (ip n i : nat) : outcome nat :=
  is <- rd (idxs src) i ;; Ok (if ip =? is then n + 1 else n).
Definition diag_row {T} (src : csx T) (n ip : nat) : outcome nat :=
  b <- rd (ptrs src) ip ;;
  e <- rd (ptrs src) (ip + 1) ;;
  foldM (diag_entry src ip) (seq b (e - b)) n.

(** lines 44-69 get_dst_nnz *)
Definition complete_nnz {T} (src : csx T) : outcome nat :=
  diag <- foldM (diag_row src) (seq 0 (size_primary src)) 0 ;;
  Ok (2 * (nnz src - diag) + diag).

(** lines 93-106: an entry (r, c, i) is ((r, c), i) *)
Definition mirror_entry {T} (src : csx T) (row : nat) (acc : list (nat * nat * nat)) (i : nat) : outcome (list (nat * nat * nat)) :=
  col <- rd (idxs src) i ;;
  Ok (acc ++ (row, col, i) :: (if row =? col then [] else [(col, row, i)])).
Definition mirror_row {T} (src : csx T) (acc : list (nat * nat * nat)) (row : nat) :=
  b <- rd (ptrs src) row ;;
  e <- rd (ptrs src) (row + 1) ;;
  foldM (mirror_entry src row) (seq b (e - b)) acc.

(** lines 117-120: [while(prev_r != r) { prev_r++; ptrs[prev_r] = i; }] with [np = prev_r + 1].
    The loop leaves the array before the fuel [length p + 1] is used up *)
Fixpoint advance (fuel np r i : nat) (p : list nat) : outcome (nat * list nat) :=
  if np =? r + 1 then Ok (np, p)
  else match fuel with
  | 0 => UB
  | S f => p' <- wr p np i ;; advance f (np + 1) r i p'
  end.

(** lines 115-123: state (np, ptrs, idxs, map, i) *)
Definition complete_step (s : nat * list nat * (list nat * list nat * nat)) (x : nat * nat * nat) :=
  let '(np, p, st) := s in
  q <- advance (length p + 1) np (fst (fst x)) (snd st) p ;;
  st' <- emit st (snd (fst x)) (snd x) ;;
  Ok (fst q, snd q, st').

(** lines 74-129 perform_pattern; [sort]: std::sort by (r, c) *)
Definition complete_pattern {T} (sort : list (nat * nat * nat) -> list (nat * nat * nat)) (src dst : csx T) (mp0 : list nat)
  : outcome (csx T * list nat) :=
  if negb ((nrows src =? ncols src) && (nrows dst =? ncols dst)) then Fail
  else if negb (nrows src =? nrows dst) then Fail
  else if negb (is_uplo (upl src)) then Fail
  else if is_uplo (upl dst) then Fail
  else
    l <- foldM (mirror_row src) (seq 0 (size_primary src)) [] ;;
    if negb (length l =? nnz dst) then Fail
    else
      s <- foldM complete_step (sort l) (0, ptrs dst, (idxs dst, mp0, 0)) ;;
      let '(np, p, (ix, mp, k)) := s in
      p' <- wr p (size_primary dst) (nnz dst) ;;
      Ok (with_data dst p' ix (vals dst), mp).

(** lines 147-157 *)
Definition conj_entry {T} (conj : T -> T) (dst : csx T) (toggle : bool) (ip : nat) (v : list T) (i : nat) : outcome (list T) :=
  is <- rd (idxs dst) i ;;
  if Bool.eqb (ip <? is) toggle then x <- rd v i ;; wr v i (conj x) else Ok v.
Definition conj_row {T} (conj : T -> T) (dst : csx T) (toggle : bool) (v : list T) (ip : nat) : outcome (list T) :=
  b <- rd (ptrs dst) ip ;;
  e <- rd (ptrs dst) (ip + 1) ;;
  foldM (conj_entry conj dst toggle ip) (seq b (e - b)) v.

(** line 145 *)
Definition conj_toggle {T} (src dst : csx T) : bool :=
  Bool.eqb (Bool.eqb (order_eqb (ord src) (ord dst)) (order_eqb (ord dst) OrdR)) (uplo_eqb (upl src) UploL).

(** lines 134-162 perform_values; [conj = None]: real T or do_conj not set *)
Definition complete_values {T} (conj : option (T -> T)) (src dst : csx T) (mp : list nat) : outcome (csx T) :=
  v <- foldM (value_step (vals src) mp) (seq 0 (nnz dst)) (vals dst) ;;
  v <- match conj with
       | None => Ok v
       | Some c => foldM (conj_row c dst (conj_toggle src dst)) (seq 0 (size_primary dst)) v
       end ;;
  Ok (with_data dst (ptrs dst) (idxs dst) v).
