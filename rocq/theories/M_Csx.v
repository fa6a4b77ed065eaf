(** * Model of the sparse matrix operations: src/math/operations

    A compressed matrix keeps, for every index of its primary dimension (rows for order 'R',
    columns for order 'C'), a range of the arrays [idxs] and [vals]; the ranges are delimited by
    [ptrs].  Every array is a list with its allocated extent, every access is bounds-checked
    ([rd], [wr]); destination arrays are passed in as they were allocated, with arbitrary contents.

    Simplifications.  The index type I (int32_t) is modelled by [nat]: all stored values are
    positions below nnz or indices below the matrix sizes, which the interface already requires to
    be representable in I.  Only the orders 'R' and 'C' exist.  All allocators are CPU allocators,
    pointers given to the setters are not null unless an [option] is used.  stacktimer calls have no
    effect.  T is an arbitrary type. *)
From Coq Require Import List Bool Arith ZArith.
From Verif Require Import Base.
Import ListNotations.
Local Open Scope out_scope.

(** src/math/primitives_new/matrix_csx_view_new.h:24 [order], matrix_base_new.h [prop.uplo] *)
Inductive order := OrdR | OrdC.
Inductive uplo := UploNone | UploL | UploU.

Definition order_eqb (a b : order) : bool :=
  match a, b with OrdR, OrdR => true | OrdC, OrdC => true | _, _ => false end.

(** src/math/primitives_new/matrix_csx_view_new.h:17-26 *)
Record csx (T : Type) := Csx {
  nrows : nat; ncols : nat; nnz : nat;
  ord : order; upl : uplo;
  ptrs : list nat; idxs : list nat; vals : list T }.
Arguments Csx {T}. Arguments nrows {T}. Arguments ncols {T}. Arguments nnz {T}.
Arguments ord {T}. Arguments upl {T}. Arguments ptrs {T}. Arguments idxs {T}. Arguments vals {T}.

Definition with_data {T} (m : csx T) p i (v : list T) : csx T :=
  Csx (nrows m) (ncols m) (nnz m) (ord m) (upl m) p i v.

(** matrix_csx_view_new.h:50-61 get_size_primary, get_size_secdary *)
Definition size_primary {T} (m : csx T) : nat := match ord m with OrdR => nrows m | OrdC => ncols m end.
Definition size_secdary {T} (m : csx T) : nat := match ord m with OrdR => ncols m | OrdC => nrows m end.

(** std::copy_n(src, n, dst) *)
Definition copy_n {A} (src : list A) (n : nat) (dst : list A) : outcome (list A) :=
  if (n <=? length src) && (n <=? length dst) then Ok (put 0 n dst (firstn n src)) else UB.

Definition same_sizes {A B} (s : csx A) (d : csx B) : bool :=
  (nrows d =? nrows s) && (ncols d =? ncols s) && (nnz d =? nnz s).

(** ** copy_csx.cpp:36-52 *)
Definition copy_csx {T} (src dst : csx T) : outcome (csx T) :=
  if negb (same_sizes src dst) then Fail
  else if negb (order_eqb (ord src) (ord dst)) then Fail
  else
    p <- copy_n (ptrs src) (size_primary src + 1) (ptrs dst) ;;
    i <- copy_n (idxs src) (nnz src) (idxs dst) ;;
    v <- copy_n (vals src) (nnz src) (vals dst) ;;
    Ok (with_data dst p i v).

(** ** The loops shared (as text) by convert_csx_csy, convert_csx_csy_map, transpose_csx_csx_map and
       submatrix_csx_csy::perform_diff_order *)

(** [for(c = 0; c <= n; c++) dst_ptrs[c] = 0]
    convert_csx_csy.cpp:65-67, transpose_csx_csx_map.cpp:67-69, submatrix_csx_csy.cpp:234-236 *)
Definition zero_ptrs (n : nat) (p : list nat) : outcome (list nat) :=
  foldM (fun p c => wr p c 0) (seq 0 (n + 1)) p.

(** [dst_ptrs[c]++] *)
Definition incr (p : list nat) (c : nat) : outcome (list nat) :=
  k <- rd p c ;; wr p c (k + 1).

(** convert_csx_csy.cpp:70-73, transpose_csx_csx_map.cpp:72-75 *)
Definition count_step (ix p : list nat) (i : nat) : outcome (list nat) :=
  c <- rd ix i ;; incr p c.

(** convert_csx_csy.cpp:76-82, transpose_csx_csx_map.cpp:78-84, submatrix_csx_csy.cpp:255-261 *)
Definition cumsum_step (s : list nat * nat) (c : nat) : outcome (list nat * nat) :=
  tmp <- rd (fst s) c ;;
  p <- wr (fst s) c (snd s) ;;
  Ok (p, snd s + tmp).

Definition cumsum (n : nat) (p : list nat) : outcome (list nat) :=
  s <- foldM cumsum_step (seq 0 (n + 1)) (p, 0) ;; Ok (fst s).

(** convert_csx_csy.cpp:101-107, transpose_csx_csx_map.cpp:104-110, submatrix_csx_csy.cpp:286-292 *)
Definition shift_step (s : list nat * nat) (c : nat) : outcome (list nat * nat) :=
  tmp <- rd (fst s) c ;;
  p <- wr (fst s) c (snd s) ;;
  Ok (p, tmp).

Definition shift (n : nat) (p : list nat) : outcome (list nat) :=
  s <- foldM shift_step (seq 0 (n + 1)) (p, 0) ;; Ok (fst s).

(** [i_dst = dst_ptrs[c]; dst_ptrs[c]++; dst_idxs[i_dst] = a; dst_vals[i_dst] = b]
    convert_csx_csy.cpp:93-96, transpose_csx_csx_map.cpp:95-99, submatrix_csx_csy.cpp:276-280 *)
Definition place {A B} (s : list nat * list A * list B) (c : nat) (a : A) (b : B)
  : outcome (list nat * list A * list B) :=
  let '(p, la, lb) := s in
  i <- rd p c ;;
  p' <- wr p c (i + 1) ;;
  la' <- wr la i a ;;
  lb' <- wr lb i b ;;
  Ok (p', la', lb').

(** ** convert_csx_csy.cpp:35-110 *)
(** lines 91-96 *)
Definition convert_entry {T} (src : csx T) (r : nat) (s : list nat * list nat * list T) (i : nat) :=
  c <- rd (idxs src) i ;;
  v <- rd (vals src) i ;;
  place s c r v.

(** lines 87-97 *)
Definition convert_row {T} (src : csx T) (s : list nat * list nat * list T) (r : nat) :=
  b <- rd (ptrs src) r ;;
  e <- rd (ptrs src) (r + 1) ;;
  foldM (convert_entry src r) (seq b (e - b)) s.

Definition convert_csx_csy {T} (src dst : csx T) : outcome (csx T) :=
  if negb (same_sizes src dst) then Fail
  else if order_eqb (ord src) (ord dst) then copy_csx src dst
  else
    let nr := size_primary src in
    let nc := size_secdary src in
    p <- zero_ptrs nc (ptrs dst) ;;
    p <- foldM (count_step (idxs src)) (seq 0 (nnz src)) p ;;
    p <- cumsum nc p ;;
    s <- foldM (convert_row src) (seq 0 nr) (p, idxs dst, vals dst) ;;
    let '(p, i, v) := s in
    p <- shift nc p ;;
    Ok (with_data dst p i v).

(** ** transpose_csx_csx_map.cpp:36-137 and convert_csx_csy_map.cpp:36-132
    The map is a freshly allocated array of nnz positions; [mp0] is its initial contents.
    [perform_pattern] does not touch the values, [perform_values] reads the map only. *)
(** transpose_csx_csx_map.cpp:94-99, convert_csx_csy_map.cpp:97-101 *)
Definition map_entry {T} (src : csx T) (r : nat) (s : list nat * list nat * list nat) (i : nat) :=
  c <- rd (idxs src) i ;;
  place s c r i.

(** transpose_csx_csx_map.cpp:87-101, convert_csx_csy_map.cpp:91-103 *)
Definition map_row {T} (src : csx T) (s : list nat * list nat * list nat) (r : nat) :=
  b <- rd (ptrs src) r ;;
  e <- rd (ptrs src) (r + 1) ;;
  foldM (map_entry src r) (seq b (e - b)) s.

(** common body: transpose_csx_csx_map.cpp:51-110 (n = dst_nrows), convert_csx_csy_map.cpp:57-112 *)
Definition map_pattern {T} (src dst : csx T) (n : nat) (mp0 : list nat) : outcome (csx T * list nat) :=
  p <- zero_ptrs n (ptrs dst) ;;
  p <- foldM (count_step (idxs src)) (seq 0 (nnz src)) p ;;
  p <- cumsum n p ;;
  s <- foldM (map_row src) (seq 0 (size_primary src)) (p, idxs dst, mp0) ;;
  let '(p, i, mp) := s in
  p <- shift n p ;;
  Ok (with_data dst p i (vals dst), mp).

(** transpose_csx_csx_map.cpp:41-47 *)
Definition transpose_pattern {T} (src dst : csx T) (mp0 : list nat) : outcome (csx T * list nat) :=
  if negb (order_eqb (ord src) (ord dst)) then Fail
  else if negb ((nrows dst =? ncols src) && (ncols dst =? nrows src) && (nnz dst =? nnz src)) then Fail
  else map_pattern src dst (size_primary dst) mp0.

(** transpose_csx_csx_map.cpp:131-134: [dst_vals[i_dst] = src_vals[map_vals[i_dst]]] *)
Definition value_step {T} (sv : list T) (mp : list nat) (dv : list T) (i : nat) : outcome (list T) :=
  j <- rd mp i ;;
  v <- rd sv j ;;
  wr dv i v.

(** transpose_csx_csx_map.cpp:120-137, permute_csx_csx_map.cpp:113-122 perform_values *)
Definition map_values {T} (src dst : csx T) (mp : list nat) : outcome (csx T) :=
  v <- foldM (value_step (vals src) mp) (seq 0 (nnz src)) (vals dst) ;;
  Ok (with_data dst (ptrs dst) (idxs dst) v).

(** ** permute_csx_csx.cpp *)
(** src/math/primitives_new/permutation_view_new.h:15-20 *)
Record perm := Perm { dst_to_src : list nat; src_to_dst : list nat }.

Definition psize (p : perm) : nat := length (dst_to_src p).

(** [dst_idxs[i_dst] = a; dst_vals[i_dst] = v; i_dst++] *)
Definition emit {T} (s : list nat * list T * nat) (a : nat) (v : T) : outcome (list nat * list T * nat) :=
  let '(ix, vs, k) := s in
  ix' <- wr ix k a ;;
  vs' <- wr vs k v ;;
  Ok (ix', vs', k + 1).

(** lines 136-142 *)
Definition primary_entry {T} (src : csx T) (s : list nat * list T * nat) (i : nat) :=
  a <- rd (idxs src) i ;;
  v <- rd (vals src) i ;;
  emit s a v.

(** lines 131-143 *)
Definition primary_row {T} (src : csx T) (p : perm) (s : list nat * (list nat * list T * nat)) (ipd : nat) :=
  let '(pt, st) := s in
  pt' <- wr pt ipd (snd st) ;;
  ips <- rd (dst_to_src p) ipd ;;
  b <- rd (ptrs src) ips ;;
  e <- rd (ptrs src) (ips + 1) ;;
  st' <- foldM (primary_entry src) (seq b (e - b)) st ;;
  Ok (pt', st').

(** lines 119-145 *)
Definition perform_primary {T} (src dst : csx T) (p : perm) : outcome (csx T) :=
  s <- foldM (primary_row src p) (seq 0 (size_primary src)) (ptrs dst, (idxs dst, vals dst, 0)) ;;
  let '(pt, (ix, vs, k)) := s in
  pt' <- wr pt (size_primary src) k ;;
  Ok (with_data dst pt' ix vs).

(** lines 163-169 (and 212-218): length of the temporary *)
Definition longest_step {T} (src : csx T) (m ip : nat) : outcome nat :=
  b <- rd (ptrs src) ip ;;
  e <- rd (ptrs src) (ip + 1) ;;
  Ok (Nat.max m (e - b)).

(** lines 180-185 (and 232-237): the row with new indices is written to the temporary of [len]
    elements; the elements are collected in a list, writing past [len] is undefined *)
Definition gather_entry {T} (src : csx T) (p : perm) (len : nat) (acc : list (nat * T)) (i : nat) :=
  iss <- rd (idxs src) i ;;
  isd <- rd (src_to_dst p) iss ;;
  v <- rd (vals src) i ;;
  if length acc <? len then Ok (acc ++ [(isd, v)]) else UB.

Section Sorting.
Context {T : Type}.
(** std::sort of the temporary with the comparator [l.isd < r.isd] *)
Variable sort : list (nat * T) -> list (nat * T).

(** [dst_idxs[i] = ...; dst_vals[i] = ...] lines 187-192 *)
Definition put_entry (s : list nat * list T * nat) (x : nat * T) := emit s (fst x) (snd x).

(** lines 178-192: the destination position is the source position *)
Definition secdary_row (src : csx T) (p : perm) (len : nat) (s : list nat * list T) (ip : nat) :=
  b <- rd (ptrs src) ip ;;
  e <- rd (ptrs src) (ip + 1) ;;
  l <- foldM (gather_entry src p len) (seq b (e - b)) [] ;;
  st <- foldM put_entry (sort l) (fst s, snd s, b) ;;
  Ok (fst (fst st), snd (fst st)).

(** lines 150-196 *)
Definition perform_secdary (src dst : csx T) (p : perm) : outcome (csx T) :=
  pt <- copy_n (ptrs src) (size_primary src + 1) (ptrs dst) ;;
  len <- foldM (longest_step src) (seq 0 (size_primary src)) 0 ;;
  s <- foldM (secdary_row src p len) (seq 0 (size_primary src)) (idxs dst, vals dst) ;;
  Ok (with_data dst pt (fst s) (snd s)).

(** lines 227-246 *)
Definition both_row (src : csx T) (pp ps : perm) (len : nat) (s : list nat * (list nat * list T * nat)) (ipd : nat) :=
  let '(pt, st) := s in
  pt' <- wr pt ipd (snd st) ;;
  ips <- rd (dst_to_src pp) ipd ;;
  b <- rd (ptrs src) ips ;;
  e <- rd (ptrs src) (ips + 1) ;;
  l <- foldM (gather_entry src ps len) (seq b (e - b)) [] ;;
  st' <- foldM put_entry (sort l) st ;;
  Ok (pt', st').

(** lines 201-250 *)
Definition perform_both (src dst : csx T) (pp ps : perm) : outcome (csx T) :=
  len <- foldM (longest_step src) (seq 0 (size_primary src)) 0 ;;
  s <- foldM (both_row src pp ps len) (seq 0 (size_primary src)) (ptrs dst, (idxs dst, vals dst, 0)) ;;
  let '(pt, (ix, vs, k)) := s in
  pt' <- wr pt (size_primary src) k ;;
  Ok (with_data dst pt' ix vs).

Definition is_uplo (u : uplo) : bool := match u with UploNone => false | _ => true end.

Definition wrong_perm (p : option perm) (n : nat) : bool :=
  match p with None => false | Some p => negb (psize p =? n) end.

(** lines 57-101; [None] is the null pointer *)
Definition permute_csx_csx (src dst : csx T) (rows cols : option perm) : outcome (csx T) :=
  if negb (order_eqb (ord src) (ord dst)) then Fail
  else if is_uplo (upl src) || is_uplo (upl dst) then Fail
  else if negb (same_sizes src dst) then Fail
  else if wrong_perm rows (nrows src) then Fail
  else if wrong_perm cols (ncols src) then Fail
  else match rows, cols with
  | None, None => copy_csx src dst
  | Some p, None =>
    match ord src with OrdR => perform_primary src dst p | OrdC => perform_secdary src dst p end
  | None, Some p =>
    match ord src with OrdR => perform_secdary src dst p | OrdC => perform_primary src dst p end
  | Some p, Some q =>
    match ord src with OrdR => perform_both src dst p q | OrdC => perform_both src dst q p end
  end.
End Sorting.

(** ** submatrix_csx_csy.cpp *)
(** [while(i < end && idxs[i] < lim) i++], [n] is the number of positions left in the row *)
Fixpoint skip_below (ix : list nat) (lim n i : nat) : outcome nat :=
  match n with
  | 0 => Ok i
  | S n' => c <- rd ix i ;; if c <? lim then skip_below ix lim n' (i + 1) else Ok i
  end.

(** [while(i < end && (iss = idxs[i]) < lim) { f; i++; }] *)
Fixpoint while_below {S} (ix : list nat) (lim : nat) (f : S -> nat -> nat -> outcome S) (n i : nat) (s : S) : outcome S :=
  match n with
  | 0 => Ok s
  | Datatypes.S n' =>
    c <- rd ix i ;;
    if c <? lim then s' <- f s i c ;; while_below ix lim f n' (i + 1) s' else Ok s
  end.

(** one row of the window; lines 72-81, 181-202, 240-251, 266-282 *)
Definition window_row {S T} (src : csx T) (lo hi : nat) (f : S -> nat -> nat -> outcome S) (s : S) (ip : nat) : outcome S :=
  b <- rd (ptrs src) ip ;;
  e <- rd (ptrs src) (ip + 1) ;;
  i <- skip_below (idxs src) lo (e - b) b ;;
  while_below (idxs src) hi f (e - i) i s.

Record window := Window { row_start : nat; row_end : nat; col_start : nat; col_end : nat }.

(** lines 53-64, 156-167, 228-231 *)
Definition start_prim {T} (m : csx T) (w : window) := match ord m with OrdR => row_start w | OrdC => col_start w end.
Definition end_prim {T} (m : csx T) (w : window) := match ord m with OrdR => row_end w | OrdC => col_end w end.
Definition start_sec {T} (m : csx T) (w : window) := match ord m with OrdR => col_start w | OrdC => row_start w end.
Definition end_sec {T} (m : csx T) (w : window) := match ord m with OrdR => col_end w | OrdC => row_end w end.

Definition prims {T} (m : csx T) (w : window) : list nat := seq (start_prim m w) (end_prim m w - start_prim m w).

(** lines 40-87 and 92-97 setup, get_output_matrix_nnz *)
Definition submatrix_setup {T} (src : csx T) (w : window) : outcome nat :=
  if (row_end w <? row_start w) || (nrows src <? row_end w) || (col_end w <? col_start w) || (ncols src <? col_end w)
  then Fail
  else foldM (window_row src (start_sec src w) (end_sec src w) (fun n _ _ => Ok (n + 1))) (prims src w) 0.

(** lines 196-200 *)
Definition sub_entry {T} (src : csx T) (lo : nat) (s : list nat * list T * nat) (i iss : nat) :=
  v <- rd (vals src) i ;; emit s (iss - lo) v.

(** lines 177-203 *)
Definition sub_row {T} (src : csx T) (w : window) (s : list nat * (list nat * list T * nat)) (ips : nat) :=
  let '(pt, st) := s in
  pt' <- wr pt (ips - start_prim src w) (snd st) ;;
  st' <- window_row src (start_sec src w) (end_sec src w) (sub_entry src (start_sec src w)) st ips ;;
  Ok (pt', st').

(** lines 148-205 *)
Definition submatrix_same {T} (src dst : csx T) (w : window) (nnz_output : nat) : outcome (csx T) :=
  s <- foldM (sub_row src w) (prims src w) (ptrs dst, (idxs dst, vals dst, 0)) ;;
  let '(pt, (ix, vs, _)) := s in
  pt' <- wr pt (size_primary dst) nnz_output ;;
  Ok (with_data dst pt' ix vs).

(** lines 274-281 *)
Definition sub_place {T} (src : csx T) (w : window) (ips : nat) (s : list nat * list nat * list T) (i iss : nat) :=
  v <- rd (vals src) i ;;
  place s (iss - start_sec src w) (ips - start_prim src w) v.

(** lines 210-293 *)
Definition submatrix_diff {T} (src dst : csx T) (w : window) : outcome (csx T) :=
  let n := size_primary dst in
  let lo := start_sec src w in
  let hi := end_sec src w in
  p <- zero_ptrs n (ptrs dst) ;;
  p <- foldM (window_row src lo hi (fun p _ iss => incr p (iss - lo))) (prims src w) p ;;
  p <- cumsum n p ;;
  s <- foldM (fun s ips => window_row src lo hi (sub_place src w ips) s ips) (prims src w) (p, idxs dst, vals dst) ;;
  let '(p, i, v) := s in
  p <- shift n p ;;
  Ok (with_data dst p i v).

(** lines 112-130, after [setup] returned [nnz_output] *)
Definition submatrix_perform {T} (src dst : csx T) (w : window) (nnz_output : nat) : outcome (csx T) :=
  if negb ((nrows dst =? row_end w - row_start w) && (ncols dst =? col_end w - col_start w)) then Fail
  else if negb (nnz dst =? nnz_output) then Fail
  else if order_eqb (ord src) (ord dst) then submatrix_same src dst w nnz_output
  else submatrix_diff src dst w.

(** ** quadrisect_csx_csy.cpp:37-152: four sub-matrices of the source *)
Definition win11 {T} (m : csx T) (rc cc : nat) := Window 0 rc 0 cc.
Definition win12 {T} (m : csx T) (rc cc : nat) := Window 0 rc cc (ncols m).
Definition win21 {T} (m : csx T) (rc cc : nat) := Window rc (nrows m) 0 cc.
Definition win22 {T} (m : csx T) (rc cc : nat) := Window rc (nrows m) cc (ncols m).

(** lines 38-67; the result are the four numbers get_output_matrix_.._nnz *)
Definition quadrisect_setup {T} (src : csx T) (rc cc : nat) : outcome (nat * nat * nat * nat) :=
  if (nrows src <? rc) || (ncols src <? cc) then Fail
  else
    n11 <- submatrix_setup src (win11 src rc cc) ;;
    n12 <- submatrix_setup src (win12 src rc cc) ;;
    n21 <- submatrix_setup src (win21 src rc cc) ;;
    n22 <- submatrix_setup src (win22 src rc cc) ;;
    Ok (n11, n12, n21, n22).

(** lines 139-142 *)
Definition wrong_size {T} (m : csx T) (nr nc n : nat) : bool :=
  negb ((nrows m =? nr) && (ncols m =? nc) && (nnz m =? n)).

(** lines 132-152; all four destinations are set *)
Definition quadrisect_perform {T} (src d11 d12 d21 d22 : csx T) (rc cc : nat) (n : nat * nat * nat * nat)
  : outcome (csx T * csx T * csx T * csx T) :=
  let '(n11, n12, n21, n22) := n in
  if wrong_size d11 rc cc n11 then Fail
  else if wrong_size d12 rc (ncols src - cc) n12 then Fail
  else if wrong_size d21 (nrows src - rc) cc n21 then Fail
  else if wrong_size d22 (nrows src - rc) (ncols src - cc) n22 then Fail
  else
    r11 <- submatrix_perform src d11 (win11 src rc cc) n11 ;;
    r12 <- submatrix_perform src d12 (win12 src rc cc) n12 ;;
    r21 <- submatrix_perform src d21 (win21 src rc cc) n21 ;;
    r22 <- submatrix_perform src d22 (win22 src rc cc) n22 ;;
    Ok (r11, r12, r21, r22).

(** ** concat_csx.cpp:40-169 *)
Definition opt_nnz {T} (m : option (csx T)) : nat := match m with None => 0 | Some m => nnz m end.

(** lines 57-87: (nrows_top, nrows_bot, ncols_left, ncols_right).  A size_t subtraction wraps only if
    a block is larger than the result; the model truncates it to zero instead *)
Definition concat_sizes {T} (a11 a12 a21 a22 : option (csx T)) (a : csx T) : outcome (nat * nat * nat * nat) :=
  match a11, a12, a21, a22 with
  | Some m, _, _, _ => Ok (nrows m, nrows a - nrows m, ncols m, ncols a - ncols m)
  | None, Some m, _, _ => Ok (nrows m, nrows a - nrows m, ncols a - ncols m, ncols m)
  | None, None, Some m, _ => Ok (nrows a - nrows m, nrows m, ncols m, ncols a - ncols m)
  | None, None, None, Some m => Ok (nrows a - nrows m, nrows m, ncols a - ncols m, ncols m)
  | None, None, None, None => Fail
  end.

(** lines 88-91 *)
Definition block_ok {T} (m : option (csx T)) (nr nc : nat) : bool :=
  match m with None => true | Some m => (nrows m =? nr) && (ncols m =? nc) end.

Definition change_order (o : order) : order := match o with OrdR => OrdC | OrdC => OrdR end.

(** lines 103-126: a block of the other order is converted into a fresh matrix.  [fresh n k] gives
    the contents of freshly allocated arrays *)
Definition concat_convert {T} (fresh_i : nat -> list nat) (fresh_v : nat -> list T) (m : option (csx T)) (o : order)
  : outcome (option (csx T)) :=
  match m with
  | None => Ok None
  | Some m =>
    if order_eqb (ord m) o then Ok (Some m)
    else
      let np := match o with OrdR => nrows m | OrdC => ncols m end in
      t <- convert_csx_csy m (Csx (nrows m) (ncols m) (nnz m) o UploNone (fresh_i (np + 1)) (fresh_i (nnz m)) (fresh_v (nnz m))) ;;
      Ok (Some t)
  end.

(** lines 142-149 *)
Definition part_entry {T} (m : csx T) (off : nat) (s : list nat * list T * nat) (i : nat) :=
  iss <- rd (idxs m) i ;;
  v <- rd (vals m) i ;;
  emit s (iss + off) v.

(** lines 137-151 incorporate_matrix_part *)
Definition incorporate {T} (m : option (csx T)) (ipd offp offs : nat) (s : list nat * list T * nat) :=
  match m with
  | None => Ok s
  | Some m =>
    let ips := ipd - offp in
    b <- rd (ptrs m) ips ;;
    e <- rd (ptrs m) (ips + 1) ;;
    foldM (part_entry m offs) (seq b (e - b)) s
  end.

(** lines 153-165 *)
Definition concat_row {T} (o : order) (a11 a12 a21 a22 : option (csx T)) (mp ms : nat)
  (s : list nat * (list nat * list T * nat)) (ipd : nat) :=
  let '(pt, st) := s in
  pt' <- wr pt ipd (snd st) ;;
  st' <- (if ipd <? mp then
            st1 <- incorporate a11 ipd 0 0 st ;;
            incorporate (match o with OrdR => a12 | OrdC => a21 end) ipd 0 ms st1
          else
            st1 <- incorporate (match o with OrdR => a21 | OrdC => a12 end) ipd mp 0 st ;;
            incorporate a22 ipd mp ms st1) ;;
  Ok (pt', st').

Definition concat_csx {T} (fresh_i : nat -> list nat) (fresh_v : nat -> list T)
  (a11 a12 a21 a22 : option (csx T)) (a : csx T) : outcome (csx T) :=
  if negb (opt_nnz a11 + opt_nnz a12 + opt_nnz a21 + opt_nnz a22 =? nnz a) then Fail
  else
    z <- concat_sizes a11 a12 a21 a22 a ;;
    let '(nt, nb, cl, cr) := z in
    if negb (block_ok a11 nt cl && block_ok a12 nt cr && block_ok a21 nb cl && block_ok a22 nb cr) then Fail
    else
      b11 <- concat_convert fresh_i fresh_v a11 (ord a) ;;
      b12 <- concat_convert fresh_i fresh_v a12 (ord a) ;;
      b21 <- concat_convert fresh_i fresh_v a21 (ord a) ;;
      b22 <- concat_convert fresh_i fresh_v a22 (ord a) ;;
      let mp := match ord a with OrdR => nt | OrdC => cl end in
      let ms := match ord a with OrdR => cl | OrdC => nt end in
      s <- foldM (concat_row (ord a) b11 b12 b21 b22 mp ms) (seq 0 (size_primary a)) (ptrs a, (idxs a, vals a, 0)) ;;
      let '(pt, (ix, vs, k)) := s in
      pt' <- wr pt (size_primary a) k ;;
      Ok (with_data a pt' ix vs).
