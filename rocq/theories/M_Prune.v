(** * Model of sorting permutations, pruning subsets, pivots and trails: src/math/operations

    Index types are natural numbers (the code checks no overflow of I), allocation and timers are left out. *)
From Coq Require Import List Bool Arith.
From Verif Require Import Base M_Csx.
Import ListNotations.
Local Open Scope out_scope.

(** ** sorting_permutation.cpp *)
(** src/math/primitives_new/permutation_view_new.h:49-54 [dst[src[i]] = i] *)
Definition invert_step (src dst : list nat) (i : nat) : outcome (list nat) :=
  k <- rd src i ;; wr dst k i.
Definition invert (src dst : list nat) (size : nat) : outcome (list nat) :=
  foldM (invert_step src) (seq 0 size) dst.

(** lines 54-57: the array of (index, value) pairs; the fresh array is built by appending *)
Definition pair_step {T} (vec : list T) (a : list (nat * T)) (i : nat) : outcome (list (nat * T)) :=
  v <- rd vec i ;; Ok (a ++ [(i, v)]).

(** lines 61-63 *)
Definition index_step {T} (iv : list (nat * T)) (d : list nat) (i : nat) : outcome (list nat) :=
  x <- rd iv i ;; wr d i (fst x).

(** lines 37-69; [sort]: std::sort with the comparator [l.val < r.val] *)
Definition sorting_permutation {T} (sort : list (nat * T) -> list (nat * T)) (vec : list T) (p : perm) : outcome perm :=
  if negb (length vec =? psize p) then Fail
  else
    iv <- foldM (pair_step vec) (seq 0 (length vec)) [] ;;
    d <- foldM (index_step (sort iv)) (seq 0 (length vec)) (dst_to_src p) ;;
    s <- invert d (src_to_dst p) (psize p) ;;
    Ok (Perm d s).

(** ** pruning_subset_csx.cpp *)
(** state of the operation after setup: sizes and nnz_per_secdary *)
Record pruning := Pruning { pr_primary : nat; pr_secdary : nat; pr_counts : list nat }.

(** lines 52-53 *)
Definition prune_primary {T} (m : csx T) (rows cols : bool) : bool :=
  (rows && order_eqb (ord m) OrdR) || (cols && order_eqb (ord m) OrdC).
Definition prune_secdary {T} (m : csx T) (rows cols : bool) : bool :=
  (rows && order_eqb (ord m) OrdC) || (cols && order_eqb (ord m) OrdR).

(** lines 57-63 *)
Definition count_used {T} (m : csx T) (n ip : nat) : outcome nat :=
  b <- rd (ptrs m) ip ;;
  e <- rd (ptrs m) (ip + 1) ;;
  Ok (if 0 <? e - b then n + 1 else n).

(** lines 78-82 *)
Definition count_positive (c : list nat) (n is : nat) : outcome nat :=
  k <- rd c is ;; Ok (if 0 <? k then n + 1 else n).

(** lines 37-91 setup *)
Definition pruning_setup {T} (m : csx T) (rows cols : bool) : outcome pruning :=
  np <- (if prune_primary m rows cols then foldM (count_used m) (seq 0 (size_primary m)) 0 else Ok (size_primary m)) ;;
  if prune_secdary m rows cols then
    c <- foldM (count_step (idxs m)) (seq 0 (nnz m)) (repeat 0 (size_secdary m)) ;;
    ns <- foldM (count_positive c) (seq 0 (size_secdary m)) 0 ;;
    Ok (Pruning np ns c)
  else Ok (Pruning np (size_secdary m) []).

(** lines 96-115 get_pruned_nrows, get_pruned_ncols *)
Definition pruned_nrows {T} (m : csx T) (s : pruning) : nat := match ord m with OrdR => pr_primary s | OrdC => pr_secdary s end.
Definition pruned_ncols {T} (m : csx T) (s : pruning) : nat := match ord m with OrdR => pr_secdary s | OrdC => pr_primary s end.

(** [vals[curr_idx] = i; curr_idx++] *)
Definition append_idx (s : list nat * nat) (i : nat) : outcome (list nat * nat) :=
  v <- wr (fst s) (snd s) i ;; Ok (v, snd s + 1).

(** lines 159-166 *)
Definition list_used {T} (m : csx T) (s : list nat * nat) (ip : nat) : outcome (list nat * nat) :=
  b <- rd (ptrs m) ip ;;
  e <- rd (ptrs m) (ip + 1) ;;
  if 0 <? e - b then append_idx s ip else Ok s.

(** lines 181-186 *)
Definition list_positive (c : list nat) (s : list nat * nat) (is : nat) : outcome (list nat * nat) :=
  k <- rd c is ;; if 0 <? k then append_idx s is else Ok s.

(** lines 170-172, 190-192: identity *)
Definition identity (n : nat) (v : list nat) : outcome (list nat) := foldM (fun v i => wr v i i) (seq 0 n) v.

(** the vectors may be unset ([None]); a pruned direction needs its vector *)
Definition list_into (prune : bool) (v : option (list nat)) (n : nat) (f : list nat * nat -> nat -> outcome (list nat * nat))
  : outcome (option (list nat)) :=
  match v with
  | None => if prune then UB else Ok None
  | Some v => if prune then s <- foldM f (seq 0 n) (v, 0) ;; Ok (Some (fst s)) else i <- identity n v ;; Ok (Some i)
  end.

Definition unset {A} (v : option A) : bool := match v with None => true | Some _ => false end.

(** lines 140-197 perform; the result are the row and the column vector *)
Definition pruning_perform {T} (m : csx T) (rows cols : bool) (s : pruning) (vr vc : option (list nat))
  : outcome (option (list nat) * option (list nat)) :=
  if rows && unset vr then Fail
  else if cols && unset vc then Fail
  else
    let vp := match ord m with OrdR => vr | OrdC => vc end in
    let vs := match ord m with OrdR => vc | OrdC => vr end in
    p <- list_into (prune_primary m rows cols) vp (size_primary m) (list_used m) ;;
    q <- list_into (prune_secdary m rows cols) vs (size_secdary m) (list_positive (pr_counts s)) ;;
    Ok (match ord m with OrdR => (p, q) | OrdC => (q, p) end).

(** ** prune_csx_matx.cpp, sparse destination *)
(** lines 139-147: [inverse[vec[i]] = i] over an array of [~0]; the model fills it with [fill] *)
Definition prune_inverse (v : list nat) (n : nat) (fill : nat) : outcome (list nat) :=
  foldM (fun a i => k <- rd v i ;; wr a k i) (seq 0 (length v)) (repeat fill n).

(** lines 207-214 *)
Definition prune_ptr {T} (m : csx T) (s : list nat * nat) (ip : nat) : outcome (list nat * nat) :=
  b <- rd (ptrs m) ip ;;
  e <- rd (ptrs m) (ip + 1) ;;
  if negb (b =? e) then append_idx s b else Ok s.

(** lines 225-227 *)
Definition prune_idx (src_idxs inv dst : list nat) (i : nat) : outcome (list nat) :=
  c <- rd src_idxs i ;; k <- rd inv c ;; wr dst i k.

(** lines 196-235 perform_sparse; [inv] is the inverse of the secondary index list, [s] the sizes of setup *)
Definition prune_sparse {T} (src dst : csx T) (rows cols : bool) (s : pruning) (inv : list nat) : outcome (csx T) :=
  if negb (order_eqb (ord src) (ord dst)) then Fail
  else if negb ((nrows dst =? pruned_nrows src s) && (ncols dst =? pruned_ncols src s) && (nnz dst =? nnz src)) then Fail
  else
    p <- (if prune_primary src rows cols then
            q <- foldM (prune_ptr src) (seq 0 (size_primary src)) (ptrs dst, 0) ;; wr (fst q) (snd q) (nnz src)
          else copy_n (ptrs src) (size_primary src + 1) (ptrs dst)) ;;
    i <- (if prune_secdary src rows cols then foldM (prune_idx (idxs src) inv) (seq 0 (nnz src)) (idxs dst)
          else copy_n (idxs src) (nnz src) (idxs dst)) ;;
    v <- copy_n (vals src) (nnz src) (vals dst) ;;
    Ok (with_data dst p i v).

(** lines 105-152 preprocess, then perform_sparse.  [vr], [vc]: the index vectors; [fill] is [~I{0}] *)
Definition prune_csx {T} (src dst : csx T) (rows cols : bool) (fill : nat) (vr vc : option (list nat))
  : outcome (csx T * option (list nat) * option (list nat)) :=
  s <- pruning_setup src rows cols ;;
  if rows && unset vr then Fail
  else if cols && unset vc then Fail
  else if rows && negb (length (match vr with Some v => v | None => [] end) =? pruned_nrows src s) then Fail
  else if cols && negb (length (match vc with Some v => v | None => [] end) =? pruned_ncols src s) then Fail
  else
    l <- pruning_perform src rows cols s (if rows then vr else None) (if cols then vc else None) ;;
    let vs := match ord src with OrdR => snd l | OrdC => fst l end in
    inv <- (if prune_secdary src rows cols
            then match vs with Some v => prune_inverse v (size_secdary src) fill | None => UB end
            else Ok []) ;;
    d <- prune_sparse src dst rows cols s inv ;;
    Ok (d, fst l, snd l).

(** ** pivots_trails_csx.cpp *)
Inductive pivtrl := Pivots | Trails.
Inductive completion := CNone | CForward | CBackward.

(** lines 110-118, 134-142 *)
Definition pivtrl_step {T} (m : csx T) (k : pivtrl) (v : list nat) (ip : nat) : outcome (list nat) :=
  b <- rd (ptrs m) ip ;;
  e <- rd (ptrs m) (ip + 1) ;;
  if b =? e then wr v ip (size_secdary m)
  else x <- rd (idxs m) (match k with Pivots => b | Trails => e - 1 end) ;; wr v ip x.

(** lines 101-143 perform_pivots, perform_trails *)
Definition pivtrl_lines {T} (m : csx T) (k : pivtrl) (v : list nat) : outcome (list nat) :=
  if negb (size_primary m =? length v) then Fail
  else foldM (pivtrl_step m k) (seq 0 (size_primary m)) v.

(** lines 155-160: state (vec, curr) *)
Definition forward_step (end_val : nat) (s : list nat * nat) (ip : nat) : outcome (list nat * nat) :=
  let '(v, curr) := s in
  x <- rd v ip ;;
  below <- (if 0 <? ip then y <- rd v (ip - 1) ;; Ok (x <? y) else Ok false) ;;
  v' <- (if (x =? end_val) || below then wr v ip curr else Ok v) ;;
  c <- rd v' ip ;;
  Ok (v', c).

(** lines 149-161 *)
Definition complete_forward (v : list nat) (end_val : nat) : outcome (list nat) :=
  s <- foldM (forward_step end_val) (seq 0 (length v)) (v, 0) ;; Ok (fst s).

(** lines 172-177 *)
Definition backward_step (size end_val : nat) (s : list nat * nat) (ip : nat) : outcome (list nat * nat) :=
  let '(v, curr) := s in
  x <- rd v ip ;;
  above <- (if ip <? size - 1 then y <- rd v (ip + 1) ;; Ok (y <? x) else Ok false) ;;
  v' <- (if (x =? end_val) || above then wr v ip curr else Ok v) ;;
  c <- rd v' ip ;;
  Ok (v', c).

(** lines 166-178; the index runs from size - 1 down to 0.  [end_val - 1] is -1 in the code if end_val = 0;
    the model truncates it to 0, so nothing is claimed for end_val = 0 *)
Definition complete_backward (v : list nat) (end_val : nat) : outcome (list nat) :=
  s <- foldM (backward_step (length v) end_val) (rev (seq 0 (length v))) (v, end_val - 1) ;; Ok (fst s).

Definition change_order (o : order) : order := match o with OrdR => OrdC | OrdC => OrdR end.

(** lines 47-83 perform; [rc] selects rows or columns, [fresh] is the freshly allocated reordered matrix *)
Definition pivots_trails {T} (m fresh : csx T) (rc : order) (k : pivtrl) (c : completion) (v : list nat) : outcome (list nat) :=
  let reorder := negb (order_eqb (ord m) rc) in
  v <- (if reorder then m' <- convert_csx_csy m fresh ;; pivtrl_lines m' k v else pivtrl_lines m k v) ;;
  let end_val := if reorder then size_primary m else size_secdary m in
  match c with
  | CNone => Ok v
  | CForward => complete_forward v end_val
  | CBackward => complete_backward v end_val
  end.
