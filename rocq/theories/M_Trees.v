(** * Model of the space partitioning trees

    /repo/src/basis/structures/kdtree.{h,cpp} and /repo/src/basis/structures/intervaltree.{h,cpp}.

    Coordinates are integers: the code only compares them, and every finite double is an integer multiple of 2^-1074.
    (NaNs are not modelled.)  The dimension in which a level is split is computed by the code from the bounding box
    (kdtree.cpp:59-60, intervaltree.cpp:47-48); the model takes it as an arbitrary function [dim] of the level.
    [std::nth_element] and [std::sort] are parameters, one behaviour for each call (calls are identified by the node).
    [order ll] is the order in which the iterations of the parallel loop of level [ll] run.
    Indices are natural numbers: esint overflow is not modelled. *)
From Coq Require Import ZArith List Bool Arith.
From Verif Require Import Base.
Import ListNotations.
Local Open Scope out_scope.
Local Open Scope nat_scope.

Definition point : Type := Z * Z * Z.
(** point.h: operator[] *)
Definition coord (p : point) (d : nat) : Z :=
  let '(x, y, z) := p in match d with 0 => x | 1 => y | _ => z end.

(** coordinates[i][d] *)
Definition getc (pts : list point) (d i : nat) : outcome Z := p <- rd pts i ;; Ok (coord p d).

(** splitter of a node; the interval tree calls the value [end] and has also [start]
    (kdtree.h:13-17, intervaltree.h:11-15) *)
Record splitter := { s_d : nat; s_index : nat; s_value : Z; s_start : Z }.
(** value initialised by [splitters.resize] *)
Definition splitter0 := {| s_d := 0; s_index := 0; s_value := 0; s_start := 0 |}.

(** kdtree.cpp:54, intervaltree.cpp:42: number of levels (floor (log2 n) of a positive integer) *)
Definition tree_levels (n bucketsize : nat) : outcome nat :=
  if n <? bucketsize then Ok 0 else
  if bucketsize =? 0 then UB else Ok (Nat.log2 (n / bucketsize)).

(** kdtree.h:28-33, intervaltree.h:20-25: begin; [while (left % 2 == 0) left /= 2] ends within [node] steps for a positive node *)
Fixpoint strip_even (fuel left : nat) : nat :=
  match fuel with
  | 0 => left
  | S f => if Nat.even left then strip_even f (left / 2) else left
  end.
Definition tree_begin (spl : list splitter) (node : nat) : outcome nat :=
  let left := strip_even node node in
  if left =? 1 then Ok 0 else s <- rd spl (left / 2) ;; Ok (s_index s).

(** kdtree.h:35-40, intervaltree.h:27-32: end *)
Fixpoint strip_odd (fuel right : nat) : nat :=
  match fuel with
  | 0 => right
  | S f => if Nat.odd right then strip_odd f (right / 2) else right
  end.
Definition tree_end (n : nat) (spl : list splitter) (node : nat) : outcome nat :=
  let right := strip_odd node node in
  if right =? 0 then Ok n else s <- rd spl (right / 2) ;; Ok (s_index s).

(** std::swap(l[i], l[j]) *)
Definition swap (l : list nat) (i j : nat) : outcome (list nat) :=
  a <- rd l i ;; b <- rd l j ;; l <- wr l i b ;; wr l j a.

(** kdtree.cpp:87-91, intervaltree.cpp:64-68: the while loop; [same perm index c] compares the middle value with that of position [c] *)
Fixpoint advance (same : list nat -> nat -> nat -> outcome bool) (perm : list nat) (e fuel index : nat) : outcome nat :=
  match fuel with
  | 0 => Ok index
  | S f =>
    if index + 1 <? e then
      b <- same perm index (index + 1) ;;
      if b : bool then advance same perm e f (index + 1) else Ok index
    else Ok index
  end.

(** kdtree.cpp:92-96, intervaltree.cpp:69-73: the for loop moving further equal values next to the middle.
    After a swap [c--] and [++c] examine the same position again.  Running out of fuel is reported as [UB]. *)
Fixpoint gather (same : list nat -> nat -> nat -> outcome bool) (e fuel : nat) (perm : list nat) (index c : nat)
  : outcome (list nat * nat) :=
  match fuel with
  | 0 => UB
  | S f =>
    if c <? e then
      b <- same perm index c ;;
      if b : bool then
        perm <- swap perm (index + 1) c ;;
        gather same e f perm (index + 1) c
      else gather same e f perm index (c + 1)
    else Ok (perm, index)
  end.

(** ** The two trees *)
Section Trees.
  (** nth_element of a node: range, position of the nth element, the key it compares *)
  Variable nth_element : nat -> (nat -> Z) -> list nat -> nat -> list nat.
  Variable order : nat -> list nat.
  Variable dim : nat -> nat.

  Definition key (pts : list point) (d i : nat) : Z := coord (nth i pts (0, 0, 0)%Z) d.

  (** permutation[b, e) after std::nth_element; reading a coordinate out of bounds is UB *)
  Definition do_nth (pts : list point) (d node : nat) (perm : list nat) (b mid e : nat) : outcome (list nat) :=
    if forallb (fun i => i <? length pts) (slice b e perm) && ((b <=? mid) && (mid <=? e) && (e <=? length perm))
    then Ok (put b e perm (nth_element node (key pts d) (slice b e perm) (mid - b))) else UB.

  (** ** KDTree *)

  (** kdtree.cpp:87-95: coordinates[permutation[index]][d] == coordinates[permutation[c]][d] *)
  Definition kd_same (pts : list point) (d : nat) (perm : list nat) (index c : nat) : outcome bool :=
    i <- rd perm index ;; x <- getc pts d i ;;
    j <- rd perm c ;; y <- getc pts d j ;; Ok (Z.eqb x y).

  (** kdtree.cpp:41-49: compxyz *)
  Definition compxyz (pts : list point) (i j : nat) : bool :=
    if Z.eqb (key pts 0 i) (key pts 0 j) then
      if Z.eqb (key pts 1 i) (key pts 1 j) then Z.ltb (key pts 2 i) (key pts 2 j)
      else Z.ltb (key pts 1 i) (key pts 1 j)
    else Z.ltb (key pts 0 i) (key pts 0 j).

  (** std::sort of the left and of the right part of a node *)
  Variable sort : nat -> bool -> (nat -> nat -> bool) -> list nat -> list nat.

  Record kdtree := { kd_perm : list nat; kd_spl : list splitter; kd_leaf_intervals : list (nat * nat) }.

  (** kdtree.cpp:67-102: one iteration of the parallel loop *)
  Definition kd_node (pts : list point) (levels ll : nat) (t : kdtree) (i : nat) : outcome kdtree :=
    let node := 2 ^ ll + i in
    let perm := kd_perm t in
    b <- tree_begin (kd_spl t) node ;;
    e <- tree_end (length perm) (kd_spl t) node ;;
    leaves <- (if ll + 1 =? levels then wr (kd_leaf_intervals t) i (b, e) else Ok (kd_leaf_intervals t)) ;;
    s <- rd (kd_spl t) node ;;
    let d := dim ll in
    let mid := b + (e - b) / 2 in
    perm <- do_nth pts d node perm b mid e ;;
    v <- (if e - b =? 0 then Ok (s_value s) else j <- rd perm mid ;; getc pts d j) ;;
    index <- advance (kd_same pts d) perm e e mid ;;
    '(perm, index) <- gather (kd_same pts d) e (2 * e + 1) perm index (index + 2) ;;
    let index := Nat.min (index + 1) e in
    spl <- wr (kd_spl t) node {| s_d := d; s_index := index; s_value := v; s_start := s_start s |} ;;
    let perm :=
      if ll + 1 =? levels then
        let perm := put b index perm (sort node false (compxyz pts) (slice b index perm)) in
        put index e perm (sort node true (compxyz pts) (slice index e perm))
      else perm in
    Ok {| kd_perm := perm; kd_spl := spl; kd_leaf_intervals := leaves |}.

  (** kdtree.cpp:58-103: one level *)
  Definition kd_level (pts : list point) (levels : nat) (t : kdtree) (ll : nat) : outcome kdtree :=
    let t := if ll + 1 =? levels
             then {| kd_perm := kd_perm t; kd_spl := kd_spl t;
                     kd_leaf_intervals := resize (2 ^ ll) (kd_leaf_intervals t) (0, 0) |}
             else t in
    foldM (kd_node pts levels ll) (order ll) t.

  (** kdtree.cpp:39-107: build *)
  Definition kd_build (pts : list point) (bucketsize : nat) : outcome (nat * kdtree) :=
    levels <- tree_levels (length pts) bucketsize ;;
    t <- foldM (kd_level pts levels) (seq 0 levels)
           {| kd_perm := seq 0 (length pts); kd_spl := repeat splitter0 (2 ^ levels); kd_leaf_intervals := [] |} ;;
    let t := if levels =? 0
             then {| kd_perm := sort 0 false (compxyz pts) (kd_perm t); kd_spl := kd_spl t;
                     kd_leaf_intervals := kd_leaf_intervals t |}
             else t in
    Ok (levels, t).

  (** kdtree.cpp:17-27: the member [min] is the componentwise minimum of the points; without points it stays (0, 0, 0) *)
  Definition min_point (m p : point) : point :=
    let '(a, b, c) := m in let '(x, y, z) := p in (Z.min x a, Z.min y b, Z.min z c).
  Definition kd_min (pts : list point) : point :=
    match pts with [] => (0, 0, 0)%Z | p :: t => fold_left min_point t p end.

  (** kdtree.h:42-75, getMidPoint: [closer] is the comparison of the (floating point) distances from the centroid of the
      bucket; it is arbitrary.  [None] is the value -1 *)
  Variable closer : nat -> nat -> nat -> bool.
  Definition mid_step (perm : list nat) (interval : nat) (out : option nat) (i : nat) : outcome (option nat) :=
    j <- rd perm i ;;
    match out with
    | None => Ok (Some j)
    | Some o => Ok (if closer interval j o then Some j else Some o)
    end.
  Definition kd_getMidPoint (t : kdtree) (interval : nat) : outcome (option nat) :=
    '(b, e) <- rd (kd_leaf_intervals t) interval ;;
    foldM (mid_step (kd_perm t) interval) (seq b (e - b)) None.

  (** kdtree.h:81-93, boxMin; [while (parent)] ends within [interval] steps.  [lo] is the member [min] *)
  Definition set_coord (p : point) (d : nat) (v : Z) : point :=
    let '(x, y, z) := p in match d with 0 => (v, y, z) | 1 => (x, v, z) | _ => (x, y, v) end.
  Fixpoint box_min_loop (spl : list splitter) (fuel interval parent : nat) (m : point) : outcome point :=
    match fuel with
    | 0 => Ok m
    | S f =>
      if parent =? 0 then Ok m else
      m <- (if Nat.odd interval then
              s <- rd spl parent ;;
              Ok (if Z.ltb (coord m (s_d s)) (s_value s) then set_coord m (s_d s) (s_value s) else m)
            else Ok m) ;;
      box_min_loop spl f parent (parent / 2) m
    end.
  Definition kd_boxMin (lo : point) (spl : list splitter) (interval : nat) : outcome point :=
    box_min_loop spl interval interval (interval / 2) lo.

  (** ** IntervalTree *)

  (** intervaltree.cpp:64-70: splitters[index].end == iend[permutation[c]][d] *)
  Definition it_same (iend : list point) (d : nat) (v : Z) (perm : list nat) (index c : nat) : outcome bool :=
    j <- rd perm c ;; y <- getc iend d j ;; Ok (Z.eqb v y).

  (** intervaltree.cpp:77-79: std::min over the right part *)
  Definition it_min (istart : list point) (d : nat) (perm : list nat) (acc : Z) (c : nat) : outcome Z :=
    j <- rd perm c ;; x <- getc istart d j ;; Ok (Z.min acc x).

  Record itree := { it_perm : list nat; it_spl : list splitter }.

  (** intervaltree.cpp:51-80: one iteration of the parallel loop *)
  Definition it_node (istart iend : list point) (ll : nat) (t : itree) (i : nat) : outcome itree :=
    let node := 2 ^ ll + i in
    let perm := it_perm t in
    b <- tree_begin (it_spl t) node ;;
    e <- tree_end (length perm) (it_spl t) node ;;
    s <- rd (it_spl t) node ;;
    let d := dim ll in
    let mid := b + (e - b) / 2 in
    perm <- do_nth iend d node perm b mid e ;;
    v <- (if e - b =? 0 then Ok (s_value s) else j <- rd perm mid ;; getc iend d j) ;;
    index <- advance (it_same iend d v) perm e e mid ;;
    '(perm, index) <- gather (it_same iend d v) e (2 * e + 1) perm index (index + 2) ;;
    let index := Nat.min (index + 1) e in
    start <- foldM (it_min istart d perm) (seq index (e - index)) v ;;
    spl <- wr (it_spl t) node {| s_d := d; s_index := index; s_value := v; s_start := start |} ;;
    Ok {| it_perm := perm; it_spl := spl |}.

  (** intervaltree.cpp:46-81: one level *)
  Definition it_level (istart iend : list point) (t : itree) (ll : nat) : outcome itree :=
    foldM (it_node istart iend ll) (order ll) t.

  (** intervaltree.cpp:28-82: build; the bucket size is 8 *)
  Definition it_build (istart iend : list point) : outcome (nat * itree) :=
    levels <- tree_levels (length iend) 8 ;;
    t <- foldM (it_level istart iend) (seq 0 levels)
           {| it_perm := seq 0 (length iend); it_spl := repeat splitter0 (2 ^ levels) |} ;;
    Ok (levels, t).

  (** intervaltree.h:49-61: traverse; the recursion descends the tree, [splitters.size()] levels are enough for a positive node *)
  Fixpoint it_traverse (spl : list splitter) (fuel node : nat) (start end_ : point) (out : list nat) : outcome (list nat) :=
    match fuel with
    | 0 => UB
    | S f =>
      if node <? length spl then
        s <- rd spl node ;;
        out <- (if Z.ltb (coord start (s_d s)) (s_value s) then it_traverse spl f (2 * node) start end_ out else Ok out) ;;
        if Z.ltb (s_start s) (coord end_ (s_d s)) then it_traverse spl f (2 * node + 1) start end_ out else Ok out
      else Ok (out ++ [node])
    end.
End Trees.
