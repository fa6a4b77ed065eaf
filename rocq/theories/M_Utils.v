(** * Model of the vector helpers, /repo/src/basis/utilities/utils.{h,hpp}

    Sizes, indices and element counts are [nat] (no C++ vector is longer than 2^63, so the index
    arithmetic of these functions does not wrap); *values* are machine words of [W] bits wherever
    the functions add them up. *)
From Coq Require Import ZArith List Bool Arith.
From Verif Require Import Base.
Import ListNotations.
Local Open Scope out_scope.

(** ** Prefix sums *)
Section Offsets.
Variable W : Z.
Local Open Scope Z_scope.

(** utils.hpp:12-22, sizesToOffsets(begin, end, offset) and its vector wrapper utils.h:17-21.
    Result: the rewritten range and the returned sum.  [Ttype] is an unsigned type of W bits
    (for a signed type the same holds as long as no sum overflows). *)
Fixpoint sizesToOffsets (sizes : list Z) (sum : Z) : list Z * Z :=
  match sizes with
  | [] => ([], sum)
  | tmp :: rest =>
    let '(out, total) := sizesToOffsets rest (wrap W (sum + tmp)) in
    (sum :: out, total)
  end.

(** utils.hpp:30-32, body of the loops of the version over per-thread counters *)
Definition sizesToOffsets2_step (i : nat) '((sizes, sum) : list (list Z) * list Z) (t : nat)
  : outcome (list (list Z) * list Z) :=
  row <- rd sizes t ;;
  tmp <- rd row i ;;
  acc <- rd sum i ;;
  row' <- wr row i acc ;;
  sizes' <- wr sizes t row' ;;
  sum' <- wr sum i (wrap W (acc + tmp)) ;;
  Ok (sizes', sum').
(** utils.hpp:24-36, the version over per-thread counters: [sizes[t][i]]. *)
Definition sizesToOffsets2 (sizes : list (list Z)) (offsets : list Z)
  : outcome (list (list Z) * list Z) :=
  match sizes with
  | [] => UB                                   (* sizes.front() of an empty vector *)
  | front :: _ =>
    foldM (fun s i => foldM (sizesToOffsets2_step i) (seq 0 (length sizes)) s)
      (seq 0 (length front)) (sizes, offsets)
  end.

(** last element of a non-empty vector *)
Definition back (l : list Z) : Z := last l 0.

(** utils.hpp:50-66, threadDistributionToFullDistribution(distribution).  The parallel loop over
    threads touches one inner vector per thread; it is written as a map. *)
Definition threadDistributionToFullDistribution (distribution : list (list Z)) : list (list Z) :=
  let offsets := map (fun d => match d with [] => 0 | _ => wrap W (back d) end) distribution in
  let '(offsets, _) := sizesToOffsets offsets 0 in
  map (fun '(d, offset) => map (fun v => wrap W (v + offset)) d) (combine distribution offsets).

(** utils.hpp:68-87, threadDistributionToFullDistribution(data, distribution).
    [sched] is the order in which the OpenMP threads execute the iterations. *)
Definition threadDistributionToFullDistribution2
  (sched : list nat) (data : list Z) (distribution : list nat) : outcome (list Z) :=
  match distribution with
  | [] => UB                                   (* threads = size_t(-1) *)
  | _ =>
    let threads := (length distribution - 1)%nat in
    offsets <- foldM (fun offsets t =>
        b <- rd distribution t ;;
        e <- rd distribution (t + 1) ;;
        if Nat.eqb b e then Ok offsets else
          v <- rd data e ;;
          wr offsets t (wrap W v))
      (seq 0 threads) (repeat 0 (length distribution)) ;;
    let '(offsets, _) := sizesToOffsets offsets 0 in
    foldM (fun data t =>
        offset <- rd offsets t ;;
        b <- rd distribution t ;;
        e <- rd distribution (t + 1) ;;
        foldM (fun data i => v <- rd data i ;; wr data i (wrap W (v + offset)))
          (seq (b + 1) (e - b)) data)
      sched data
  end.

End Offsets.

(** utils.hpp:45, body of the loops of permute *)
Definition permute_step {A} (_data : list A) (permutation : list nat) (elementsize e : nat)
  (data : list A) (i : nat) : outcome (list A) :=
  p <- rd permutation i ;;
  v <- rd _data (elementsize * p + e) ;;
  wr data (elementsize * i + e) v.
(** utils.hpp:38-48, permute.  [_data.swap(data)] leaves [data] value-initialised ([d0]). *)
Definition permute {A} (d0 : A) (data : list A) (permutation : list nat) (elementsize : nat)
  : outcome (list A) :=
  let _data := data in
  let data := repeat d0 (length _data) in
  match elementsize with
  | O => Ok data                               (* the outer loop is empty *)
  | _ =>
    foldM (fun data e =>
      foldM (permute_step _data permutation elementsize e) (seq 0 (length data / elementsize)) data)
      (seq 0 elementsize) data
  end.

(** ** Duplicates and merging *)
Section Ordered.
Context {A : Type}.
Variable ltb : A -> A -> bool.                 (* operator< *)
Variable eqb : A -> A -> bool.                 (* operator== *)
Variable sort : list A -> list A.              (* std::sort: constrained by its contract in the theorems *)
Variable dflt : A.                             (* Ttype{} *)

(** utils.hpp:89-103, removeDuplicates *)
Definition removeDuplicates (data : list A) (begin : nat) : outcome (list A) :=
  if Nat.eqb (length data) begin then Ok data else
  '(data, unique) <- foldM (fun '(data, unique) d =>
      u <- rd data unique ;;
      v <- rd data d ;;
      if negb (eqb u v) then
        data' <- wr data (S unique) v ;;
        Ok (data', S unique)
      else Ok (data, unique))
    (seq (begin + 1) (length data - (begin + 1))) (data, begin) ;;
  Ok (resize (unique + 1) data dflt).

(** std::sort on the range [b, e) *)
Definition sort_range (data : list A) (b e : nat) : outcome (list A) :=
  if (b <=? e) && (e <=? length data) then Ok (put b e data (sort (slice b e data))) else UB.

(** utils.hpp:105-110, sortAndRemoveDuplicates *)
Definition sortAndRemoveDuplicates (data : list A) (begin : nat) : outcome (list A) :=
  data <- sort_range data begin (length data) ;;
  removeDuplicates data begin.

(** [data[0].insert(end, data[t])] for t = 1.., utils.hpp:123-125, 182-185, 192-196, 207-211:
    the joined vector and the boundaries of its parts *)
Definition join_threads (data : list (list A)) : outcome (list A * list nat) :=
  match data with
  | [] => UB                                   (* data[0] *)
  | d0 :: rest =>
    Ok (fold_left (fun '(d, dist) dt => (d ++ dt, dist ++ [length (d ++ dt)])) rest
          (d0, [0; length d0]))
  end.

(** utils.hpp:120-127, mergeThreadedUniqueData; the result is data[0] *)
Definition mergeThreadedUniqueData (data : list (list A)) : outcome (list A) :=
  '(d, _) <- join_threads data ;;
  sortAndRemoveDuplicates d 0.

(** std::merge: stable, elements of the first range come first when equivalent *)
Fixpoint merge (l1 : list A) : list A -> list A :=
  match l1 with
  | [] => fun l2 => l2
  | a :: t1 =>
    fix merge_a (l2 : list A) : list A :=
      match l2 with
      | [] => a :: t1
      | b :: t2 => if ltb b a then b :: merge_a t2 else a :: merge t1 l2
      end
  end.

Fixpoint is_sorted (l : list A) : bool :=
  match l with
  | a :: ((b :: _) as t) => negb (ltb b a) && is_sorted t
  | _ => true
  end.

(** std::inplace_merge(data + b, data + m, data + e).  The standard requires valid consecutive
    ranges that are both sorted; anything else is undefined. *)
Definition inplace_merge (data : list A) (b m e : nat) : outcome (list A) :=
  if (b <=? m) && (m <=? e) && (e <=? length data)
     && is_sorted (slice b m data) && is_sorted (slice m e data)
  then Ok (put b e data (merge (slice b m data) (slice m e data)))
  else UB.

(** [size_t align = 1; while (align < n) align = align << 1;] utils.hpp:146-147, 221-222 *)
Fixpoint align_loop (fuel align n : nat) : nat :=
  match fuel with
  | O => align
  | S f => if align <? n then align_loop f (align * 2) n else align
  end.

(** utils.hpp:152-160 and 226-234: the levels of pairwise merging.  [sched i n] is the order in
    which the OpenMP threads execute the [n = align / i] iterations of level [i]. *)
Fixpoint merge_levels (sched : nat -> nat -> list nat) (fuel i align : nat)
  (_distribution : list nat) (data : list A) : outcome (list A) :=
  match fuel with
  | O => Ok data
  | S f =>
    if i <=? align then
      data <- foldM (fun data t =>
          b <- rd _distribution (i * t) ;;
          m <- rd _distribution (i * t + i / 2) ;;
          e <- rd _distribution (i * t + i) ;;
          inplace_merge data b m e)
        (sched i (align / i)) data ;;
      merge_levels sched f (i * 2) align _distribution data
    else Ok data
  end.

(** utils.hpp:141-161, inplaceMerge(data, distribution) *)
Definition inplaceMerge (sched : nat -> nat -> list nat) (data : list A) (distribution : list nat)
  : outcome (list A) :=
  match distribution with
  | [] => UB                                   (* distribution.back() of an empty vector *)
  | _ =>
    let size := length distribution - 1 in
    let align := align_loop (length distribution) 1 (length distribution) in
    let _distribution := distribution ++ repeat (last distribution 0) (align - size) in
    merge_levels sched align 2 align _distribution data
  end.

(** utils.hpp:163-176, sortWithInplaceMerge(data, distribution).  [ssched] is the order of the
    sorting loop. *)
Definition sortWithInplaceMerge (ssched : list nat) (sched : nat -> nat -> list nat)
  (data : list A) (distribution : list nat) : outcome (list A) :=
  data <- foldM (fun data t =>
      b <- rd distribution t ;;
      e <- rd distribution (t + 1) ;;
      sort_range data b e)
    ssched data ;;
  inplaceMerge sched data distribution.

(** utils.hpp:178-187, inplaceMerge(data); the result is data[0] *)
Definition inplaceMergeThreads (sched : nat -> nat -> list nat) (data : list (list A)) : outcome (list A) :=
  '(d, distribution) <- join_threads data ;;
  inplaceMerge sched d distribution.

(** utils.hpp:189-198, sortWithInplaceMerge(data) *)
Definition sortWithInplaceMergeThreads (ssched : list nat) (sched : nat -> nat -> list nat)
  (data : list (list A)) : outcome (list A) :=
  '(d, distribution) <- join_threads data ;;
  sortWithInplaceMerge ssched sched d distribution.

(** utils.hpp:200-214, sortWithUniqueMerge; the parallel loop sorts independent vectors *)
Fixpoint map_out {B C} (f : B -> outcome C) (l : list B) : outcome (list C) :=
  match l with
  | [] => Ok []
  | b :: t => c <- f b ;; r <- map_out f t ;; Ok (c :: r)
  end.
Definition sortWithUniqueMerge (sched : nat -> nat -> list nat) (data : list (list A)) : outcome (list A) :=
  data <- map_out (fun d => sortAndRemoveDuplicates d 0) data ;;
  '(d, distribution) <- join_threads data ;;
  d <- inplaceMerge sched d distribution ;;
  sortAndRemoveDuplicates d 0.

(** utils.hpp:216-240, mergeAppendedData *)
Definition mergeAppendedData (sched : nat -> nat -> list nat) (data : list A) (distribution : list nat)
  : outcome (list A) :=
  match distribution with
  | [] => UB                                   (* begin() + 1 past the end *)
  | [_] => UB                                  (* _distribution.back() of an empty vector *)
  | _ :: d1 :: drest =>
    let _distribution := d1 :: drest in
    let align := align_loop (length _distribution) 1 (length _distribution) in
    let _distribution :=
      _distribution ++ repeat (last _distribution 0) (align + 2 - length distribution) in
    data <- merge_levels sched align 2 align _distribution data ;;
    inplace_merge data 0 (hd 0 _distribution) (last _distribution 0)
  end.

End Ordered.

(** ** Integer helpers *)
Section Rounding.
Variable W : Z.
Local Open Scope Z_scope.

(** utils.h:133-139, round_up for an unsigned type of W bits; align = 0 divides by zero *)
Definition round_up (num align : Z) : outcome Z :=
  if align =? 0 then UB else Ok (wrap W ((wrap W (num - 1) / align + 1) * align)).
(** the signed instance (C++ division truncates towards zero); overflow not modelled *)
Definition round_up_signed (num align : Z) : outcome Z :=
  if num =? 0 then Ok 0 else
  if align =? 0 then UB else Ok ((Z.quot (num - 1) align + 1) * align).
(** utils.h:141-146, round_down *)
Definition round_down (num align : Z) : outcome Z :=
  if align =? 0 then UB else Ok (wrap W (num / align * align)).
(** utils.h:148-152, divide_round_up, unsigned instance *)
Definition divide_round_up (numerator denominator : Z) : outcome Z :=
  if denominator =? 0 then UB else Ok (wrap W (wrap W (numerator - 1) / denominator + 1)).
(** utils.h:148-152, divide_round_up, signed instance *)
Definition divide_round_up_signed (numerator denominator : Z) : outcome Z :=
  if denominator =? 0 then UB else Ok (Z.quot (numerator - 1) denominator + 1).

(** utils.h:77-87, my_int_pow; the recursion halves the exponent, [fuel] bounds its depth.
    Signed overflow is not modelled (plain integers). *)
Fixpoint my_int_pow_rec (fuel : nat) (base exponent : Z) : option Z :=
  match fuel with
  | O => None
  | S f =>
    if exponent <? 0 then Some 0 else
    if exponent =? 0 then Some 1 else
    if exponent =? 1 then Some base else
    match my_int_pow_rec f base (Z.quot exponent 2) with
    | None => None
    | Some tmp =>
      let result := tmp * tmp in
      Some (if Z.rem exponent 2 =? 1 then result * base else result)
    end
  end.
Definition my_int_pow (base exponent : Z) : option Z :=
  my_int_pow_rec (S (Z.to_nat exponent)) base exponent.
End Rounding.
