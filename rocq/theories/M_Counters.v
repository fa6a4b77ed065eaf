(** * Numbers of elements: computeElementDistribution, computeRegionsElementDistribution, computeRegionsBoundaryDistribution and MESIO

    /repo/src/mesh/preprocessing/pure.cpp, /repo/src/mesh/preprocessing/clustered.cpp and /repo/src/api/wrapper.mesio.cpp.  The functions
    communicate only by collectives, so they are modelled for all ranks at once: the outer lists are indexed by ranks.  Elements are represented
    by their codes. *)
From Coq Require Import ZArith List Bool.
From Verif Require Import Base M_Utils M_Distribute M_Exchange M_Scan.
Import ListNotations.
Local Open Scope Z_scope.
Local Open Scope out_scope.

(** /repo/src/mesh/store/info.h:7-19, DistributionInfo and DistributedDataInfo ([i_next] of a code is not in the program) *)
Record info := { i_offset : Z; i_size : Z; i_total : Z; i_next : Z }.
Definition zero_info : info := {| i_offset := 0; i_size := 0; i_total := 0; i_next := 0 |}.
(** /repo/src/mesh/store/elementinfo.h:12-20, without [threads] *)
Record distribution := { process : info; code : list info }.
(** /repo/src/mesh/element.h:22-51, Element::CODE::SIZE; POINT1 is 0 *)
Definition code_size : nat := 16.
(** the codes after the constructor and after clear(), /repo/src/mesh/store/elementinfo.cpp:8-18 *)
Definition cleared : list info := repeat zero_info code_size.

(** [++distribution.code[c].size], [ty]: the type esint (pure.cpp:1974, 2004; clustered.cpp:366, 376) *)
Definition bump (ty : ity) (d : list info) (c : nat) : outcome (list info) :=
  x <- rd d c ;; s <- fit ty (i_size x + 1) ;; wr d c {| i_offset := i_offset x; i_size := s; i_total := i_total x; i_next := i_next x |}.

(** what a rank has at the end, pure.cpp:1984-1991 *)
Definition finish_elements (ty : ity) (x : list info * (list Z * list Z) * (Z * (Z * Z))) : outcome distribution :=
  let '(counted, (offsets, sums), (size, (offset, total))) := x in
  code <- map_out (fun i => c <- rd counted i ;; o <- rd offsets i ;; s <- rd sums i ;; Ok {| i_offset := o; i_size := i_size c; i_total := s; i_next := 0 |}) (seq 0 code_size) ;;
  next <- fit ty (offset + size) ;;
  Ok {| process := {| i_offset := offset; i_size := size; i_total := total; i_next := next |}; code := code |}.
(** pure.cpp:1969-1995, computeElementDistribution.  [epointers]: the codes of the elements of each rank; [u], [u1]: the undefined buffers of
    MPI_Exscan on rank 0 *)
Definition element_distribution (ty : ity) (u : list Z) (u1 : Z) (epointers : list (list nat)) : outcome (list distribution) :=
  counted <- map_out (fun e => foldM (bump ty) e cleared) epointers ;;
  sizes <- map_out (fun e => fit ty (Z.of_nat (length e))) epointers ;;
  scans <- exscan_vec ty code_size u (map (map i_size) counted) ;;
  procs <- exscan ty u1 sizes ;;
  map_out (finish_elements ty) (combine (combine counted scans) (combine sizes procs)).

(** the loop over the codes that are [used] anywhere: sums of sizes and the values for the scan (pure.cpp:2006-2012, clustered.cpp:388-394) *)
Definition gather_code (ty : ity) (used : nat -> outcome bool) (counted : list info) (s : info * list Z) (i : nat) : outcome (info * list Z) :=
  let '(p, offset) := s in
  b <- used i ;;
  if b : bool then
    x <- rd counted i ;; size <- fit ty (i_size p + i_size x) ;; next <- fit ty (i_next p + i_size x) ;;
    Ok ({| i_offset := i_offset p; i_size := size; i_total := i_total p; i_next := next |}, offset ++ [i_size x])
  else Ok (p, offset).
(** offset and totalSize of these codes from the result of the scan (pure.cpp:2021-2026, clustered.cpp:408-413) *)
Definition scatter_code (used : nat -> outcome bool) (offset sum : list Z) (s : nat * list info) (i : nat) : outcome (nat * list info) :=
  let '(j, d) := s in
  b <- used i ;;
  if b : bool then
    o <- rd offset j ;; t <- rd sum j ;; x <- rd d i ;; d <- wr d i {| i_offset := o; i_size := i_size x; i_total := t; i_next := i_next x |} ;; Ok (S j, d)
  else Ok (s).

(** pure.cpp:2001-2015 for one region: its distribution so far and its values for the scan.  [totals]: totalSize of the codes in the distribution
    of all elements *)
Definition used_total (totals : list Z) (i : nat) : outcome bool := t <- rd totals i ;; Ok (negb (t =? 0)).
Definition gather_region (ty : ity) (totals : list Z) (epointers elements : list nat) : outcome (list info * info * list Z) :=
  counted <- foldM (fun d e => c <- rd epointers e ;; bump ty d c) elements cleared ;;
  '(p, offset) <- foldM (gather_code ty (used_total totals) counted) (seq 0 code_size) (zero_info, []) ;;
  Ok (counted, {| i_offset := i_size p; i_size := i_size p; i_total := i_total p; i_next := i_next p |}, offset ++ [i_size p]).
(** pure.cpp:2020-2030 for one region; [j]: the position in the result of the scan *)
Definition scatter_region (ty : ity) (totals : list Z) (offset sum : list Z) (s : nat * list distribution) (g : list info * info * list Z) : outcome (nat * list distribution) :=
  let '(j, ds) := s in let '(counted, p, _) := g in
  '(j, d) <- foldM (scatter_code (used_total totals) offset sum) (seq 0 code_size) (j, counted) ;;
  o <- rd offset j ;; t <- rd sum j ;; n <- fit ty (i_next p + o) ;;
  Ok (S j, ds ++ [{| process := {| i_offset := o; i_size := i_size p; i_total := t; i_next := n |}; code := d |}]).
(** MPI_Exscan needs the same number of values on all ranks *)
Definition scan_vectors (ty : ity) (u : list Z) (vectors : list (list Z)) : outcome (list (list Z * list Z)) :=
  match vectors with
  | [] => Ok []
  | v :: _ => if forallb (fun w => (length w =? length v)%nat) vectors then exscan_vec ty (length v) u vectors else UB
  end.
(** pure.cpp:1997-2034, computeRegionsElementDistribution.  For each rank the totals of the codes, the codes of the elements and the elements of
    the regions *)
Definition region_distribution (ty : ity) (u : list Z) (ranks : list (list Z * list nat * list (list nat))) : outcome (list (list distribution)) :=
  gathered <- map_out (fun '(totals, epointers, regions) => map_out (gather_region ty totals epointers) regions) ranks ;;
  scans <- scan_vectors ty u (map (fun g => concat (map snd g)) gathered) ;;
  map_out (fun x : (list Z * list nat * list (list nat)) * list (list info * info * list Z) * (list Z * list Z) => let '((totals, _, _), g, (offset, sum)) := x in
    s <- foldM (scatter_region ty totals offset sum) g (O, []) ;; Ok (snd s)) (combine (combine ranks gathered) scans).

(** A region of the boundary: elements by codes if it has a dimension, else nodes *)
Record bregion := { b_dimension : bool; b_codes : list nat; b_nodes : list nat }.
(** clustered.cpp:362-380 for one region: sizes of codes and the mask of codes.  [ranks]: the ranks of the nodes.  The distribution of a new
    region is cleared; it is not cleared here. *)
Definition count_bregion (ty : ity) (rank : nat) (ranks : list (list nat)) (b : bregion) : outcome (list info * Z) :=
  if b_dimension b then
    counted <- foldM (bump ty) (b_codes b) cleared ;;
    mask <- foldM (fun m c => x <- rd counted c ;; Ok (if i_size x =? 0 then m else Z.lor m (Z.shiftl 1 (Z.of_nat c)))) (seq 0 code_size) 0 ;;
    Ok (counted, mask)
  else
    counted <- foldM (fun d n => r <- rd ranks n ;; front <- rd r 0 ;; if (front =? rank)%nat then bump ty d 0 else Ok d) (b_nodes b) cleared ;;
    Ok (counted, 0).
(** clustered.cpp:388-389: [codes[r] & bitmask] *)
Definition used_mask (mask : Z) (i : nat) : outcome bool := Ok (negb (Z.land mask (Z.shiftl 1 (Z.of_nat i)) =? 0)).
(** clustered.cpp:385-400 for one region *)
Definition gather_bregion (ty : ity) (x : bregion * (list info * Z)) : outcome (bregion * Z * list info * info * list Z) :=
  let '(b, (counted, mask)) := x in
  '(p, offset) <- (if b_dimension b then foldM (gather_code ty (used_mask mask) counted) (seq 0 code_size) (zero_info, [])
                   else x <- rd counted 0 ;; Ok (zero_info, [i_size x])) ;;
  Ok (b, mask, counted, {| i_offset := i_size p; i_size := i_size p; i_total := i_total p; i_next := i_next p |}, offset ++ [i_size p]).
(** clustered.cpp:405-420 for one region *)
Definition scatter_bregion (offset sum : list Z) (s : nat * list distribution) (g : bregion * Z * list info * info * list Z) : outcome (nat * list distribution) :=
  let '(j, ds) := s in let '(b, mask, counted, p, _) := g in
  '(j, d) <- (if b_dimension b then foldM (scatter_code (used_mask mask) offset sum) (seq 0 code_size) (j, counted)
              else scatter_code (fun _ => Ok true) offset sum (j, counted) 0) ;;
  o <- rd offset j ;; t <- rd sum j ;;
  Ok (S j, ds ++ [{| process := {| i_offset := o; i_size := i_size p; i_total := t; i_next := i_next p |}; code := d |}]).
(** MPI_Allreduce(MPI_BOR) of the masks of the regions *)
Definition or_masks (masks : list (list Z)) (r : nat) : Z := fold_right Z.lor 0 (map (fun m => nth r m 0) masks).
(** clustered.cpp:354-424, computeRegionsBoundaryDistribution.  For each rank the ranks of its nodes and its regions (boundary regions and contact
    interfaces) *)
Definition boundary_distribution (ty : ity) (u : list Z) (ranks : list (list (list nat) * list bregion)) : outcome (list (list distribution)) :=
  counted <- map_out (fun '(rank, (nranks, regions)) => map_out (count_bregion ty rank nranks) regions) (combine (seq 0 (length ranks)) ranks) ;;
  let mask := or_masks (map (map snd) counted) in
  gathered <- map_out (fun '((_, regions), c) => map_out (gather_bregion ty) (combine regions (map (fun '(r, x) => (fst x, mask r)) (combine (seq 0 (length c)) c)))) (combine ranks counted) ;;
  scans <- scan_vectors ty u (map (fun g => concat (map snd g)) gathered) ;;
  map_out (fun '(g, (offset, sum)) => s <- foldM (scatter_bregion offset sum) g (O, []) ;; Ok (snd s)) (combine gathered scans).

(** ** MESIO *)
(** wrapper.mesio.cpp:35-37: the domain of each element; [elements]: the first elements of the domains and the number of elements *)
Definition mesio_domains (offset : Z) (elements : list nat) : outcome (list Z) :=
  foldM (fun d i => e <- rd elements i ;; Ok (resize e d (offset + Z.of_nat i - 1))) (seq 1 (length elements - 1)) [].
(** wrapper.mesio.cpp:152-167, MESIOElements: offset, size and totalSize *)
Definition mesio_elements (d : distribution) : Z * Z * Z := (i_offset (process d), i_size (process d), i_total (process d)).
(** wrapper.mesio.cpp:247-256, MESIOElementsRegionCounters; [etype]: MESIOElementType (/repo/include/mesio.h:55-80), the order is that of Element::CODE *)
Definition mesio_region_counters (regions : list distribution) (region etype : nat) : outcome (Z * Z) :=
  d <- rd regions region ;; c <- rd (code d) etype ;; Ok (i_offset c, i_total c).
(** wrapper.mesio.cpp:201-209, MESIOElementsCounters: the first region *)
Definition mesio_counters (regions : list distribution) (etype : nat) : outcome (Z * Z) := mesio_region_counters regions 0 etype.
