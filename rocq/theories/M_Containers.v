(** * Model of the threaded containers, /repo/src/basis/containers/{tarray.h,tarray.hpp,serializededata.h,edata.h}

    Sizes and distributions are [nat]; boundaries ([esint]) are integers.  A parallel loop takes the order
    [sched] in which its iterations are executed. *)
From Coq Require Import ZArith List Bool Arith.
From Verif Require Import Base M_Utils M_Packing.
Import ListNotations.
Local Open Scope out_scope.

(** ** tarray *)

(** tarray.h:70-77.  [ta_buf] is the array behind [_dataUnaligned] ([[]] when it is NULL) and
    [ta_off] the distance [_data - _dataUnaligned] in elements. *)
Record tarray (A : Type) := mkTarray {
  ta_size : nat; ta_alignment : nat; ta_distribution : list nat; ta_buf : list A; ta_off : nat }.
Arguments mkTarray {A}.
Arguments ta_size {A}. Arguments ta_alignment {A}. Arguments ta_distribution {A}.
Arguments ta_buf {A}. Arguments ta_off {A}.

(** the elements [data()[0]] .. [data()[size() - 1]] *)
Definition ta_list {A} (a : tarray A) : list A := slice (ta_off a) (ta_off a + ta_size a) (ta_buf a).
(** tarray.h:37, threads() *)
Definition ta_threads {A} (a : tarray A) : nat := length (ta_distribution a) - 1.

(** What the environment supplies to an allocation: the garbage in the new array and the shift chosen
    by std::align. *)
Record memory (A : Type) := mkMemory { junk : nat -> A; shift : nat }.
Arguments mkMemory {A}. Arguments junk {A}. Arguments shift {A}.

(** tarray.hpp:241-253, allocate.  [esz] is sizeof(TType). *)
Definition ta_allocate {A} (esz : nat) (mem : memory A) (size alignment : nat) : list A * nat :=
  match alignment with
  | O => (map (junk mem) (seq 0 size), 0)
  | S a => (map (junk mem) (seq 0 (size + a / esz + 1)), shift mem)
  end.

(** one memcpy of the range [b, e): tarray.hpp:32, 123, 142, 171 *)
Definition copy_range {A} (off : nat) (src : list A) (buf : list A) (b e : nat) : outcome (list A) :=
  if (b <=? e) && (e <=? length src) && (off + e <=? length buf)
  then Ok (put (off + b) (off + e) buf (slice b e src)) else UB.
(** the parallel loop over threads, each copies its range *)
Definition copy_parts {A} (sched : list nat) (distribution : list nat) (off : nat) (src buf : list A)
  : outcome (list A) :=
  foldM (fun buf t =>
      b <- rd distribution t ;;
      e <- rd distribution (t + 1) ;;
      copy_range off src buf b e) sched buf.

(** tarray.hpp:115-127 and 162-174: tarray(threads, data) and tarray(distribution, data).  The first one
    calls [distribute] (modelled in M_Distribute) to get the distribution. *)
Definition ta_from_vector {A} esz mem (sched : list nat) (distribution : list nat) (data : list A)
  (alignment : nat) : outcome (tarray A) :=
  let size := length data in
  if size =? 0 then Ok (mkTarray 0 alignment distribution [] 0) else
  let '(buf, off) := ta_allocate esz mem size alignment in
  buf <- copy_parts sched distribution off data buf ;;
  Ok (mkTarray size alignment distribution buf off).

(** tarray.hpp:131-135: the distribution of a vector of vectors *)
Definition parts_distribution {A} (data : list (list A)) : list nat :=
  0 :: (fix go (size : nat) (l : list (list A)) : list nat :=
          match l with [] => [] | d :: r => (size + length d) :: go (size + length d) r end) 0 data.
(** tarray.hpp:129-146, tarray(data) of a vector of vectors *)
Definition ta_from_parts {A} esz mem (sched : list nat) (data : list (list A)) (alignment : nat)
  : outcome (tarray A) :=
  let distribution := parts_distribution data in
  let size := last distribution 0 in
  if size =? 0 then Ok (mkTarray 0 alignment distribution [] 0) else
  let '(buf, off) := ta_allocate esz mem size alignment in
  buf <- foldM (fun buf t =>
      d <- rd data t ;;
      b <- rd distribution t ;;
      if off + b + length d <=? length buf then Ok (put (off + b) (off + b + length d) buf d) else UB)
    sched buf ;;
  Ok (mkTarray size alignment distribution buf off).

(** tarray.hpp:80-93 and 176-196: tarray(threads, size, init) (distribution from [distribute]) and
    tarray(distribution, duplication, init) (distribution multiplied by the caller below) *)
Definition ta_fill {A} esz mem (sched : list nat) (distribution : list nat) (size : nat) (init : A)
  (alignment : nat) : outcome (tarray A) :=
  if size =? 0 then Ok (mkTarray 0 alignment distribution [] 0) else
  let '(buf, off) := ta_allocate esz mem size alignment in
  buf <- foldM (fun buf t =>
      b <- rd distribution t ;;
      e <- rd distribution (t + 1) ;;
      foldM (fun buf i => wr buf (off + i) init) (seq b (e - b)) buf)
    sched buf ;;
  Ok (mkTarray size alignment distribution buf off).
(** tarray.hpp:176-183 *)
Definition ta_duplicate {A} esz mem sched (distribution : list nat) (duplication : nat) (init : A) alignment :=
  match distribution with
  | [] => UB                                   (* distribution.back() *)
  | d0 :: rest =>
    ta_fill esz mem sched (d0 :: map (fun d => d * duplication) rest)
      (duplication * last distribution 0) init alignment
  end.

(** tarray.hpp:25-36, copy constructor *)
Definition ta_copy {A} esz mem sched (other : tarray A) : outcome (tarray A) :=
  if ta_size other =? 0 then Ok (mkTarray 0 (ta_alignment other) (ta_distribution other) [] 0) else
  let '(buf, off) := ta_allocate esz mem (ta_size other) (ta_alignment other) in
  buf <- copy_parts sched (ta_distribution other) off (skipn (ta_off other) (ta_buf other)) buf ;;
  Ok (mkTarray (ta_size other) (ta_alignment other) (ta_distribution other) buf off).

(** *** Packing.  [rep a] is the object representation of an element ([esz] bytes). *)
Section Pack.
Context {A : Type}.
Variable esz : nat.
Variable rep : A -> list Z.
Variable unrep : list Z -> A.

(** tarray.hpp:198-205, packedSize *)
Definition ta_packedSize (a : tarray A) : nat :=
  sizeof_size_t + length (ta_distribution a) * sizeof_size_t + sizeof_size_t + ta_size a * esz.

(** memcpy of an array of size_t *)
Definition words (l : list nat) : list Z := concat (map (fun n => le_bytes sizeof_size_t (Z.of_nat n)) l).

(** tarray.hpp:207-221, pack: the data are copied from [_dataUnaligned], not from [_data] *)
Definition ta_pack (a : tarray A) (s : list Z * nat) : outcome (list Z * nat) :=
  s <- store s (le_bytes sizeof_size_t (Z.of_nat (length (ta_distribution a)))) ;;
  s <- store s (words (ta_distribution a)) ;;
  s <- store s (le_bytes sizeof_size_t (Z.of_nat (ta_size a))) ;;
  if ta_size a =? 0 then Ok s else
  if ta_size a <=? length (ta_buf a)
  then store s (concat (map rep (firstn (ta_size a) (ta_buf a)))) else UB.

(** array of [n] objects of [k] bytes *)
Fixpoint chunks (n k : nat) (l : list Z) : list (list Z) :=
  match n with
  | O => []
  | S m => firstn k l :: chunks m k (skipn k l)
  end.

(** tarray.hpp:223-246, unpack into the existing array [a] *)
Definition ta_unpack (mem : memory A) (a : tarray A) (buf : list Z) (p : nat) : outcome (tarray A * nat) :=
  '(w, p) <- load buf p sizeof_size_t ;;
  let dsize := Z.to_nat (of_le w) in
  '(ws, p) <- load buf p (dsize * sizeof_size_t) ;;
  let distribution := map (fun w => Z.to_nat (of_le w)) (chunks dsize sizeof_size_t ws) in
  '(w, p) <- load buf p sizeof_size_t ;;
  let size := Z.to_nat (of_le w) in
  (* the check at line 236 only frees the old array; distribution.back() needs an element *)
  if (match ta_buf a with [] => false | _ => true end) && (match distribution with [] => true | _ => false end)
  then UB else
  if size =? 0
  then Ok (mkTarray 0 (ta_alignment a) distribution (ta_buf a) (ta_off a), p)
  else
    let '(new, off) := ta_allocate esz mem size (ta_alignment a) in
    '(bytes, p) <- load buf p (size * esz) ;;
    Ok (mkTarray size (ta_alignment a) distribution
          (put 0 size new (map unrep (chunks size esz bytes))) off, p).
End Pack.

(** ** serializededata *)

(** bounds-checked read at an integer position *)
Definition rdZ {A} (l : list A) (i : Z) : outcome A :=
  if (i <? 0)%Z then UB else rd l (Z.to_nat i).

(** serializededata.h:170-172: the iterator; [None] is the NULL [_element] of uniform data; pointers are
    positions in the boundary array and in the data array *)
Record iter := mkIter { it_element : option Z; it_end : Z; it_b : Z; it_e : Z }.

Local Open Scope Z_scope.
(** serializededata.h:150-167, iterator_base::move *)
Definition it_move (bnd : list Z) (it : iter) (n : Z) : outcome iter :=
  match it_element it with
  | None =>
    let size := it_e it - it_b it in
    Ok (mkIter None (it_end it) (it_b it + n * size) (it_e it + n * size))
  | Some el =>
    v1 <- rdZ bnd (el + n) ;;
    v0 <- rdZ bnd el ;;
    let b := it_b it + (v1 - v0) in
    let el := el + n in
    if negb (el =? it_end it) then
      w1 <- rdZ bnd (el + 1) ;;
      w0 <- rdZ bnd el ;;
      Ok (mkIter (Some el) (it_end it) b (b + w1 - w0))
    else Ok (mkIter (Some el) (it_end it) b b)
  end.
(** serializededata.h:126-127, operator== and operator!= *)
Definition it_eq (a b : iter) : bool :=
  (match it_element a, it_element b with
   | None, None => true
   | Some x, Some y => x =? y
   | _, _ => false
   end) && (it_b a =? it_b b).
(** dereferenced iterator: the record between [_edata._begin] and [_edata._end] *)
Definition it_deref {A} (data : list A) (it : iter) : outcome (list A) :=
  if (0 <=? it_b it) && (it_b it <=? it_e it) && (it_e it <=? Z.of_nat (length data))
  then Ok (slice (Z.to_nat (it_b it)) (Z.to_nat (it_e it)) data) else UB.
(** serializededata.h:133-144, constructors of the iterators *)
Definition it_nonuniform (bnd : list Z) (element last : Z) : outcome iter :=
  it_move bnd (mkIter (Some 0) last 0 0) element.
Definition it_uniform (edatasize : Z) : iter := mkIter None 0 0 edatasize.

(** serializededata.h:415-420 *)
Record sd (A : Type) := mkSd { sd_eb : tarray Z; sd_ed : tarray A; sd_edatasize : Z; sd_iter : list iter }.
Arguments mkSd {A}. Arguments sd_eb {A}. Arguments sd_ed {A}. Arguments sd_edatasize {A}. Arguments sd_iter {A}.

Local Close Scope Z_scope.
(** serializededata.h:318-327, inititerators() *)
Definition inititerators {A} (eb : tarray Z) (ed : tarray A) : outcome (list iter) :=
  let threads := ta_threads ed in
  let bnd := ta_list eb in
  it0 <- it_nonuniform bnd 0%Z (Z.of_nat (length bnd) - 1)%Z ;;
  its <- map_out (fun t =>
      d <- rd (ta_distribution eb) t ;;
      it_move bnd it0 (Z.of_nat d - 1)%Z)
    (seq 1 threads) ;;
  Ok (it0 :: its).
(** serializededata.h:329-338, inititerators(edatasize) *)
Definition inititerators_uniform {A} (edatasize : Z) (ed : tarray A) : outcome (list iter) :=
  let threads := ta_threads ed in
  let it0 := it_uniform edatasize in
  its <- map_out (fun t =>
      d <- rd (ta_distribution ed) t ;;
      if (edatasize =? 0)%Z then UB else it_move [] it0 (Z.of_nat d / edatasize)%Z)
    (seq 1 threads) ;;
  Ok (it0 :: its).

(** an empty boundary array, [_eboundaries(0, 0)] *)
Definition ta_empty {A} : tarray A := mkTarray 0 0 [0] [] 0.

(** serializededata.h:204-212, the constructors *)
Definition sd_nonuniform {A} (eb : tarray Z) (ed : tarray A) : outcome (sd A) :=
  its <- inititerators eb ed ;; Ok (mkSd eb ed (-1)%Z its).
Definition sd_uniform {A} (edatasize : Z) (ed : tarray A) : outcome (sd A) :=
  its <- inititerators_uniform edatasize ed ;; Ok (mkSd ta_empty ed edatasize its).
(** serializededata.h:217-218, move constructor: always the non-uniform initialisation *)
Definition sd_move {A} (other : sd A) : outcome (sd A) :=
  its <- inititerators (sd_eb other) (sd_ed other) ;;
  Ok (mkSd (sd_eb other) (sd_ed other) (sd_edatasize other) its).

(** [for (auto e = data->begin(t); e != data->end(t); ++e) visit( *e );] serializededata.h:285-290.
    [Fail] when the loop is not finished after [fuel] steps. *)
Fixpoint it_loop {A} (fuel : nat) (bnd : list Z) (data : list A) (it last : iter) : outcome (list (list A)) :=
  if it_eq it last then Ok [] else
  match fuel with
  | O => Fail
  | S f =>
    r <- it_deref data it ;;
    it <- it_move bnd it 1%Z ;;
    rs <- it_loop f bnd data it last ;;
    Ok (r :: rs)
  end.
Definition sd_iterate {A} (fuel : nat) (s : sd A) (t : nat) : outcome (list (list A)) :=
  b <- rd (sd_iter s) t ;;
  e <- rd (sd_iter s) (t + 1) ;;
  it_loop fuel (ta_list (sd_eb s)) (ta_list (sd_ed s)) b e.

(** pointer range [b, e) of an array *)
Definition range {A} (l : list A) (b e : Z) : outcome (list A) :=
  if ((0 <=? b) && (b <=? e) && (e <=? Z.of_nat (length l)))%Z
  then Ok (slice (Z.to_nat b) (Z.to_nat e) l) else UB.

(** serializededata.h:350-351, body of the loop *)
Definition permuteUniform_step {A} (data : list A) (edatasize : Z) (permutation : list Z)
  (pdata : list A) (i : nat) : outcome (list A) :=
  p <- rd permutation i ;;
  r <- range data (edatasize * p)%Z (edatasize * (p + 1))%Z ;;
  Ok (pdata ++ r).
(** serializededata.h:340-358, permuteUniformData *)
Definition permuteUniform {A} esz mem sched (s : sd A) (permutation : list Z) (distribution : list nat)
  : outcome (sd A) :=
  pdata <- map_out (fun t =>
      b <- rd distribution t ;;
      e <- rd distribution (t + 1) ;;
      foldM (permuteUniform_step (ta_list (sd_ed s)) (sd_edatasize s) permutation) (seq b (e - b)) [])
    (seq 0 (length distribution - 1)) ;;
  ed <- ta_from_parts esz mem sched pdata 0 ;;
  its <- inititerators_uniform (sd_edatasize s) ed ;;
  Ok (mkSd (sd_eb s) ed (sd_edatasize s) its).

(** serializededata.h:378-386, body of the loop: the pair (pboundaries[t], pdata[t]) *)
Definition permuteNonUniform_step {A} (bnd : list Z) (data : list A) (permutation : list Z)
  '((pb, pd) : list Z * list A) (e : nat) : outcome (list Z * list A) :=
  p <- (if e =? 0 then UB else rd permutation (e - 1)) ;;
  v1 <- rdZ bnd (p + 1)%Z ;;
  v0 <- rdZ bnd p ;;
  r <- range data v0 v1 ;;
  let size := (v1 - v0)%Z in
  let size := match pb with [] => size | _ => (size + last pb 0)%Z end in
  Ok (pb ++ [size], pd ++ r).
(** serializededata.h:391-409: offsets and their addition *)
Fixpoint add_offsets (sum : Z) (pb : list (list Z)) : list (list Z) :=
  match pb with
  | [] => []
  | b :: r => map (fun v => (v + sum)%Z) b :: add_offsets (sum + last b 0)%Z r
  end.
(** serializededata.h:360-413, permuteNonUniformData *)
Definition permuteNonUniform {A} esz memb memd schedb schedd (s : sd A) (permutation : list Z)
  (providedDistribution : list nat) : outcome (sd A) :=
  let bnd := ta_list (sd_eb s) in
  let data := ta_list (sd_ed s) in
  match providedDistribution, ta_distribution (sd_eb s) with
  | [], _ => UB | _, [] => UB | [_], _ => UB   (* back(), front() of empty vectors *)
  | d0 :: rest, ebd =>
    let distribution :=
      if last providedDistribution 0 <? last ebd 0 then d0 :: map S rest else providedDistribution in
    parts <- map_out (fun t =>
        b <- (if t =? 0 then Ok 1 else rd distribution t) ;;
        e <- rd distribution (t + 1) ;;
        foldM (permuteNonUniform_step bnd data permutation) (seq b (e - b))
          (if t =? 0 then [0%Z] else [], []))
      (seq 0 (length providedDistribution - 1)) ;;
    let pboundaries := add_offsets 0%Z (map fst parts) in
    eb <- ta_from_parts 8 memb schedb pboundaries 0 ;;
    ed <- ta_from_parts esz memd schedd (map snd parts) 0 ;;
    its <- inititerators eb ed ;;
    Ok (mkSd eb ed (sd_edatasize s) its)
  end.

(** serializededata.h:274-281, permute *)
Definition sd_permute {A} esz memb memd schedb schedd (s : sd A) permutation distribution :=
  if ta_size (sd_eb s) =? 0 then permuteUniform esz memd schedd s permutation distribution
  else permuteNonUniform esz memb memd schedb schedd s permutation distribution.

(** *** Packing of the records.  [esint] has [iz] bytes (4 or 8). *)
Section SdPack.
Context {A : Type}.
Variable iz esz : nat.
Variable rep : A -> list Z.
Variable unrep : list Z -> A.

(** object representation of a signed integer of [iz] bytes (two's complement, little endian) *)
Definition rep_int (v : Z) : list Z := le_bytes iz (v mod 256 ^ Z.of_nat iz)%Z.
Definition unrep_int (l : list Z) : Z :=
  let u := of_le l in
  (if u <? 256 ^ Z.of_nat iz / 2 then u else u - 256 ^ Z.of_nat iz)%Z.

(** serializededata.h:297-300 *)
Definition sd_packedSize (s : sd A) : nat := iz + ta_packedSize iz (sd_eb s) + ta_packedSize esz (sd_ed s).
(** serializededata.h:302-309 *)
Definition sd_pack (s : sd A) (b : list Z * nat) : outcome (list Z * nat) :=
  b <- store b (rep_int (sd_edatasize s)) ;;
  b <- ta_pack rep_int (sd_eb s) b ;;
  ta_pack rep (sd_ed s) b.
(** serializededata.h:311-324 *)
Definition sd_unpack (memb : memory Z) (memd : memory A) (s : sd A) (buf : list Z) (p : nat)
  : outcome (sd A * nat) :=
  '(w, p) <- load buf p iz ;;
  let edatasize := unrep_int w in
  '(eb, p) <- ta_unpack iz unrep_int memb (sd_eb s) buf p ;;
  '(ed, p) <- ta_unpack esz unrep memd (sd_ed s) buf p ;;
  its <- (if (edatasize =? -1)%Z then inititerators eb ed else inititerators_uniform edatasize ed) ;;
  Ok (mkSd eb ed edatasize its, p).

(** serializededata.h:426-462: the overloads for pointers, NULL is [None] *)
Definition ptr_packedSize (s : option (sd A)) : nat :=
  match s with None => 1 | Some s => 1 + sd_packedSize s end.
Definition ptr_pack (s : option (sd A)) (b : list Z * nat) : outcome (list Z * nat) :=
  match s with
  | None => store b [0%Z]
  | Some s => b <- store b [1%Z] ;; sd_pack s b
  end.
Definition ptr_unpack memb memd (old : option (sd A)) (buf : list Z) (p : nat)
  : outcome (option (sd A) * nat) :=
  '(w, p) <- load buf p 1 ;;
  if (of_le w =? 0)%Z then Ok (None, p) else
  '(s, p) <- sd_unpack memb memd (mkSd ta_empty ta_empty (-1)%Z []) buf p ;;
  Ok (Some s, p).
End SdPack.

(** ** balance *)

(** serializededata.h:34-45, the loop [while (++tt && data[t].size() < need)] of the fixed-size version.
    [Fail] never occurs with enough [fuel]. *)
Fixpoint fill_fixed {A} (fuel need t tt : nat) (data : list (list A)) : outcome (list (list A)) :=
  dt <- rd data t ;;
  if length dt <? need then
    match fuel with
    | O => Fail
    | S f =>
      let diff := need - length dt in
      dtt <- rd data tt ;;
      if diff <? length dtt then
        data <- wr data t (dt ++ firstn diff dtt) ;;
        data <- wr data tt (skipn diff dtt) ;;
        fill_fixed f need t (tt + 1) data
      else
        data <- wr data t (dt ++ dtt) ;;
        data <- wr data tt [] ;;
        fill_fixed f need t (tt + 1) data
    end
  else Ok data.
(** serializededata.h:33-52, body of the loop over threads *)
Definition balance_fixed_step {A} (esize : nat) (distribution : list nat) (data : list (list A)) (t : nat)
  : outcome (list (list A)) :=
  b <- rd distribution t ;;
  e <- rd distribution (t + 1) ;;
  let need := esize * (e - b) in
  data <- fill_fixed (length data) need t (t + 1) data ;;
  dt <- rd data t ;;
  if need <? length dt then
    next <- rd data (t + 1) ;;
    data <- wr data (t + 1) (skipn need dt ++ next) ;;
    wr data t (firstn need dt)
  else Ok data.
(** serializededata.h:17-54, balance(esize, data, distribution) *)
Definition balance_fixed {A} (esize : nat) (data : list (list A)) (distribution : list nat)
  : outcome (list (list A)) :=
  foldM (balance_fixed_step esize distribution) (seq 0 (length data)) data.

(** serializededata.h:56-116, balance(boundaries, data, distribution): the state is
    (boundaries, data, sizes).  The sizes are integers: with a non-empty first thread none of them
    becomes negative. *)
Definition bstate (A : Type) : Type := list (list Z) * list (list A) * list Z.
(** serializededata.h:80-81: the last non-empty boundaries before thread [k] *)
Fixpoint last_nonempty (boundaries : list (list Z)) (k : nat) : outcome Z :=
  match k with
  | O => UB
  | S j =>
    b <- rd boundaries j ;;
    match b with [] => last_nonempty boundaries j | _ => Ok (last b 0%Z) end
  end.
(** vector::insert/erase of the first [n] elements at an integer count *)
Definition takeZ {A} (n : Z) (l : list A) : outcome (list A * list A) :=
  if ((0 <=? n) && (n <=? Z.of_nat (length l)))%Z
  then Ok (firstn (Z.to_nat n) l, skipn (Z.to_nat n) l) else UB.
(** serializededata.h:77-102, the loop [while (++tt && sizes[t] < need)] *)
Fixpoint fill_various {A} (fuel : nat) (need : Z) (t tt : nat) (st : bstate A) : outcome (bstate A) :=
  let '(boundaries, data, sizes) := st in
  st <- rd sizes t ;;
  if (st <? need)%Z then
    match fuel with
    | O => Fail
    | S f =>
      let diff := (need - st)%Z in
      stt <- rd sizes tt ;;
      bt <- rd boundaries t ;;
      btt <- rd boundaries tt ;;
      dt <- rd data t ;;
      dtt <- rd data tt ;;
      if (diff <? stt)%Z then
        prev <- last_nonempty boundaries tt ;;
        v <- rdZ btt (diff - 1)%Z ;;
        '(d1, d2) <- takeZ (v - prev)%Z dtt ;;
        '(b1, b2) <- takeZ diff btt ;;
        data <- wr data t (dt ++ d1) ;;
        data <- wr data tt d2 ;;
        boundaries <- wr boundaries t (bt ++ b1) ;;
        boundaries <- wr boundaries tt b2 ;;
        sizes <- wr sizes t (st + diff)%Z ;;
        sizes <- wr sizes tt (stt - diff)%Z ;;
        fill_various f need t (tt + 1) (boundaries, data, sizes)
      else
        let n := Z.of_nat (length btt) in
        data <- wr data t (dt ++ dtt) ;;
        data <- wr data tt [] ;;
        boundaries <- wr boundaries t (bt ++ btt) ;;
        boundaries <- wr boundaries tt [] ;;
        sizes <- wr sizes t (st + n)%Z ;;
        sizes <- wr sizes tt (stt - n)%Z ;;
        fill_various f need t (tt + 1) (boundaries, data, sizes)
    end
  else Ok (boundaries, data, sizes).
(** serializededata.h:103-113 and the loop over threads *)
Definition balance_various_step {A} (distribution : list nat) (st : bstate A) (t : nat) : outcome (bstate A) :=
  b <- rd distribution t ;;
  e <- rd distribution (t + 1) ;;
  let need := (Z.of_nat e - Z.of_nat b)%Z in
  '(boundaries, data, sizes) <- fill_various (length (snd st)) need t (t + 1) st ;;
  st <- rd sizes t ;;
  if (need <? st)%Z then
    let diff := (st - need)%Z in
    bt <- rd boundaries t ;;
    dt <- rd data t ;;
    bn <- rd boundaries (t + 1) ;;
    dn <- rd data (t + 1) ;;
    sn <- rd sizes (t + 1) ;;
    let lb := Z.of_nat (length bt) in
    v1 <- rdZ bt (lb - 1)%Z ;;
    v0 <- rdZ bt (lb - diff - 1)%Z ;;
    let ediff := (v1 - v0)%Z in
    '(d1, d2) <- takeZ (Z.of_nat (length dt) - ediff)%Z dt ;;
    '(b1, b2) <- takeZ (lb - diff)%Z bt ;;
    data <- wr data (t + 1) (d2 ++ dn) ;;
    data <- wr data t d1 ;;
    boundaries <- wr boundaries (t + 1) (b2 ++ bn) ;;
    boundaries <- wr boundaries t b1 ;;
    sizes <- wr sizes t (st - diff)%Z ;;
    sizes <- wr sizes (t + 1) (sn + diff)%Z ;;
    Ok (boundaries, data, sizes)
  else Ok (boundaries, data, sizes).
Definition balance_various {A} (boundaries : list (list Z)) (data : list (list A)) (distribution : list nat)
  : outcome (list (list Z) * list (list A)) :=
  match map (fun b => Z.of_nat (length b)) boundaries with
  | [] => UB                                   (* --sizes[0] *)
  | s0 :: rest =>
    if fold_left Nat.add (map (@length Z) boundaries) 0 =? 0 then Ok (boundaries, data) else
    if (s0 =? 0)%Z then UB else                (* sizes[0] = size_t(-1): boundaries[0].back() is read at line 105 *)
    '(boundaries, data, _) <- foldM (balance_various_step distribution) (seq 0 (length boundaries))
      (boundaries, data, (s0 - 1)%Z :: rest) ;;
    Ok (boundaries, data)
  end.
