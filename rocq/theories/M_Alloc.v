(** * Model of the memory resources

    /repo/src/basis/utilities/arena_allocator.{h,cpp}, /repo/src/basis/utilities/cbmb_allocator.{h,cpp},
    /repo/src/math/primitives_new/allocator_new.h.

    Addresses and sizes are 64-bit words ([size_t], [char*]); arithmetic on them wraps.  Every method body is one
    critical section (the mutexes / omp critical), so a run of any number of threads is a sequence of calls. *)
From Coq Require Import ZArith List Bool Arith.
From Verif Require Import Base.
Import ListNotations.
Local Open Scope Z_scope.

Definition w64 (z : Z) : Z := wrap 64 z.

(** ** arena_allocator_resource *)

(** arena_allocator.h:20-30, the members of the resource *)
Record arena := { a_mem : Z; a_capacity : Z; a_align : Z; a_offset : Z; a_num : Z }.

(** arena_allocator.cpp:12-17, the constructor *)
Definition arena_new (mem capacity align : Z) : outcome arena :=
  if mem mod align =? 0
  then Ok {| a_mem := mem; a_capacity := capacity; a_align := align; a_offset := 0; a_num := 0 |}
  else Fail.

(** arena_allocator.cpp:19-34, allocate; the null pointer is 0 *)
Definition arena_allocate (a : arena) (num_bytes : Z) : outcome (arena * Z) :=
  if num_bytes =? 0 then Ok (a, 0) else
  let ptr := w64 (a_mem a + a_offset a) in
  let off := w64 (a_offset a + num_bytes) in
  if off >? a_capacity a then Fail else
  let off' := w64 ((w64 (off + 1) / a_align a + 1) * a_align a) in
  Ok ({| a_mem := a_mem a; a_capacity := a_capacity a; a_align := a_align a;
         a_offset := off'; a_num := w64 (a_num a + 1) |}, ptr).

(** arena_allocator.cpp:36-44, deallocate (the caller's pointer becomes null) *)
Definition arena_deallocate (a : arena) (ptr : Z) : arena :=
  if ptr =? 0 then a else
  {| a_mem := a_mem a; a_capacity := a_capacity a; a_align := a_align a;
     a_offset := a_offset a; a_num := w64 (a_num a - 1) |}.

(** arena_allocator.cpp:46-56, reset_arena *)
Definition arena_reset (a : arena) : outcome arena :=
  if a_num a =? 0
  then Ok {| a_mem := a_mem a; a_capacity := a_capacity a; a_align := a_align a; a_offset := 0; a_num := 0 |}
  else Fail.

(** arena_allocator.cpp:58-61, get_free_size *)
Definition arena_get_free_size (a : arena) : Z := w64 (a_capacity a - a_offset a).

(** a call of the resource *)
Inductive arena_call := AAllocate (n : Z) | ADeallocate (ptr : Z) | AReset.

(** the call and the value it returns (0 for calls returning nothing) *)
Definition arena_exec (a : arena) (c : arena_call) : outcome (arena * Z) :=
  match c with
  | AAllocate n => arena_allocate a n
  | ADeallocate p => Ok (arena_deallocate a p, 0)
  | AReset => match arena_reset a with Ok a' => Ok (a', 0) | Fail => Fail | UB => UB end
  end.

(** a history of calls with the values they returned, oldest first *)
Fixpoint arena_run (a : arena) (cs : list arena_call) : outcome (arena * list (arena_call * Z)) :=
  match cs with
  | [] => Ok (a, [])
  | c :: t =>
    obind (arena_exec a c) (fun r =>
    obind (arena_run (fst r) t) (fun q => Ok (fst q, (c, snd r) :: snd q)))
  end.

(** ** AllocatorArena_new, allocator_new.h:126-189 *)
Record arena2 := { n_start : Z; n_capacity : Z; n_used : Z; n_align : Z }.

(** allocator_new.h:135-138, the constructor *)
Definition arena2_new (align : Z) : arena2 :=
  {| n_start := 0; n_capacity := 0; n_used := 0; n_align := align |}.

(** allocator_new.h:140-148, set *)
Definition arena2_set (a : arena2) (ptr capacity : Z) : outcome arena2 :=
  if negb (n_start a =? 0) then Fail else
  if negb (ptr mod n_align a =? 0) then Fail else
  Ok {| n_start := ptr; n_capacity := capacity; n_used := 0; n_align := n_align a |}.

(** allocator_new.h:149-156, clear and unset *)
Definition arena2_clear (a : arena2) : arena2 :=
  {| n_start := n_start a; n_capacity := n_capacity a; n_used := 0; n_align := n_align a |}.
Definition arena2_unset (a : arena2) : arena2 :=
  {| n_start := 0; n_capacity := n_capacity a; n_used := n_used a; n_align := n_align a |}.

(** utils.h:133-139 for size_t *)
Definition round_up64 (num align : Z) : Z := w64 ((w64 (num - 1) / align + 1) * align).

(** allocator_new.h:157-174, alloc *)
Definition arena2_alloc (a : arena2) (num_bytes : Z) : outcome (arena2 * Z) :=
  if num_bytes =? 0 then Ok (a, 0) else
  if n_start a =? 0 then Fail else
  let ptr := w64 (n_start a + n_used a) in
  let used := w64 (n_used a + num_bytes) in
  if used >? n_capacity a then Fail else
  Ok ({| n_start := n_start a; n_capacity := n_capacity a;
         n_used := round_up64 used (n_align a); n_align := n_align a |}, ptr).

(** allocator_new.h:191-194, get_remaining_capacity; utils.h:141-146 round_down *)
Definition arena2_remaining (a : arena2) : Z := w64 (n_capacity a - n_used a) / n_align a * n_align a.

(** a call of the allocator after [set] ([free] has no effect); a history of calls with returned pointers, oldest first *)
Inductive arena2_call := NAlloc (n : Z) | NClear.
Definition arena2_exec (a : arena2) (c : arena2_call) : outcome (arena2 * Z) :=
  match c with
  | NAlloc n => arena2_alloc a n
  | NClear => Ok (arena2_clear a, 0)
  end.
Fixpoint arena2_run (a : arena2) (cs : list arena2_call) : outcome (arena2 * list (arena2_call * Z)) :=
  match cs with
  | [] => Ok (a, [])
  | c :: t =>
    obind (arena2_exec a c) (fun r =>
    obind (arena2_run (fst r) t) (fun q => Ok (fst q, (c, snd r) :: snd q)))
  end.

(** ** cbmba_resource *)

(** A block as the client sees it: distance of the returned pointer from memory_pool, the requested size and alignment *)
Record blk := { b_off : Z; b_size : Z; b_align : Z }.

(** A call of [allocate] blocked in [cv.wait] (cbmb_allocator.cpp:57): its local variables new_block_start_aligned and
    new_block_end, the requested size and alignment, and whether the condition variable has notified it since it last
    evaluated its predicate. *)
Record wreq := { q_aligned : Z; q_end : Z; q_size : Z; q_align : Z; q_notified : bool }.

(** cbmb_allocator.h members, plus the state of the threads using the resource: the blocked calls, the blocks
    returned to clients, and the number of calls of [deallocate] between the end of their critical section
    (line 80) and [notify_all] (line 81). *)
Record cbmb := {
  start_empty : Z; start_full : Z; full_blocks : list (Z * Z);
  transaction_end_fail : Z; mem_allocated_in_transaction : Z;
  do_reset_to_start_after_transaction : bool; in_transaction : bool;
  waiting : list wreq; granted : list blk; notifying : nat }.

(** cbmb_allocator.cpp:12-19 (and the member initialisers of the header): the constructor *)
Definition cbmb_new : cbmb :=
  {| start_empty := 0; start_full := 0; full_blocks := [];
     transaction_end_fail := 2 ^ 64 - 1; mem_allocated_in_transaction := 0;
     do_reset_to_start_after_transaction := false; in_transaction := false;
     waiting := []; granted := []; notifying := 0 |}.

(** cbmb_allocator.cpp:38-46: position of a new block: start, aligned start, end *)
Definition cbmb_place (pool start_empty num_bytes align : Z) : Z * Z * Z :=
  let start := start_empty in
  let aligned := round_up64 start align in
  let end_ := w64 (aligned + num_bytes) in
  if w64 (end_ - 1) / pool >? start / pool then
    let start := round_up64 start_empty pool in
    let aligned := round_up64 start align in
    (start, aligned, w64 (aligned + num_bytes))
  else (start, aligned, end_).

(** cbmb_allocator.cpp:57, the predicate of the wait *)
Definition cbmb_fits (pool start_full end_ : Z) : bool := end_ <=? w64 (start_full + pool).

(** cbmb_allocator.cpp:25-57: the first critical section of [allocate], until the predicate is evaluated for the
    first time; [cv.wait] returns at once if the predicate holds, otherwise the call is blocked. *)
Definition cbmb_allocate (base pool : Z) (s : cbmb) (num_bytes align : Z) : outcome cbmb :=
  if num_bytes =? 0 then Ok s else
  if num_bytes >? pool then Fail else
  if negb (pool mod align =? 0) then Fail else
  if negb (base mod align =? 0) then Fail else
  let '(start, aligned, end_) := cbmb_place pool (start_empty s) num_bytes align in
  if in_transaction s && (end_ >? transaction_end_fail s) then Fail else
  let mem := if in_transaction s then w64 (mem_allocated_in_transaction s + num_bytes)
             else mem_allocated_in_transaction s in
  let reset := if in_transaction s && (mem >? pool / 2) then true else do_reset_to_start_after_transaction s in
  let fits := cbmb_fits pool (start_full s) end_ in
  Ok {| start_empty := end_; start_full := start_full s; full_blocks := full_blocks s ++ [(start, aligned)];
        transaction_end_fail := transaction_end_fail s; mem_allocated_in_transaction := mem;
        do_reset_to_start_after_transaction := reset; in_transaction := in_transaction s;
        waiting := if fits then waiting s
                   else waiting s ++ [{| q_aligned := aligned; q_end := end_; q_size := num_bytes;
                                     q_align := align; q_notified := false |}];
        granted := if fits then granted s ++ [{| b_off := aligned mod pool; b_size := num_bytes; b_align := align |}] else granted s;
        notifying := notifying s |}.

Definition set_waiting (s : cbmb) (w : list wreq) (g : list blk) : cbmb :=
  {| start_empty := start_empty s; start_full := start_full s; full_blocks := full_blocks s;
     transaction_end_fail := transaction_end_fail s;
     mem_allocated_in_transaction := mem_allocated_in_transaction s;
     do_reset_to_start_after_transaction := do_reset_to_start_after_transaction s;
     in_transaction := in_transaction s; waiting := w; granted := g; notifying := notifying s |}.

(** cbmb_allocator.cpp:57-61: the i-th blocked call wakes up (notified or spuriously), evaluates its predicate and
    either returns the pointer or blocks again.  [None]: there is no such call. *)
Definition cbmb_wake (pool : Z) (s : cbmb) (i : nat) : option cbmb :=
  match nth_error (waiting s) i with
  | None => None
  | Some q =>
    let rest := firstn i (waiting s) ++ skipn (S i) (waiting s) in
    if cbmb_fits pool (start_full s) (q_end q)
    then Some (set_waiting s rest (granted s ++ [{| b_off := q_aligned q mod pool; b_size := q_size q; b_align := q_align q |}]))
    else Some (set_waiting s (upd (waiting s) i {| q_aligned := q_aligned q; q_end := q_end q;
                                                   q_size := q_size q; q_align := q_align q; q_notified := false |}) (granted s))
  end.

(** cbmb_allocator.cpp:74-76: find_if and erase of the first block that starts at the offset; [None] if there is none *)
Fixpoint remove_first {A} (f : A -> bool) (l : list A) : option (list A) :=
  match l with
  | [] => None
  | x :: t => if f x then Some t else option_map (cons x) (remove_first f t)
  end.

(** cbmb_allocator.cpp:64-80: [deallocate] until the end of its critical section.  The client gives back the block with that
    pointer; calling it with a pointer that is not held is a client error and not a transition of the model (enabledness
    is checked in [cbmb_exec]). *)
Definition cbmb_deallocate (pool : Z) (s : cbmb) (off : Z) : outcome cbmb :=
  match remove_first (fun mb => snd mb mod pool =? off) (full_blocks s) with
  | None => Fail
  | Some fb =>
    Ok {| start_empty := match fb with [] => 0 | _ => start_empty s end;
          start_full := match fb with [] => 0 | b :: _ => fst b end;
          full_blocks := fb;
          transaction_end_fail := transaction_end_fail s;
          mem_allocated_in_transaction := mem_allocated_in_transaction s;
          do_reset_to_start_after_transaction := do_reset_to_start_after_transaction s;
          in_transaction := in_transaction s; waiting := waiting s;
          granted := match remove_first (fun b => b_off b =? off) (granted s) with
                     | Some g => g | None => granted s end;
          notifying := S (notifying s) |}
  end.

(** cbmb_allocator.cpp:81: notify_all *)
Definition cbmb_notify (s : cbmb) : cbmb :=
  {| start_empty := start_empty s; start_full := start_full s; full_blocks := full_blocks s;
     transaction_end_fail := transaction_end_fail s;
     mem_allocated_in_transaction := mem_allocated_in_transaction s;
     do_reset_to_start_after_transaction := do_reset_to_start_after_transaction s;
     in_transaction := in_transaction s;
     waiting := map (fun q => {| q_aligned := q_aligned q; q_end := q_end q; q_size := q_size q;
                                 q_align := q_align q; q_notified := true |}) (waiting s);
     granted := granted s; notifying := pred (notifying s) |}.

(** cbmb_allocator.cpp:94-98: do_transaction before f().
    Simplification: the unsynchronised accesses of lines 96-102 are taken as atomic. *)
Definition cbmb_begin (pool : Z) (s : cbmb) : cbmb :=
  {| start_empty := start_empty s; start_full := start_full s; full_blocks := full_blocks s;
     transaction_end_fail := w64 (start_empty s + pool); mem_allocated_in_transaction := 0;
     do_reset_to_start_after_transaction := do_reset_to_start_after_transaction s;
     in_transaction := true; waiting := waiting s; granted := granted s; notifying := notifying s |}.

(** cbmb_allocator.cpp:100-103: do_transaction after f() *)
Definition cbmb_end (pool : Z) (s : cbmb) : cbmb :=
  {| start_empty := if do_reset_to_start_after_transaction s then round_up64 (start_empty s) pool else start_empty s;
     start_full := start_full s; full_blocks := full_blocks s;
     transaction_end_fail := transaction_end_fail s; mem_allocated_in_transaction := 0;
     do_reset_to_start_after_transaction := do_reset_to_start_after_transaction s;
     in_transaction := false; waiting := waiting s; granted := granted s; notifying := notifying s |}.

Inductive cbmb_event :=
| EAllocate (n align : Z)   (* a thread calls allocate *)
| EWake (i : nat)           (* a blocked call evaluates its predicate *)
| EDeallocate (off : Z)     (* a thread returns the block at this offset *)
| ENotify                   (* a deallocate call finishes *)
| EBegin | EEnd.            (* do_transaction *)

(** one atomic step of some thread; [None]: this step is not possible in the state *)
Definition cbmb_exec (base pool : Z) (s : cbmb) (e : cbmb_event) : option (outcome cbmb) :=
  match e with
  | EAllocate n align => Some (cbmb_allocate base pool s n align)
  | EWake i => option_map Ok (cbmb_wake pool s i)
  | EDeallocate off =>
    if existsb (fun b => b_off b =? off) (granted s) then Some (cbmb_deallocate pool s off) else None
  | ENotify => match notifying s with O => None | S _ => Some (Ok (cbmb_notify s)) end
  | EBegin => if in_transaction s then None else Some (Ok (cbmb_begin pool s))
  | EEnd => if in_transaction s then Some (Ok (cbmb_end pool s)) else None
  end.
