(** * Vocabulary for the allocator properties: what a client of an allocator can observe *)
From Coq Require Import ZArith List.
From Verif Require Import Base M_Alloc.
Import ListNotations.
Local Open Scope Z_scope.

(** two memory blocks (first address, size) share no byte *)
Definition disjoint (x y : Z * Z) : Prop := fst x + snd x <= fst y \/ fst y + snd y <= fst x.
Definition pairwise_disjoint (l : list (Z * Z)) : Prop := ForallOrdPairs disjoint l.

(** the block lies in the memory [lo, lo + capacity) *)
Definition inside (lo capacity : Z) (x : Z * Z) : Prop := lo <= fst x /\ fst x + snd x <= lo + capacity.

(** ** Histories of an arena: calls with returned pointers, oldest first *)

(** blocks handed out since the last reset, newest first, starting with [acc] *)
Fixpoint since_reset (acc : list (Z * Z)) (h : list (arena_call * Z)) : list (Z * Z) :=
  match h with
  | [] => acc
  | (AAllocate n, p) :: t => since_reset (if n =? 0 then acc else (p, n) :: acc) t
  | (ADeallocate _, _) :: t => since_reset acc t
  | (AReset, _) :: t => since_reset [] t
  end.

(** the client gives the block with address p back *)
Fixpoint give_back (p : Z) (l : list (Z * Z)) : list (Z * Z) :=
  match l with
  | [] => []
  | x :: t => if fst x =? p then t else x :: give_back p t
  end.

(** blocks handed out and not given back, starting with [acc]; resets do not matter *)
Fixpoint outstanding (acc : list (Z * Z)) (h : list (arena_call * Z)) : list (Z * Z) :=
  match h with
  | [] => acc
  | (AAllocate n, p) :: t => outstanding (if n =? 0 then acc else (p, n) :: acc) t
  | (ADeallocate q, _) :: t => outstanding (give_back q acc) t
  | (AReset, _) :: t => outstanding acc t
  end.

(** clients only give back null or a pointer they hold *)
Fixpoint honest (acc : list (Z * Z)) (h : list (arena_call * Z)) : Prop :=
  match h with
  | [] => True
  | (AAllocate n, p) :: t => honest (if n =? 0 then acc else (p, n) :: acc) t
  | (ADeallocate q, _) :: t => (q = 0 \/ In q (map fst acc)) /\ honest (give_back q acc) t
  | (AReset, _) :: t => honest acc t
  end.

(** blocks handed out by an [AllocatorArena_new] since the last [clear], newest first *)
Fixpoint since_clear (acc : list (Z * Z)) (h : list (arena2_call * Z)) : list (Z * Z) :=
  match h with
  | [] => acc
  | (NAlloc n, p) :: t => since_clear (if n =? 0 then acc else (p, n) :: acc) t
  | (NClear, _) :: t => since_clear [] t
  end.
Definition request2_sane (c : arena2_call) : Prop := match c with NAlloc n => 0 <= n < 2 ^ 63 | NClear => True end.

(** an arena used as intended: sizes are far from the end of the address space *)
Definition arena_sane (mem capacity align : Z) : Prop :=
  0 < mem /\ 0 < align /\ 0 <= capacity /\ mem + capacity <= 2 ^ 64 /\ capacity + align + 1 < 2 ^ 63.
Definition request_sane (c : arena_call) : Prop :=
  match c with AAllocate n => 0 <= n < 2 ^ 63 | ADeallocate p => 0 <= p | AReset => True end.

(** ** Runs of the circular buffer allocator *)

(** alignments are powers of two (as in C++) *)
Definition power_of_two (a : Z) : Prop := exists j, 0 <= j <= 64 /\ a = 2 ^ j.
Definition event_sane (e : cbmb_event) : Prop :=
  match e with EAllocate n align => 0 <= n /\ power_of_two align | _ => True end.

(** nothing is held and nobody waits *)
Definition idle (s : cbmb) : bool :=
  match waiting s, granted s with [], [] => true | _, _ => false end.
(** calls that advance the position in the circular buffer *)
Definition advances (e : cbmb_event) : nat :=
  match e with EAllocate _ _ | EEnd => 1 | _ => 0 end.

(** [cbmb_reach base pool k s]: the resource with memory [base, base + pool) can get to state [s] by some interleaving of any
    number of threads; [k] counts the calls that advance the position since the resource was last idle.  The position
    is a 64-bit word: [2 * pool * (k + 3) <= 2^64] says that it has not wrapped around. *)
Inductive cbmb_reach (base pool : Z) : nat -> cbmb -> Prop :=
| reach_new : cbmb_reach base pool 0 cbmb_new
| reach_step k s e s' :
    cbmb_reach base pool k s ->
    event_sane e ->
    cbmb_exec base pool s e = Some (Ok s') ->
    2 * pool * (Z.of_nat k + 3) <= 2 ^ 64 ->
    cbmb_reach base pool (if idle s' then 0 else k + advances e) s'.

(** memory block of a client, as an interval of pool offsets *)
Definition extent (b : blk) : Z * Z := (b_off b, b_size b).

(** the wait predicate of a blocked call holds *)
Definition grantable (pool : Z) (s : cbmb) (q : wreq) : Prop := cbmb_fits pool (start_full s) (q_end q) = true.

(** steps taken by threads that only finish what they began *)
Definition finishing (e : cbmb_event) : Prop :=
  match e with EWake _ | EDeallocate _ | ENotify => True | _ => False end.

(** run of several steps without error *)
Fixpoint cbmb_steps (base pool : Z) (s : cbmb) (es : list cbmb_event) : option cbmb :=
  match es with
  | [] => Some s
  | e :: t => match cbmb_exec base pool s e with Some (Ok s') => cbmb_steps base pool s' t | _ => None end
  end.
