(** * Collective operations by recursive halving and shifts

    /repo/src/wrappers/mpi/communication.{h,hpp,cpp}.  A function called by all ranks is a program of each rank.  Functions are
    written with an explicit continuation [k]: what the rank does next.  Not modelled: the profiler calls, the counters of tags
    (the calls of one operation use one tag), MPI errors other than a message longer than the receive buffer, and the count type
    [int] of MPI.  A message of elements stands for the bytes sent by [type.mpisize * size] and [type.mpitype]. *)
From Coq Require Import List Arith Bool ZArith.
From Verif Require Import Base M_Mpi.
Import ListNotations.

(** ** RecursiveHalving *)

(** communication.cpp:271 *)
Definition rh_mid (l r : nat) : nat := l + (r - l) / 2 + (r - l) mod 2.
(** communication.cpp:277, the result of [recurse()] *)
Definition rh_more (l r : nat) : bool := l + 1 <? r.
(** communication.cpp:290-293 *)
Definition rh_lower (rank l r : nat) : bool := rank <? rh_mid l r.
(** communication.cpp:272-276 *)
Definition rh_twin (rank l r : nat) : nat := if rh_lower rank l r then rank + (rh_mid l r - l) else rank - (rh_mid l r - l).
(** communication.cpp:300-303; [ispaired] (305-308) is its negation *)
Definition rh_odd (rank l r : nat) : bool := negb ((r - l) mod 2 =? 0) && (rank + 1 =? rh_mid l r).
(** communication.cpp:310-313 *)
Definition rh_treatodd (rank l r : nat) : bool := negb ((r - l) mod 2 =? 0) && (rank =? rh_mid l r).
(** communication.cpp:315-322 *)
Definition rh_exchanged (rank l r : nat) : nat * nat := if rh_lower rank l r then (l, rh_mid l r) else (rh_mid l r, r).

(** communication.cpp:280-288: [left, right] after [recurse(level + 1)], whose result is [rh_more left right] *)
Fixpoint rh_descend (level rank l r : nat) : nat * nat :=
  match level with
  | O => (l, r)
  | S level => if rh_more l r then rh_descend level rank (fst (rh_exchanged rank l r)) (snd (rh_exchanged rank l r)) else (l, r)
  end.

Section Loops.
  Context {M A St : Type}.
  Local Notation P := (prog M A).
  (** one iteration: rank, left, right, local variables, the rest of the program *)
  Variable body : nat -> nat -> nat -> St -> (St -> P) -> P.

  (** [while (rh.recurse()) { body; rh.exchanged(); }]; the interval is halved, [fuel] is its length *)
  Fixpoint rh_loop (fuel rank l r : nat) (st : St) (k : St -> P) : P :=
    if rh_more l r then
      match fuel with
      | O => Crash
      | S fuel => body rank l r st (fun st => rh_loop fuel rank (fst (rh_exchanged rank l r)) (snd (rh_exchanged rank l r)) st k)
      end
    else k st.

  (** the test and the body of [while (levels) { if (rh.recurse(levels--)) { body } }] in an interval *)
  Definition rh_act (rank : nat) (lr : nat * nat) (st : St) (k : St -> P) : P :=
    if rh_more (fst lr) (snd lr) then body rank (fst lr) (snd lr) st k else k st.

  Fixpoint rh_levels (levels rank l r : nat) (st : St) (k : St -> P) : P :=
    match levels with
    | O => k st
    | S levels => rh_act rank (rh_descend levels rank l r) st (fun st => rh_levels levels rank l r st k)
    end.
End Loops.

(** [levels = std::ceil(std::log2(size))] (hpp:620, 684, ...); the floating-point computation is exact enough for every [int] *)
Definition rh_depth (size : nat) : nat := Nat.log2_up size.

(** MPI_Recv to a buffer of fixed length: a longer message is an error (MPI_ERR_TRUNCATE, which aborts) *)
Definition into {M A T} (buf m : list T) (k : list T -> prog M A) : prog M A :=
  if length m <=? length buf then k (m ++ skipn (length m) buf) else Crash.

(** ** allReduce (hpp:1145-1191) *)
Section AllReduce.
  Context {T A : Type}.
  Variable op : T -> T -> T.
  Local Notation P := (prog (list T) A).

  (** hpp:1153-1161; [data] and [recv] have the same length *)
  Definition ar_merge (data recv : list T) : list T := map (fun x => op (fst x) (snd x)) (combine data recv).

  (** hpp:1165-1186; the state is [(data, recv)] *)
  Definition ar_round (rank l r : nat) (st : list T * list T) (k : list T * list T -> P) : P :=
    let data := fst st in
    let recv := snd st in
    let mid := rh_mid l r in
    let twin := rh_twin rank l r in
    if rh_lower rank l r then
      let paired := fun k : list T * list T -> P =>
        if negb (rh_odd rank l r) then
          Snd twin data (Rcv twin (fun m => into recv m (fun recv => k (ar_merge data recv, recv))))
        else k (data, recv) in
      if rh_odd rank l r then Snd mid data (paired k) else paired k
    else
      Rcv twin (fun m => into recv m (fun recv =>
        Snd twin data (
        let data := ar_merge data recv in
        if rh_treatodd rank l r then
          Rcv (mid - 1) (fun m => into recv m (fun recv => k (ar_merge data recv, recv)))
        else k (data, recv)))).

  Definition all_reduce (rank left right : nat) (data : list T) (k : list T -> P) : P :=
    rh_loop ar_round (right - left) rank left right (data, data) (fun st => k (fst st)).
End AllReduce.

(** ** allGatherUnknownSize (hpp:672-738), uniqueAllGatherUnknownSize (hpp:809-871) *)
Section AllGather.
  Context {T A : Type}.
  Local Notation P := (prog (list T) A).
  (** how the received data join the own data: hpp:710 and 727 (own data first or last), hpp:837-842 (sorted union) *)
  Variable merge : bool -> list T -> list T -> list T.

  (** hpp:700-729, 846-866 *)
  Definition ag_round (rank l r : nat) (data : list T) (k : list T -> P) : P :=
    let mid := rh_mid l r in
    let twin := rh_twin rank l r in
    if rh_lower rank l r then
      if negb (rh_odd rank l r) then Snd twin data (Rcv twin (fun recv => k (merge true data recv)))
      else Rcv mid (fun recv => k (merge true data recv))
    else
      Rcv twin (fun recv => Snd twin data (
        if rh_treatodd rank l r then Snd (mid - 1) data (k (merge false data recv))
        else k (merge false data recv))).

  (** [limit] is the number of elements that fit 2^30 bytes (hpp:677-680, 814-817); [None] is the result false *)
  Definition all_gather (limit size rank : nat) (data : list T) (k : option (list T) -> P) : P :=
    if limit <? length data then k None
    else rh_levels ag_round (rh_depth size) rank 0 size data (fun data => k (Some data)).
End AllGather.

(** hpp:710, 727 *)
Definition ag_append {T} (lower : bool) (data recv : list T) : list T := if lower then data ++ recv else recv ++ data.

(** std::set_union of two sorted ranges (hpp:839) for a comparison [ltb] *)
Section SetUnion.
  Context {T : Type}.
  Variable ltb : T -> T -> bool.
  Fixpoint set_union (a b : list T) : list T :=
    let fix aux b :=
      match a, b with
      | [], _ => b
      | _, [] => a
      | x :: a', y :: b' => if ltb x y then x :: set_union a' b
                            else if ltb y x then y :: aux b'
                            else x :: set_union a' b'
      end in aux b.
End SetUnion.

(** ** allGatherInplace (hpp:759-807) *)
Section AllGatherInplace.
  Context {T A : Type}.
  Local Notation P := (prog (list T) A).

  (** MPI_Recv to [data + pos] *)
  Definition recv_at (data : list T) (pos : nat) (m : list T) (k : list T -> P) : P :=
    if pos + length m <=? length data then k (put pos (pos + length m) data m) else Crash.

  (** hpp:770-782; [recvsize] counts elements of [type.mpitype]: the model is for types with [mpisize = 1].
      State: data, offset, size; result: data, nextOffset, nextSize.  A negative offset is outside of the array. *)
  Definition agi_receive (rank source : nat) (st : list T * nat * nat) (m : list T) (k : list T * nat * nat -> P) : P :=
    let '(data, offset, size) := st in
    if source <? rank then
      if length m <=? offset then recv_at data (offset - length m) m (fun data => k (data, offset - length m, size + length m))
      else Crash
    else recv_at data (offset + size) m (fun data => k (data, offset, size + length m)).

  (** [data + offset], [size] elements *)
  Definition agi_part (st : list T * nat * nat) : list T := let '(data, offset, size) := st in slice offset (offset + size) data.

  (** hpp:784-804 *)
  Definition agi_round (rank l r : nat) (st : list T * nat * nat) (k : list T * nat * nat -> P) : P :=
    let mid := rh_mid l r in
    let twin := rh_twin rank l r in
    if rh_lower rank l r then
      if negb (rh_odd rank l r) then Snd twin (agi_part st) (Rcv twin (fun m => agi_receive rank twin st m k))
      else Rcv mid (fun m => agi_receive rank mid st m k)
    else
      Rcv twin (fun m => agi_receive rank twin st m (fun st' =>
        (* the array changed below [offset], the own part is the same *)
        let '(data, _, _) := st' in let '(_, offset, size) := st in
        Snd twin (agi_part (data, offset, size)) (
        if rh_treatodd rank l r then Snd (mid - 1) (agi_part (data, offset, size)) (k st') else k st'))).

  Definition all_gather_inplace (n rank : nat) (data : list T) (offset size : nat) (k : list T -> P) : P :=
    rh_levels agi_round (rh_depth n) rank 0 n (data, offset, size) (fun st => k (fst (fst st))).
End AllGatherInplace.

(** ** gatherUnknownSize (hpp:593-651) *)
Section Gather.
  Context {T A : Type}.
  Local Notation P := (prog (list T) A).

  (** hpp:613-617: exclusive prefix sums in place *)
  Fixpoint ex_offsets (sizes : list nat) (rsize : nat) : list nat :=
    match sizes with
    | [] => []
    | tmp :: sizes => rsize :: ex_offsets sizes (rsize + tmp)
    end.

  (** hpp:628-645; a rank that has sent its data returns: [Some] is the state of a rank that has not returned *)
  Definition ga_round (rank l r : nat) (st : option (list T)) (k : option (list T) -> P) : P :=
    match st with
    | None => k None
    | Some recv =>
      let then_send := fun recv : list T => if rh_mid l r =? rank then Snd l recv (k None) else k (Some recv) in
      if l =? rank then Rcv (rh_mid l r) (fun m => then_send (recv ++ m)) else then_send recv
    end.

  (** [sizes]: result of MPI_Allgather of the sizes of all ranks; [rbuf]: the previous content of rBuffer, which stays on ranks that
      return early.  Result: rBuffer and offsets (hpp:612-617: one more entry than ranks). *)
  Definition gather_unknown (n rank : nat) (sizes : list nat) (sbuf rbuf : list T) (k : list T * list nat -> P) : P :=
    let offsets := ex_offsets (sizes ++ [0]) 0 in
    rh_levels ga_round (rh_depth n) rank 0 n (Some sbuf) (fun st =>
      match st with
      | Some recv => k (recv, offsets)
      | None => k (rbuf, offsets)
      end).
End Gather.

(** ** scatterv (hpp:1193-1237), scatter (hpp:1239-1283) *)
Section Scatter.
  Context {T A : Type}.
  Local Notation P := (prog (list T) A).

  (** element of [displacement] *)
  Definition at_ (disp : list nat) (i : nat) (k : nat -> P) : P :=
    match nth_error disp i with Some v => k v | None => Crash end.

  (** the elements [buf[b, e)]; a wrapped or too long range is outside of the buffer *)
  Definition range (buf : list T) (b e : nat) (k : list T -> P) : P :=
    if (b <=? e) && (e <=? length buf) then k (slice b e buf) else Crash.

  (** hpp:1205-1219, [left = 0]; the state is [(sBuffer, rBuffer)].  A message shorter than the buffer leaves its rest. *)
  Definition sv_round (dflt : T) (disp : list nat) (rank l r : nat) (st : list T * list T) (k : list T * list T -> P) : P :=
    let sbuf := fst st in
    let rbuf := snd st in
    let mid := rh_mid l r in
    at_ disp l (fun dl => at_ disp mid (fun dm => at_ disp r (fun dr =>
    let then_recv := fun rbuf : list T =>
      if mid =? rank then Rcv l (fun m => into (resize (dr - dm) rbuf dflt) m (fun rbuf => k (sbuf, rbuf))) else k (sbuf, rbuf) in
    if l =? rank then
      if rank =? 0 then range sbuf (dm - dl) (dr - dl) (fun m => Snd mid m (then_recv rbuf))
      else range rbuf (dm - dl) (dr - dl) (fun m => Snd mid m (then_recv (resize (dm - dl) rbuf dflt)))
    else then_recv rbuf))).

  Definition scatterv (dflt : T) (n rank : nat) (disp : list nat) (sbuf rbuf : list T) (k : list T -> P) : P :=
    rh_loop (sv_round dflt disp) n rank 0 n (sbuf, rbuf) (fun st =>
      if rank =? 0 then at_ disp 1 (fun d1 => range (fst st) 0 d1 k) else k (snd st)).

  (** hpp:1253-1270; positions are multiples of [size] *)
  Definition sc_round (dflt : T) (size : nat) (rank l r : nat) (st : list T * list T) (k : list T * list T -> P) : P :=
    let sbuf := fst st in
    let rbuf := snd st in
    let mid := rh_mid l r in
    let then_recv := fun rbuf : list T =>
      if mid =? rank then Rcv l (fun m => into (resize ((r - mid) * size) rbuf dflt) m (fun rbuf => k (sbuf, rbuf))) else k (sbuf, rbuf) in
    if l =? rank then
      if rank =? 0 then range sbuf ((mid - l) * size) ((mid - l) * size + (r - mid) * size) (fun m => Snd mid m (then_recv rbuf))
      else range rbuf ((mid - l) * size) ((mid - l) * size + (r - mid) * size) (fun m => Snd mid m (then_recv (resize ((mid - l) * size) rbuf dflt)))
    else then_recv rbuf.

  Definition scatter (dflt : T) (n rank size : nat) (sbuf rbuf : list T) (k : list T -> P) : P :=
    rh_loop (sc_round dflt size) n rank 0 n (sbuf, rbuf) (fun st =>
      if rank =? 0 then range (fst st) 0 size k else k (snd st)).
End Scatter.

(** ** receiveLower (hpp:296-319), receiveUpper (hpp:427-450) *)
Section Shift.
  Context {T A : Type}.
  Local Notation P := (prog (list T) A).

  Definition receive_lower (dflt : T) (n rank : nat) (sbuf rbuf : list T) (k : list T -> P) : P :=
    let rbuf := resize (length sbuf) rbuf dflt in
    if rank mod 2 =? 1 then
      Rcv (rank - 1) (fun m => into rbuf m (fun rbuf =>
        if negb (rank + 1 =? n) then Snd (rank + 1) sbuf (k rbuf) else k rbuf))
    else
      let then_recv := if negb (rank =? 0) then Rcv (rank - 1) (fun m => into rbuf m k) else k rbuf in
      if negb (rank + 1 =? n) then Snd (rank + 1) sbuf then_recv else then_recv.

  Definition receive_upper (dflt : T) (n rank : nat) (sbuf rbuf : list T) (k : list T -> P) : P :=
    let rbuf := resize (length sbuf) rbuf dflt in
    if rank mod 2 =? 1 then
      Snd (rank - 1) sbuf (
        if negb (rank + 1 =? n) then Rcv (rank + 1) (fun m => into rbuf m k) else k rbuf)
    else
      let then_send := fun rbuf => if negb (rank =? 0) then Snd (rank - 1) sbuf (k rbuf) else k rbuf in
      if negb (rank + 1 =? n) then Rcv (rank + 1) (fun m => into rbuf m then_send) else then_send rbuf.
End Shift.

(** ** allToAllWithDataSizeAndTarget (hpp:1285-1470) *)
Section AllToAll.
  Context {A : Type}.
  Local Notation P := (prog (list Z) A).
  Local Open Scope Z_scope.

  (** hpp:1299-1305.  A message is [size, target, ...].  Reading outside of [data] is undefined; a size that is not positive is an
      infinite loop or runs out of the array, both are [UB].  Every step moves by
      at least one element, so [fuel] is enough. *)
  Fixpoint move_loop (fuel : nat) (data : list Z) (rank pos end_ : nat) : outcome nat :=
    match fuel with
    | O => UB
    | S fuel =>
      if (pos <? end_)%nat then
        match rd data (pos + 1), rd data pos with
        | Ok target, Ok size =>
          if target <? Z.of_nat rank then
            if size <=? 0 then UB else move_loop fuel data rank (pos + Z.to_nat size) end_
          else Ok pos
        | _, _ => UB
        end
      else Ok pos
    end.
  Definition movebefore (data : list Z) (rank begin end_ : nat) : outcome nat := move_loop (S (length data)) data rank begin end_.

  Definition mb (data : list Z) (rank begin end_ : nat) (k : nat -> P) : P :=
    match movebefore data rank begin end_ with Ok pos => k pos | _ => Crash end.

  (** [insert(end, data.begin() + b, data.begin() + e)] *)
  Definition ins (b e : nat) (data : list Z) (k : list Z -> P) : P :=
    if (b <=? e)%nat && (e <=? length data)%nat then k (slice b e data) else Crash.

  (** hpp:1383-1394: ranks [r], [r + 1], ... ([todo] of them); [rb], [sb]: recvend and sendend *)
  Fixpoint aa_lower (todo r rank : nat) (recv prev : list Z) (rb sb : nat) (send rbuf : list Z) (k : list Z * list Z -> P) : P :=
    match todo with
    | O => k (send, rbuf)
    | S todo =>
      mb recv (r + 1) rb (length recv) (fun re =>
      mb prev (r + 1) sb (length prev) (fun se =>
      if (r =? rank)%nat then
        ins rb re recv (fun x => aa_lower todo (r + 1) rank recv prev re se send (rbuf ++ x) k)
      else
        ins rb re recv (fun x => ins sb se prev (fun y =>
        aa_lower todo (r + 1) rank recv prev re se (send ++ x ++ y) rbuf k))))
    end.

  (** hpp:1446-1461 with two received parts; the first one ends at [rsize] *)
  Fixpoint aa_upper (todo r rank : nat) (recv prev : list Z) (rsize rb mb_ sb : nat) (send rbuf : list Z) (k : list Z * list Z -> P) : P :=
    match todo with
    | O => k (send, rbuf)
    | S todo =>
      mb recv (r + 1) rb rsize (fun re =>
      mb recv (r + 1) mb_ (length recv) (fun me =>
      mb prev (r + 1) sb (length prev) (fun se =>
      if (r =? rank)%nat then
        ins rb re recv (fun x => ins mb_ me recv (fun y =>
        aa_upper todo (r + 1) rank recv prev rsize re me se send (rbuf ++ x ++ y) k))
      else
        ins rb re recv (fun x => ins mb_ me recv (fun y => ins sb se prev (fun z =>
        aa_upper todo (r + 1) rank recv prev rsize re me se (send ++ x ++ y ++ z) rbuf k))))))
    end.

  (** hpp:1316-1463; the state is [(send, rBuffer)].  The tests for messages larger than 2^30 bytes are left out;
      [upper] is computed once instead of twice (hpp:1390, 1436). *)
  Definition aa_round (rank l r : nat) (st : list Z * list Z) (k : list Z * list Z -> P) : P :=
    let send := fst st in
    let rbuf := snd st in
    let mid := rh_mid l r in
    let twin := rh_twin rank l r in
    if rh_lower rank l r then
      if rh_odd rank l r then
        mb send rank 0 (length send) (fun my =>
        mb send mid my (length send) (fun upper =>
        ins upper (length send) send (fun x => Snd mid x (k (resize my send 0, rbuf)))))
      else
        mb send mid 0 (length send) (fun upper =>
        ins upper (length send) send (fun x => Snd twin x (
        Rcv twin (fun recv => aa_lower (mid - l) l rank recv send 0 0 [] rbuf k))))
    else
      mb send mid 0 (length send) (fun upper =>
      Rcv twin (fun recv =>
      ins 0 upper send (fun x => Snd twin x (
      if rh_treatodd rank l r then
        Rcv (mid - 1) (fun m =>
          aa_upper (r - mid) mid rank (recv ++ m) send (length recv) 0 (length recv) upper [] rbuf k)
      else aa_upper (r - mid) mid rank recv send (length recv) 0 (length recv) upper [] rbuf k)))).

  Definition all_to_all (rank left right : nat) (sbuf rbuf : list Z) (k : list Z -> P) : P :=
    mb sbuf rank 0 (length sbuf) (fun mybegin =>
    mb sbuf (rank + 1) mybegin (length sbuf) (fun myend =>
    ins mybegin myend sbuf (fun x =>
    rh_loop aa_round (right - left) rank left right (sbuf, rbuf ++ x) (fun st => k (snd st))))).
End AllToAll.
