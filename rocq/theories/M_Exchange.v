(** * Exchange between neighbours, messages to various targets, balancing

    /repo/src/wrappers/mpi/communication.hpp.  [rank] is [group->rank], ranks are natural numbers.  Not modelled: the profiler,
    MPI_Barrier at the end of functions with wildcard probes (it separates consecutive calls), the counters of tags, and the count type
    [int] of MPI.  [limit] is the number of elements that fit 2^30 bytes; the result [None] is [return false]. *)
From Coq Require Import List Arith Bool.
From Verif Require Import Base M_Nb.
Import ListNotations.
Local Open Scope out_scope.

(** std::lower_bound on a sorted vector: the number of leading elements smaller than [x] *)
Fixpoint lower_bound (l : list nat) (x : nat) : nat :=
  match l with [] => 0 | y :: l => if y <? x then S (lower_bound l x) else 0 end.

Section Exchange.
  Context {T : Type}.
  Local Notation buf := (list T).
  Local Notation P := (nprog buf (option (list buf))).

  Definition too_long (limit : nat) (l : list buf) : bool := existsb (fun b => limit <? length b) l.

  (** the index of the posted request for the source [i]: the first [n] with [neighbors[n] == i] *)
  Fixpoint request (nb : list nat) (i : nat) : nat :=
    match nb with [] => 0 | j :: nb => if j =? i then 0 else S (request nb i) end.

  (** receive to [rBuffer[n]] of fixed size: hpp:102-107, 145-150, 352-356, 480-484.  A longer message is an error of MPI. *)
  Definition store_known (nb : list nat) (rb : list buf) (i : nat) (m : buf) : outcome (list buf) :=
    b <- rd rb (request nb i) ;;
    if length m <=? length b then wr rb (request nb i) (m ++ skipn (length m) b) else UB.
  (** resize [rBuffer[n2i(source)]] and receive: hpp:222-230, 273-280, 404-411, 530-537 *)
  Definition store_unknown (nb : list nat) (rb : list buf) (i : nat) (m : buf) : outcome (list buf) := wr rb (lower_bound nb i) m.

  (** hpp:72-116.  [combine neighbors sBuffer]: the n-th buffer goes to the n-th neighbour; vectors of other lengths are UB. *)
  Definition exchange_known (limit : nat) (sb rb : list buf) (nb : list nat) : P :=
    if negb (length sb =? length nb) || negb (length rb =? length nb) then NCrash
    else if too_long limit sb || too_long limit rb then NRet None
    else call (combine nb sb) (length nb) (Some nb) (store_known nb) rb Some.

  (** hpp:119-159: one buffer for all neighbours *)
  Definition exchange_known_same (limit : nat) (sb : buf) (rb : list buf) (nb : list nat) : P :=
    if negb (length rb =? length nb) then NCrash
    else if (limit <? length sb) || too_long limit rb then NRet None
    else call (map (fun j => (j, sb)) nb) (length nb) (Some nb) (store_known nb) rb Some.

  (** hpp:190-244 *)
  Definition exchange_unknown (limit : nat) (sb rb : list buf) (nb : list nat) : P :=
    if negb (length sb =? length nb) || negb (length rb =? length nb) then NCrash
    else if too_long limit sb then NRet None
    else call (combine nb sb) (length nb) None (store_unknown nb) rb Some.

  (** hpp:246-294 *)
  Definition exchange_unknown_same (limit : nat) (sb : buf) (rb : list buf) (nb : list nat) : P :=
    if negb (length rb =? length nb) then NCrash
    else if limit <? length sb then NRet None
    else call (map (fun j => (j, sb)) nb) (length nb) None (store_unknown nb) rb Some.

  (** hpp:319-367: send to upper neighbours, receive from lower neighbours.  If the rank is its own neighbour, MPI_Waitall gets a request
      that nobody has set. *)
  Definition receive_lower_known (limit rank : nat) (sb rb : list buf) (nb : list nat) : P :=
    if negb (length sb =? length nb) || negb (length rb =? length nb) || existsb (Nat.eqb rank) nb then NCrash
    else if too_long limit (map snd (filter (fun x => rank <? fst x) (combine nb sb))) ||
            too_long limit (map snd (filter (fun x => negb (rank <? fst x)) (combine nb rb))) then NRet None
    else call (filter (fun x => rank <? fst x) (combine nb sb)) (length (filter (fun j => j <? rank) nb)) (Some (filter (fun j => j <? rank) nb))
           (store_known nb) rb Some.
  (** hpp:450-495 *)
  Definition receive_upper_known (limit rank : nat) (sb rb : list buf) (nb : list nat) : P :=
    if negb (length sb =? length nb) || negb (length rb =? length nb) || existsb (Nat.eqb rank) nb then NCrash
    else if too_long limit (map snd (filter (fun x => fst x <? rank) (combine nb sb))) ||
            too_long limit (map snd (filter (fun x => negb (fst x <? rank)) (combine nb rb))) then NRet None
    else call (filter (fun x => fst x <? rank) (combine nb sb)) (length (filter (fun j => rank <? j) nb)) (Some (filter (fun j => rank <? j) nb))
           (store_known nb) rb Some.

  (** hpp:369-424; the counter starts at [neighbors.end() - lower_bound(rank)] (hpp:402) *)
  Definition receive_lower_unknown (limit rank : nat) (sb rb : list buf) (nb : list nat) : P :=
    if negb (length sb =? length nb) || negb (length rb =? length nb) then NCrash
    else if too_long limit sb then NRet None
    else call (filter (fun x => rank <? fst x) (combine nb sb)) (length nb - (length nb - lower_bound nb rank)) None (store_unknown nb) rb Some.

  (** the loop condition [n < neighbors.size() && neighbors[n] < group->rank] (hpp:507, 520) *)
  Fixpoint leading (rank : nat) (l : list (nat * buf)) : list (nat * buf) :=
    match l with [] => [] | x :: l => if fst x <? rank then x :: leading rank l else [] end.
  (** hpp:497-551; the counter starts at [lower_bound(rank) - neighbors.begin()] (hpp:528) *)
  Definition receive_upper_unknown (limit rank : nat) (sb rb : list buf) (nb : list nat) : P :=
    if negb (length sb =? length nb) || negb (length rb =? length nb) then NCrash
    else if too_long limit (map snd (leading rank (combine nb sb))) then NRet None
    else call (leading rank (combine nb sb)) (length nb - lower_bound nb rank) None (store_unknown nb) rb Some.
End Exchange.

Section InPlace.
  Context {T : Type}.
  Local Notation buf := (list T).

  (** receive [size] elements at most to [array + pos] *)
  Definition store_at (size pos : nat) (array m : buf) : outcome buf :=
    if (length m <=? size) && (pos + size <=? length array) then Ok (put pos (pos + length m) array m) else UB.
  (** the elements [array + pos, size) *)
  Definition load_at (size pos : nat) (array : buf) : outcome buf :=
    if pos + size <=? length array then Ok (slice pos (pos + size) array) else UB.

  Fixpoint loads (l : list (nat * nat * nat)) (array : buf) : outcome (list (nat * buf)) :=
    match l with
    | [] => Ok []
    | (j, pos, size) :: l => m <- load_at size pos array ;; r <- loads l array ;; Ok ((j, m) :: r)
    end.

  (** hpp:162-187; the n-th neighbour has the part [distribution[n], distribution[n + 1]) of both arrays *)
  Definition parts (nb dist : list nat) : list (nat * nat * nat) :=
    map (fun k => (nth k nb 0, nth k dist 0, nth (k + 1) dist 0 - nth k dist 0)) (seq 0 (length nb)).
  Definition exchange_in_place (sb rb : buf) (dist nb : list nat) : nprog buf buf :=
    if negb (length dist =? length nb + 1) then NCrash
    else match loads (parts nb dist) sb with
         | Ok send => call send (length nb) (Some nb)
             (fun rb i m => let k := request nb i in store_at (nth (k + 1) dist 0 - nth k dist 0) (nth k dist 0) rb m) rb (fun x => x)
         | _ => NCrash
         end.

  (** hpp:553-583 *)
  Definition gather_uniform (limit : nat) (sb rb : buf) (nb : list nat) : nprog buf (option buf) :=
    if limit <? length sb then NRet None
    else call (map (fun j => (j, sb)) nb) (length nb) (Some nb)
           (fun rb i m => store_at (length sb) (request nb i * length sb) rb m) rb Some.
End InPlace.

(** ** sendVariousTargets (hpp:1070-1145) *)
Section Various.
  Context {T : Type}.
  Local Notation buf := (list T).
  Variable sort : (nat -> nat -> bool) -> list nat -> list nat.   (** std::sort *)

  (** hpp:1087-1091 *)
  Definition msg_counter (size : nat) (targets : list nat) : outcome (list nat) := foldM (fun c t => wr c t 1) targets (repeat 0 size).

  (** hpp:1109-1118: receive to new vectors, in the order of arrival *)
  Definition push (acc : list buf * list nat) (i : nat) (m : buf) : outcome (list buf * list nat) := Ok (fst acc ++ [m], snd acc ++ [i]).

  (** hpp:1130: [rBuffer[i].swap(tmpBuffer[permutation[i]])] *)
  Definition swap_in (perm : list nat) (st : list buf * list buf) (i : nat) : outcome (list buf * list buf) :=
    p <- rd perm i ;;
    a <- rd (fst st) i ;;
    b <- rd (snd st) p ;;
    rb <- wr (fst st) i b ;;
    tmp <- wr (snd st) p a ;;
    Ok (rb, tmp).
  (** hpp:1124-1133 *)
  Definition order_by_source (rb : list buf) (acc : list buf * list nat) : outcome (list buf * list nat) :=
    let sources := snd acc in
    let perm := sort (fun i j => nth i sources 0 <? nth j sources 0) (seq 0 (length sources)) in
    st <- foldM (swap_in perm) (seq 0 (length perm)) (resize (length (fst acc)) rb [], fst acc) ;;
    Ok (fst st, sort Nat.ltb sources).

  (** [rmsgcounter]: result of MPI_Allreduce(MPI_SUM) of the counters of all ranks (hpp:1093).  Result: rBuffer and sources. *)
  Definition send_various (limit rank : nat) (rmsgcounter : list nat) (sb rb : list buf) (targets : list nat)
    : nprog buf (option (outcome (list buf * list nat))) :=
    if negb (length sb =? length targets) then NCrash
    else if too_long limit sb then NRet None
    else call (combine targets sb) (nth rank rmsgcounter 0) None push ([], []) (fun acc => Some (order_by_source rb acc)).
End Various.

(** ** balance (hpp:898-964) *)
Section Balance.
  Context {T : Type}.
  Local Notation buf := (list T).

  (** hpp:918-932; the state is offset, restSize, tIndex, tOffset, size, disp.  Every iteration that is not the last one moves
      [tIndex], which is an index of [to], so [fuel] is enough.  Distributions are non-negative and sorted: the differences are not negative *)
  Fixpoint fill_loop (fuel : nat) (to : list nat) (off rest tIndex tOffset : nat) (size disp : list nat) : outcome (list nat * list nat) :=
    match fuel with
    | O => UB
    | S fuel =>
      if rest =? 0 then Ok (size, disp)
      else
        a <- rd to (tIndex + 1) ;;
        b <- rd to tIndex ;;
        let room := a - b - tOffset in
        if rest <? room then
          size <- wr size tIndex rest ;;
          disp <- wr disp tIndex off ;;
          fill_loop fuel to off 0 tIndex 0 size disp
        else
          size <- wr size tIndex room ;;
          disp <- wr disp tIndex off ;;
          fill_loop fuel to (off + room) (rest - room) (tIndex + 1) 0 size disp
    end.
  (** hpp:910-938; if [lower_bound] returns [to.begin()] the index is -1 *)
  Definition fill (n rank : nat) (from to : list nat) : outcome (list nat * list nat) :=
    b <- rd from rank ;;
    e <- rd from (rank + 1) ;;
    let lb := lower_bound to (b + 1) in
    if lb =? 0 then UB
    else
      t <- rd to (lb - 1) ;;
      fill_loop (length to + 2) to 0 (e - b) (lb - 1) (b - t) (repeat 0 n) (repeat 0 n).

  (** ranks with data: target, position, number of elements (hpp:946-956) *)
  Definition transfers (n : nat) (sd : list nat * list nat) : list (nat * nat * nat) :=
    filter (fun x => negb (snd x =? 0)) (map (fun r => (r, nth r (snd sd) 0, nth r (fst sd) 0)) (seq 0 n)).

  Definition balance (dflt : T) (limit n rank : nat) (b : buf) (cur tgt : list nat) : nprog buf (option buf) :=
    if limit <? length b then NRet None
    else match fill n rank cur tgt, fill n rank tgt cur with
         | Ok s, Ok r =>
           match loads (transfers n s) b with
           | Ok send => call send (length (transfers n r)) (Some (map (fun x => fst (fst x)) (transfers n r)))
               (fun res i m => store_at (nth i (fst r) 0) (nth i (snd r) 0) res m)
               (repeat dflt (nth (rank + 1) tgt 0 - nth rank tgt 0)) Some
           | _ => NCrash
           end
         | _, _ => NCrash
         end.
End Balance.

(** MPI_Allreduce(MPI_SUM) of the vectors of all ranks, by its contract (hpp:1093) *)
Definition reduce_sum (size : nat) (cs : list (list nat)) : list nat :=
  map (fun r => fold_right Nat.add 0 (map (fun c => nth r c 0) cs)) (seq 0 size).
