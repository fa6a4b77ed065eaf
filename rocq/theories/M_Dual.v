(** * Distributed vectors of Lagrange multipliers

    /repo/src/feti/common/dual_map.cpp, /repo/src/feti/common/vector_dual.{h,cpp} and the part of
    /repo/src/analysis/pattern/decomposition.feti.h they use.

    Simplifications: domains, ranks and sizes are natural numbers ([int] does not overflow); the numbers are an arbitrary type with an
    arbitrary addition and multiplication, [y += 1 * x] of BLAS is [y + x] and [x . y] of BLAS is added from the left; the static members
    of [Dual_Map] are a record; [total], [offset] and [total] of the intervals (sums over the ranks) are not modelled here.
    [limit] is the number of elements that fit 2^30 bytes (M_Exchange). *)
From Coq Require Import List Arith Bool.
From Verif Require Import Base M_Nb M_Exchange.
Import ListNotations.
Local Open Scope out_scope.

(** decomposition.feti.h:13-21; [neighDomain]: the first domain of every neighbour, the last element is the own first domain *)
Record decomposition := { dbegin : nat; dend : nat; neighbors : list nat; neighDomain : list nat }.

(** decomposition.feti.h:23-26 *)
Definition ismy (D : decomposition) (domain : nat) : bool := (dbegin D <=? domain) && (domain <? dend D).

(** decomposition.feti.h:28-33; [fuel]: the number of neighbours *)
Fixpoint noffset_loop (fuel : nat) (D : decomposition) (domain n : nat) : outcome nat :=
  match fuel with
  | 0 => Ok n
  | S fuel =>
    if n + 1 <? length (neighbors D) then
      first <- rd (neighDomain D) (n + 1) ;;
      if first <=? domain then noffset_loop fuel D domain (n + 1) else Ok n
    else Ok n
  end.
Definition noffset (D : decomposition) (domain : nat) : outcome nat := noffset_loop (length (neighbors D)) D domain 0.

(** dual_map.h:13-20: [intervals] are (start, end) *)
Record dual_map := { size : nat; local_intervals : list (nat * nat); nmap : list nat; nsize : list nat }.

(** dual_map.cpp:14-23; an interval of [feti.lambdas.intervals] is (halo, size) *)
Fixpoint set_intervals (offset : nat) (l : list (nat * nat)) : list (nat * nat) :=
  match l with
  | [] => []
  | (halo, sz) :: l => (halo + offset, halo + offset + sz) :: set_intervals (halo + offset + sz) l
  end.

(** [last < neigh], where [last] starts with -1 ([None]) *)
Definition is_next (last : option nat) (neigh : nat) : bool := match last with None => true | Some last => last <? neigh end.

(** dual_map.cpp:38-48: one domain of a block of [lambdas] multipliers; the state is (nmap, nsize, last) *)
Definition set_domain (D : decomposition) (lambdas ncounter : nat) (st : list nat * list nat * option nat) (domain : nat)
  : outcome (list nat * list nat * option nat) :=
  let '(nm, ns, last) := st in
  if negb (ismy D domain) then
    neigh <- noffset D domain ;;
    if is_next last neigh then
      c <- rd nm ncounter ;;
      nm <- wr (nm ++ [neigh]) ncounter (c + 1) ;;
      s <- rd ns neigh ;;
      ns <- wr ns neigh (s + lambdas) ;;
      Ok (nm, ns, Some neigh)
    else Ok st
  else Ok st.

(** dual_map.cpp:30-53; [fuel]: the length of [cmap] *)
Fixpoint set_blocks (fuel : nat) (D : decomposition) (cmap : list nat) (i offset : nat) (nm ns : list nat) : outcome (list nat * list nat) :=
  match fuel with
  | 0 => Ok (nm, ns)
  | S fuel =>
    if i <? length cmap then
      lambdas <- rd cmap i ;;
      domains <- rd cmap (i + 1) ;;
      let ncounter := length nm + 2 in
      '(nm', ns', _) <- foldM (fun st d => domain <- rd cmap (2 + i + d) ;; set_domain D lambdas ncounter st domain) (seq 0 domains)
                              (nm ++ [offset; offset + lambdas; 0], ns, None) ;;
      c <- rd nm' ncounter ;;
      set_blocks fuel D cmap (i + (domains + 2)) (offset + lambdas) (if c =? 0 then firstn (length nm' - 3) nm' else nm') ns'
    else Ok (nm, ns)
  end.

(** dual_map.cpp:11-54; [size], [intervals] and [cmap] of [feti.lambdas] *)
Definition dual_map_set (D : decomposition) (sz : nat) (intervals : list (nat * nat)) (cmap : list nat) : outcome dual_map :=
  '(nm, ns) <- set_blocks (length cmap) D cmap 0 0 [] (repeat 0 (length (neighbors D))) ;;
  Ok {| size := sz; local_intervals := set_intervals 0 intervals; nmap := nm; nsize := ns |}.

Section Vectors.
  Context {T : Type}.
  Variables (zero : T) (add mul : T -> T -> T).
  Local Notation vec := (list T).

  (** vector_dual.h:34-42: std::vector::resize of [send] and [recv], new elements are zeros *)
  Definition init_buffer (ns : list nat) (b : list vec) : list vec :=
    map (fun x => resize (fst x) (snd x) zero) (combine ns (resize (length ns) b [])).

  (** vector_dual.cpp:28-35 and 38-45: the two loops over [nmap]; [fuel]: the length of [nmap] *)
  Fixpoint nmap_loop {S : Type} (fuel : nat) (f : nat -> nat -> S -> nat -> outcome S) (nm : list nat) (i : nat) (st : S) : outcome S :=
    match fuel with
    | 0 => Ok st
    | Datatypes.S fuel =>
      if i <? length nm then
        b <- rd nm i ;; e <- rd nm (i + 1) ;; c <- rd nm (i + 2) ;;
        st <- foldM (fun st n => ni <- rd nm (i + 3 + n) ;; f b e st ni) (seq 0 c) st ;;
        nmap_loop fuel f nm (i + (c + 3)) st
      else Ok st
    end.

  (** vector_dual.cpp:31-32: std::copy to the buffer of the neighbour; the state is (send, offset) *)
  Definition pack_block (vals : vec) (b e : nat) (st : list vec * list nat) (ni : nat) : outcome (list vec * list nat) :=
    let '(send, offset) := st in
    s <- rd send ni ;;
    off <- rd offset ni ;;
    if (b <=? e) && (e <=? length vals) && (off + (e - b) <=? length s) then
      send <- wr send ni (put off (off + (e - b)) s (slice b e vals)) ;;
      offset <- wr offset ni (off + (e - b)) ;;
      Ok (send, offset)
    else UB.

  (** vector_dual.cpp:41-42: add the part of the buffer of the neighbour; the state is (vals, offset) *)
  Definition unpack_block (recv : list vec) (b e : nat) (st : vec * list nat) (ni : nat) : outcome (vec * list nat) :=
    let '(vals, offset) := st in
    r <- rd recv ni ;;
    off <- rd offset ni ;;
    if (b <=? e) && (e <=? length vals) && (off + (e - b) <=? length r) then
      offset <- wr offset ni (off + (e - b)) ;;
      Ok (put b e vals (map (fun x => add (fst x) (snd x)) (combine (slice b e vals) (slice off (off + (e - b)) r))), offset)
    else UB.

  (** vector_dual.cpp:27-35 *)
  Definition pack (M : dual_map) (vals : vec) (send : list vec) : outcome (list vec) :=
    '(send, _) <- nmap_loop (length (nmap M)) (pack_block vals) (nmap M) 0 (send, repeat 0 (length send)) ;; Ok send.
  (** vector_dual.cpp:37-45; [send.size() = recv.size()] *)
  Definition unpack (M : dual_map) (recv : list vec) (vals : vec) : outcome vec :=
    '(vals, _) <- nmap_loop (length (nmap M)) (unpack_block recv) (nmap M) 0 (vals, repeat 0 (length recv)) ;; Ok vals.

  (** what follows the exchange: nobody reads its result; if it is [false] ([None]), the content of [recv] stays *)
  Definition finish (M : dual_map) (vals : vec) (send recv : list vec) (res : option (list vec)) : outcome (vec * list vec * list vec) :=
    let recv := match res with Some r => r | None => recv end in
    vals <- unpack M recv vals ;;
    Ok (vals, send, recv).

  (** the rest of a function after its only communication *)
  Fixpoint nfin {Msg A B} (f : A -> outcome B) (p : nprog Msg A) : nprog Msg B :=
    match p with
    | NRet a => match f a with Ok b => NRet b | _ => NCrash end
    | Isend j m k => Isend j m (nfin f k)
    | Recv srcs k => Recv srcs (fun i m => nfin f (k i m))
    | WaitSent k => WaitSent (nfin f k)
    | NCrash => NCrash
    end.

  (** vector_dual.cpp:24-46; the result is the vector and the buffers [send] and [recv] (static members) *)
  Definition synchronize (limit : nat) (D : decomposition) (M : dual_map) (vals : vec) (send recv : list vec)
    : nprog vec (vec * list vec * list vec) :=
    match pack M vals send with
    | Ok send => nfin (finish M vals send recv) (exchange_known limit send recv (neighbors D))
    | _ => NCrash
    end.

  (** vector_dual.cpp:48-57: the state is the array [to] *)
  Definition copy_interval (vals : vec) (st : vec * nat) (i : nat * nat) : outcome (vec * nat) :=
    let '(to, prev) := st in
    let '(start, end_) := i in
    if (prev <=? start) && (start <=? end_) && (end_ <=? length to) && (end_ <=? length vals) then
      Ok (put start end_ (put prev start to (repeat zero (start - prev))) (slice start end_ vals), end_)
    else UB.
  Definition copy_without_halo (M : dual_map) (vals to : vec) : outcome vec :=
    '(to, _) <- foldM (copy_interval vals) (local_intervals M) (to, 0) ;; Ok to.

  (** math::blas::dot *)
  Definition blas_dot (x y : vec) : T := fold_left (fun s p => add s (mul (fst p) (snd p))) (combine x y) zero.
  (** vector_dual.cpp:60-67: the part of the rank *)
  Definition dot_interval (x y : vec) (sum : T) (i : nat * nat) : outcome T :=
    let '(start, end_) := i in
    if (start <=? end_) && (end_ <=? length x) && (end_ <=? length y) then Ok (add sum (blas_dot (slice start end_ x) (slice start end_ y)))
    else UB.
  Definition local_dot (M : dual_map) (x y : vec) : outcome T := foldM (dot_interval x y) (local_intervals M) zero.
End Vectors.
