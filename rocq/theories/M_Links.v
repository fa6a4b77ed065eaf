(** * Model of the links between nodes and elements and of the neighbours of elements

    mesh/preprocessing/pure.cpp:36-72: computeNodesDuplication, 74-77 and 79-238: linkNodesAndElements, 240-270: computeElementsFaceNeighbors and
    computeElementsEdgeNeighbors, 272-357: computeElementsNeighbors

    As in M_Distributed all processes run the same sequence of collective calls and a step is modelled for all ranks together.

    Simplifications: esint is unbounded, IDs are natural numbers; [sortp]: std::sort of pairs by contract; only the branch sortedIDs = true of
    linkNodesAndElements is modelled (no caller passes false); the ranks of nodes have the same distribution to threads as the nodes; std::lower_bound gives the
    first element that is not smaller; the collective calls give what C29 states, without the limit on the size of a message. The threads of a parallel loop run
    one after another in an arbitrary order. The element lists of a computed dual are given as records, C10 and C14 describe how they are stored. *)
From Coq Require Import List Arith ZArith Bool.
From Verif Require Import Base M_Utils M_Distributed M_DistMatrix M_DistApply M_NodeInfo.
Import ListNotations.
Local Open Scope out_scope.

(** ** pure.cpp:36-72: computeNodesDuplication *)

(** pure.cpp:59: while (offset\[r\] < rBuffer\[r\].size() && rBuffer\[r\]\[offset\[r\]\] < nids\[n\]) \{ ++offset\[r\]; \} *)
Fixpoint skip_below (fuel : nat) (rb : list nat) (x o : nat) : outcome nat :=
  if length rb <=? o then Ok o
  else y <- rd rb o ;; if y <? x then match fuel with 0 => Fail | S fuel => skip_below fuel rb x (o + 1) end else Ok o.
(** pure.cpp:58-63; the state is (offset, the ranks of the node so far) *)
Definition duplicate_rank (nb : list nat) (rbuf : list (list nat)) (x : nat) (st : list nat * list nat) (r : nat) : outcome (list nat * list nat) :=
  let '(offset, ranks) := st in
  rb <- rd rbuf r ;; o <- rd offset r ;; o <- skip_below (length rb) rb x o ;; offset <- wr offset r o ;;
  found <- (if o <? length rb then y <- rd rb o ;; Ok (y =? x) else Ok false) ;;
  if found : bool then j <- rd nb r ;; Ok (offset, ranks ++ [j]) else Ok (offset, ranks).
(** pure.cpp:57-65 *)
Definition duplicate_nodes (nb ids : list nat) (rbuf : list (list nat)) : outcome (list (list nat)) :=
  '(_, ranks) <- foldM (fun st x => let '(offset, ranks) := st in '(offset, rs) <- foldM (duplicate_rank nb rbuf x) (seq 0 (length nb)) (offset, []) ;; Ok (offset, ranks ++ [rs]))
                       ids (repeat 0 (length nb), []) ;;
  Ok ranks.
(** pure.cpp:36-72; [nbm], [ids]: neighborsWithMe and the IDs of nodes of every rank; the balancing keeps the records (C16) *)
Definition compute_nodes_duplication (nbm ids : list (list nat)) : outcome (list (list (list nat))) :=
  rbuf <- exchange nbm (map (fun x : list nat * list nat => repeat (snd x) (length (fst x))) (combine nbm ids)) ;;
  mapM (fun x : list nat * (list nat * list (list nat)) => duplicate_nodes (fst x) (fst (snd x)) (snd (snd x))) (combine nbm (combine ids rbuf)).

(** ** pure.cpp:79-238: linkNodesAndElements *)

(** the nodes of a rank, their distribution to threads, and the elements (ID, local nodes) of every thread *)
Record rank_mesh := { rm_nodes : node_store; rm_ndist : list nat; rm_elements : list (list (nat * list nat)) }.
(** the order of iterations of the parallel loops of a rank *)
Record rank_order := { ro_fill : list nat; ro_sort : list nat; ro_merge : nat -> nat -> list nat; ro_send : list nat; ro_join : nat -> nat -> list nat }.

(** pure.cpp:114-119: the links of the elements of a thread *)
Definition thread_links (elements : list (nat * list nat)) : list (nat * nat) := flat_map (fun e : nat * list nat => map (fun n => (n, fst e)) (snd e)) elements.
(** the boundaries of threads in the array of nodes of elements *)
Definition nodes_distribution (elements : list (list (nat * list nat))) : list nat := map (fun t => length (flat_map thread_links (firstn t elements))) (seq 0 (S (length elements))).
(** pure.cpp:108-120 *)
Definition fill_links (o : rank_order) (elements : list (list (nat * list nat))) : outcome (list (nat * nat)) :=
  foldM (fun links t => es <- rd elements t ;; offset <- rd (nodes_distribution elements) t ;; store links offset (thread_links es))
        (ro_fill o) (repeat (0, 0) (length (flat_map thread_links elements))).

(** std::lower_bound in the part from [b] with the comparison of the first components *)
Definition lower_link (links : list (nat * nat)) (b x : nat) : nat := b + leading x (map fst (skipn b links)).
(** pure.cpp:125-128 *)
Definition thread_begins (ndist : list nat) (links : list (nat * nat)) : outcome (list nat) :=
  foldM (fun tbegin t => p <- rd tbegin (t - 1) ;; x <- rd ndist t ;; if length links <? p then UB else Ok (tbegin ++ [lower_link links p x])) (seq 1 (length ndist - 2)) [0].

(** while (it != end && p( *it)) \{ ++it; \} *)
Fixpoint forward (fuel : nat) (p : nat * nat -> bool) (links : list (nat * nat)) (i : nat) : outcome nat :=
  if length links <=? i then Ok i
  else x <- rd links i ;; if p x then match fuel with 0 => Fail | S fuel => forward fuel p links (i + 1) end else Ok i.
(** pure.cpp:147-153: the links are appended to the buffers of other ranks of the node *)
Definition send_links (rank : nat) (nb rs : list nat) (part : list (nat * nat)) (buf : list (list (nat * nat))) : outcome (list (list (nat * nat))) :=
  '(buf, _) <- foldM (fun sk r => if r =? rank then Ok sk else k <- advance (length nb) nb r (snd sk) ;; b <- rd (fst sk) k ;; buf <- wr (fst sk) k (b ++ part) ;; Ok (buf, k)) rs (buf, 0) ;;
  Ok buf.
(** pure.cpp:139-155: the node [n]; the state is (localLinks, begin, tBuffer) *)
Definition link_node (rank : nat) (nb : list nat) (s : node_store) (st : list (nat * nat) * nat * list (list (nat * nat))) (n : nat) : outcome (list (nat * nat) * nat * list (list (nat * nat))) :=
  let '(links, begin, buf) := st in
  begin <- forward (length links) (fun l => fst l <? n) links begin ;;
  here <- (if begin <? length links then l <- rd links begin ;; Ok (fst l =? n) else Ok false) ;;
  if here : bool then
    e <- forward (length links) (fun l => fst l =? n) links begin ;;
    id <- rd (ns_ids s) n ;;
    let part := map (fun l : nat * nat => (id, snd l)) (slice begin e links) in
    let links := put begin e links part in
    rs <- rd (ns_ranks s) n ;;
    buf <- send_links rank nb rs part buf ;;
    Ok (links, e, buf)
  else Ok (links, begin, buf).
(** pure.cpp:131-159: the thread [t]; the state is (localLinks, sBuffer) *)
Definition link_thread (rank : nat) (nb : list nat) (m : rank_mesh) (tbegin : list nat) (st : list (nat * nat) * list (list (list (nat * nat)))) (t : nat) : outcome (list (nat * nat) * list (list (list (nat * nat)))) :=
  let '(links, sbuf) := st in
  b <- rd tbegin t ;; n0 <- rd (rm_ndist m) t ;; n1 <- rd (rm_ndist m) (t + 1) ;;
  '(links, _, buf) <- foldM (link_node rank nb (rm_nodes m)) (seq n0 (n1 - n0)) (links, b, repeat [] (length nb)) ;;
  sbuf <- wr sbuf t buf ;;
  Ok (links, sbuf).
(** pure.cpp:161-165 *)
Definition join_buffers (sbuf : list (list (list (nat * nat)))) : outcome (list (list (nat * nat))) :=
  match sbuf with
  | [] => UB
  | front :: rest => Ok (fold_left (fun acc row => map (fun x : list (nat * nat) * list (nat * nat) => fst x ++ snd x) (combine acc row)) rest front)
  end.
(** pure.cpp:89-165: localLinks and sBuffer\[0\] *)
Definition link_local (sortp : list (nat * nat) -> list (nat * nat)) (o : rank_order) (rank : nat) (nb : list nat) (m : rank_mesh) : outcome (list (nat * nat) * list (list (nat * nat))) :=
  links <- fill_links o (rm_elements m) ;;
  links <- sortWithInplaceMerge pair_ltb sortp (ro_sort o) (ro_merge o) links (nodes_distribution (rm_elements m)) ;;
  tbegin <- thread_begins (rm_ndist m) links ;;
  '(links, sbuf) <- foldM (link_thread rank nb m tbegin) (ro_send o) (links, repeat [] (length (rm_ndist m) - 1)) ;;
  sbuf <- join_buffers sbuf ;;
  Ok (links, sbuf).

(** pure.cpp:214-226: the node [n]; the state is (llink, tBoundaries, tData); nothing is done at the end of the links *)
Definition record_node (ids : list nat) (links : list (nat * nat)) (st : nat * list nat * list nat) (n : nat) : outcome (nat * list nat * list nat) :=
  let '(l, bs, data) := st in
  if l <? length links then
    x <- rd links l ;; id <- rd ids n ;;
    '(l, data) <- (if fst x =? id then e <- forward (length links) (fun y => fst y =? fst x) links l ;; Ok (e, data ++ map snd (slice l e links)) else Ok (l, data)) ;;
    Ok (l, bs ++ [l], data)
  else Ok st.
(** pure.cpp:199-231: the boundaries and the data of the thread [t] *)
Definition record_thread (m : rank_mesh) (links : list (nat * nat)) (t : nat) : outcome (list nat * list nat) :=
  n0 <- rd (rm_ndist m) t ;; n1 <- rd (rm_ndist m) (t + 1) ;;
  if n0 =? n1 then Ok ([], []) else
  id <- rd (ns_ids (rm_nodes m)) n0 ;;
  '(_, bs, data) <- foldM (record_node (ns_ids (rm_nodes m)) links) (seq n0 (n1 - n0)) (lower_link links 0 id, if t =? 0 then [0] else [], []) ;;
  Ok (bs, data).
(** pure.cpp:180-233: the boundaries and the data of nelements *)
Definition link_finish (o : rank_order) (m : rank_mesh) (links : list (nat * nat)) (rbuf : list (list (nat * nat))) : outcome (list nat * list nat) :=
  let '(links, boundaries) := fold_left (fun st rb => let '(links, bs) := st in (links ++ rb, bs ++ [length (links ++ rb)])) rbuf (links, [0; length links]) in
  links <- mergeAppendedData pair_ltb (ro_join o) links boundaries ;;
  parts <- mapM (record_thread m links) (seq 0 (length (rm_ndist m) - 1)) ;;
  Ok (concat (map fst parts), concat (map snd parts)).
(** pure.cpp:79-238; [os], [nb], [ms]: of all ranks *)
Definition link_nodes_and_elements (sortp : list (nat * nat) -> list (nat * nat)) (os : list rank_order) (nb : list (list nat)) (ms : list rank_mesh) : outcome (list (list nat * list nat)) :=
  sent <- mapM (fun x : nat * (rank_order * (list nat * rank_mesh)) => let '(r, (o, (ns, m))) := x in link_local sortp o r ns m) (combine (seq 0 (length ms)) (combine os (combine nb ms))) ;;
  rbuf <- exchange nb (map snd sent) ;;
  mapM (fun x : rank_order * (rank_mesh * ((list (nat * nat) * list (list (nat * nat))) * list (list (nat * nat)))) => let '(o, (m, (s, rb))) := x in link_finish o m (fst s) rb)
       (combine os (combine ms (combine sent rbuf))).

(** ** pure.cpp:272-357: computeElementsNeighbors *)

(** nelements->cbegin() + n *)
Definition record (ne : list nat * list nat) (n : nat) : outcome (list nat) :=
  b <- rd (fst ne) n ;; e <- rd (fst ne) (n + 1) ;; if (e <? b) || (length (snd ne) <? e) then UB else Ok (slice b e (snd ne)).
(** pure.cpp:314-330; simplification: kept IDs go to a new list instead of the beginning of the old one, which is not read there any more *)
Fixpoint intersect (l1 : list nat) : list nat -> list nat :=
  match l1 with
  | [] => fun _ => []
  | a :: t1 => fix skip (l2 : list nat) : list nat :=
      match l2 with
      | [] => []
      | b :: t2 => if b <? a then skip t2 else if a =? b then a :: intersect t1 (b :: t2) else intersect t1 (b :: t2)
      end
  end.
(** pure.cpp:305-331: the other elements with the nodes [interface] (positions in the element [id] with nodes [nodes]) *)
Definition across_interface (ne : list nat * list nat) (id : nat) (nodes interface : list nat) : outcome (list nat) :=
  match interface with
  | [] => UB
  | i :: rest =>
    n <- rd nodes i ;; es <- record ne n ;;
    foldM (fun inter i => match inter with [] => Ok [] | _ => n <- rd nodes i ;; es <- record ne n ;; Ok (intersect inter es) end) rest (filter (fun e => negb (e =? id)) es)
  end.
(** pure.cpp:332-340 *)
Definition neighbor_data (insertNeighSize : bool) (inter : list nat) : outcome (list Z) :=
  if insertNeighSize then Ok (Z.of_nat (length inter) :: map Z.of_nat inter)
  else match inter with [] => Ok [(-1)%Z] | [e] => Ok [Z.of_nat e] | _ => Fail end.
(** pure.cpp:303-343: the record of an element; [across]: the interfaces of the element *)
Definition element_neighbors (insertNeighSize : bool) (ne : list nat * list nat) (e : nat * list nat) (across : list (list nat)) : outcome (list Z) :=
  foldM (fun data interface => inter <- across_interface ne (fst e) (snd e) interface ;; d <- neighbor_data insertNeighSize inter ;; Ok (data ++ d)) across [].
(** pure.cpp:289-355; [faces]: the interfaces of the elements of every thread *)
Definition rank_neighbors (insertNeighSize : bool) (ne : list nat * list nat) (elements : list (list (nat * list nat))) (faces : list (list (list (list nat)))) : outcome (list (list Z)) :=
  rows <- mapM (fun x : list (nat * list nat) * list (list (list nat)) => mapM (fun y : (nat * list nat) * list (list nat) => element_neighbors insertNeighSize ne (fst y) (snd y)) (combine (fst x) (snd x)))
               (combine elements faces) ;;
  Ok (concat rows).
(** pure.cpp:272-357 called by 240-270 with links that are not yet computed; [faces]: of all ranks *)
Definition compute_elements_neighbors (insertNeighSize : bool) (sortp : list (nat * nat) -> list (nat * nat)) (os : list rank_order) (nb : list (list nat)) (ms : list rank_mesh) (faces : list (list (list (list (list nat)))))
    : outcome (list (list (list Z))) :=
  nes <- link_nodes_and_elements sortp os nb ms ;;
  mapM (fun x : (list nat * list nat) * (rank_mesh * list (list (list (list nat)))) => let '(ne, (m, f)) := x in rank_neighbors insertNeighSize ne (rm_elements m) f) (combine nes (combine ms faces)).
