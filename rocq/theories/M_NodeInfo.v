(** * Model of the order of nodes, of the nodes of regions and of their global numbers

    mesh/preprocessing/pure.cpp:1905-1967: sortNodes; mesh/preprocessing/clustered.cpp:426-509: synchronizeRegionNodes, 511-604: computeNodeInfo,
    606-640: computeRegionsElementNodes, 642-672: computeRegionsBoundaryNodes; mesh/store/regionstore.cpp:27-30: getPosition

    As in M_Distributed all processes run the same sequence of collective calls and a step is modelled for all ranks together.

    Simplifications: esint is unbounded and IDs of nodes are natural numbers.  [sortby ltb]: std::sort by contract.  serializededata::permute gives what C18 states, the
    distribution of data to threads is left out (C63); the collective calls give what C28, C29, C71 state, without the limit on the size of a message.
    The coordinates (bounding boxes of regions) are in M_NodeBox. *)
From Coq Require Import List Arith Bool.
From Verif Require Import Base M_Utils M_Distributed M_DistMatrix.
Import ListNotations.
Local Open Scope out_scope.

(** nodes->IDs, nodes->ranks and nodes->uniqInfo.nhalo *)
Record node_store := { ns_ids : list nat; ns_ranks : list (list nat); ns_nhalo : nat }.
(** a region of the boundary: is its name ALL_NODES, its elements and its nodes (local numbers, or NULL) *)
Record region := { rg_all : bool; rg_elements : option (list (list nat)); rg_nodes : option (list nat) }.

Section Sort.
  Context (sortby : (nat -> nat -> bool) -> list nat -> list nat).

  (** ** pure.cpp:1905-1967: sortNodes *)

  (** pure.cpp:1911-1918: the comparison of [i] and [j] *)
  Definition node_before (fronts ids : list nat) (i j : nat) : bool :=
    let irank := nth i fronts 0 in let jrank := nth j fronts 0 in
    if irank =? jrank then nth i ids 0 <? nth j ids 0 else irank <? jrank.
  (** serializededata::permute: the entry [i] is the former entry [permutation\[i\]] *)
  Definition permuted {A} (permutation : list nat) (l : list A) : outcome (list A) := mapM (rd l) permutation.
  (** pure.cpp:1936-1948: localremap *)
  Definition localremap (back : list nat) (data : list (list nat)) : outcome (list (list nat)) := mapM (mapM (rd back)) data.
  (** pure.cpp:1952-1962 *)
  Definition remap_region (back : list nat) (rg : region) : outcome region :=
    elements <- match rg_elements rg with None => Ok None | Some e => e <- localremap back e ;; Ok (Some e) end ;;
    nodes <- (if rg_all rg then Ok (rg_nodes rg)
              else match rg_nodes rg with None => Ok None | Some n => n <- mapM (rd back) n ;; Ok (Some (sortby Nat.ltb n)) end) ;;
    Ok {| rg_all := rg_all rg; rg_elements := elements; rg_nodes := nodes |}.
  (** pure.cpp:1905-1967; simplification: the lowest rank of every node is read also if there is nothing to compare *)
  Definition sort_nodes (rank : nat) (s : node_store) (elements : list (list nat)) (regions : list region) : outcome (node_store * list (list nat) * list region) :=
    let size := length (ns_ids s) in
    fronts <- mapM (fun rs => rd rs 0) (ns_ranks s) ;;
    let permutation := sortby (node_before fronts (ns_ids s)) (seq 0 size) in
    ids <- permuted permutation (ns_ids s) ;; ranks <- permuted permutation (ns_ranks s) ;;
    fronts <- mapM (fun rs => rd rs 0) ranks ;;
    let nhalo := leading rank fronts in
    let back := sortby (fun i j => nth i permutation 0 <? nth j permutation 0) (seq 0 size) in
    elements <- localremap back elements ;;
    regions <- mapM (remap_region back) regions ;;
    Ok ({| ns_ids := ids; ns_ranks := ranks; ns_nhalo := nhalo |}, elements, regions).

  (** ** clustered.cpp:426-509: synchronizeRegionNodes; a region: the list of its (local) nodes *)

  (** clustered.cpp:433-436 = 547-550: the places for sizes *)
  Definition open_blocks (buf : list (list nat)) : list (list nat) := map (fun b => b ++ [0]) buf.
  (** clustered.cpp:456-458 = 572-574; [prev]: the positions of sizes *)
  Definition close_blocks (prev : list nat) (buf : list (list nat)) : list (list nat) := map (fun x : nat * list nat => upd (snd x) (fst x) (length (snd x) - fst x)) (combine prev buf).
  (** clustered.cpp:440-450 *)
  Definition send_node (rank : nat) (nb : list nat) (s : node_store) (buf : list (list nat)) (n : nat) : outcome (list (list nat)) :=
    rs <- rd (ns_ranks s) n ;;
    '(buf, _) <- foldM (fun sk r => if r =? rank then Ok sk else
        k <- advance (length nb) nb r (snd sk) ;; buf <- (id <- rd (ns_ids s) n ;; push_to (fst sk) k id) ;; Ok (buf, k)) rs (buf, 0) ;;
    Ok buf.
  (** clustered.cpp:431-459 *)
  Definition send_region (rank : nat) (nb : list nat) (s : node_store) (buf : list (list nat)) (nodes : list nat) : outcome (list (list nat)) :=
    let prev := map (@length nat) buf in
    buf <- foldM (send_node rank nb s) nodes (open_blocks buf) ;;
    let buf := map (fun x : nat * list nat => firstn (fst x + 1) (snd x) ++ sortby Nat.ltb (skipn (fst x + 1) (snd x))) (combine prev buf) in
    Ok (close_blocks prev buf).

  (** clustered.cpp:475 = 483: while (s < bound && sBuffer\[n\]\[s\] < x) { ++s; } *)
  Fixpoint skip_smaller (fuel : nat) (sb : list nat) (bound x s : nat) : outcome nat :=
    if bound <=? s then Ok s
    else y <- rd sb s ;; if y <? x then match fuel with 0 => Fail | S fuel => skip_smaller fuel sb bound x (s + 1) end else Ok s.
  (** clustered.cpp:477-478 (the sender is lower), 485-491: std::find is [find_rank] *)
  Definition find_node (lower : bool) (s : node_store) (x : nat) : nat :=
    let halo := firstn (ns_nhalo s) (ns_ids s) in
    let own := skipn (ns_nhalo s) (ns_ids s) in
    if lower then find_rank x halo
    else if (lower_bound own x <? length own) && (nth (lower_bound own x) own 0 =? x) then ns_nhalo s + lower_bound own x else find_rank x halo.
  (** clustered.cpp:475-479 = 483-492; the state is (s, nnodes) *)
  Definition receive_node (lower : bool) (s : node_store) (sb : list nat) (bound : nat) (rb : list nat) (st : nat * list nat) (j : nat) : outcome (nat * list nat) :=
    let '(p, nnodes) := st in
    x <- rd rb j ;; p <- skip_smaller (length sb) sb bound x p ;;
    known <- (if p =? bound then Ok false else y <- rd sb p ;; Ok (y =? x)) ;;
    Ok (p, if known : bool then nnodes else nnodes ++ [find_node lower s x]).
  (** clustered.cpp:472-497; the state is (prevrecv, prevsend, nnodes) *)
  Definition receive_block (rank : nat) (nb : list nat) (s : node_store) (sbuf rbuf : list (list nat)) (st : list nat * list nat * list nat) (n : nat) : outcome (list nat * list nat * list nat) :=
    let '(prevrecv, prevsend, nnodes) := st in
    j <- rd nb n ;; sb <- rd sbuf n ;; rb <- rd rbuf n ;; pr <- rd prevrecv n ;; ps <- rd prevsend n ;;
    rsize <- rd rb pr ;; ssize <- rd sb ps ;;
    '(_, nnodes) <- foldM (receive_node (j <? rank) s sb (ps + ssize) rb) (seq (pr + 1) (rsize - 1)) (ps + 1, nnodes) ;;
    prevrecv <- wr prevrecv n (pr + rsize) ;; prevsend <- wr prevsend n (ps + ssize) ;;
    Ok (prevrecv, prevsend, nnodes).
  (** clustered.cpp:469-505; the state is (prevrecv, prevsend, the regions so far) *)
  Definition receive_region (rank : nat) (nb : list nat) (s : node_store) (sbuf rbuf : list (list nat)) (st : list nat * list nat * list (list nat)) (nodes : list nat) : outcome (list nat * list nat * list (list nat)) :=
    let '(prevrecv, prevsend, regions) := st in
    '(prevrecv, prevsend, nnodes) <- foldM (receive_block rank nb s sbuf rbuf) (seq 0 (length rbuf)) (prevrecv, prevsend, []) ;;
    nodes <- match nnodes with [] => Ok nodes | _ => sortAndRemoveDuplicates Nat.eqb (sortby Nat.ltb) 0 (nnodes ++ nodes) 0 end ;;
    Ok (prevrecv, prevsend, regions ++ [nodes]).
  Definition receive_regions (rank : nat) (nb : list nat) (s : node_store) (regions sbuf rbuf : list (list nat)) : outcome (list (list nat)) :=
    '(_, _, regions) <- foldM (receive_region rank nb s sbuf rbuf) regions (repeat 0 (length nb), repeat 0 (length nb), []) ;; Ok regions.
  (** clustered.cpp:426-509 *)
  Definition synchronize_region_nodes (nb : list (list nat)) (ss : list node_store) (regions : list (list (list nat))) : outcome (list (list (list nat))) :=
    let ranks := seq 0 (length ss) in
    sbuf <- mapM (fun x : nat * (list nat * (node_store * list (list nat))) => let '(r, (ns, (s, rg))) := x in foldM (send_region r ns s) rg (repeat [] (length ns)))
                 (combine ranks (combine nb (combine ss regions))) ;;
    rbuf <- exchange nb sbuf ;;
    mapM (fun x : nat * (list nat * (node_store * (list (list nat) * (list (list nat) * list (list nat))))) => let '(r, (ns, (s, (rg, (sb, rb))))) := x in receive_regions r ns s rg sb rb)
         (combine ranks (combine nb (combine ss (combine regions (combine sbuf rbuf))))).

  (** ** clustered.cpp:511-604: computeNodeInfo *)

  (** RegionStore::nodeInfo without the bounding box *)
  Record region_info := { ri_info : uniq_info; ri_total : nat }.

  (** clustered.cpp:516-525: nhalo and size *)
  Definition count_nodes (s : node_store) (nodes : list nat) : nat * nat := let nhalo := leading (ns_nhalo s) nodes in (nhalo, length nodes - nhalo).
  (** communication.hpp:1020-1050: the offset and the sum of the region [i] for the rank [r]; [sizes]: of all ranks *)
  Definition exscan_at (sizes : list (list nat)) (r i : nat) : nat * nat :=
    let column := map (fun row => nth i row 0) sizes in (list_sum (firstn r column), list_sum column).
  (** clustered.cpp:533-541; simplification: the vector position is empty before the call *)
  Definition own_numbers (nhalo size : nat) (scan : nat * nat) : region_info :=
    {| ri_info := {| u_nhalo := nhalo; u_position := repeat 0 nhalo ++ seq (fst scan) size; u_offset := fst scan; u_size := size |}; ri_total := snd scan |}.

  (** clustered.cpp:559-560: while (neighbors\[rindex\] != ranks->front()) { ++rindex; } *)
  Definition neighbor_index (nb : list nat) (x : nat) : outcome nat := let k := find_rank x nb in if k <? length nb then Ok k else UB.
  (** clustered.cpp:557-568; the state is (sBuffer, nsize); [i]: the index of the node [n] in the region *)
  Definition info_node (nb : list nat) (s : node_store) (u : uniq_info) (st : list (list nat) * list nat) (x : nat * nat) : outcome (list (list nat) * list nat) :=
    let '(buf, nsize) := st in
    let '(i, n) := x in
    rs <- rd (ns_ranks s) n ;;
    match rs with
    | [] => UB
    | front :: rest =>
      if i <? u_nhalo u then
        k <- neighbor_index nb front ;; c <- rd nsize k ;; nsize <- wr nsize k (c + 1) ;; Ok (buf, nsize)
      else
        '(buf, _) <- foldM (fun sk r => k <- advance (length nb) nb r (snd sk) ;; p <- rd (u_position u) i ;; buf <- push_to (fst sk) k p ;; Ok (buf, k)) rest (buf, 0) ;;
        Ok (buf, nsize)
    end.
  (** clustered.cpp:546-574 *)
  Definition info_region (nb : list nat) (s : node_store) (st : list (list nat) * list nat) (x : list nat * region_info) : outcome (list (list nat) * list nat) :=
    let '(buf, nsize) := st in
    let prev := map (@length nat) buf in
    '(buf, nsize) <- foldM (info_node nb s (ri_info (snd x))) (combine (seq 0 (length (fst x))) (fst x)) (open_blocks buf, nsize) ;;
    Ok (close_blocks prev buf, nsize).
  Definition info_send (nb : list nat) (s : node_store) (regions : list (list nat)) (infos : list region_info) : outcome (list (list nat) * list nat) :=
    foldM (info_region nb s) (combine regions infos) (repeat [] (length nb), repeat 0 (length nb)).

  (** std::copy of a part of [src] to [dst] *)
  Definition copy_part (src : list nat) (b e : nat) (dst : list nat) (at_ : nat) : outcome (list nat) :=
    if (e <? b) || (length src <? e) then UB else store dst at_ (slice b e src).
  (** clustered.cpp:592-600; the state is (position, prevsize, begin) *)
  Definition copy_block (rank : nat) (nb : list nat) (rbuf : list (list nat)) (st : list nat * list nat * nat) (n : nat) : outcome (list nat * list nat * nat) :=
    let '(position, prev, begin) := st in
    j <- rd nb n ;;
    if j <? rank then
      rb <- rd rbuf n ;; p <- rd prev n ;; size <- rd rb p ;;
      '(position, begin) <- (if 1 <? size then position <- copy_part rb (p + 1) (p + size) position begin ;; Ok (position, begin + (size - 1)) else Ok (position, begin)) ;;
      prev <- wr prev n (p + size) ;; Ok (position, prev, begin)
    else Ok st.
  (** clustered.cpp:588-601; the state is (prevsize, the regions so far) *)
  Definition copy_region (rank : nat) (nb : list nat) (rbuf : list (list nat)) (st : list nat * list region_info) (x : region_info) : outcome (list nat * list region_info) :=
    let '(prev, infos) := st in
    let u := ri_info x in
    '(position, prev, _) <- foldM (copy_block rank nb rbuf) (seq 0 (length rbuf)) (u_position u, prev, 0) ;;
    Ok (prev, infos ++ [{| ri_info := {| u_nhalo := u_nhalo u; u_position := position; u_offset := u_offset u; u_size := u_size u |}; ri_total := ri_total x |}]).
  Definition copy_regions (rank : nat) (nb : list nat) (infos : list region_info) (rbuf : list (list nat)) : outcome (list region_info) :=
    '(_, infos) <- foldM (copy_region rank nb rbuf) infos (repeat 0 (length nb), []) ;; Ok infos.
  (** clustered.cpp:511-604; the buffers of upper neighbours are allocated but nothing is received to them *)
  Definition compute_node_info (nb : list (list nat)) (ss : list node_store) (regions : list (list (list nat))) : outcome (list (list region_info)) :=
    let ranks := seq 0 (length ss) in
    let counts := map (fun x : node_store * list (list nat) => map (count_nodes (fst x)) (snd x)) (combine ss regions) in
    let sizes := map (map snd) counts in
    let infos := map (fun x : nat * list (nat * nat) => map (fun y : nat * (nat * nat) => own_numbers (fst (snd y)) (snd (snd y)) (exscan_at sizes (fst x) (fst y))) (combine (seq 0 (length (snd x))) (snd x)))
                     (combine ranks counts) in
    sent <- mapM (fun x : list nat * (node_store * (list (list nat) * list region_info)) => let '(ns, (s, (rg, i))) := x in info_send ns s rg i) (combine nb (combine ss (combine regions infos))) ;;
    let rbuf := map (fun x : list (list nat) * (list (list nat) * list nat) => map (fun c => repeat 0 (c + length (fst x))) (snd (snd x))) (combine regions sent) in
    rbuf <- receive_lower nb (map fst sent) rbuf ;;
    mapM (fun x : nat * (list nat * (list region_info * list (list nat))) => let '(r, (ns, (i, rb))) := x in copy_regions r ns i rb) (combine ranks (combine nb (combine infos rbuf))).

  (** ** The nodes of regions *)

  (** clustered.cpp:612-624: the nodes of the elements of a thread *)
  Definition thread_nodes (elements : list (list nat)) (chunk : list nat) : outcome (list nat) :=
    nodes <- foldM (fun nodes e => enodes <- rd elements e ;; Ok (nodes ++ enodes)) chunk [] ;;
    sortAndRemoveDuplicates Nat.eqb (sortby Nat.ltb) 0 nodes 0.
  (** clustered.cpp:610-632; [region]: the elements of the region by threads *)
  Definition element_region_nodes (elements : list (list nat)) (region : list (list nat)) : outcome (list nat) :=
    if length (concat region) =? 0 then Ok []
    else rnodes <- mapM (thread_nodes elements) region ;; mergeThreadedUniqueData Nat.eqb (sortby Nat.ltb) 0 rnodes.
  (** clustered.cpp:606-640; [elements], [regions]: of all ranks *)
  Definition compute_regions_element_nodes (nb : list (list nat)) (ss : list node_store) (elements : list (list (list nat))) (regions : list (list (list (list nat))))
      : outcome (list (list (list nat)) * list (list region_info)) :=
    nodes <- mapM (fun x : list (list nat) * list (list (list nat)) => mapM (element_region_nodes (fst x)) (snd x)) (combine elements regions) ;;
    nodes <- synchronize_region_nodes nb ss nodes ;;
    infos <- compute_node_info nb ss nodes ;;
    Ok (nodes, infos).

  (** clustered.cpp:652-658 *)
  Definition boundary_region_nodes (rg : region) : outcome (list nat) :=
    match rg_nodes rg, rg_elements rg with
    | Some nodes, _ => Ok nodes
    | None, Some elements => sortAndRemoveDuplicates Nat.eqb (sortby Nat.ltb) 0 (concat elements) 0
    | None, None => UB
    end.
  (** clustered.cpp:642-672; the last component: the new nodes->uniqInfo of every rank, if there is a region of the boundary *)
  Definition compute_regions_boundary_nodes (nb : list (list nat)) (ss : list node_store) (regions : list (list region))
      : outcome (list (list (list nat)) * list (list region_info) * list (option region_info)) :=
    nodes <- mapM (mapM boundary_region_nodes) regions ;;
    nodes <- synchronize_region_nodes nb ss nodes ;;
    infos <- compute_node_info nb ss nodes ;;
    Ok (nodes, infos, map (fun i => hd_error i) infos).
End Sort.

(** regionstore.cpp:27-30: getPosition *)
Definition get_position (nodes : list nat) (info : region_info) (node : nat) : outcome nat := rd (u_position (ri_info info)) (lower_bound nodes node).
