(** * The graph of domains

    /repo/src/feti/projector/dualgraph.{h,cpp}: DualGraph::clear, pushVertex and the part of set for domains (13-98).  The part for clusters
    (100-182, for hybrid FETI) and spread are not modelled.

    Simplifications: domains, ranks and sizes are natural numbers; std::map is a list sorted by the keys; [domains.edges\[d\]] of a domain without
    edges is empty (it is also inserted to the map, what nobody can see).  Communication::exscan gives [offset] (P_DualGraph takes it from M_Scan).
    [sort]: std::sort of integers. *)
From Coq Require Import List Arith Bool.
From Verif Require Import Base M_Utils M_Nb M_Exchange M_Dual.
Import ListNotations.
Local Open Scope out_scope.

(** std::map<int, V> *)
Section Map.
  Context {V : Type}.
  Definition smap := list (nat * V).
  Fixpoint mget (k : nat) (m : smap) : option V :=
    match m with [] => None | (j, v) :: m => if k =? j then Some v else mget k m end.
  (** [f(m\[k\])]; operator\[\] inserts a value-initialised element *)
  Fixpoint mupd (v0 : V) (k : nat) (f : V -> V) (m : smap) : smap :=
    match m with
    | [] => [(k, f v0)]
    | (j, v) :: m' => if k =? j then (j, f v) :: m' else if k <? j then (k, f v0) :: m else (j, v) :: mupd v0 k f m'
    end.
  (** map::at, or operator\[\] of an existing element *)
  Definition mat (m : smap) (k : nat) : outcome V := match mget k m with Some v => Ok v | None => UB end.
End Map.
Arguments smap V : clear implicits.

(** dualgraph.h:23-35; an element of [lambdas.indices] is (offset, size, lower_neighs) *)
Record vertex := { v_offset : nat; v_rank : nat; v_goffset : nat; v_loffset : nat; v_ksize : nat; v_indices : list (nat * nat * list nat); v_total : nat }.
Definition vertex0 : vertex := {| v_offset := 0; v_rank := 0; v_goffset := 0; v_loffset := 0; v_ksize := 0; v_indices := []; v_total := 0 |}.

(** dualgraph.cpp:16-20 *)
Definition pushed (offset size : nat) (v : vertex) : vertex :=
  {| v_offset := offset; v_rank := v_rank v; v_goffset := v_goffset v; v_loffset := v_loffset v; v_ksize := size; v_indices := v_indices v; v_total := v_total v |}.
Definition push_vertex (offset index size : nat) (vs : smap vertex) : smap vertex := mupd vertex0 index (pushed offset size) vs.

(** dualgraph.cpp:30-34; also 69-71 *)
Definition placed (rank goffset size : nat) (v : vertex) : vertex :=
  {| v_offset := v_offset v; v_rank := rank; v_goffset := goffset; v_loffset := v_loffset v; v_ksize := size; v_indices := v_indices v; v_total := v_total v |}.
Fixpoint set_goffsets (rank offset : nat) (vs : smap vertex) : smap vertex :=
  match vs with
  | [] => []
  | (d, v) :: vs => (d, placed rank offset (v_ksize v) v) :: set_goffsets rank (offset + v_ksize v) vs
  end.
(** dualgraph.cpp:25-28: the argument of exscan *)
Definition local_kernels (vs : smap vertex) : nat := fold_left (fun s v => s + v_ksize (snd v)) vs 0.

(** loops over the blocks of [lMap]: dualgraph.cpp:36-44 and 76-98; [fuel]: the length of [lMap] *)
Fixpoint lmap_loop {S : Type} (fuel : nat) (f : nat -> nat -> nat -> nat -> S -> outcome S) (lMap : list nat) (i offset : nat) (st : S) : outcome S :=
  match fuel with
  | 0 => Ok st
  | Datatypes.S fuel =>
    if i <? length lMap then
      lsize <- rd lMap i ;; ndomains <- rd lMap (i + 1) ;;
      st <- f i lsize ndomains offset st ;;
      lmap_loop fuel f lMap (i + (ndomains + 2)) (offset + lsize) st
    else Ok st
  end.

(** dualgraph.cpp:38-42 *)
Definition edges_from (lMap : list nat) (i ndomains : nat) (edges : smap (list nat)) (d1 : nat) : outcome (smap (list nat)) :=
  foldM (fun edges d2 => k <- rd lMap (i + 2 + d1) ;; e <- rd lMap (i + 2 + d2) ;; Ok (mupd [] k (fun l => l ++ [e]) edges)) (seq 0 ndomains) edges.
Definition edges_block (lMap : list nat) (i lsize ndomains offset : nat) (edges : smap (list nat)) : outcome (smap (list nat)) :=
  foldM (edges_from lMap i ndomains) (seq 0 ndomains) edges.
(** dualgraph.cpp:45-47 *)
Definition sort_edges (sort : list nat -> list nat) (edges : smap (list nat)) : outcome (smap (list nat)) :=
  foldM (fun es e => l <- sortAndRemoveDuplicates Nat.eqb sort 0 (snd e) 0 ;; Ok (es ++ [(fst e, l)])) edges [].
(** dualgraph.cpp:36-47 *)
Definition set_edges (sort : list nat -> list nat) (lMap : list nat) : outcome (smap (list nat)) :=
  edges <- lmap_loop (length lMap) (edges_block lMap) lMap 0 0 [] ;; sort_edges sort edges.
Definition edges_of (edges : smap (list nat)) (d : nat) : list nat := match mget d edges with Some l => l | None => [] end.

(** dualgraph.cpp:53-61: one edge of the vertex [d]; the state is (sBuffer, last) *)
Definition send_edge (D : decomposition) (d : nat) (v : vertex) (st : list (list nat) * option nat) (e : nat) : outcome (list (list nat) * option nat) :=
  let '(sb, last) := st in
  n <- noffset D e ;;
  if negb (ismy D e) && is_next last n then
    b <- rd sb n ;; sb <- wr sb n (b ++ [d; v_goffset v; v_ksize v]) ;; Ok (sb, Some n)
  else Ok st.
(** dualgraph.cpp:50-62 *)
Definition send_vertex (D : decomposition) (edges : smap (list nat)) (sb : list (list nat)) (dv : nat * vertex) : outcome (list (list nat)) :=
  '(sb, _) <- foldM (send_edge D (fst dv) (snd dv)) (edges_of edges (fst dv)) (sb, None) ;; Ok sb.
Definition send_vertices (D : decomposition) (edges : smap (list nat)) (vs : smap vertex) : outcome (list (list nat)) :=
  foldM (send_vertex D edges) vs (repeat [] (length (neighbors D))).

(** dualgraph.cpp:68-72; [fuel]: the length of the buffer *)
Fixpoint receive_loop (fuel : nat) (rank : nat) (buf : list nat) (i : nat) (vs : smap vertex) : outcome (smap vertex) :=
  match fuel with
  | 0 => Ok vs
  | S fuel =>
    if i <? length buf then
      k <- rd buf i ;; g <- rd buf (i + 1) ;; s <- rd buf (i + 2) ;;
      receive_loop fuel rank buf (i + 3) (mupd vertex0 k (placed rank g s) vs)
    else Ok vs
  end.
(** dualgraph.cpp:67-73 *)
Definition receive_vertices (D : decomposition) (rb : list (list nat)) (vs : smap vertex) : outcome (smap vertex) :=
  foldM (fun vs n => rank <- rd (neighbors D) n ;; b <- rd rb n ;; receive_loop (length b) rank b 0 vs) (seq 0 (length rb)) vs.

(** dualgraph.cpp:85-92 *)
Definition lower_step (D : decomposition) (lMap : list nat) (i : nat) (lneighs : list nat) (lower : nat) : outcome (list nat) :=
  l <- rd lMap (i + 2 + lower) ;;
  if l <? dbegin D then
    n <- noffset D l ;;
    Ok (match lneighs with [] => [n] | _ => if last lneighs 0 =? n then lneighs else lneighs ++ [n] end)
  else Ok lneighs.
(** dualgraph.cpp:80-93: one domain of a block *)
Definition with_lambdas (offset lsize : nat) (lneighs : list nat) (v : vertex) : vertex :=
  {| v_offset := v_offset v; v_rank := v_rank v; v_goffset := v_goffset v; v_loffset := v_loffset v; v_ksize := v_ksize v;
     v_indices := v_indices v ++ [(offset, lsize, lneighs)]; v_total := v_total v + lsize |}.
Definition lambdas_domain (D : decomposition) (lMap : list nat) (i offset lsize : nat) (vs : smap vertex) (d : nat) : outcome (smap vertex) :=
  k <- rd lMap (i + 2 + d) ;;
  lneighs <- (if ismy D k then foldM (lower_step D lMap i) (seq 0 d) [] else Ok []) ;;
  Ok (mupd vertex0 k (with_lambdas offset lsize lneighs) vs).
Definition lambdas_block (D : decomposition) (lMap : list nat) (i lsize ndomains offset : nat) (vs : smap vertex) : outcome (smap vertex) :=
  foldM (lambdas_domain D lMap i offset lsize) (seq 0 ndomains) vs.
(** dualgraph.cpp:76-98 *)
Definition set_lambdas (D : decomposition) (lMap : list nat) (vs : smap vertex) : outcome (smap vertex) :=
  lmap_loop (length lMap) (lambdas_block D lMap) lMap 0 0 vs.

(** what follows the exchange; without its success the program ends (dualgraph.cpp:64-66) *)
Definition set_finish (D : decomposition) (lMap : list nat) (vs : smap vertex) (edges : smap (list nat)) (res : option (list (list nat)))
  : outcome (smap vertex * smap (list nat)) :=
  match res with
  | None => Fail
  | Some rb => vs <- receive_vertices D rb vs ;; vs <- set_lambdas D lMap vs ;; Ok (vs, edges)
  end.
(** DualGraph::set, dualgraph.cpp:22-98; [offset]: the result of exscan *)
Definition dual_set (sort : list nat -> list nat) (limit rank offset : nat) (D : decomposition) (lMap : list nat) (vs : smap vertex)
  : nprog (list nat) (smap vertex * smap (list nat)) :=
  let vs := set_goffsets rank offset vs in
  match set_edges sort lMap with
  | Ok edges =>
    match send_vertices D edges vs with
    | Ok sb => nfin (set_finish D lMap vs edges) (exchange_unknown limit sb (repeat [] (length (neighbors D))) (neighbors D))
    | _ => NCrash
    end
  | _ => NCrash
  end.
