(** * Prescribed values on boundary regions: the pattern of the sparse vector and its values

    /repo/src/analysis/pattern/vector.uniform.sparse.cpp, vector.uniform.sparse.h:28-50, /repo/src/analysis/assembler/general/filler.cpp:35-47,
    filler.h:131-151, /repo/src/analysis/assembler/assembler.cpp:85-89, 101-113.

    Simplifications: regions are found by names, here a region carries its configuration; region 0, the region of all nodes, is skipped by the loops and
    is not in the list; int and esint are natural numbers without an upper bound except in shifts; the kernels process nodes in chunks of the SIMD
    width, here one by one, and a value of an expression is a function of the node and the component. *)
From Coq Require Import List Bool Arith.
From Verif Require Import Base.
Import ListNotations.
Local Open Scope out_scope.

(** BoundaryRegionStore::nodes by threads, and the configuration and the values of the expressions of the region *)
Record boundary (C V : Type) := Boundary { configured : option C; threads : list (list nat); value : nat -> nat -> V }.
Arguments configured {C V}.
Arguments threads {C V}.
Arguments value {C V}.

(** RegionInfo, vector.uniform.sparse.h:53-57, value-initialized by vector::resize *)
Record info := Info { filter : nat; permutation : list nat; offset : list nat }.

(** a pattern: indices and the information of regions 1, 2, ..., vector.uniform.sparse.h:59-60 *)
Record pattern := Pattern { indices : list nat; dirichlet : list info }.

(** dirichlet[r].permutation.push_back(dof); isset[dof] = 1; lines 32-33, 66-67 *)
Definition mark (s : list nat * list nat) (dof : nat) : outcome (list nat * list nat) :=
  isset <- wr (snd s) dof 1 ;; Ok (fst s ++ [dof], isset).

(** lines 31-34 *)
Definition heat_node (dofs : nat) (s : list nat * list nat) (n : nat) : outcome (list nat * list nat) :=
  foldM (fun s d => mark s (n * dofs + d)) (seq 0 dofs) s.

(** 1 << k for int *)
Definition shift (k : nat) : outcome nat := if k <? 31 then Ok (2 ^ k) else UB.

(** lines 51-57; [data]: which expressions of the vector are set *)
Definition structural_filter (dofs multiplicity : nat) (data : list bool) : outcome nat :=
  foldM (fun f m =>
    foldM (fun f d =>
      isset <- rd data d ;;
      if isset : bool then bit <- shift (dofs * m + d) ;; Ok (f + bit) else Ok f) (seq 0 dofs) f) (seq 0 multiplicity) 0.

(** lines 61-71 *)
Definition structural_node (dofs multiplicity : nat) (data : list bool) (f : nat) (s : list nat * list nat) (n : nat) : outcome (list nat * list nat) :=
  foldM (fun s m =>
    foldM (fun s d =>
      isset <- rd data d ;;
      if isset : bool then
        if Nat.testbit f (dofs * m + d) then mark s (n * dofs * multiplicity + m * dofs + d) else Ok s
      else Ok s) (seq 0 dofs) s) (seq 0 multiplicity) s.

(** lines 28-36, 58-73: the loop over the threads of a region *)
Definition region_threads (node : list nat * list nat -> nat -> outcome (list nat * list nat)) (ts : list (list nat)) (isset : list nat)
    : outcome (list nat * (list nat * list nat)) :=
  foldM (fun s ns =>
    let '(off, (perm, isset)) := s in
    r <- foldM node ns (perm, isset) ;;
    Ok (off ++ [length perm], r)) ts ([], ([], isset)).

(** lines 24-38, 46-75: the regions that are configured, the others keep the empty information *)
Definition regions_loop {C V} (node_filter : C -> outcome nat) (node : C -> nat -> list nat * list nat -> nat -> outcome (list nat * list nat))
    (regions : list (boundary C V)) (isset : list nat) : outcome (list info * list nat) :=
  foldM (fun (s : list info * list nat) b =>
    match configured b with
    | Some c =>
      f <- node_filter c ;;
      r <- region_threads (node c f) (threads b) (snd s) ;;
      let '(off, (perm, isset)) := r in
      Ok (fst s ++ [Info f perm off], isset)
    | None => Ok (fst s ++ [Info 0 [] []], snd s)
    end) regions ([], isset).

(** buildPattern, lines 80-85 *)
Fixpoint build_indices (isset : list nat) (i offset : nat) : list nat * list nat :=
  match isset with
  | [] => ([], [])
  | a :: isset =>
    if a =? 0 then let (ind, new) := build_indices isset (S i) offset in (ind, a :: new)
    else let (ind, new) := build_indices isset (S i) (S offset) in (i :: ind, offset :: new)
  end.

(** buildPattern, lines 86-90 *)
Definition rename (isset : list nat) (perm : list nat) : outcome (list nat) :=
  foldM (fun new i => p <- rd isset i ;; Ok (new ++ [p])) perm [].
Definition build_pattern (s : list info * list nat) : outcome pattern :=
  let (ind, isset) := build_indices (snd s) 0 0 in
  ds <- foldM (fun ds d => perm <- rename isset (permutation d) ;; Ok (ds ++ [Info (filter d) perm (offset d)])) (fst s) [] ;;
  Ok (Pattern ind ds).

(** the constructor for heat transfer, lines 19-40 *)
Definition heat_pattern {V} (size multiplicity : nat) (regions : list (boundary unit V)) : outcome pattern :=
  let dofs := multiplicity in
  s <- regions_loop (fun _ => Ok 1) (fun _ _ => heat_node dofs) regions (repeat 0 (dofs * size)) ;;
  build_pattern s.

(** the constructor for structural mechanics, lines 42-77 *)
Definition structural_pattern {V} (size dimension multiplicity : nat) (regions : list (boundary (list bool) V)) : outcome pattern :=
  let dofs := dimension * multiplicity in
  s <- regions_loop (structural_filter dofs multiplicity) (fun data f => structural_node dofs multiplicity data f) regions (repeat 0 (dofs * size)) ;;
  build_pattern s.

(** VectorSetterKernel<1>::simd, filler.h:137-151, for one node; the remaining positions and the values *)
Definition set_node {V} (dofs f : nat) (v : nat -> nat -> V) (s : list nat * list V) (n : nat) : outcome (list nat * list V) :=
  foldM (fun s d =>
    if Nat.testbit f d then
      match fst s with
      | p :: pos => out <- wr (snd s) p (v n d) ;; Ok (pos, out)
      | [] => UB
      end
    else Ok s) (seq 0 dofs) s.

(** assembler.cpp:85-89; filler.cpp:35-47 and vector.uniform.sparse.h:44-48: thread t starts from the position offset[t] *)
Definition set_region {C V} (dofs : nat) (vals : list V) (b : boundary C V) (d : info) : outcome (list V) :=
  match configured b with
  | Some _ =>
    foldM (fun vals (tns : nat * list nat) =>
      o <- rd (offset d) (fst tns) ;;
      r <- foldM (set_node dofs (filter d) (value b)) (snd tns) (skipn o (permutation d), vals) ;;
      Ok (snd r)) (combine (seq 0 (length (threads b))) (threads b)) vals
  | None => Ok vals
  end.
Definition set_values {C V} (dofs : nat) (p : pattern) (regions : list (boundary C V)) (vals : list V) : outcome (list V) :=
  foldM (fun vals (bd : boundary C V * info) => set_region dofs vals (fst bd) (snd bd)) (combine regions (dirichlet p)) vals.
