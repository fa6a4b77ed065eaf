(** * Loads: adding the right-hand sides of elements, faces and nodes to a distributed vector

    /repo/src/analysis/pattern/vector.uniform.dense.cpp:33-72, vector.uniform.dense.h:52-68, /repo/src/analysis/assembler/general/filler.h:89-108,
    filler.cpp:22-47, /repo/src/analysis/assembler/structuralmechanics.cpp:542-557, assembler.cpp:91-113.

    Simplifications: an element, a face or a node carries the vector that its kernel computes, so the chunks of SIMD lanes are not modelled (they are in
    C103); the order is that of the loop without threads, with threads the additions are atomic and the order may be any, which the claims do not depend on
    since addition is commutative and associative there; esint is a natural number. *)
From Coq Require Import List Bool Arith.
From Verif Require Import Base.
Import ListNotations.
Local Open Scope out_scope.

Section Loads.
Context {V : Type}.
Variable add : V -> V -> V.

(** nodes and the vector of an element *)
Definition element : Type := list nat * list V.
(** BoundaryRegionStore: region 0 is skipped and not modelled; intervals of faces, nodes by threads *)
Record region := Region { dimension : nat; faces : list (list element); nodes : list (list (nat * list V)) }.

(** RegionInfo, vector.uniform.dense.h:92-95: permutation and offset *)
Definition info : Type := list nat * list nat.

(** vector.uniform.dense.cpp:41-45, 57-61 *)
Definition push_element (dofs : nat) (perm : list nat) (e : element) : list nat :=
  fold_left (fun perm rd => fold_left (fun perm from => perm ++ [from * dofs + rd]) (fst e) perm) (seq 0 dofs) perm.
(** lines 38-46, 55-63 *)
Definition push_interval (dofs : nat) (s : info) (es : list element) : info :=
  (fold_left (push_element dofs) es (fst s), snd s ++ [length (fst s)]).
(** lines 69-71 *)
Definition push_node (dofs : nat) (perm : list nat) (n : nat * list V) : list nat :=
  fold_left (fun perm d => perm ++ [fst n * dofs + d]) (seq 0 dofs) perm.
(** lines 66-73 *)
Definition push_thread (dofs : nat) (s : info) (ns : list (nat * list V)) : info :=
  (fold_left (push_node dofs) ns (fst s), snd s ++ [length (fst s)]).

(** lines 37-48 *)
Definition build_elements (dofs : nat) (intervals : list (list element)) : info := fold_left (push_interval dofs) intervals ([], []).
(** lines 52-74 *)
Definition build_region (dofs : nat) (r : region) : info :=
  fold_left (push_thread dofs) (nodes r) (if dimension r =? 0 then ([], []) else fold_left (push_interval dofs) (faces r) ([], [])).

(** RHSFillerKernel::simd, filler.h:98-104, for one lane: out[position[i]] += vector[r]; the remaining positions and the vector *)
Definition add_vector (s : list nat * list V) (v : list V) : outcome (list nat * list V) :=
  foldM (fun s x =>
    match fst s with
    | p :: pos => a <- rd (snd s) p ;; out <- wr (snd s) p (add a x) ;; Ok (pos, out)
    | [] => UB
    end) v s.

(** the kernels of interval or thread [i]; filler.cpp:31, 44 and vector.uniform.dense.h:56, 65: its positions start from offset[i] *)
Definition fill_block (f : info) (out : list V) (ivs : nat * list (list V)) : outcome (list V) :=
  o <- rd (snd f) (fst ivs) ;;
  r <- foldM add_vector (snd ivs) (skipn o (fst f), out) ;;
  Ok (snd r).

Definition numbered {A} (l : list A) : list (nat * A) := combine (seq 0 (length l)) l.

(** assembler.cpp:92-100 *)
Definition fill_elements (dofs : nat) (intervals : list (list element)) (out : list V) : outcome (list V) :=
  foldM (fill_block (build_elements dofs intervals)) (numbered (map (map snd) intervals)) out.

(** assembler.cpp:101-112; structuralmechanics.cpp:549-556: both the kernels of faces and those of nodes start from the first offset of the region *)
Definition fill_region (dofs : nat) (out : list V) (r : region) : outcome (list V) :=
  let f := build_region dofs r in
  out <- (if dimension r =? 0 then Ok out else foldM (fill_block f) (numbered (map (map snd) (faces r))) out) ;;
  foldM (fill_block f) (numbered (map (map snd) (nodes r))) out.

Definition fill_loads (dofs : nat) (intervals : list (list element)) (regions : list region) (out : list V) : outcome (list V) :=
  out <- fill_elements dofs intervals out ;; foldM (fill_region dofs) regions out.
End Loads.
