(** * What the graph of domains should be

    Domains, ranks and multipliers as in S_Dual; domain [d] has [ksize d] kernels; the kernels of all domains are numbered in the order of the
    domains. *)
From Coq Require Import List Arith Bool.
From Verif Require Import Base M_Dual S_Dual M_DualGraph.
Import ListNotations.

Section Graph.
  Variables (n : nat) (first : nat -> nat) (L : list (list nat)) (nb : nat -> list nat) (ksize : nat -> nat).

  Definition member (d : nat) (ds : list nat) : bool := existsb (Nat.eqb d) ds.
  Definition all_of : list nat := seq (first 0) (first n - first 0).
  Definition mine (r d : nat) : bool := (first r <=? d) && (d <? first (r + 1)).
  (** some of the multipliers [ms] glues the domains [d] and [d'] *)
  Definition glued (ms : list nat) (d d' : nat) : bool := existsb (fun m => member d (domains L m) && member d' (domains L m)) ms.
  Definition all_multipliers : list nat := seq 0 (length L).

  (** the own domains of rank [r] and the domains glued to them *)
  Definition visible (r d : nat) : bool := mine r d || existsb (fun d' => glued all_multipliers d' d) (seq (first r) (first (r + 1) - first r)).
  (** the first kernel of a domain in the numbering of all kernels *)
  Definition first_kernel (d : nat) : nat := list_sum (map ksize (seq (first 0) (d - first 0))).

  (** the multipliers of domain [d] among those of rank [r]: (position, multiplier) *)
  Definition multipliers_of (r d : nat) : list (nat * nat) :=
    filter (fun pm => member d (domains L (snd pm))) (combine (seq 0 (length (held first L r))) (held first L r)).
  (** the lower neighbours (their indices) that keep a copy *)
  Definition lower_copies (r m : nat) : list nat :=
    filter (fun k => (nth k (nb r) 0 <? r) && touches first (nth k (nb r) 0) (domains L m)) (seq 0 (length (nb r))).

  (** the vertex of domain [d] on rank [r] *)
  Record vertex_ok (r d : nat) (v : vertex) : Prop := {
    vo_rank : v_rank v < n /\ mine (v_rank v) d = true;
    vo_goffset : v_goffset v = first_kernel d;
    vo_ksize : v_ksize v = ksize d;
    vo_offset : mine r d = true -> v_offset v = d - first r;
    vo_total : v_total v = length (multipliers_of r d);
    vo_indices : flat_map (fun i => map (fun p => (p, snd i)) (seq (fst (fst i)) (snd (fst i)))) (v_indices v) =
                 map (fun pm => (fst pm, if mine r d then lower_copies r (snd pm) else [])) (multipliers_of r d) }.

  (** the vertices are the visible domains in increasing order; the edges of an own domain are the domains glued to it *)
  Record graph_ok (r : nat) (g : smap vertex * smap (list nat)) : Prop := {
    g_keys : map fst (fst g) = filter (visible r) all_of;
    g_vertices : forall d v, In (d, v) (fst g) -> vertex_ok r d v;
    g_edges : forall d, mine r d = true -> edges_of (snd g) d = filter (glued all_multipliers d) all_of }.

  (** the vertices pushed by a rank before [set] *)
  Definition pushed_vertices (r : nat) : smap vertex :=
    fold_left (fun vs i => push_vertex i (first r + i) (ksize (first r + i)) vs) (seq 0 (first (r + 1) - first r)) [].
End Graph.
