(** * Vocabulary for the tree properties *)
From Coq Require Import ZArith List Permutation.
From Verif Require Import Base S_Order M_Trees.
Import ListNotations.

(** contract of std::nth_element: the range is permuted and partitioned around the nth element *)
Definition nth_element_contract (f : nat -> (nat -> Z) -> list nat -> nat -> list nat) : Prop :=
  forall call k l m, Permutation (f call k l m) l /\
    (m < length l ->
     (forall i, i < m -> (k (nth i (f call k l m) 0%nat) <= k (nth m (f call k l m) 0%nat))%Z) /\
     (forall i, m <= i < length l -> (k (nth m (f call k l m) 0%nat) <= k (nth i (f call k l m) 0%nat))%Z))%nat.

(** contract of std::sort for every call *)
Definition sorts_contract (f : nat -> bool -> (nat -> nat -> bool) -> list nat -> list nat) : Prop :=
  forall call side ltb, strict_weak_order ltb -> sort_contract ltb (f call side ltb).

(** every iteration of each parallel loop runs once, in any order *)
Definition level_orders (order : nat -> list nat) : Prop := forall ll, parallel_order (2 ^ ll) (order ll).

(** the boxes [s, e) and [a, b) overlap with positive volume *)
Definition overlap (s e a b : point) : Prop :=
  forall d, (d < 3)%nat -> (coord s d < coord b d)%Z /\ (coord a d < coord e d)%Z.

(** lexicographic order of points *)
Definition lex_lt (p q : point) : Prop :=
  let '(px, py, pz) := p in let '(qx, qy, qz) := q in
  (px < qx \/ px = qx /\ (py < qy \/ py = qy /\ pz < qz))%Z.

(** the leaves of a tree with the given number of levels are the nodes [2^levels, 2^(levels+1)); they split [0, n) into
    consecutive ranges, where the ranges are computed by [b] and [e] *)
Definition leaves_partition (n levels : nat) (b e : nat -> outcome nat) : Prop :=
  exists cut : nat -> nat, cut 0 = 0 /\ cut (2 ^ levels) = n /\
    forall i, i < 2 ^ levels ->
      b (2 ^ levels + i) = Ok (cut i) /\ e (2 ^ levels + i) = Ok (cut (S i)) /\ cut i <= cut (S i).
