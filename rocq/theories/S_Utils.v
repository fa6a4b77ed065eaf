(** * Specification vocabulary for the vector helpers *)
From Coq Require Import ZArith List.
Import ListNotations.
Local Open Scope Z_scope.

(** sum of a list *)
Definition zsum (l : list Z) : Z := fold_right Z.add 0 l.

(** column [i] of a table stored by rows *)
Definition col (s : list (list Z)) (i : nat) : list Z := map (fun row => nth i row 0) s.

(** Boundaries stored in one vector: thread [t] owns the positions (dist[t], dist[t+1]] and its
    last position holds the number of its elements; a thread without positions has no elements. *)
Definition part_total (data : list Z) (dist : list nat) (t : nat) : Z :=
  if (nth t dist 0 =? nth (t + 1) dist 0)%nat then 0 else nth (nth (t + 1) dist 0%nat) data 0.
