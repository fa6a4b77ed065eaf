(** * What it means that a group of ranks completes a neighbourhood operation *)
From Coq Require Import List Arith.
From Verif Require Import Base M_Nb.
Import ListNotations.

(** as [completes] of S_Mpi: whatever the order of arrivals and whatever is buffered, every execution is finite, it never stops before all
    ranks have returned their element of [rs], and then no message is left over *)
Definition ncompletes {M A} (n : nat) (ps : list (nprog M A)) (rs : list A) : Prop :=
  (exists bound, forall k (tr : nat -> nworld M A), tr 0 = nstart n ps -> (forall i, i < k -> nstep n (tr i) (tr (S i))) -> k <= bound) /\
  (forall s, nsteps n (nstart n ps) s -> s = nstart n (map NRet rs) \/ exists s', nstep_sure n s s') /\
  (forall s, nsteps n (nstart n ps) s -> (forall s', ~ nstep n s s') -> s = nstart n (map NRet rs)).

(** position of [x] in [l] *)
Fixpoint position (x : nat) (l : list nat) : nat :=
  match l with [] => 0 | y :: l => if x =? y then 0 else S (position x l) end.

(** a neighbourhood: the lists of neighbours of the ranks *)
Record neighbourhood (n : nat) (nb : nat -> list nat) : Prop := {
  nb_sorted : forall i j k, i < n -> j < k < length (nb i) -> nth j (nb i) 0 < nth k (nb i) 0;
  nb_ranks : forall i j, i < n -> In j (nb i) -> j < n;
  nb_sym : forall i j, i < n -> In j (nb i) -> In i (nb j)
}.

(** which messages rank [i] gets when rank [j] sends [d j t] to its targets [to j] *)
Definition senders (n : nat) (to : nat -> list nat) (i : nat) : list nat := filter (fun j => existsb (Nat.eqb i) (to j)) (seq 0 n).

(** increasing boundaries of the parts of [n] ranks *)
Definition distribution (n : nat) (dist : list nat) (total : nat) : Prop :=
  length dist = n + 1 /\ nth 0 dist 0 = 0 /\ (forall i, i < n -> nth i dist 0 <= nth (i + 1) dist 0) /\ nth n dist 0 = total.

(** the part of an array that belongs to the neighbour [j]: the boundaries are ordered as the neighbours *)
Definition part_of {T} (nb dist : list nat) (array : list T) (j : nat) : list T :=
  slice (nth (position j nb) dist 0) (nth (position j nb + 1) dist 0) array.
