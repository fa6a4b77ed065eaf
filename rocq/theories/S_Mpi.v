(** * What it means that a group of ranks completes a collective operation *)
From Coq Require Import List.
From Verif Require Import Base M_Mpi.
Import ListNotations.

(** [completes n ps rs]: whatever the schedule and whatever sends are buffered,
    - every execution of the programs [ps] of [n] ranks is finite (at most [bound] steps),
    - an execution that has not finished yet can make a step that does not need a buffer (no deadlock), and
    - when no step is possible, every rank has returned its element of [rs] and no message is left over. *)
Definition completes {M A} (n : nat) (ps : list (prog M A)) (rs : list A) : Prop :=
  (exists bound, forall k (tr : nat -> world M A), tr 0 = start n ps -> (forall i, i < k -> step n (tr i) (tr (S i))) -> k <= bound) /\
  (forall s, steps (step n) (start n ps) s ->
     s = start n (map Ret rs) \/ exists s', step_sure n s s') /\
  (forall s, steps (step n) (start n ps) s -> (forall s', ~ step n s s') -> s = start n (map Ret rs)).
