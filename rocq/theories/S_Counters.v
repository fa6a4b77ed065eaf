(** * What the numbers of elements should be *)
From Coq Require Import List Arith ZArith Bool.
From Verif Require Import Base S_Scan M_Counters.
Import ListNotations.
Local Open Scope Z_scope.

(** of the things that the ranks have ([amounts]: how many each), those of rank [r] start with number [o], they are [s], and all are [t] *)
Definition numbers (amounts : list Z) (r : nat) (i : info) : Prop :=
  i_offset i = sum_below amounts r /\ i_size i = nth r amounts 0 /\ i_total i = sum_below amounts (length amounts).
(** the elements with code [c] in a list of codes *)
Definition having (c : nat) (codes : list nat) : Z := Z.of_nat (count_occ Nat.eq_dec codes c).
(** [codes]: for each rank the codes of some elements; [d] is their distribution on rank [r] *)
Definition distributes (codes : list (list nat)) (r : nat) (d : distribution) : Prop :=
  length (code d) = 16%nat /\ (forall c, (c < 16)%nat -> numbers (map (having c) codes) r (nth c (code d) zero_info)) /\
  numbers (map (fun l => Z.of_nat (length l)) codes) r (process d).
(** the undefined values of the buffers of MPI_Exscan on rank 0 do not overflow *)
Definition harmless (ty : M_Distribute.ity) (N : Z) (u : list Z) : Prop := forall c x, 0 <= x <= N -> defined_sum ty (nth c u 0) x.
(** a region without a dimension has nodes; those with the lowest rank [r] belong to [r] *)
Definition owned (ranks : list (list nat)) (r : nat) (nodes : list nat) : Z := Z.of_nat (length (filter (fun n => (nth 0 (nth n ranks []) r =? r)%nat) nodes)).
