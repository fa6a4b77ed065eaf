(** * Specification vocabulary for the threaded containers *)
From Coq Require Import ZArith List Arith.
From Verif Require Import Base S_Order M_Containers.
Import ListNotations.

(** [0 = d[0] <= d[1] <= ... <= d[threads] = n] *)
Definition distribution_of (n : nat) (d : list nat) : Prop :=
  2 <= length d /\ mono_list d /\ hd 0 d = 0 /\ last d 0 = n.

(** ends of the records when the first one starts at [off] *)
Fixpoint ends {A} (off : Z) (records : list (list A)) : list Z :=
  match records with
  | [] => []
  | r :: rs => (off + Z.of_nat (length r))%Z :: ends (off + Z.of_nat (length r))%Z rs
  end.
(** boundaries of a list of records: 0 and the end of each *)
Definition boundaries {A} (records : list (list A)) : list Z := 0%Z :: ends 0 records.

(** number of elements in the first [t] threads *)
Definition elements_before {A} (parts : list (list (list A))) (t : nat) : Z :=
  Z.of_nat (length (concat (concat (firstn t parts)))).
(** boundaries stored per thread: thread 0 starts with 0, every thread holds the ends of its records *)
Definition thread_boundaries {A} (parts : list (list (list A))) : list (list Z) :=
  map (fun t => (if t =? 0 then [0%Z] else []) ++ ends (elements_before parts t) (nth t parts []))
    (seq 0 (length parts)).

(** the records of a container, thread by thread: a loop [for (e = begin(t); e != end(t); ++e)] visits
    exactly the records [parts[t]], in this order *)
Definition visits {A} (s : sd A) (parts : list (list (list A))) : Prop :=
  length (sd_iter s) = S (length parts) /\
  forall t fuel, t < length parts -> length (concat parts) <= fuel ->
    sd_iterate fuel s t = Ok (nth t parts []).

(** the records split to threads by a distribution *)
Definition split_by {A} (d : list nat) (records : list A) : list (list A) :=
  map (fun t => slice (nth t d 0) (nth (t + 1) d 0) records) (seq 0 (length d - 1)).

(** a container of variable-size records: the first array holds the boundaries, the second one the data;
    the boundaries are distributed to as many threads as the data and thread 0 holds the first of them *)
Definition holds_variable {A} (eb : tarray Z) (ed : tarray A) (records : list (list A)) : Prop :=
  ta_list eb = boundaries records /\ ta_list ed = concat records /\
  ta_size eb = S (length records) /\
  length (ta_distribution eb) = length (ta_distribution ed) /\
  distribution_of (S (length records)) (ta_distribution eb) /\ 1 <= nth 1 (ta_distribution eb) 0.
(** distribution of the records that belongs to a distribution of their boundaries *)
Definition record_distribution (d : list nat) : list nat := map pred d.

(** a container of records of [es] elements; the data are distributed in whole records, [d] *)
Definition holds_uniform {A} (es : nat) (ed : tarray A) (d : list nat) (records : list (list A)) : Prop :=
  0 < es /\ Forall (fun r => length r = es) records /\ ta_list ed = concat records /\
  distribution_of (length records) d /\ ta_distribution ed = map (fun r => es * r) d.

(** records selected by a permutation: record [i] of the result is the old record [permutation[i]] *)
Definition selected {A} (records : list (list A)) (permutation : list Z) : list (list A) :=
  map (fun p => nth (Z.to_nat p) records []) permutation.
Definition valid_indices {A} (records : list A) (permutation : list Z) : Prop :=
  Forall (fun p => (0 <= p < Z.of_nat (length records))%Z) permutation.
