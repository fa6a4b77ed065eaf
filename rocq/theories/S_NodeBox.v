(** * What the bounding box of a region is *)
From Coq Require Import List Arith ZArith Bool.
From Verif Require Import Base M_NodeBox.
Import ListNotations.

Definition no_point : point := all_axes 0.
Definition axes : list (point -> Z) := [px; py; pz].
(** the points of the region [i]: its nodes on all ranks *)
Definition region_points (coordinates : list (list point)) (regions : list (list (list nat))) (i : nat) : list point :=
  flat_map (fun r => map (fun n => nth n (nth r coordinates []) no_point) (nth i (nth r regions []) [])) (seq 0 (length coordinates)).
(** [lo] and [hi] are the corners of the smallest box with all points; a region without points has the empty box *)
Definition is_box (big : Z) (points : list point) (lo hi : point) : Prop :=
  forall axis, In axis axes ->
    (forall p, In p points -> (axis lo <= axis p <= axis hi)%Z) /\
    (points <> [] -> (exists p, In p points /\ axis p = axis lo) /\ (exists p, In p points /\ axis p = axis hi)) /\
    (points = [] -> axis lo = big /\ axis hi = (- big)%Z).
(** [m] regions on every rank, coordinates within the range of doubles *)
Definition placed (big : Z) (m : nat) (coordinates : list (list point)) (regions : list (list (list nat))) : Prop :=
  coordinates <> [] /\ length regions = length coordinates /\
  (forall c p axis, In c coordinates -> In p c -> In axis axes -> (- big <= axis p <= big)%Z) /\
  forall r, r < length coordinates -> length (nth r regions []) = m /\ forall l n, In l (nth r regions []) -> In n l -> n < length (nth r coordinates []).
