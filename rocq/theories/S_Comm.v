(** * What the collective operations should compute *)
From Coq Require Import List Arith ZArith.
From Verif Require Import Base.
Import ListNotations.

Definition associative {T} (op : T -> T -> T) : Prop := forall x y z, op x (op y z) = op (op x y) z.
Definition commutative {T} (op : T -> T -> T) : Prop := forall x y, op x y = op y x.

(** combination of a non-empty list *)
Definition reduce {T} (op : T -> T -> T) (dflt : T) (l : list T) : T :=
  match l with [] => dflt | x :: l => fold_left op l x end.

(** elementwise combination of the vectors of length [len] of the ranks [left, right) *)
Definition reduced {T} (op : T -> T -> T) (dflt : T) (len : nat) (data : nat -> list T) (left right : nat) : list T :=
  map (fun j => reduce op dflt (map (fun r => nth j (data r) dflt) (seq left (right - left)))) (seq 0 len).

(** concatenation of the data of the ranks [left, right) in rank order *)
Definition gathered {T} (data : nat -> list T) (left right : nat) : list T := concat (map data (seq left (right - left))).

(** position of the data of rank [r] in the concatenation *)
Definition offset {T} (data : nat -> list T) (r : nat) : nat := length (gathered data 0 r).

(** a message: its target and its data *)
Record message := { m_target : nat; m_data : list Z }.
(** in memory: number of elements, target, data *)
Definition encode (m : message) : list Z := [Z.of_nat (length (m_data m) + 2); Z.of_nat (m_target m)] ++ m_data m.
Definition encodes (l : list message) : list Z := concat (map encode l).
(** messages for rank [r] sent by the ranks [left, right) *)
Definition addressed (sent : nat -> list message) (left right r : nat) : list message :=
  filter (fun m => m_target m =? r) (gathered sent left right).

(** sum of two non-negative whole numbers that are binary64 numbers: rounded to 53 bits, to nearest, ties to even *)
Definition double_add (x y : Z) : Z :=
  let s := (x + y)%Z in
  if (s <? 2 ^ 53)%Z then s
  else let u := (2 ^ (Z.log2 s - 52))%Z in
       let q := (s / u)%Z in
       let rest := (s mod u)%Z in
       if ((2 * rest <? u) || ((2 * rest =? u) && Z.even q))%Z%bool then (q * u)%Z else ((q + 1) * u)%Z.

(** increasing positions that split a buffer: [displacement] of scatterv *)
Definition displacements (n : nat) (disp : list nat) (total : nat) : Prop :=
  length disp = n + 1 /\ nth 0 disp 0 = 0 /\ (forall i, i < n -> nth i disp 0 <= nth (i + 1) disp 0) /\ nth n disp 0 <= total.
