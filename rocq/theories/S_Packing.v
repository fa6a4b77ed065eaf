(** * Specification vocabulary for packing *)
From Coq Require Import ZArith List.
From Verif Require Import M_Packing.
Import ListNotations.

(** a value fits its C++ type: raw objects have the size of their type, lengths fit size_t *)
Fixpoint fits (t : ty) : den t -> Prop :=
  match t with
  | TFixed n => fun b => length b = n
  | TString => fun s => (Z.of_nat (length s) < 2 ^ 64)%Z
  | TVec t => fun l => (Z.of_nat (length l) < 2 ^ 64)%Z /\ Forall (fits t) l
  end.

(** number of bytes a sequence of values occupies according to packedSize *)
Definition messageSize (l : list item) : nat :=
  fold_right (fun x n => packedSize (projT1 x) (projT2 x) + n) 0 l.
