(** * Specification vocabulary: sums over lower ranks *)
From Coq Require Import ZArith List.
From Verif Require Import M_Distribute.
Import ListNotations.
Local Open Scope Z_scope.

(** sum of the values of the ranks below [i] *)
Definition sum_below (vals : list Z) (i : nat) : Z := fold_right Z.add 0 (firstn i vals).

(** values of an integer type *)
Definition representable (ty : ity) (z : Z) : Prop :=
  match ty with
  | Unsigned W => 0 <= z < 2 ^ W
  | Signed W => - 2 ^ (W - 1) <= z < 2 ^ (W - 1)
  end.
(** adding [x] and [y] is not undefined *)
Definition defined_sum (ty : ity) (x y : Z) : Prop :=
  match ty with Unsigned _ => True | Signed _ => representable ty (x + y) end.
