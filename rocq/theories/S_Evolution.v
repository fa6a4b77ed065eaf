(** * Specification vocabulary of the automatic optimization *)
From Coq Require Import ZArith List Bool.
Import ListNotations.
Local Open Scope Z_scope.

(** ** Exhaustive search *)

(** [v] is a combination of values of parameters with the ranges [rs] (both bounds included) *)
Definition combination (rs : list (Z * Z)) (v : list Z) : Prop :=
  Forall2 (fun r x => fst r <= x <= snd r) rs v.

(** the number of combinations *)
Fixpoint combinations (rs : list (Z * Z)) : Z :=
  match rs with
  | [] => 1
  | (lo, hi) :: rs => (hi - lo + 1) * combinations rs
  end.

(** ** Histories of a search algorithm
    A search algorithm is asked for a specimen (any number of times), the last returned specimen is evaluated,
    the result is reported, and so on.  [d] is the number of parameters, [tr] lists the evaluated
    specimens with the reported values, [pr] is the specimen that waits for its evaluation. *)
Inductive history {T S : Type} (get : S -> list T -> S -> Prop) (evaluate : T -> S -> S -> Prop)
    (d : nat) (start : S) : S -> option (list T) -> list (list T * T) -> Prop :=
| history_start : history get evaluate d start start None []
| history_get st pr tr c st' :
    history get evaluate d start st pr tr -> get st c st' ->
    history get evaluate d start st' (Some (firstn d c)) tr
| history_evaluate st c tr v st' :
    history get evaluate d start st (Some c) tr -> evaluate v st st' ->
    history get evaluate d start st' None (tr ++ [(c, v)]).

(** [b] is an evaluated specimen followed by its value, and no reported value is smaller *)
Definition is_best {T : Type} (lt : T -> T -> bool) (tr : list (list T * T)) (b : list T) : Prop :=
  exists c v, In (c, v) tr /\ b = c ++ [v] /\
    (forall c' v', In (c', v') tr -> lt v' v = false).

(** ** Numbers
    What the theorems assume about doubles: no NaN, exact conversion of integers, truncation. *)
Record number_laws {T : Type} (lt : T -> T -> bool) (ofZ : Z -> T) (trunc : T -> Z) : Prop := {
  law_asym : forall a b, lt a b = true -> lt b a = false;
  law_trans : forall a b c, lt b a = false -> lt c b = false -> lt c a = false;
  law_integers : forall a b, lt (ofZ a) (ofZ b) = (a <? b);
  law_exact : forall z, trunc (ofZ z) = z;
  law_trunc : forall x n, lt x (ofZ 0) = false -> lt x (ofZ n) = true -> 0 <= trunc x < n
}.
