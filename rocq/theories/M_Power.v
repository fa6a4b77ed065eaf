(** * The power method for the largest eigenvalue of the dual operator

    /repo/src/feti/dualoperator/dualoperator.cpp:121-133, 334-378.

    Simplifications: whole vectors, see M_DualVector.v; a quotient by zero, whose result is not a number or infinite, is the outcome [UB]; the limit of
    the number of iterations is not negative and the counter does not overflow. *)
From Coq Require Import List Bool Arith.
From Verif Require Import Base M_DualVector M_Mprgp.
Import ListNotations.
Local Open Scope out_scope.

Section Power.
Variable K : scalar.
Local Notation T := (num K).
Local Notation vec := (list T).

(** the conversion of an integer to double *)
Fixpoint of_nat (n : nat) : T := match n with O => zero K | S n => add K (one K) (of_nat n) end.

(** getInitVector, dualoperator.cpp:121-133, Dual_Map::total numbers; whether a number is negative depends on where its owner keeps it, so the signs are
    a parameter *)
Definition init_vector (negative : list bool) : vec :=
  let norm := div K (one K) (sqrt K (of_nat (length negative))) in
  map (fun mul1 : bool => mul K (if mul1 then opp K (one K) else one K) norm) negative.

(** std::fabs *)
Definition fabs (a : T) : T := if ltb K a (zero K) then opp K a else a.

Variable H : vec -> vec.
Variable epsilon : T.

(** one pass: dualoperator.cpp:346-351 and 367-376; the new y, lambda and err *)
Definition power_step (y : vec) (lambda : T) : outcome (vec * T * T) :=
  scale <- quot K (one K) lambda ;;
  let y := H (vscale K scale y) in
  let lambda' := sqrt K (dot K y y) in
  err <- quot K (fabs (sub K lambda' lambda)) (fabs lambda') ;;
  Ok (y, lambda', err).

(** dualoperator.cpp:345-352 and 366-377; [rest]: how many more values of [it] are within the limit *)
Fixpoint power_loop (rest it : nat) (y : vec) (lambda err : T) : outcome (T * nat) :=
  match rest with
  | O => Ok (lambda, it)
  | S rest =>
    if ltb K epsilon err then
      r <- power_step y lambda ;;
      let '(y, lambda, err) := r in power_loop rest (S it) y lambda err
    else Ok (lambda, it)
  end.

Definition power (negative : list bool) (rest it : nat) : outcome (T * nat) :=
  let y := init_vector negative in
  power_loop rest it y (sqrt K (dot K y y)) (huge K).
End Power.

(** estimateMaxEigenValue, dualoperator.cpp:334-353: iterations = 0, ..., maxIterations *)
Definition estimate (K : scalar) (F : list (num K) -> list (num K)) (negative : list bool) (epsilon : num K) (maxIterations : nat)
    : outcome (num K * nat) :=
  power K F epsilon negative (S maxIterations) 0.

(** estimateMaxProjectedEigenValue, dualoperator.cpp:355-378: iterations = 1, ..., maxIterations; the last two arguments are not used *)
Definition estimate_projected (K : scalar) (F project : list (num K) -> list (num K)) (negative : list bool) (epsilon : num K) (maxIterations : nat)
    : outcome (num K * nat) :=
  power K (fun x => project (F (project x))) epsilon negative maxIterations 1.
