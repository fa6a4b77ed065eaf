(** * Vocabulary of the theorems about the status of the PCPG solvers *)
From Coq Require Import List Bool Arith.
From Verif Require Import Base M_DualVector M_Mprgp M_SolverInfo.
Import ListNotations.

Section Status.
Variable K : scalar.
Local Notation T := (num K).
Variable isnan : T -> bool.
Variable infinity : T.
Variable C : config K.

(** the number compared with the precision for the squared norm [ww], [w0] is the initial one *)
Definition measure (w0 ww : T) : T :=
  match stopping_criterion K C with
  | ABSOLUTE => sqrt K (max K (zero K) ww)
  | RELATIVE => div K (sqrt K (max K (zero K) ww)) (sqrt K w0)
  | ARIOLI => infinity
  end.

(** the last of the measures is worse than the measure max_stagnation - 1 passes before *)
Definition stagnated (w0 : T) (ws : list T) : bool :=
  Nat.leb (max_stagnation K C) (length ws) &&
  match nth_error ws (length ws - max_stagnation K C), rev ws with
  | Some old, a :: _ => ltb K (measure w0 old) (measure w0 a)
  | _, _ => false
  end.

(** the error and whether to stop after the passes with squared norms [ws ++ [a]] *)
Definition verdict (w0 : T) (ws : list T) (a : T) : solver_error * bool :=
  if isnan (measure w0 a) then (INVALID_DATA, true)
  else if stagnated w0 (ws ++ [a]) then (STAGNATION, true)
  else if ltb K (measure w0 a) (precision K C) then (NO_ERROR, true)
  else if Nat.eqb (S (length ws)) (max_iterations K C) then (MAX_ITERATIONS_REACHED, true)
  else (NO_ERROR, false).

(** the status after the passes with the squared norms [ws], no pass after the stop *)
Inductive watched (w0 : T) : list T -> info K -> Prop :=
| watched_start : watched w0 [] (set_info K infinity C w0)
| watched_pass ws i a i' :
    watched w0 ws i -> converged K i = false -> update_info K isnan infinity C a i = Ok i' ->
    watched w0 (ws ++ [a]) i'.
End Status.
