(** * The status of the PCPG solvers
    (/repo/src/feti/iterativesolver/iterativesolver.h and iterativesolver.cpp: setInfo, updateInfo)

    Simplifications: prints and times are omitted; the counters do not overflow; the numbers are an
    arbitrary [scalar] with a test for a not-a-number and an infinite number. *)
From Coq Require Import List Bool Arith.
From Verif Require Import Base M_DualVector M_Mprgp.
Import ListNotations.
Local Open Scope out_scope.

(** FETIConfiguration::STOPPING_CRITERION, config/ecf/linearsolver/feti.h *)
Inductive criterion := RELATIVE | ABSOLUTE | ARIOLI.

Section Info.
Variable K : scalar.
Local Notation T := (num K).
Variable isnan : T -> bool.
Variable infinity : T.

(** the used part of FETIConfiguration, config/ecf/linearsolver/feti.h:87-90 *)
Record config := {
  stopping_criterion : criterion;
  precision : T;
  print_iteration : nat;
  max_iterations : nat;
  max_stagnation : nat
}.
Variable C : config.

(** IterativeSolverInfo, iterativesolver.h:11-40 *)
Record info := {
  error : solver_error;
  iterations : nat;
  converged : bool;
  absolute : T;
  relative : T;
  initial : T;
  criteria : T;
  buffer : list T;                                 (* stagnation.buffer *)
  position : nat                                   (* stagnation.p *)
}.

(** iterativesolver.cpp:98-102 and 126-130 *)
Definition criteria_of (absolute relative : T) : T :=
  match stopping_criterion C with
  | ABSOLUTE => absolute
  | RELATIVE => relative
  | ARIOLI => infinity                             (* iterativesolver.cpp:93, never changed *)
  end.

(** setInfo, iterativesolver.cpp:82-108, called with a new info *)
Definition set_info (ww : T) : info :=
  let absolute := sqrt K ww in
  let criteria := criteria_of absolute (one K) in
  {| error := NO_ERROR; iterations := 1;
     converged := match stopping_criterion C with
                  | ABSOLUTE => ltb K absolute (precision C)
                  | _ => false
                  end;
     absolute := absolute; relative := one K; initial := absolute; criteria := criteria;
     buffer := repeat criteria (max_stagnation C); position := 0 |}.

(** updateInfo, iterativesolver.cpp:118-164 *)
Definition update_info (ww : T) (i : info) : outcome info :=
  let absolute := sqrt K (max K (zero K) ww) in
  let relative := div K absolute (initial i) in
  let criteria := criteria_of absolute relative in
  let met := ltb K criteria (precision C) in
  buffer <- wr (buffer i) (position i) criteria ;;
  if Nat.eqb (max_stagnation C) 0 then UB else      (* remainder by zero *)
  let position := S (position i) mod max_stagnation C in
  oldest <- rd buffer position ;;
  let stagnates := Nat.leb (max_stagnation C) (iterations i) && ltb K oldest criteria in
  let e1 := if stagnates then STAGNATION else error i in
  let c1 := met || stagnates in
  let limit := Nat.eqb (iterations i) (max_iterations C) && negb c1 in
  let e2 := if limit then MAX_ITERATIONS_REACHED else e1 in
  let c2 := c1 || limit in
  let e3 := if isnan criteria then INVALID_DATA else e2 in
  let c3 := c2 || isnan criteria in
  if negb c3 && Nat.eqb (print_iteration C) 0 then UB else  (* remainder by zero *)
  Ok {| error := e3; iterations := if c3 then iterations i else S (iterations i); converged := c3;
        absolute := absolute; relative := relative; initial := initial i; criteria := criteria;
        buffer := buffer; position := position |}.

End Info.
