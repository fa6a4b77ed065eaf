(** * The solver of quadratic programs with bounds MPRGP
    (/repo/src/feti/iterativesolver/mprgp.cpp)

    Simplifications: see M_DualVector.v; prints and times are omitted; a quotient by zero, whose
    result is not a number or infinite, is the outcome [UB]; the counters do not overflow;
    the product of the flag [free] and a number is the number or zero. *)
From Coq Require Import List Bool.
From Verif Require Import Base M_DualVector.
Import ListNotations.
Local Open Scope out_scope.

Section Mprgp.
Variable K : scalar.
Local Notation T := (num K).
Local Notation vec := (list T).

(** feti.lambdas.equalities, feti.lb, feti.ub and the configuration *)
Record problem := {
  equalities : nat;
  lb : vec;
  ub : vec;
  delta : T;
  precision_set : T;
  gradproj : bool;
  max_iterations : nat
}.
Variable P : problem.

(** mprgp.cpp:70 *)
Definition clamp (l u x : T) : T := max K l (min K u x).

Fixpoint clamp_all (ls us x : vec) : vec :=
  match ls, us, x with
  | l :: ls, u :: us, a :: x => clamp l u a :: clamp_all ls us x
  | _, _, _ => []
  end.

(** restrictToFeasibleSet, mprgp.cpp:66-72 *)
Definition restrict (x : vec) : vec :=
  firstn (equalities P) x ++ clamp_all (lb P) (ub P) (skipn (equalities P) x).

(** mprgp.cpp:80 *)
Definition is_free (l u x : T) : bool :=
  ltb K (precision_set P) (sub K x l) && ltb K (precision_set P) (sub K u x).

Fixpoint free_all (ls us x : vec) : list bool :=
  match ls, us, x with
  | l :: ls, u :: us, a :: x => is_free l u a :: free_all ls us x
  | _, _, _ => []
  end.

(** updateFreeAndActiveSet, mprgp.cpp:74-83; active is the negation of free *)
Definition free_set (x : vec) : list bool :=
  map (fun _ => true) (firstn (equalities P) x)
  ++ free_all (lb P) (ub P) (skipn (equalities P) x).

(** mprgp.cpp:94-98 *)
Definition drop_wrong_sign (r g : T) : T :=
  if ltb K (mul K r g) (zero K) then zero K else r.

(** updateReducedGradient and updateStoppingGradient, mprgp.cpp:85-109 *)
Definition reduced_gradient (g x : vec) (alpha : T) : vec :=
  let xp := restrict (vadd K x (opp K alpha) g) in
  let r := vscale K (div K (one K) alpha) (vadd K x (opp K (one K)) xp) in
  firstn (equalities P) r
  ++ zip K drop_wrong_sign (skipn (equalities P) r) (skipn (equalities P) g).

(** mprgp.cpp:111-125: updateFreeGradient and multByFree *)
Fixpoint mask (free : list bool) (x : vec) : vec :=
  match free, x with
  | f :: free, a :: x => (if f then a else zero K) :: mask free x
  | _, _ => []
  end.

(** mprgp.cpp:132-137, one entry *)
Definition step_length (l u x p alpha : T) : T :=
  let alpha := if ltb K (zero K) p then min K alpha (div K (sub K x l) p) else alpha in
  if ltb K p (zero K) then min K alpha (div K (sub K x u) p) else alpha.

Fixpoint step_length_all (ls us x p : vec) (alpha : T) : T :=
  match ls, us, x, p with
  | l :: ls, u :: us, a :: x, b :: p => step_length_all ls us x p (step_length l u a b alpha)
  | _, _, _, _ => alpha
  end.

(** getFeasibleStepLength, mprgp.cpp:127-141 *)
Definition feasible_step_length (x p : vec) : T :=
  step_length_all (lb P) (ub P) (skipn (equalities P) x) (skipn (equalities P) p) (huge K).

(** the vectors of the solver that live between iterations; the counters of the steps *)
Record state := {
  s_x : vec;
  s_g : vec;
  s_red : vec;                                     (* g_red *)
  s_free : list bool;
  s_gfree : vec;
  s_z : vec;
  s_p : vec;
  s_stop : vec;                                    (* g_stop *)
  s_iterations : nat;
  s_cg : nat;
  s_mixed : nat;
  s_gproj : nat
}.

Variable alpha : T.
Variable H Hprec : vec -> vec.
Variable stop : vec -> vec -> bool.

(** mprgp.cpp:151-152; [b] is the right-hand side *)
Definition minus (b : vec) : vec := vscale K (opp K (one K)) b.

(** H(x, g); g += g0 *)
Definition gradient (g0 x : vec) : vec := vadd K (H x) (one K) g0.

Definition quot (a b : T) : outcome T :=
  if negb (ltb K b (zero K)) && negb (ltb K (zero K) b) then UB else Ok (div K a b).

(** the common end of the steps: mprgp.cpp:184-185, 222-223, 241-242 *)
Definition preconditioned (free : list bool) (gfree : vec) : vec := mask free (Hprec gfree).

(** mprgp.cpp:146-162; [it] is the value of info.iterations on entry *)
Definition init (b x0 : vec) (it : nat) : state :=
  let g0 := minus b in
  let g := gradient g0 x0 in
  let free := free_set x0 in
  let gfree := mask free g in
  let z := preconditioned free gfree in
  {| s_x := x0; s_g := g; s_red := reduced_gradient g x0 alpha; s_free := free; s_gfree := gfree;
     s_z := z; s_p := z; s_stop := reduced_gradient g x0 alpha; s_iterations := it;
     s_cg := 0; s_mixed := 0; s_gproj := 0 |}.

(** mprgp.cpp:177-189, conjugate gradient step *)
Definition cg_step (alpha_cg pFp : T) (Fp : vec) (s : state) : outcome state :=
  let x := vadd K (s_x s) (opp K alpha_cg) (s_p s) in
  let g := vadd K (s_g s) (opp K alpha_cg) Fp in
  let free := free_set x in
  let gfree := mask free g in
  let z := preconditioned free gfree in
  gamma_cg <- quot (dot K z Fp) pFp ;;
  let z := vadd K z (opp K gamma_cg) (s_p s) in
  Ok {| s_x := x; s_g := g; s_red := reduced_gradient g x alpha; s_free := free; s_gfree := gfree;
        s_z := z; s_p := z; s_stop := reduced_gradient g x alpha;
        s_iterations := s_iterations s; s_cg := S (s_cg s); s_mixed := s_mixed s;
        s_gproj := s_gproj s |}.

(** mprgp.cpp:204-217, half step: the new point *)
Definition half_step (alpha_f : T) (Fp : vec) (s : state) : vec :=
  let x := vadd K (s_x s) (opp K alpha_f) (s_p s) in
  let g := vadd K (s_g s) (opp K alpha_f) Fp in
  let red := reduced_gradient g x alpha in
  if gradproj P then vadd K x (opp K alpha) red
  else vadd K x (opp K alpha) (mask (free_set x) red).

(** the state after a step that does not keep the direction: mprgp.cpp:218-224, 238-243 and
    246 *)
Definition restart (x g : vec) (it cg mixed gp : nat) : state :=
  let free := free_set x in
  let gfree := mask free g in
  let z := preconditioned free gfree in
  {| s_x := x; s_g := g; s_red := reduced_gradient g x alpha; s_free := free; s_gfree := gfree;
     s_z := z; s_p := z; s_stop := reduced_gradient g x alpha;
     s_iterations := it; s_cg := cg; s_mixed := mixed; s_gproj := gp |}.

(** mprgp.cpp:192-193, 198-200: half of x . (g + g0) *)
Definition cost_of (half : T) (g0 x g : vec) : T := mul K half (dot K x (vadd K g0 (one K) g)).

(** mprgp.cpp:190-226, mixed step; [half] is the constant .5 *)
Definition mixed_step (half : T) (g0 : vec) (alpha_cg alpha_f : T) (Fp : vec) (s : state) : state :=
  let nx := restrict (vadd K (s_x s) (opp K alpha_cg) (s_p s)) in
  let ng := gradient g0 nx in
  let x := if ltb K (cost_of half g0 nx ng) (cost_of half g0 (s_x s) (s_g s)) then nx
           else half_step alpha_f Fp s in
  let g := if ltb K (cost_of half g0 nx ng) (cost_of half g0 (s_x s) (s_g s)) then ng
           else gradient g0 x in
  restart x g (s_iterations s) (s_cg s) (S (s_mixed s)) (s_gproj s).

(** mprgp.cpp:227-245, proportioning step *)
Definition proportioning_step (g0 : vec) (s : state) : state :=
  let x := if gradproj P then vadd K (s_x s) (opp K alpha) (s_red s)
           else vadd K (s_x s) (opp K alpha) (mask (map negb (s_free s)) (s_red s)) in
  restart x (gradient g0 x) (s_iterations s) (s_cg s) (s_mixed s) (S (s_gproj s)).

(** mprgp.cpp:171: 2 * delta * max(0, g_stop . g) <= max(0, g_stop . g_free) *)
Definition proportional (two : T) (s : state) : bool :=
  leb K (mul K (mul K two (delta P)) (max K (zero K) (dot K (s_stop s) (s_g s))))
        (max K (zero K) (dot K (s_stop s) (s_gfree s))).

Variable two half : T.

(** mprgp.cpp:166-247, one iteration *)
Definition step (g0 : vec) (s : state) : outcome state :=
  if proportional two s then
    let Fp := H (s_p s) in
    let pFp := dot K (s_p s) Fp in
    alpha_cg <- quot (dot K (s_z s) (s_g s)) pFp ;;
    let alpha_f := feasible_step_length (s_x s) (s_p s) in
    if leb K alpha_cg alpha_f then cg_step alpha_cg pFp Fp s
    else Ok (mixed_step half g0 alpha_cg alpha_f Fp s)
  else Ok (proportioning_step g0 s).

Definition count (s : state) : state :=
  {| s_x := s_x s; s_g := s_g s; s_red := s_red s; s_free := s_free s; s_gfree := s_gfree s;
     s_z := s_z s; s_p := s_p s; s_stop := s_stop s; s_iterations := S (s_iterations s);
     s_cg := s_cg s; s_mixed := s_mixed s; s_gproj := s_gproj s |}.

(** mprgp.cpp:165-248; [rest] = max_iterations - iterations, the counter is incremented also by the
    test that ends the loop *)
Fixpoint loop (g0 : vec) (rest : nat) (s : state) : outcome state :=
  if stop (s_x s) (s_stop s) then Ok s
  else match rest with
       | O => Ok (count s)
       | S rest => s <- step g0 (count s) ;; loop g0 rest s
       end.

(** MPRGP::run, mprgp.cpp:143-249 *)
Definition run (b x0 : vec) (it : nat) : outcome state :=
  loop (minus b) (max_iterations P - it) (init b x0 it).

End Mprgp.

(** IterativeSolverInfo, iterativesolver.h:11-36 *)
Inductive solver_error :=
| NO_ERROR | STAGNATION | MAX_ITERATIONS_REACHED | INVALID_DATA | CONVERGENCE_ERROR.

Record report := { r_error : solver_error; r_iterations : nat; r_converged : bool }.

(** MPRGP::solve, mprgp.cpp:251-327; [max_eig] is the estimated largest eigenvalue of the dual
    operator, [d] its right-hand side, [eps] the constant 1e-15; the reconstruction of the primal
    solution is not part of the model *)
Section Solve.
Variable K : scalar.
Variable P : problem K.
Local Notation vec := (list (num K)).

(** mprgp.cpp:288-291 *)
Definition tolerance (eps precision : num K) (d : vec) : num K :=
  let eq_d := firstn (equalities K P) d
              ++ vzero K (length d - equalities K P) in
  max K eps (mul K precision (sqrt K (dot K eq_d eq_d))).

(** mprgp.cpp:301-308 *)
Definition stop_norm (tol : num K) (x g_stop : vec) : bool :=
  leb K (sqrt K (dot K g_stop g_stop)) tol.

(** mprgp.cpp:315-318 *)
Definition mprgp_report (iterations : nat) : report :=
  let converged := Nat.ltb iterations (max_iterations K P) in
  {| r_error := if negb converged && Nat.leb (max_iterations K P) iterations
                then MAX_ITERATIONS_REACHED else NO_ERROR;
     r_iterations := iterations; r_converged := converged |}.

Definition mprgp_solve (alpham max_eig eps precision two half : num K) (F M : vec -> vec) (d : vec)
    : outcome (vec * report) :=
  s <- run K P (div K alpham max_eig) F M (stop_norm (tolerance eps precision d)) two half
           d (vzero K (length d)) 0 ;;
  Ok (s_x K s, mprgp_report (s_iterations K s)).

End Solve.
