(** * SMALBE: minimization with bounds and equality constraints

    /repo/src/feti/iterativesolver/smalbe.cpp:62-245.  As in M_Mprgp and M_Pcpg the vectors are whole.

    Simplifications: the dual operator, the projector and the preconditioner are functions; the estimate of the largest eigenvalue of P F P is a
    parameter; the computations of smalbe.cpp:162-168, whose results are overwritten before they are read, except for x, are omitted; prints and times are omitted; the gradient after a call of MPRGP is not updated for the new multipliers (smalbe.cpp:207-209): the next
    call computes it again before it is read (mprgp.cpp:153-154 and smalbe.cpp:175-176); the reconstruction of the primal solution is omitted. *)
From Coq Require Import List Bool Arith.
From Verif Require Import Base M_DualVector M_Mprgp.
Import ListNotations.
Local Open Scope out_scope.

Section Smalbe.
Variable K : scalar.
Local Notation T := (num K).
Local Notation vec := (list T).

(** the operators of the FETI solver: F, Projector::apply, apply_invL, apply_invU, apply_invLG, apply_GtinvU (projector.cpp:95-107, 176-210) and the
    preconditioner, if it is set *)
Record operators := {
  F : vec -> vec;
  project : vec -> vec;
  invL : vec -> vec;
  invU : vec -> vec;
  invLG : vec -> vec;
  GtinvU : vec -> vec;
  precond : option (vec -> vec)
}.
Variable A : operators.
(** the bounds and the parameters of MPRGP *)
Variable P : problem K.
(** feti.configuration: alpham, rho, M, beta, eta, precision, precision_in; [ten], [two] and [half]: the constants; [max_eig]: normPFP, the estimate *)
Record parameters := { alpham : T; rho : T; M0 : T; beta : T; eta : T; precision : T; precision_in : T; ten : T; two : T; half : T; max_eig : T }.
Variable C : parameters.
(** F->d and P->e *)
Variables d e : vec.
Local Notation n := (length d).
Definition norm2 (v : vec) : T := sqrt K (dot K v v).

(** smalbe.cpp:75-87: the constraints are made homogeneous unless e is small *)
Definition homogenized : bool := ltb K (mul K (ten C) (precision C)) (norm2 (invL A e)).
Definition x_im : vec := if homogenized then GtinvU A (invL A e) else vzero K n.
Definition shift (bounds : vec) : vec := if homogenized then zip K (sub K) bounds (skipn (equalities K P) x_im) else bounds.
Definition P_im : problem K :=
  {| equalities := equalities K P; lb := shift (lb K P); ub := shift (ub K P); delta := delta K P; precision_set := precision_set K P; gradproj := gradproj K P; max_iterations := max_iterations K P |}.
Definition first_x0 : vec := if homogenized then vadd K (vzero K n) (opp K (one K)) x_im else vzero K n.
(** smalbe.cpp:71, 79, 91-92, 108; maxEIG_H is 1 from line 107 on *)
Definition b_im : vec := if homogenized then vadd K d (opp K (one K)) (F A x_im) else d.
Definition b : vec := vscale K (div K (one K) (max_eig C)) (project A b_im).
(** smalbe.cpp:110-114 *)
Definition alpha : T := div K (alpham C) (one K).
Definition rho_ : T := mul K (rho C) (one K).
Definition norm_b : T := norm2 b.
(** smalbe.cpp:117-119 and 202-204 *)
Definition minus_Ctmu (mu : vec) : vec := vadd K (vscale K (opp K (one K)) (GtinvU A mu)) (one K) b.

(** smalbe.cpp:125-133, A_apply; the calls are not counted *)
Definition hessian (x : vec) : vec :=
  let y := project A x in
  let out := vscale K (div K (one K) (max_eig C)) (project A (F A y)) in
  vadd K (vadd K out rho_ x) (opp K rho_) y.
(** smalbe.cpp:134-145, Aprec_apply *)
Definition hessian_prec (x : vec) : vec :=
  match precond A with
  | Some M =>
    let y := project A x in
    let out := vscale K (max_eig C) (project A (M y)) in
    vadd K (vadd K out (div K (one K) rho_) x) (div K (opp K (one K)) rho_) y
  | None => x
  end.
(** smalbe.cpp:147-159, stop; [Mc]: M_const *)
Definition stop (Mc : T) (x g_stop : vec) : bool :=
  let norm_g := norm2 g_stop in
  let norm_Gx := norm2 (invLG A x) in
  leb K norm_g (min K (mul K Mc norm_Gx) (mul K (eta C) norm_b)) ||
  (leb K norm_g (mul K (precision_in C) norm_b) && leb K norm_Gx (div K (mul K (precision_in C) norm_b) (one K))).

(** between the calls of MPRGP; [lag]: Lag0, [None] is minus infinity *)
Record state := { x : vec; x0 : vec; mu : vec; Ctmu : vec; Mc : T; lag : option T; iterations : nat }.
(** smalbe.cpp:116-122, 167-169 *)
Definition start : state :=
  let mu := vzero K (length e) in
  {| x := restrict K P_im first_x0; x0 := first_x0; mu := mu; Ctmu := minus_Ctmu mu; Mc := M0 C; lag := None; iterations := 1 |}.

(** how the loop ends: smalbe.cpp:191-194 or the condition in line 173; [RUNNING] is not an end *)
Inductive ending := MET (s : state) | LIMIT (s : state) | RUNNING.
(** smalbe.cpp:173-216, at most [passes] passes *)
Fixpoint loop (passes : nat) (s : state) : outcome ending :=
  if iterations s <=? max_iterations K P then
    match passes with
    | O => Ok RUNNING
    | S passes =>
      r <- run K P_im alpha hessian hessian_prec (stop (Mc s)) (two C) (half C) (Ctmu s) (x0 s) (iterations s) ;;
      let x := s_x K r in
      let g_stop := reduced_gradient K P_im (s_g K r) x alpha in
      let Gx := invLG A x in
      let Lag1 := mul K (half C) (dot K (vadd K (s_g K r) (opp K (one K)) (Ctmu s)) x) in
      let it := s_iterations K r in
      if leb K (norm2 g_stop) (mul K (precision C) norm_b) && leb K (norm2 Gx) (div K (mul K (precision C) norm_b) (one K)) then
        Ok (MET {| x := x; x0 := x; mu := mu s; Ctmu := Ctmu s; Mc := Mc s; lag := lag s; iterations := it |})
      else
        let mu := vadd K (mu s) rho_ Gx in
        let small := match lag s with Some l => ltb K Lag1 (add K l (div K (mul K rho_ (dot K Gx Gx)) (two C))) | None => false end in
        loop passes {| x := x; x0 := x; mu := mu; Ctmu := minus_Ctmu mu; Mc := if small then mul K (beta C) (Mc s) else Mc s; lag := Some Lag1; iterations := it |}
    end
  else Ok (LIMIT s).

(** smalbe.cpp:221-228: the multipliers and the amplitudes of the kernels *)
Definition multipliers (s : state) : vec := vadd K (x s) (one K) x_im.
Definition amplitudes (s : state) : vec :=
  let r := vadd K (F A (multipliers s)) (opp K (one K)) d in
  vscale K (opp K (one K)) (invU A (vadd K (invLG A r) (opp K (max_eig C)) (mu s))).
(** smalbe.cpp:68, 192, 234, 242-244: [met] is stored to [info], which is then overwritten by the information of MPRGP, whose flag keeps
    its initial value (MPRGP::run, mprgp.cpp:143-249, does not write to it) *)
Definition smalbe_report (met : bool) (s : state) : report :=
  let mprgp_converged := false in
  let info_converged := met in
  let info_converged := mprgp_converged in
  {| r_error := if (max_iterations K P <? iterations s) && negb info_converged then MAX_ITERATIONS_REACHED else NO_ERROR;
     r_iterations := iterations s; r_converged := info_converged |}.
(** the multipliers, the amplitudes, the report and whether the criterion was met; [None]: the loop has not ended after [passes] passes *)
Definition smalbe (passes : nat) : outcome (option (vec * vec * report * bool)) :=
  r <- loop passes start ;;
  Ok (match r with
      | MET s => Some (multipliers s, amplitudes s, smalbe_report true s, true)
      | LIMIT s => Some (multipliers s, amplitudes s, smalbe_report false s, false)
      | RUNNING => None
      end).
End Smalbe.
