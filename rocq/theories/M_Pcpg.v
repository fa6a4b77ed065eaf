(** * The preconditioned conjugate projected gradient solvers
    (/repo/src/feti/iterativesolver/pcpg.cpp, orthopcpg.cpp; the projector:
    /repo/src/feti/projector/projector.cpp; the kept directions:
    /repo/src/feti/common/matrix_dual_orthogonal.h)

    Simplifications: see M_DualVector.v and M_SolverInfo.v; the dual operator F, the preconditioner S,
    the matrices G and its transpose and the (inverse) coarse matrix are functions; the division is a
    parameter, a quotient may be undefined; the reconstruction of the primal solution is omitted. *)
From Coq Require Import List Bool Arith.
From Verif Require Import Base M_DualVector M_Mprgp M_SolverInfo.
Import ListNotations.
Local Open Scope out_scope.

Section Pcpg.
Variable K : scalar.
Local Notation T := (num K).
Local Notation vec := (list T).
Variable isnan : T -> bool.
Variable infinity : T.
Variable quotient : T -> T -> outcome T.
Variable C : config K.

(** the projector: [conjugate] is configuration.projector == CONJUGATE, [inv] applies inv(GGt) or
    inv(GFGt) *)
Record operators := {
  F : vec -> vec;
  S : vec -> vec;
  G : vec -> vec;
  Gt : vec -> vec;
  inv : vec -> vec;
  conjugate : bool
}.
Variable A : operators.

(** Projector::_apply_Gt, projector.cpp:326-335: out += alpha * Gt * in *)
Definition apply_Gt (v : vec) (alpha : T) (out : vec) : vec := vadd K out alpha (Gt A v).

(** Projector::apply, projector.cpp:95-107 *)
Definition project (x : vec) : vec :=
  let Fx := if conjugate A then F A x else x in
  apply_Gt (inv A (G A Fx)) (opp K (one K)) x.

(** Projector::applyT, projector.cpp:109-125 *)
Definition projectT (x : vec) : vec :=
  if conjugate A then
    let Fx := apply_Gt (inv A (G A x)) (opp K (one K)) (vzero K (length x)) in
    vadd K (F A Fx) (one K) x
  else apply_Gt (inv A (G A x)) (opp K (one K)) x.

(** Projector::apply_GtintGGtG, projector.cpp:127-134 *)
Definition apply_GtinvGGtG (x : vec) : vec :=
  apply_Gt (inv A (G A x)) (one K) (vzero K (length x)).

(** Projector::apply_GtintGGt, projector.cpp:136-142; [n] is the size of a dual vector *)
Definition apply_GtinvGGt (n : nat) (v : vec) : vec :=
  apply_Gt (inv A v) (one K) (vzero K n).

(** pcpg.cpp:82-84: r = d - F * l *)
Definition residual (d l : vec) : vec :=
  vadd K (vscale K (opp K (one K)) (F A l)) (one K) d.

(** ** PCPG *)

Record state := {
  x : vec;
  r : vec;
  w : vec;
  y : vec;
  p : vec;
  yw : T;
  status : info K
}.

(** PCPG<double>::solve before the loop, pcpg.cpp:70-99 *)
Definition pcpg_start (d e : vec) : state :=
  let l := if conjugate A then apply_GtinvGGtG d else apply_GtinvGGt (length d) e in
  let r := residual d l in
  let w := projectT r in
  let y := project (S A w) in
  let yw := dot K y w in
  {| x := l; r := r; w := w; y := y; p := y; yw := yw; status := set_info K infinity C yw |}.

(** the body of the loop, pcpg.cpp:103-140; the criterion is tested for the old yw *)
Definition pcpg_step (s : state) : outcome state :=
  let Fp := F A (p s) in
  let pFp := dot K (p s) Fp in
  gamma <- quotient (yw s) pFp ;;
  let x := vadd K (x s) gamma (p s) in
  let r := vadd K (r s) (opp K gamma) Fp in
  let w := projectT r in
  let y := project (S A w) in
  let yw' := dot K y w in
  beta <- quotient yw' (yw s) ;;
  let p := vadd K y beta (p s) in
  i <- update_info K isnan infinity C (yw s) (status s) ;;
  Ok {| x := x; r := r; w := w; y := y; p := p; yw := yw'; status := i |}.

(** pcpg.cpp:103-140; the state after at most [passes] passes of the loop *)
Fixpoint pcpg_loop (passes : nat) (s : state) : outcome state :=
  if converged K (status s) then Ok s
  else match passes with
       | O => Ok s
       | Datatypes.S passes => s <- pcpg_step s ;; pcpg_loop passes s
       end.

Definition pcpg (passes : nat) (d e : vec) : outcome state := pcpg_loop passes (pcpg_start d e).

(** ** OrthogonalizedPCPG *)

(** the arrays kept by the solver: [pi] and [Fpi] are emptied by update (orthopcpg.h:17-21),
    [pFps] and [yFps] are not; [intervals] are the begins and sizes of Dual_Map::local_intervals *)
Record ostate := {
  base : state;
  pi : list vec;
  Fpi : list vec;
  pFps : vec;
  yFps : vec
}.
Variable intervals : list (nat * nat).

Definition segment (iv : nat * nat) (v : vec) : vec := firstn (snd iv) (skipn (fst iv) v).

(** the first entries of [out] are overwritten *)
Definition overwrite (out v : vec) : vec := v ++ skipn (length v) out.

(** Matrix_Dual_Orthogonal::apply, matrix_dual_orthogonal.h:33-43; each interval overwrites the
    result (beta of blas::apply is zero) *)
Definition rows_apply (rows : list vec) (v : vec) (out : vec) : vec :=
  fold_left (fun out iv => overwrite out (map (fun row => dot K (segment iv row) (segment iv v)) rows))
    intervals out.

(** Matrix_Dual_Orthogonal::applyT, matrix_dual_orthogonal.h:45-52: the number of rows is the
    number of coefficients; rows that were not set are undefined *)
Fixpoint rows_applyT (n : nat) (rows : list vec) (coefs : vec) : outcome vec :=
  match coefs, rows with
  | [], _ => Ok (vzero K n)
  | c :: coefs, row :: rows => v <- rows_applyT n rows coefs ;; Ok (vadd K v c row)
  | _ :: _, [] => UB
  end.

(** orthopcpg.cpp:122-124 *)
Fixpoint divide_all (a b : vec) : outcome vec :=
  match a, b with
  | [], _ => Ok []
  | u :: a, v :: b => q <- quotient u (opp K v) ;; qs <- divide_all a b ;; Ok (q :: qs)
  | _ :: _, [] => UB
  end.

(** orthopcpg.cpp:63-88; [kp] and [ky] are the kept arrays of earlier calls *)
Definition ortho_start (kp ky : vec) (d e : vec) : ostate :=
  let l := apply_GtinvGGt (length d) e in
  let r := residual d l in
  let w := projectT r in
  let y := project (S A w) in
  let yw := dot K y w in
  {| base := {| x := l; r := r; w := w; y := y; p := y; yw := yw;
                status := set_info K infinity C yw |};
     pi := [y]; Fpi := []; pFps := kp; yFps := ky |}.

(** orthopcpg.cpp:92-133; row of [p] is appended to [pi] when it is complete *)
Definition ortho_step (o : ostate) : outcome ostate :=
  let s := base o in
  let Fp := F A (p s) in
  let Fpi := Fpi o ++ [Fp] in
  let pFp := dot K (p s) Fp in
  let pFps := pFps o ++ [pFp] in
  gamma <- quotient (yw s) pFp ;;
  let x := vadd K (x s) gamma (p s) in
  let r := vadd K (r s) (opp K gamma) Fp in
  let w := projectT r in
  let y := project (S A w) in
  let yFps := rows_apply Fpi y (yFps o ++ [zero K]) in
  coefs <- divide_all yFps pFps ;;
  v <- rows_applyT (length y) (pi o) coefs ;;
  let p := vadd K v (one K) y in
  i <- update_info K isnan infinity C (yw s) (status s) ;;
  Ok {| base := {| x := x; r := r; w := w; y := y; p := p; yw := dot K y w; status := i |};
        pi := pi o ++ [p]; Fpi := Fpi; pFps := pFps; yFps := coefs |}.

Fixpoint ortho_loop (passes : nat) (o : ostate) : outcome ostate :=
  if converged K (status (base o)) then Ok o
  else match passes with
       | O => Ok o
       | Datatypes.S passes => o <- ortho_step o ;; ortho_loop passes o
       end.

Definition orthopcpg (passes : nat) (kp ky d e : vec) : outcome ostate :=
  ortho_loop passes (ortho_start kp ky d e).

End Pcpg.
