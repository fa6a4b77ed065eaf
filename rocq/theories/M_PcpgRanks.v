(** * PCPG on all ranks

    /repo/src/feti/iterativesolver/pcpg.cpp:70-147: what M_Pcpg.v models with whole vectors, here with the vectors that the ranks keep.

    Simplifications: as in M_ProjectorRanks: a function that all ranks call is a relation between the arguments and the results of the ranks; [runF] and
    [runS] are the dual operator and the preconditioner with their synchronizations (M_TotalFeti, M_Precond); the numbers and the status that a
    rank computes from the result of a reduction are the same on all ranks, so they are modelled once; prints are omitted. *)
From Coq Require Import List Arith Bool.
From Verif Require Import Base M_Mpi M_Dual S_Dual M_DualVector M_Mprgp M_SolverInfo M_TotalFeti M_Projector M_ProjectorRanks M_Reconstruct.
Import ListNotations.

Section PcpgRanks.
  Variable K : scalar.
  Local Notation T := (num K).
  Local Notation vecs := (nat -> list T).
  Variables (isnan : T -> bool) (infinity : T) (quotient : T -> T -> outcome T) (C : config K).
  Variables (n limit : nat) (type : ggt_type) (p : nat -> projector T).
  Variables (conjugate : bool) (runF runS : vecs -> vecs -> Prop).
  (** Fx of the projector before a call, pcpg.h:28-29: the arrays before [solve] *)
  Variables (arrFx arrL arrW arrY : vecs).
  Local Notation ranks f := (forall r, r < n -> f r).
  Local Notation axpy := (axpy (add K) (mul K)).

  (** Vector_Dual::dot, vector_dual.cpp:58-68: the result on every rank, for every order of the reduction *)
  Definition run_dot (x y : vecs) (res : T) : Prop :=
    exists locals : nat -> T, (ranks (fun r => local_dot (zero K) (add K) (mul K) (dmap (p r)) (x r) (y r) = Ok (locals r))) /\
      forall s, reduction (add K) (map locals (seq 0 n)) s -> s = res.

  (** Projector::apply and applyT, projector.cpp:95-125; [y]: the result before *)
  Definition run_project (x y res : vecs) : Prop :=
    exists Fx : vecs, (if conjugate then runF x Fx else Fx = x) /\ run_apply (zero K) (one K) (add K) (mul K) (opp K) n limit type p x Fx y res.
  Definition run_projectT (x y res : vecs) : Prop :=
    if conjugate then run_applyT (zero K) (one K) (add K) (mul K) (opp K) n limit type p runF x arrFx res
    else run_apply (zero K) (one K) (add K) (mul K) (opp K) n limit type p x x y res.

  (** the vectors of PCPG<double>::solve between two passes of the loop *)
  Record pstate := { px : vecs; pr : vecs; pw : vecs; py : vecs; pp : vecs; pyw : T; pstatus : info K }.

  (** before the loop, pcpg.cpp:76-98; [d]: F->d, [e]: P->e *)
  Definition run_start (d e : vecs) (s : pstate) : Prop :=
    exists l Fl z y : vecs,
      (if conjugate then run_GtintGGtG (zero K) (one K) (add K) (mul K) n limit type p d arrL l
       else run_GtintGGt (zero K) (one K) (add K) (mul K) n limit type p e arrL l) /\
      runF l Fl /\ ranks (fun r => axpy (map (mul K (opp K (one K))) (Fl r)) (one K) (d r) = pr s r) /\
      run_projectT (pr s) arrW (pw s) /\ runS (pw s) z /\ run_project z arrY y /\
      py s = y /\ pp s = y /\ px s = l /\ run_dot y (pw s) (pyw s) /\ pstatus s = set_info K infinity C (pyw s).

  (** one pass, pcpg.cpp:104-139; y.swap(p): the old p is kept in y *)
  Definition run_step (s s' : pstate) : Prop :=
    exists (Fp z y : vecs) (pFp gamma beta : T),
      runF (pp s) Fp /\ run_dot (pp s) Fp pFp /\ quotient (pyw s) pFp = Ok gamma /\
      ranks (fun r => axpy (px s r) gamma (pp s r) = px s' r) /\
      ranks (fun r => axpy (pr s r) (opp K gamma) (Fp r) = pr s' r) /\
      run_projectT (pr s') (pw s) (pw s') /\ runS (pw s') z /\ run_project z (py s) y /\
      run_dot y (pw s') (pyw s') /\ quotient (pyw s') (pyw s) = Ok beta /\
      ranks (fun r => axpy (y r) beta (pp s r) = pp s' r) /\ py s' = pp s /\
      update_info K isnan infinity C (pyw s) (pstatus s) = Ok (pstatus s').

  (** pcpg.cpp:103-140: at most [passes] passes *)
  Fixpoint run_loop (passes : nat) (s s' : pstate) : Prop :=
    if converged K (pstatus s) then s' = s
    else match passes with
         | O => s' = s
         | S passes => exists t, run_step s t /\ run_loop passes t s'
         end.
  Definition run_pcpg (passes : nat) (d e : vecs) (s : pstate) : Prop := exists s0, run_start d e s0 /\ run_loop passes s0 s.
End PcpgRanks.

(** ** The operators with their synchronizations *)
Section Operators.
  Context {T : Type}.
  Variables (add : T -> T -> T).
  Variables (n limit : nat) (p : nat -> projector T).
  Local Notation vecs := (nat -> list T).
  (** a local computation [f] on every rank, then Vector_Dual::synchronize of the result: TotalFETIImplicit::apply (totalfeti.implicit.cpp:139-144),
      the ends of Lumped::apply, Dirichlet::apply, DirichletImplicit::apply (lumped.cpp:57-58, dirichlet.cpp:97-98, dirichlet.implicit.cpp:140-141) *)
  Definition run_synchronized (f : nat -> list T -> outcome (list T)) (x res : vecs) : Prop :=
    exists y : vecs, (forall r, r < n -> f r (x r) = Ok (y r)) /\ dual_sync add n limit p y res.
  (** EmptyPreconditioner::apply, emptypreconditioner.h:18-21 *)
  Definition run_empty (x res : vecs) : Prop := forall r, r < n -> res r = x r.
End Operators.

(** ** The whole solution *)
Section Solve.
  Variable K : scalar.
  Local Notation T := (num K).
  Local Notation vecs := (nat -> list T).
  Local Notation domains_ := (nat -> list (list T)).
  Variables (isnan : T -> bool) (infinity : T) (quotient : T -> T -> outcome T) (C : config K).
  Variables (n limit : nat) (type : ggt_type) (p : nat -> projector T) (F : nat -> feti T) (solve : nat -> nat -> list T -> list T).
  Variables (runS : vecs -> vecs -> Prop) (arrFx arrL arrW arrY arrE : vecs) (arrRa : domains_).
  Local Notation ranks f := (forall r, r < n -> f r).
  (** DualOperator::update, totalfeti.implicit.cpp:102-105: d = B K+ f - c *)
  Definition run_rhs (f : domains_) (c d : vecs) : Prop :=
    exists y z : vecs, (ranks (fun r => dual_rhs (zero K) (add K) (mul K) (F r) (solve r) (f r) = Ok (y r))) /\ dual_sync (add K) n limit p y z /\
      ranks (fun r => axpy (add K) (mul K) (z r) (opp K (one K)) (c r) = d r).
  (** TotalFETIImplicit::apply *)
  Definition run_F : vecs -> vecs -> Prop := run_synchronized (add K) n limit p (fun r => implicit_apply (zero K) (one K) (add K) (mul K) (F r) (solve r)).
  (** d, e, PCPG<double>::solve (pcpg.cpp:70-147) with reconstructSolution(x, r) (pcpg.cpp:143): the state of the solver, the solution in
      the domains and B^T lambda; the projector is not CONJUGATE *)
  Definition run_solve (passes : nat) (f : domains_) (c : vecs) (s : pstate K) (u btl : domains_) : Prop :=
    exists d e : vecs, run_rhs f c d /\ run_e (zero K) (one K) (add K) (mul K) (opp K) n p f arrE e /\
      run_pcpg K isnan infinity quotient C n limit type p false run_F runS arrFx arrL arrW arrY passes d e s /\
      run_reconstruct (zero K) (one K) (add K) (mul K) (opp K) n type p F solve false f (px K s) (pr K s) arrRa u btl.
End Solve.
