(** * The solution of the primal problem

    /repo/src/feti/iterativesolver/iterativesolver.cpp:42-81 (reconstructSolution), BtL of
    /repo/src/feti/dualoperator/totalfeti.implicit.cpp:199-207 and the report of /repo/src/feti/feti.cpp:154-171.

    Simplifications: as in M_TotalFeti and M_ProjectorRanks; the product with K (spblas.apply) is a function of the domain (contract: S_Reconstruct);
    the sums of the atomic updates are in the order of the domains; square roots and the printing are not modelled. *)
From Coq Require Import List Arith Bool.
From Verif Require Import Base M_Dual M_TotalFeti M_Projector M_ProjectorRanks.
Import ListNotations.

Section Reconstruct.
  Context {T : Type}.
  Variables (zero one : T) (add mul : T -> T -> T) (opp : T -> T).
  Variables (n : nat) (type : ggt_type) (p : nat -> projector T) (F : nat -> feti T) (solve : nat -> nat -> list T -> list T).
  Local Notation vecs := (nat -> list T).
  Local Notation domains_ := (nat -> list (list T)).

  (** TotalFETIImplicit::BtL, totalfeti.implicit.cpp:199-207: as Btx of the other functions *)
  Definition BtL (r : nat) (l : list T) : outcome (list (list T)) := all_Btx zero one add mul (F r) l.
  (** reconstructSolution(l, r), iterativesolver.cpp:42-57; [Ra]: the arrays before *)
  Definition run_reconstruct (conjugate : bool) (f : domains_) (l res : vecs) (Ra x btl : domains_) : Prop :=
    exists ik ra : domains_, (forall r, r < n -> to_primal zero one add mul opp (F r) (solve r) (f r) (l r) = Ok (ik r)) /\
      (forall r, r < n -> BtL r (l r) = Ok (btl r)) /\
      run_RinvGGtG zero add mul n type p conjugate res Ra ra /\ (forall r, r < n -> reconstruct one add mul (ik r) (ra r) = x r).
  (** reconstructSolution(l, rbm), iterativesolver.cpp:59-81: [equalities] multipliers are cleared for ineqBtL *)
  Definition run_reconstruct_rbm (equalities : nat -> nat) (f : domains_) (l rbm : vecs) (Ra x btl ineq : domains_) : Prop :=
    exists ik ra : domains_, (forall r, r < n -> to_primal zero one add mul opp (F r) (solve r) (f r) (l r) = Ok (ik r)) /\
      (forall r, r < n -> BtL r (l r) = Ok (btl r)) /\
      (forall r, r < n -> BtL r (repeat zero (equalities r) ++ skipn (equalities r) (l r)) = Ok (ineq r)) /\
      run_R zero add mul n type p rbm Ra ra /\ (forall r, r < n -> reconstruct one add mul (ik r) (ra r) = x r).

  (** feti.cpp:157-168, one domain *)
  Definition kkt_domain (applyK : nat -> list T -> list T) (kkt : T * T) (d : nat * (list T * (list T * list T))) : T * T :=
    let '(d, (x, (f, btl))) := d in
    let Ku := applyK d x in
    let fBtL := axpy add mul btl (opp one) f in
    let kkt1 := add (snd kkt) (blas_dot zero add mul fBtL fBtL) in
    let Ku := axpy add mul Ku one fBtL in
    (add (fst kkt) (blas_dot zero add mul Ku Ku), kkt1).
  (** feti.cpp:154-168, before the reduction *)
  Definition kkt_local (applyK : nat -> list T -> list T) (x f btl : list (list T)) : T * T :=
    fold_left (kkt_domain applyK) (combine (seq 0 (length x)) (combine x (combine f btl))) (zero, zero).
End Reconstruct.
