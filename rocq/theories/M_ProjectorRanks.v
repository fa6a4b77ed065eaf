(** * Projectors on all ranks

    /repo/src/feti/projector/projector.cpp:95-348: the functions of the projector, composed of the local parts of M_Projector and
    the synchronizations (allGatherInplace of M_Comm, Vector_Dual::synchronize of M_Dual).

    Simplifications: a function that all ranks call is a relation between the arguments and the results of the ranks: between two
    synchronizations the ranks compute locally, and a synchronization is related to results by [completes] and [ncompletes]: every interleaving of
    the messages ends with them.  The arrays that exist before a call ([Gx], [iGGtGx], [mid], buffers) are fields. *)
From Coq Require Import List Arith Bool.
From Verif Require Import Base S_Nb S_Mpi M_Mpi M_Comm M_Nb M_Exchange M_Dual M_TotalFeti M_Projector.
Import ListNotations.

(** projector.h:41 *)
Inductive ggt_type := GGT | LU | NONE.

(** what a rank keeps: Vector_Kernel's static members (and Kernel::roffset, rsize, total that are the same numbers), matrices, arrays *)
Record projector (T : Type) := {
  threads : nat; dist : list nat; koffset : nat; ksize_local : nat; ktotal : nat;
  mG : list (list (nat * T)); invGGt : list T; invL : list T; invU : list T; mR1 : list (kernel T);
  arrGx : list T; arrIGGtGx : list T; arrMid : list T;
  deco : decomposition; dmap : dual_map; sendBuffer : list (list T); recvBuffer : list (list T) }.
Arguments threads {T}. Arguments dist {T}. Arguments koffset {T}. Arguments ksize_local {T}. Arguments ktotal {T}. Arguments mG {T}. Arguments invGGt {T}. Arguments invL {T}. Arguments invU {T}.
Arguments mR1 {T}. Arguments arrGx {T}. Arguments arrIGGtGx {T}. Arguments arrMid {T}. Arguments deco {T}. Arguments dmap {T}. Arguments sendBuffer {T}. Arguments recvBuffer {T}.

(** TFETIOrthogonalSymmetric::_updateGGt, tfeti.orthogonal.symmetric.cpp:280-305: the type after an update with [total] rows of GGt; the
    constructor sets GGT or LU (projector.cpp:62-72) *)
Definition type_after_update (type : ggt_type) (total : nat) : ggt_type := if total =? 0 then NONE else type.

Section Ranks.
  Context {T : Type}.
  Variables (zero one : T) (add mul : T -> T -> T) (opp : T -> T).
  Variables (n limit : nat) (type : ggt_type) (p : nat -> projector T).
  Local Notation vecs := (nat -> list T).
  Local Notation ranks f := (forall r, r < n -> f r).

  (** Vector_Kernel::synchronize, vector_kernel.cpp:46-50 *)
  Definition kernel_sync (arr res : vecs) : Prop :=
    completes n (map (fun r => all_gather_inplace n r (arr r) (koffset (p r)) (ksize_local (p r)) (fun x => Ret x)) (seq 0 n)) (map res (seq 0 n)).
  (** Vector_Dual::synchronize; the buffers are kept for the next one *)
  Definition dual_sync (arr res : vecs) : Prop :=
    exists ends, ncompletes n (map (fun r => synchronize add limit (deco (p r)) (dmap (p r)) (arr r) (sendBuffer (p r)) (recvBuffer (p r))) (seq 0 n)) ends /\
      map (fun e => fst (fst e)) ends = map res (seq 0 n).

  (** Projector::_apply_G, projector.cpp:212-225 *)
  Definition run_G (x res : vecs) : Prop :=
    exists out : vecs, (ranks (fun r => apply_G zero add mul (threads (p r)) (dist (p r)) (koffset (p r)) (mG (p r)) (x r) (arrGx (p r)) = Ok (out r))) /\ kernel_sync out res.
  (** Projector::_apply_invGGt, projector.cpp:227-274 *)
  Definition run_inverse (w res : vecs) : Prop :=
    match type with
    | GGT => ranks (fun r => apply_invGGt zero add mul (ktotal (p r)) (threads (p r)) (dist (p r)) (invGGt (p r)) (w r) (arrIGGtGx (p r)) = Ok (res r))
    | LU => exists mid mid' : vecs,
        (ranks (fun r => apply_invL zero add mul (ktotal (p r)) (threads (p r)) (dist (p r)) (koffset (p r)) (invL (p r)) (w r) (arrMid (p r)) = Ok (mid r))) /\
        kernel_sync mid mid' /\
        (ranks (fun r => apply_invU zero add mul (ktotal (p r)) (threads (p r)) (dist (p r)) (invU (p r)) (mid' r) (arrIGGtGx (p r)) = Ok (res r)))
    | NONE => ranks (fun r => arrIGGtGx (p r) = res r)
    end.
  (** Projector::_apply_Gt, projector.cpp:326-335 *)
  Definition run_Gt (a : vecs) (alpha : T) (y res : vecs) : Prop :=
    exists out : vecs, (ranks (fun r => apply_Gt add mul (mG (p r)) (a r) alpha (y r) = Ok (out r))) /\ dual_sync out res.

  (** Projector::apply, projector.cpp:95-107; [Fx]: the result of the dual operator (CONJUGATE) or a copy of [x] *)
  Definition run_apply (x Fx y res : vecs) : Prop :=
    exists y' gx a : vecs, (ranks (fun r => copy_without_halo zero (dmap (p r)) (x r) (y r) = Ok (y' r))) /\ run_G Fx gx /\ run_inverse gx a /\ run_Gt a (opp one) y' res.
  (** Projector::applyT, projector.cpp:109-125: CONJUGATE; [F]: DualOperator::apply; otherwise it is [run_apply] of [x] and [x] *)
  Definition run_applyT (F : vecs -> vecs -> Prop) (x arrFx res : vecs) : Prop :=
    exists gx a fx y : vecs, run_G x gx /\ run_inverse gx a /\ run_Gt a (opp one) (fun r => map (fun _ => zero) (arrFx r)) fx /\ F fx y /\
      ranks (fun r => axpy add mul (y r) one (x r) = res r).
  (** Projector::apply_GtintGGtG, projector.cpp:127-134 *)
  Definition run_GtintGGtG (x y res : vecs) : Prop :=
    exists gx a : vecs, run_G x gx /\ run_inverse gx a /\ run_Gt a one (fun r => map (fun _ => zero) (y r)) res.
  (** Projector::apply_GtintGGt, projector.cpp:136-142 *)
  Definition run_GtintGGt (w y res : vecs) : Prop :=
    exists a : vecs, run_inverse w a /\ run_Gt a one (fun r => map (fun _ => zero) (y r)) res.
  (** math::set(y\[d\], 0) of all domains *)
  Definition zeros (y : list (list T)) : list (list T) := map (map (fun _ => zero)) y.
  (** Projector::apply_R, projector.cpp:144-158 *)
  Definition run_R (w : vecs) (y res : nat -> list (list T)) : Prop :=
    ranks (fun r => match type with
                    | NONE => zeros (y r) = res r
                    | _ => apply_R zero add mul (mR1 (p r)) (slice (koffset (p r)) (koffset (p r) + ksize_local (p r)) (w r)) = Ok (res r)
                    end).
  (** Projector::apply_RinvGGtG, projector.cpp:160-173 *)
  Definition run_RinvGGtG (conjugate : bool) (x : vecs) (y res : nat -> list (list T)) : Prop :=
    match type, conjugate with
    | NONE, _ | _, true => ranks (fun r => zeros (y r) = res r)
    | _, _ => exists gx a : vecs, run_G x gx /\ run_inverse gx a /\ ranks (fun r => apply_R zero add mul (mR1 (p r)) (a r) = Ok (res r))
    end.
  (** Projector::apply_invU and apply_invL with LU, projector.cpp:175-195, 276-324: [y] is set to zero and [local] is its part *)
  Definition run_factor (factor : projector T -> list T) (w y res : vecs) : Prop :=
    exists out : vecs, (ranks (fun r => apply_dense zero add mul (ktotal (p r)) (threads (p r)) (dist (p r)) (koffset (p r)) (factor (p r)) (w r) (map (fun _ => zero) (y r)) = Ok (out r))) /\ kernel_sync out res.
  (** Projector::apply_GtinvU, projector.cpp:197-203, and apply_invLG, 205-210 *)
  Definition run_GtinvU (w y res : vecs) : Prop :=
    exists a : vecs, (ranks (fun r => apply_invU zero add mul (ktotal (p r)) (threads (p r)) (dist (p r)) (invU (p r)) (w r) (arrIGGtGx (p r)) = Ok (a r))) /\
      run_Gt a one (fun r => map (fun _ => zero) (y r)) res.
  Definition run_invLG (x y res : vecs) : Prop := exists gx : vecs, run_G x gx /\ run_factor invL gx y res.
  (** tfeti.orthogonal.symmetric.cpp:69-76; the offsets of the own domains follow [koffset] (DualGraph::set, dualgraph.cpp:24-34) *)
  Definition run_e (f : nat -> list (list T)) (e res : vecs) : Prop :=
    exists out : vecs, (ranks (fun r => compute_e zero one add mul opp (mR1 (p r)) (map (fun o => koffset (p r) + o) (kernel_offsets 0 (mR1 (p r)))) (f r) (e r) = Ok (out r))) /\ kernel_sync out res.
End Ranks.
