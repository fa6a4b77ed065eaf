(** * Non-blocking sends and receives in any order

    What /repo/src/wrappers/mpi/communication.hpp uses of MPI outside of the collectives of M_Comm: MPI_Isend, MPI_Irecv and
    MPI_Probe(MPI_ANY_SOURCE) followed by MPI_Recv, MPI_Waitall.
    - MPI_Isend starts a transfer and never waits; messages from one rank to another one do not overtake each other.
    - A wildcard probe takes the oldest message of any source (the choice is arbitrary).
    - Posted MPI_Irecvs (from different sources) end in any order; their MPI_Waitall is modelled by a loop receiving from the sources that
      have not delivered yet.
    - MPI_Waitall of sends waits until the transfers end: either when the messages are received, or earlier if MPI buffers them.
    One call with one tag is modelled.  The send buffers are not changed during the call (they are const arguments). *)
From Coq Require Import List Arith.
From Verif Require Import Base.
Import ListNotations.

Section Programs.
  Variable M : Type.

  Inductive nprog (A : Type) : Type :=
  | NRet (a : A)
  | Isend (dst : nat) (m : M) (k : nprog A)
  | Recv (srcs : option (list nat)) (k : nat -> M -> nprog A)   (** None: MPI_ANY_SOURCE *)
  | WaitSent (k : nprog A)
  | NCrash.

  (** [n_chan]: messages sent and not received yet, from [i] to [j] at the position [i * n + j] *)
  Record nworld (A : Type) := { n_procs : list (nprog A); n_chan : list (list M) }.

  Section Semantics.
    Variables (A : Type) (n : nat).
    Local Notation W := (nworld A).

    Definition accepts (srcs : option (list nat)) (j : nat) : Prop := match srcs with None => True | Some l => In j l end.

    Inductive nstep_sure : W -> W -> Prop :=
    | StepIsend i j m k ps ch q : i < n -> j < n -> nth_error ps i = Some (Isend A j m k) -> nth_error ch (i * n + j) = Some q ->
        nstep_sure {| n_procs := ps; n_chan := ch |} {| n_procs := upd ps i k; n_chan := upd ch (i * n + j) (q ++ [m]) |}
    | StepRecv i j m srcs k ps ch q : i < n -> j < n -> nth_error ps j = Some (Recv A srcs k) -> accepts srcs i ->
        nth_error ch (i * n + j) = Some (m :: q) ->
        nstep_sure {| n_procs := ps; n_chan := ch |} {| n_procs := upd ps j (k i m); n_chan := upd ch (i * n + j) q |}
    | StepSent i k ps ch : i < n -> nth_error ps i = Some (WaitSent A k) -> (forall j, j < n -> nth_error ch (i * n + j) = Some []) ->
        nstep_sure {| n_procs := ps; n_chan := ch |} {| n_procs := upd ps i k; n_chan := ch |}.

    (** buffered transfers are finished before they are received *)
    Inductive nstep_buf : W -> W -> Prop :=
    | StepBuffered i k ps ch : i < n -> nth_error ps i = Some (WaitSent A k) ->
        nstep_buf {| n_procs := ps; n_chan := ch |} {| n_procs := upd ps i k; n_chan := ch |}.

    Definition nstep (s s' : W) : Prop := nstep_sure s s' \/ nstep_buf s s'.

    Inductive nsteps : W -> W -> Prop :=
    | nsteps_refl s : nsteps s s
    | nsteps_next s s' s'' : nstep s s' -> nsteps s' s'' -> nsteps s s''.

    Definition nstart (ps : list (nprog A)) : W := {| n_procs := ps; n_chan := repeat [] (n * n) |}.
  End Semantics.
End Programs.

Arguments NRet {M A} a.
Arguments Isend {M A} dst m k.
Arguments Recv {M A} srcs k.
Arguments WaitSent {M A} k.
Arguments NCrash {M A}.
Arguments n_procs {M A} _.
Arguments n_chan {M A} _.
Arguments nstep {M A} n _ _.
Arguments nstep_sure {M A} n _ _.
Arguments nstep_buf {M A} n _ _.
Arguments nsteps {M A} n _ _.
Arguments nstart {M A} n ps.

Section Calls.
  Context {M A X : Type}.
  Local Notation P := (nprog M A).

  (** a loop of MPI_Isend *)
  Fixpoint isends (l : list (nat * M)) (k : P) : P :=
    match l with
    | [] => k
    | x :: l => Isend (fst x) (snd x) (isends l k)
    end.

  (** [todo] messages from any source ([None]) or from the posted sources; [h] stores a message *)
  Fixpoint recvs (todo : nat) (srcs : option (list nat)) (h : X -> nat -> M -> X) (acc : X) (k : X -> P) : P :=
    match todo with
    | O => k acc
    | S todo => Recv srcs (fun i m => recvs todo (option_map (remove Nat.eq_dec i) srcs) h (h acc i m) k)
    end.

End Calls.

(** a call: start the sends, receive, wait.  Undefined behaviour while storing a message shows at the end. *)
Definition call_end {M A X} (k : X -> A) (x : outcome X) : nprog M A :=
  match x with Ok a => WaitSent (NRet (k a)) | _ => NCrash end.
Definition call {M A X} (send : list (nat * M)) (todo : nat) (srcs : option (list nat)) (h : X -> nat -> M -> outcome X) (acc : X)
  (k : X -> A) : nprog M A :=
  isends send (recvs todo srcs (fun acc i m => obind acc (fun acc => h acc i m)) (Ok acc) (call_end k)).
