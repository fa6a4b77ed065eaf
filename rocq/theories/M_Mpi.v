(** * Message passing: programs of ranks and their joint execution

    Blocking point-to-point communication of MPI: a rank is a sequential program whose communication actions are MPI_Send and
    MPI_Recv (MPI_Probe followed by MPI_Recv from the same rank is one receive).  All messages of one collective call have the
    same tag and communicator, and no wildcard is used, so a message is identified by its source and destination.

    MPI leaves it open whether MPI_Send copies the message to a buffer and returns at once or waits until it is received.  Both
    are steps of the semantics; a correct program must not rely on buffering. *)
From Coq Require Import List Arith.
From Verif Require Import Base.
Import ListNotations.

Section Programs.
  Variable M : Type. (** messages *)

  Inductive prog (A : Type) : Type :=
  | Ret (a : A)                       (** finished *)
  | Snd (dst : nat) (m : M) (k : prog A)
  | Rcv (src : nat) (k : M -> prog A)
  | Crash.                            (** undefined behaviour or an MPI error *)

  Fixpoint pbind {A B} (p : prog A) (f : A -> prog B) : prog B :=
    match p with
    | Ret _ a => f a
    | Snd _ d m k => Snd _ d m (pbind k f)
    | Rcv _ s k => Rcv _ s (fun m => pbind (k m) f)
    | Crash _ => Crash _
    end.

  (** state of [n] ranks: their programs and, at position [src * n + dst], the sent and not yet received messages *)
  Record world (A : Type) := { w_procs : list (prog A); w_chan : list (list M) }.

  Section Semantics.
    Variable A : Type.
    Variable n : nat.
    Local Notation P := (prog A).
    Local Notation W := (world A).

    Definition chan_of (i j : nat) : nat := i * n + j.

    (** MPI_Send returns after copying the message *)
    Inductive step_buf : W -> W -> Prop :=
    | StepBuf i j m k ps ch q : i < n -> j < n ->
        nth_error ps i = Some (Snd A j m k) -> nth_error ch (chan_of i j) = Some q ->
        step_buf {| w_procs := ps; w_chan := ch |}
                 {| w_procs := upd ps i k; w_chan := upd ch (chan_of i j) (q ++ [m]) |}.

    (** MPI_Recv takes the oldest buffered message of the source *)
    Inductive step_rcv : W -> W -> Prop :=
    | StepRcv i j m k ps ch q : i < n -> j < n ->
        nth_error ps j = Some (Rcv A i k) -> nth_error ch (chan_of i j) = Some (m :: q) ->
        step_rcv {| w_procs := ps; w_chan := ch |}
                 {| w_procs := upd ps j (k m); w_chan := upd ch (chan_of i j) q |}.

    (** a waiting MPI_Send and a waiting MPI_Recv meet *)
    Inductive step_syn : W -> W -> Prop :=
    | StepSyn i j m k k' ps ch : i < n -> j < n ->
        nth_error ps i = Some (Snd A j m k) -> nth_error ps j = Some (Rcv A i k') ->
        nth_error ch (chan_of i j) = Some [] ->
        step_syn {| w_procs := ps; w_chan := ch |}
                 {| w_procs := upd (upd ps i k) j (k' m); w_chan := ch |}.

    (** steps that MPI has to make possible whatever its buffers are *)
    Definition step_sure (s s' : W) : Prop := step_rcv s s' \/ step_syn s s'.
    Definition step (s s' : W) : Prop := step_buf s s' \/ step_rcv s s' \/ step_syn s s'.

    Inductive steps (R : W -> W -> Prop) : W -> W -> Prop :=
    | steps_refl s : steps R s s
    | steps_next s s' s'' : R s s' -> steps R s' s'' -> steps R s s''.

    (** start: nothing is sent *)
    Definition start (ps : list P) : W := {| w_procs := ps; w_chan := repeat [] (n * n) |}.
  End Semantics.
End Programs.

Arguments Ret {M A} a.
Arguments Snd {M A} dst m k.
Arguments Rcv {M A} src k.
Arguments Crash {M A}.
Arguments pbind {M A B} p f.
Arguments w_procs {M A} w.
Arguments w_chan {M A} w.
Arguments step {M A} n s s'.
Arguments step_buf {M A} n.
Arguments step_rcv {M A} n.
Arguments step_syn {M A} n.
Arguments step_sure {M A} n s s'.
Arguments steps {M A} R.
Arguments start {M A} n ps.
