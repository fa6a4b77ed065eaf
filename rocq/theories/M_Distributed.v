(** * Model of vectors distributed among processes and of their synchronization

    analysis/pattern/decomposition.direct.cpp, analysis/pattern/vector.uniform.dense.cpp and .h, analysis/pattern/synchronization.h,
    analysis/math/vector_distributed.h

    All processes run the same sequence of collective calls; a step is modelled for all ranks together: [mapM] over the ranks for the code between two
    calls of Communication, one definition for the call itself.  The calls deliver what C71 and C72 state: [receive_upper], [receive_lower] and
    [gather_neighbors] below are their results.

    Simplifications: esint is unbounded, an index below the beginning is undefined behaviour.  The limit of Communication on the size of a message is
    left out (C71).  A value is of an arbitrary type [T] with an addition (the code is instantiated for double only). *)
From Coq Require Import List Arith Bool.
From Verif Require Import Base.
Import ListNotations.
Local Open Scope out_scope.

Fixpoint mapM {A B} (f : A -> outcome B) (l : list A) : outcome (list B) :=
  match l with [] => Ok [] | a :: l => b <- f a ;; bs <- mapM f l ;; Ok (b :: bs) end.

(** ** Communication *)

(** the position of [x] in the list of neighbours *)
Fixpoint find_rank (x : nat) (l : list nat) : nat := match l with [] => 0 | y :: l => if x =? y then 0 else S (find_rank x l) end.
(** the data of rank [j] for rank [i] *)
Definition sent {A} (nb : list (list nat)) (sb : list (list A)) (j i : nat) : outcome A :=
  ns <- rd nb j ;; row <- rd sb j ;; rd row (find_rank i ns).
(** communication.hpp:498-551: receiveUpperUnknownSize *)
Definition receive_upper {A} (nb : list (list nat)) (sb rb : list (list A)) : outcome (list (list A)) :=
  mapM (fun x : nat * (list nat * list A) =>
    mapM (fun y : nat * A => if fst x <? fst y then sent nb sb (fst y) (fst x) else Ok (snd y)) (combine (fst (snd x)) (snd (snd x))))
    (combine (seq 0 (length nb)) (combine nb rb)).
(** communication.hpp:319-367: receiveLowerKnownSize; the sizes have to agree *)
Definition receive_lower {A} (nb : list (list nat)) (sb rb : list (list (list A))) : outcome (list (list (list A))) :=
  mapM (fun x : nat * (list nat * list (list A)) =>
    mapM (fun y : nat * list A => if fst y <? fst x then d <- sent nb sb (fst y) (fst x) ;; if length d =? length (snd y) then Ok d else UB else Ok (snd y))
      (combine (fst (snd x)) (snd (snd x))))
    (combine (seq 0 (length nb)) (combine nb rb)).
(** communication.hpp:553-585: gatherUniformNeighbors of one number; the rest of the receive buffer stays *)
Definition gather_neighbors {A} (nb : list (list nat)) (sb : list A) (rb : list (list A)) : outcome (list (list A)) :=
  mapM (fun x : list nat * list A => l <- mapM (rd sb) (fst x) ;; if length (snd x) <? length l then UB else Ok (l ++ skipn (length l) (snd x))) (combine nb rb).

(** ** DecompositionDirect *)

(** decomposition.direct.h:9-14 *)
Record decomposition := { d_begin : nat; d_end : nat; d_halo : list nat; d_neighDOF : list nat; d_neighbors : list nat }.

(** what NodeStore::uniqInfo stores: the number of nodes of lower processes, their positions, the number of the first own node and the number of own nodes *)
Record uniq_info := { u_nhalo : nat; u_position : list nat; u_offset : nat; u_size : nat }.

(** matrix.uniform.feti.cpp:117-121 = matrix.uniform.direct.cpp:245-249 *)
Definition fill_halo (dofs : nat) (u : uniq_info) : outcome (list nat) :=
  foldM (fun halo n => foldM (fun halo dof => p <- rd (u_position u) n ;; Ok (halo ++ [dofs * p + dof])) (seq 0 dofs) halo) (seq 0 (u_nhalo u)) [].
(** decomposition.direct.cpp:9-17 *)
Definition update_neighDOF (nb : list (list nat)) (begins : list nat) : outcome (list (list nat)) :=
  gather_neighbors nb begins (map (fun x : list nat * nat => repeat (snd x) (length (fst x) + 1)) (combine nb begins)).
(** matrix.uniform.feti.cpp:112-122 = matrix.uniform.direct.cpp:240-250 *)
Definition decompose (dofs : nat) (nb : list (list nat)) (us : list uniq_info) : outcome (list decomposition) :=
  halos <- mapM (fill_halo dofs) us ;;
  dof <- update_neighDOF nb (map (fun u => dofs * u_offset u) us) ;;
  Ok (map (fun x : uniq_info * (list nat * (list nat * list nat)) =>
        {| d_begin := dofs * u_offset (fst x); d_end := dofs * (u_offset (fst x) + u_size (fst x)); d_halo := fst (snd x);
           d_neighDOF := fst (snd (snd x)); d_neighbors := snd (snd (snd x)) |}) (combine us (combine halos (combine dof nb)))).

Section Sync.
  Context {T : Type} (zero : T) (add : T -> T -> T).

  (** vector.uniform.dense.h:15-19 *)
  Record sync_data := { y_neighbors : list nat; y_nOffset : list nat; y_rOffset : list (list nat); y_sBuffer : list (list T); y_rBuffer : list (list T) }.
  Definition no_data : sync_data := {| y_neighbors := []; y_nOffset := []; y_rOffset := []; y_sBuffer := []; y_rBuffer := [] |}.

  (** for (n = 0; n < neighbors.size() && neighbors\[n\] < rank; ++n): the number of steps *)
  Fixpoint leading (rank : nat) (nb : list nat) : nat := match nb with j :: nb => if j <? rank then S (leading rank nb) else 0 | [] => 0 end.

  (** vector.uniform.dense.cpp:90-92; the state is (r, sbuffer\[n\]) *)
  Fixpoint take_halo (fuel : nat) (halo : list nat) (bound r : nat) (buf : list nat) : outcome (nat * list nat) :=
    if length halo <=? r then Ok (r, buf)
    else
      h <- rd halo r ;;
      if h <? bound then match fuel with 0 => Fail | S fuel => take_halo fuel halo bound (r + 1) (buf ++ [h]) end
      else Ok (r, buf).
  (** vector.uniform.dense.cpp:88-94; the state is (r, nOffset, sbuffer, sBuffer) *)
  Definition init_neighbor (d : decomposition) (st : nat * list nat * list (list nat) * list (list T)) (n : nat) : outcome (nat * list nat * list (list nat) * list (list T)) :=
    let '(r, nOffset, sbuffer, sBuffer) := st in
    bound <- rd (d_neighDOF d) (n + 1) ;;
    buf <- rd sbuffer n ;;
    '(r', buf) <- take_halo (length (d_halo d)) (d_halo d) bound r buf ;;
    sbuffer <- wr sbuffer n buf ;;
    sBuffer <- wr sBuffer n (repeat zero (r' - r)) ;;
    Ok (r', nOffset ++ [r], sbuffer, sBuffer).
  Definition init_send (rank : nat) (d : decomposition) : outcome (list nat * list (list nat) * list (list T)) :=
    let nb := d_neighbors d in
    '(_, nOffset, sbuffer, sBuffer) <- foldM (init_neighbor d) (seq 0 (leading rank nb)) (0, [], repeat [] (length nb), repeat [] (length nb)) ;;
    Ok (nOffset, sbuffer, sBuffer).
  (** vector.uniform.dense.cpp:100-105 *)
  Definition init_recv (d : decomposition) (rbuffer : list (list nat)) : outcome (list (list nat)) :=
    mapM (fun buf => foldM (fun off g => if g <? d_begin d then UB else Ok (off ++ [g - d_begin d + length (d_halo d)])) buf []) rbuffer.
  (** vector.uniform.dense.cpp:75-106: SyncData::init *)
  Definition init (ds : list decomposition) : outcome (list sync_data) :=
    if length ds =? 1 then Ok (map (fun _ => no_data) ds)
    else
      let nb := map d_neighbors ds in
      s <- mapM (fun x : nat * decomposition => init_send (fst x) (snd x)) (combine (seq 0 (length ds)) ds) ;;
      rbuffer <- receive_upper nb (map (fun x => snd (fst x)) s) (map (fun ns => repeat [] (length ns)) nb) ;;
      rOffset <- mapM (fun x : decomposition * list (list nat) => init_recv (fst x) (snd x)) (combine ds rbuffer) ;;
      Ok (map (fun x : decomposition * ((list nat * list (list nat) * list (list T)) * list (list nat)) =>
            {| y_neighbors := d_neighbors (fst x); y_nOffset := fst (fst (fst (snd x))); y_rOffset := snd (snd x);
               y_sBuffer := snd (fst (snd x)); y_rBuffer := map (fun off => repeat zero (length off)) (snd (snd x)) |}) (combine ds (combine s rOffset))).

  (** memcpy between a buffer and a part of the vector *)
  Definition load (vals : list T) (offset size : nat) : outcome (list T) :=
    if length vals <? offset + size then UB else Ok (slice offset (offset + size) vals).
  Definition store (vals : list T) (offset : nat) (buf : list T) : outcome (list T) :=
    if length vals <? offset + length buf then UB else Ok (put offset (offset + length buf) vals buf).

  (** vector.uniform.dense.cpp:111-113 *)
  Definition pack_lower (rank : nat) (y : sync_data) (vals : list T) : outcome (list (list T)) :=
    foldM (fun sb n => buf <- rd sb n ;; o <- rd (y_nOffset y) n ;; x <- load vals o (length buf) ;; wr sb n x) (seq 0 (leading rank (y_neighbors y))) (y_sBuffer y).
  (** vector.uniform.dense.cpp:119-123 *)
  Definition unpack_upper (y : sync_data) (rb : list (list T)) (vals : list T) : outcome (list T) :=
    foldM (fun vals n => off <- rd (y_rOffset y) n ;; buf <- rd rb n ;;
        foldM (fun vals i => p <- rd off i ;; b <- rd buf i ;; v <- rd vals p ;; wr vals p (add v b)) (seq 0 (length off)) vals)
      (seq 0 (length (y_neighbors y))) vals.
  (** vector.uniform.dense.cpp:129-133 *)
  Definition pack_upper (y : sync_data) (vals : list T) : outcome (list (list T)) :=
    foldM (fun rb n => off <- rd (y_rOffset y) n ;; buf <- rd rb n ;;
        buf <- foldM (fun buf i => p <- rd off i ;; v <- rd vals p ;; wr buf i v) (seq 0 (length off)) buf ;; wr rb n buf)
      (seq 0 (length (y_neighbors y))) (y_rBuffer y).
  (** vector.uniform.dense.cpp:139-141 *)
  Definition unpack_lower (rank : nat) (y : sync_data) (sb : list (list T)) (vals : list T) : outcome (list T) :=
    foldM (fun vals n => buf <- rd sb n ;; o <- rd (y_nOffset y) n ;; store vals o buf) (seq 0 (leading rank (y_neighbors y))) vals.

  Definition with_buffers (y : sync_data) (sb rb : list (list T)) : sync_data :=
    {| y_neighbors := y_neighbors y; y_nOffset := y_nOffset y; y_rOffset := y_rOffset y; y_sBuffer := sb; y_rBuffer := rb |}.

  (** the data of the synchronization and the vector of every rank *)
  Definition dvectors := (list sync_data * list (list T))%type.

  (** vector.uniform.dense.cpp:109-124: SyncVector::gatherFromUpper *)
  Definition gather_from_upper (st : dvectors) : outcome dvectors :=
    let '(ys, vs) := st in
    sb <- mapM (fun x : nat * (sync_data * list T) => pack_lower (fst x) (fst (snd x)) (snd (snd x))) (combine (seq 0 (length ys)) (combine ys vs)) ;;
    rb <- receive_upper (map y_neighbors ys) sb (map y_rBuffer ys) ;;
    vs <- mapM (fun x : sync_data * (list (list T) * list T) => unpack_upper (fst x) (fst (snd x)) (snd (snd x))) (combine ys (combine rb vs)) ;;
    Ok (map (fun x : sync_data * (list (list T) * list (list T)) => with_buffers (fst x) (fst (snd x)) (snd (snd x))) (combine ys (combine sb rb)), vs).
  (** vector.uniform.dense.cpp:127-142: SyncVector::scatterToUpper *)
  Definition scatter_to_upper (st : dvectors) : outcome dvectors :=
    let '(ys, vs) := st in
    rb <- mapM (fun x : sync_data * list T => pack_upper (fst x) (snd x)) (combine ys vs) ;;
    sb <- receive_lower (map y_neighbors ys) rb (map y_sBuffer ys) ;;
    vs <- mapM (fun x : nat * (sync_data * (list (list T) * list T)) => unpack_lower (fst x) (fst (snd x)) (fst (snd (snd x))) (snd (snd (snd x))))
               (combine (seq 0 (length ys)) (combine ys (combine sb vs))) ;;
    Ok (map (fun x : sync_data * (list (list T) * list (list T)) => with_buffers (fst x) (fst (snd x)) (snd (snd x))) (combine ys (combine sb rb)), vs).
  (** synchronization.h:14-18 *)
  Definition synchronize (st : dvectors) : outcome dvectors := st <- gather_from_upper st ;; scatter_to_upper st.

  (** vector.uniform.dense.cpp:144-177: SyncMatrix; the code is that of SyncVector, the values are those of a matrix with a row for every right-hand side *)
  Definition synchronize_matrix (st : dvectors) : outcome dvectors := synchronize st.

  (** a history of calls for vectors of this pattern: synchronize, scatter (vector_distributed.h:22-30) or the gather part alone *)
  Inductive sync_call := Synchronize | Scatter | Gather.
  Definition run_call (c : sync_call) : dvectors -> outcome dvectors :=
    match c with Synchronize => synchronize | Scatter => scatter_to_upper | Gather => gather_from_upper end.
  Definition run_calls (calls : list (sync_call * list (list T))) (ys : list sync_data) : outcome (list sync_data) :=
    foldM (fun ys x => '(ys, _) <- run_call (fst x) (ys, snd x) ;; Ok ys) calls ys.
End Sync.
Arguments sync_data : clear implicits.
