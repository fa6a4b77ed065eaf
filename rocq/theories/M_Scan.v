(** * Scans and all-to-all by the collectives of MPI

    /repo/src/wrappers/mpi/communication.hpp.  The functions contain only collective calls, so they are modelled for all ranks at once: the
    lists are indexed by ranks.  The collectives are taken by their contract. *)
From Coq Require Import ZArith List Bool.
From Verif Require Import Base M_Utils M_Distribute M_Exchange.
Import ListNotations.
Local Open Scope Z_scope.
Local Open Scope out_scope.

(** MPI_Exscan(MPI_SUM): rank i > 0 gets the sum of the values of lower ranks; the receive buffer of rank 0 is undefined: [u] *)
Fixpoint mpi_sums (ty : ity) (acc : Z) (vals : list Z) : outcome (list Z) :=
  match vals with
  | [] => Ok []
  | x :: vals' =>
    match vals' with
    | [] => Ok [acc]
    | _ => acc' <- fit ty (acc + x) ;; r <- mpi_sums ty acc' vals' ;; Ok (acc :: r)
    end
  end.
Definition mpi_exscan (ty : ity) (u : Z) (vals : list Z) : outcome (list Z) :=
  match vals with
  | [] => Ok []
  | v :: vals => r <- mpi_sums ty v vals ;; Ok (u :: r)
  end.

(** the statement [size = value + size] of each rank (hpp:1009) *)
Definition add_rank (ty : ity) (x : Z * Z) : outcome Z := fit ty (fst x + snd x).

(** hpp:990-1018 for a native type.  For each rank: the final [value] and the result.  The type without a native MPI type is left
    out (hpp:1003 is a TODO). *)
Definition exscan (ty : ity) (u : Z) (vals : list Z) : outcome (list (Z * Z)) :=
  match vals with
  | [v] => Ok [(0, v)]
  | _ =>
    value <- mpi_exscan ty u vals ;;
    sizes <- map_out (add_rank ty) (combine value vals) ;;
    let size := last sizes 0 in
    Ok (match value with [] => [] | _ :: value => (0, size) :: map (fun x => (x, size)) value end)
  end.

(** hpp:1020-1050: the same for every position of the vectors of the ranks, which have the length [m].
    For each rank: offset and sum. *)
Definition exscan_vec (ty : ity) (m : nat) (u : list Z) (offsets : list (list Z)) : outcome (list (list Z * list Z)) :=
  cols <- map_out (fun c => exscan ty (nth c u 0) (map (fun o => nth c o 0) offsets)) (seq 0 m) ;;
  Ok (map (fun r => (map (fun col => fst (nth r col (0, 0))) cols, map (fun col => snd (nth r col (0, 0))) cols)) (seq 0 (length offsets))).

(** hpp:1052-1067; the result is the same vector on all ranks *)
Definition get_distribution (ty : ity) (u : Z) (sizes : list Z) : outcome (list Z) :=
  esize <- exscan ty u sizes ;;
  backs <- map_out (add_rank ty) (combine (map fst esize) sizes) ;;
  Ok (map fst esize ++ [last backs 0]).

(** ** allToAllV (hpp:966-988) for types with [mpisize = 1]; the [int] arithmetic is not bounded *)
(** hpp:981-984 *)
Fixpoint displacements (sizes : list nat) (disp : nat) : list nat :=
  match sizes with [] => [] | s :: sizes => disp :: displacements sizes (disp + s) end.

(** MPI_Alltoallv, what rank [r] gets from rank [i]: the sizes have to match *)
Definition a2av_from {T} (sb : nat -> list T) (ssize rsize : nat -> list nat) (r : nat) (rb : list T) (i : nat) : outcome (list T) :=
  s <- rd (ssize i) r ;; sd <- rd (displacements (ssize i) 0) r ;;
  t <- rd (rsize r) i ;; td <- rd (displacements (rsize r) 0) i ;;
  if (s =? t)%nat then m <- load_at s sd (sb i) ;; store_at t td rb m else UB.
Definition all_to_all_v {T} (limit n : nat) (sb rb : nat -> list T) (ssize rsize : nat -> list nat) (r : nat) : outcome (option (list T)) :=
  if existsb (fun i => limit <? length (sb i))%nat (seq 0 n) then
    if forallb (fun i => limit <? length (sb i))%nat (seq 0 n) then Ok None else UB (* some ranks return, the others wait for ever *)
  else
    x <- foldM (a2av_from sb ssize rsize r) (seq 0 n) (rb r) ;; Ok (Some x).
