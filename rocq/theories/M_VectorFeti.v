(** * Model of vectors torn to domains

    analysis/math/vector_feti.h, analysis/math/vector_distributed.h, analysis/pattern/matrix.uniform.feti.cpp (Apply)

    A FETI vector of a rank has one dense vector for each domain of the rank; [dmap] (C101) lists for each DOF of the rank its copies in domains.
    The functions below are those of one rank; [mapM] over ranks and [synchronize] (C104) give the collective ones.

    Simplifications: esint is unbounded; the values are of an arbitrary type [T] with the operations used ([div x n] divides by an integer).  Loops over
    domains in parallel are sequential: an iteration accesses its own domain only.  The product of the matrix of a domain and a vector is the function [mv]
    (the contract of SpBLAS::apply with beta = 0: it overwrites the output). *)
From Coq Require Import List Arith Bool.
From Verif Require Import Base M_Assembly M_Distributed.
Import ListNotations.
Local Open Scope out_scope.

(** decomposition.feti.h:9-32: the domains of this rank and dmap *)
Record feti := { f_begin : nat; f_end : nat; f_rows : list (list dindex) }.
Definition mine (f : feti) (di : dindex) : bool := is_my (f_begin f) (f_end f) (fst di).

Section Vectors.
  Context {T : Type} (zero : T) (add mul : T -> T -> T) (div : T -> nat -> T).

  (** domains\[di->domain - decomposition->dbegin\].vals\[di->index\]; the index of a copy on another rank is -1 *)
  Definition get_copy (f : feti) (doms : list (list T)) (di : dindex) : outcome T :=
    match snd di with None => UB | Some i => dom <- rd doms (fst di - f_begin f) ;; rd dom i end.
  Definition set_copy (f : feti) (doms : list (list T)) (di : dindex) (x : T) : outcome (list (list T)) :=
    match snd di with None => UB | Some i => dom <- rd doms (fst di - f_begin f) ;; dom <- wr dom i x ;; wr doms (fst di - f_begin f) dom end.

  (** the loop over own copies *)
  Definition set_copies (f : feti) (x : outcome T) (row : list dindex) (doms : list (list T)) : outcome (list (list T)) :=
    foldM (fun doms di => if mine f di then x <- x ;; set_copy f doms di x else Ok doms) row doms.
  (** the loop with break: the first own copy *)
  Fixpoint first_copy (f : feti) (doms : list (list T)) (row : list dindex) : outcome (option T) :=
    match row with [] => Ok None | di :: row => if mine f di then x <- get_copy f doms di ;; Ok (Some x) else first_copy f doms row end.

  (** vector_distributed.h:151-161: copyTo a FETI vector; the variable index counts the rows *)
  Definition copy_to_domains (f : feti) (cluster : list T) (doms : list (list T)) : outcome (list (list T)) :=
    foldM (fun doms x => set_copies f (rd cluster (fst x)) (snd x) doms) (combine (seq 0 (length (f_rows f))) (f_rows f)) doms.
  (** vector_distributed.h:168-178: spliteTo *)
  Definition split_to_domains (f : feti) (cluster : list T) (doms : list (list T)) : outcome (list (list T)) :=
    foldM (fun doms x => set_copies f (c <- rd cluster (fst x) ;; Ok (div c (length (snd x)))) (snd x) doms) (combine (seq 0 (length (f_rows f))) (f_rows f)) doms.
  (** vector_feti.h:70-80: setFrom *)
  Definition set_from (f : feti) (output : list T) (doms : list (list T)) : outcome (list (list T)) :=
    foldM (fun doms i => row <- rd (f_rows f) i ;; set_copies f (rd output i) row doms) (seq 0 (length output)) doms.

  (** vector_feti.h:160-171: copyTo a distributed vector *)
  Definition copy_from_domains (f : feti) (doms : list (list T)) (cluster : list T) : outcome (list T) :=
    foldM (fun cluster x => c <- first_copy f doms (snd x) ;; match c with Some v => wr cluster (fst x) v | None => Ok cluster end)
          (combine (seq 0 (length (f_rows f))) (f_rows f)) cluster.
  (** vector_feti.h:57-68: storeTo *)
  Definition store_to (f : feti) (doms : list (list T)) (output : list T) : outcome (list T) :=
    foldM (fun output i => row <- rd (f_rows f) i ;; c <- first_copy f doms row ;; match c with Some v => wr output i v | None => Ok output end) (seq 0 (length output)) output.
  (** vector_feti.h:241-252: addTo a distributed vector *)
  Definition add_to (f : feti) (alpha : T) (doms : list (list T)) (cluster : list T) : outcome (list T) :=
    foldM (fun cluster i => row <- rd (f_rows f) i ;; c <- first_copy f doms row ;;
        match c with Some v => o <- rd cluster i ;; wr cluster i (add o (mul alpha v)) | None => Ok cluster end) (seq 0 (length cluster)) cluster.

  (** vector_feti.h:199-207: the part of sumTo before the synchronization *)
  Definition sum_local (f : feti) (doms : list (list T)) (cluster : list T) : outcome (list T) :=
    foldM (fun cluster x => foldM (fun cluster di => if mine f di then v <- get_copy f doms di ;; o <- rd cluster (fst x) ;; wr cluster (fst x) (add o v) else Ok cluster) (snd x) cluster)
          (combine (seq 0 (length (f_rows f))) (f_rows f)) (map (fun _ => zero) cluster).
  (** vector_feti.h:197-209: sumTo on all ranks *)
  Definition sum_to (fs : list feti) (doms : list (list (list T))) (st : dvectors (T := T)) : outcome dvectors :=
    vs <- mapM (fun x : feti * (list (list T) * list T) => sum_local (fst x) (fst (snd x)) (snd (snd x))) (combine fs (combine doms (snd st))) ;;
    synchronize add (fst st, vs).
  (** vector_feti.h:191-194 *)
  Definition divide_local (f : feti) (cluster : list T) : outcome (list T) :=
    foldM (fun cluster x => v <- rd cluster (fst x) ;; wr cluster (fst x) (div v (length (snd x)))) (combine (seq 0 (length (f_rows f))) (f_rows f)) cluster.
  (** vector_feti.h:188-195: averageTo on all ranks *)
  Definition average_to (fs : list feti) (doms : list (list (list T))) (st : dvectors (T := T)) : outcome dvectors :=
    '(ys, vs) <- sum_to fs doms st ;;
    vs <- mapM (fun x : feti * list T => divide_local (fst x) (snd x)) (combine fs vs) ;; Ok (ys, vs).

  (** vector_feti.h:123-133: _dot of one rank *)
  Definition local_dot (f : feti) (doms : list (list T)) : outcome T :=
    foldM (fun dot row => di <- rd row 0 ;; if mine f di then v <- get_copy f doms di ;; Ok (add dot (mul v v)) else Ok dot) (f_rows f) zero.

  (** ** MatrixUniformFETI::Apply *)

  Context {M : Type} (mv : M -> T -> list T -> list T).
  (** matrix.uniform.feti.h:26-32 *)
  Record apply_data := { a_in : list (list T); a_out : list (list T); a_direct : list T }.
  (** matrix.uniform.feti.cpp:339-352; [sizes]: decomposition.dsize, [size]: halo.size() + end - begin *)
  Definition apply_init (sizes : list nat) (size : nat) : apply_data :=
    {| a_in := map (repeat zero) sizes; a_out := map (repeat zero) sizes; a_direct := repeat zero size |}.
  (** math::copy(x, y): x.size values *)
  Definition blas_copy (x y : list T) : outcome (list T) := if length y <? length x then UB else Ok (firstn (length x) y).
  (** math::add(x, alpha, y): x.size values *)
  Definition blas_add (x : list T) (alpha : T) (y : list T) : outcome (list T) :=
    if length y <? length x then UB else Ok (map (fun z : T * T => add (fst z) (mul alpha (snd z))) (combine x y)).
  (** matrix.uniform.feti.cpp:357-364; [ms]: the matrices of domains *)
  Definition apply_local (f : feti) (ms : list M) (alpha : T) (x y : list T) (a : apply_data) : outcome apply_data :=
    inp <- copy_to_domains f x (a_in a) ;;
    direct <- blas_copy (a_direct a) y ;;
    out <- mapM (fun i => m <- rd ms i ;; v <- rd inp i ;; o <- rd (a_out a) i ;; let o' := mv m alpha v in if length o' =? length o then Ok o' else UB) (seq 0 (length (a_out a))) ;;
    Ok {| a_in := inp; a_out := out; a_direct := direct |}.
  (** matrix.uniform.feti.cpp:354-368: apply on all ranks; [xs], [ys]: the vectors x and y *)
  Definition apply (fs : list feti) (mss : list (list M)) (alpha beta : T) (xs : list (list T)) (sync : list (sync_data T)) (ys : list (list T)) (data : list apply_data)
    : outcome (list (sync_data T) * list (list T) * list apply_data) :=
    data <- mapM (fun x : (feti * list M) * ((list T * list T) * apply_data) =>
               apply_local (fst (fst x)) (snd (fst x)) alpha (fst (fst (snd x))) (snd (fst (snd x))) (snd (snd x))) (combine (combine fs mss) (combine (combine xs ys) data)) ;;
    '(sync, ys) <- sum_to fs (map a_out data) (sync, ys) ;;
    ys <- mapM (fun x : list T * apply_data => blas_add (fst x) beta (a_direct (snd x))) (combine ys data) ;;
    Ok (sync, ys, data).
End Vectors.
Arguments apply_data : clear implicits.
