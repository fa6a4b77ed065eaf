(** * Model of the synchronization of matrices distributed among processes

    analysis/pattern/matrix.uniform.direct.cpp:263-326: MatrixUniformDirect::Sync, analysis/math/matrix_distributed.h:21-24

    As in M_Distributed a step is modelled for all ranks together.  The data of Sync are those of the synchronization of vectors ([sync_data]):
    matrix.uniform.direct.h:19-22.  Sync::scatterToUpper is not called and not modelled.  Simplifications: those of M_Distributed; the values are of a type [T]
    of the size of double (matrix.uniform.direct.cpp:314 copies sizeof(double) bytes per value). *)
From Coq Require Import List Arith Bool.
From Verif Require Import Base M_Indexing M_Assembly M_Distributed M_DistMatrix.
Import ListNotations.
Local Open Scope out_scope.

(** matrix.uniform.direct.cpp:285-287, the columns \[b, e) with one-based b, e if Indexing::CSR is 1 *)
Definition columns_of (p : dpattern) (b e : nat) : outcome (list nat) :=
  if (b <? Indexing_CSR) || (e <? b) || (length (dp_column p) <? e - Indexing_CSR) then UB else Ok (slice (b - Indexing_CSR) (e - Indexing_CSR) (dp_column p)).
(** matrix.uniform.direct.cpp:281-289; the state is (r, sbuffer\[n\], size) *)
Fixpoint take_rows (fuel : nat) (halo : list nat) (p : dpattern) (bound r : nat) (buf : list nat) (size : nat) : outcome (nat * list nat * nat) :=
  if length halo <=? r then Ok (r, buf, size)
  else
    h <- rd halo r ;;
    if h <? bound then
      match fuel with
      | 0 => Fail
      | S fuel => b <- rd (dp_row p) r ;; e <- rd (dp_row p) (r + 1) ;; cols <- columns_of p b e ;; take_rows fuel halo p bound (r + 1) (buf ++ h :: (e - b) :: cols) (size + (e - b))
      end
    else Ok (r, buf, size).

(** matrix.uniform.direct.cpp:302: while ( *c != rbuffer\[n\]\[i\]) { ++c; } *)
Fixpoint find_column (fuel : nat) (column : list nat) (x c : nat) : outcome nat :=
  y <- rd column c ;; if y =? x then Ok c else match fuel with 0 => Fail | S fuel => find_column fuel column x (c + 1) end.
(** matrix.uniform.direct.cpp:301-304; the state is (c, rOffset\[n\]) *)
Definition find_next (p : dpattern) (buf : list nat) (i : nat) (st : nat * list nat) (cc : nat) : outcome (nat * list nat) :=
  x <- rd buf (i + cc) ;; c <- find_column (length (dp_column p)) (dp_column p) x (fst st) ;; Ok (c, snd st ++ [c]).
(** matrix.uniform.direct.cpp:298-305 *)
Fixpoint read_rows (fuel : nat) (d : decomposition) (p : dpattern) (buf : list nat) (i : nat) (off : list nat) : outcome (list nat) :=
  if length buf <=? i then Ok off
  else
    match fuel with
    | 0 => Fail
    | S fuel =>
        g <- rd buf i ;;
        if g <? d_begin d then UB
        else
          b <- rd (dp_row p) (g - d_begin d + length (d_halo d)) ;; columns <- rd buf (i + 1) ;;
          if b <? Indexing_CSR then UB
          else '(_, off) <- foldM (find_next p buf (i + 2)) (seq 0 columns) (b - Indexing_CSR, off) ;; read_rows fuel d p buf (i + 2 + columns) off
    end.

Section Sync.
  Context {T : Type} (zero : T) (add : T -> T -> T).

  (** matrix.uniform.direct.cpp:278-291; the state is (r, nOffset, sbuffer, sBuffer) *)
  Definition minit_neighbor (d : decomposition) (p : dpattern) (st : nat * list nat * list (list nat) * list (list T)) (n : nat) : outcome (nat * list nat * list (list nat) * list (list T)) :=
    let '(r, nOffset, sbuffer, sBuffer) := st in
    o <- rd (dp_row p) r ;;
    if o <? Indexing_CSR then UB
    else
      bound <- rd (d_neighDOF d) (n + 1) ;;
      buf <- rd sbuffer n ;;
      '(r', buf, size) <- take_rows (length (d_halo d)) (d_halo d) p bound r buf 0 ;;
      sbuffer <- wr sbuffer n buf ;;
      sBuffer <- wr sBuffer n (repeat zero size) ;;
      Ok (r', nOffset ++ [o - Indexing_CSR], sbuffer, sBuffer).
  Definition minit_send (rank : nat) (d : decomposition) (p : dpattern) : outcome (list nat * list (list nat) * list (list T)) :=
    let nb := d_neighbors d in
    '(_, nOffset, sbuffer, sBuffer) <- foldM (minit_neighbor d p) (seq 0 (leading rank nb)) (0, [], repeat [] (length nb), repeat [] (length nb)) ;;
    Ok (nOffset, sbuffer, sBuffer).
  (** matrix.uniform.direct.cpp:297-307 *)
  Definition minit_recv (d : decomposition) (p : dpattern) (rbuffer : list (list nat)) : outcome (list (list nat)) :=
    mapM (fun buf => read_rows (length buf) d p buf 0 []) rbuffer.
  (** matrix.uniform.direct.cpp:263-308: Sync::init *)
  Definition minit (ds : list decomposition) (ps : list dpattern) : outcome (list (sync_data T)) :=
    if length ds =? 1 then Ok (map (fun _ => no_data) ds)
    else
      let nb := map d_neighbors ds in
      s <- mapM (fun x : nat * (decomposition * dpattern) => minit_send (fst x) (fst (snd x)) (snd (snd x))) (combine (seq 0 (length ds)) (combine ds ps)) ;;
      rbuffer <- receive_upper nb (map (fun x => snd (fst x)) s) (map (fun ns => repeat [] (length ns)) nb) ;;
      rOffset <- mapM (fun x : decomposition * (dpattern * list (list nat)) => minit_recv (fst x) (fst (snd x)) (snd (snd x))) (combine ds (combine ps rbuffer)) ;;
      Ok (map (fun x : decomposition * ((list nat * list (list nat) * list (list T)) * list (list nat)) =>
            {| y_neighbors := d_neighbors (fst x); y_nOffset := fst (fst (fst (snd x))); y_rOffset := snd (snd x);
               y_sBuffer := snd (fst (snd x)); y_rBuffer := map (fun off => repeat zero (length off)) (snd (snd x)) |}) (combine ds (combine s rOffset))).

  (** matrix.uniform.direct.cpp:310-326: Sync::gatherFromUpper, the code of the synchronization of vectors; [st]: the data and the values of every rank *)
  Definition gather_matrix (st : dvectors (T := T)) : outcome dvectors := gather_from_upper add st.
  (** matrices synchronized one after another *)
  Definition gather_matrices (Ms : list (list (list T))) (ys : list (sync_data T)) : outcome (list (sync_data T)) :=
    foldM (fun ys vs => '(ys, _) <- gather_matrix (ys, vs) ;; Ok ys) Ms ys.
End Sync.

(** ** Assembly

    MatrixUniformDirect::set and ::map (matrix.uniform.direct.h:50-87): the matrix is always full (line 58); the positions of an interval are elements.permutation from elements.offset.
    DataFiller::activate (filler.cpp:8-20) takes data, positions and the shape to the kernel of M_Assembly (C103).  The values are set to zero before. *)
Section Assembly.
  Context {T : Type} (zero : T) (add : T -> T -> T).
  Definition filled_pattern (p : dpattern) : pattern :=
    {| p_size := length (dp_row p) - 1; p_row := dp_row p; p_column := dp_column p; p_permutation := dp_permutation p; p_offset := dp_offset p |}.
  (** one rank; [isize i]: nodes times dofs of the elements of the interval [i]; [matrices i]: their matrices *)
  Definition assemble_rank (width : nat) (p : dpattern) (isize : nat -> nat) (matrices : nat -> list (list T)) : outcome (list T) :=
    fill_domain add true width (filled_pattern p) isize matrices (repeat zero (length (dp_column p))).
  Definition assemble_ranks (width : nat) (ps : list dpattern) (isize : nat -> nat -> nat) (matrices : nat -> nat -> list (list T)) : outcome (list (list T)) :=
    mapM (fun x : nat * dpattern => assemble_rank width (snd x) (isize (fst x)) (matrices (fst x))) (combine (seq 0 (length ps)) ps).
End Assembly.
