(** * The operators of the dual problem: implicit and explicit

    /repo/src/feti/dualoperator/totalfeti.{implicit,explicit}.cpp and /repo/src/feti/common/applyB.h.

    Simplifications: the numbers are an arbitrary type with arbitrary operations; sizes are natural numbers; the CSR matrix B1 of a domain and
    [D2C] are lists of rows (multiplier, (column, value)s); parallel loops over the domains are sequential (they write different domains);
    [solve]: DirectSparseSolver of a domain (K + RegMat), an external library; it fills its output, whose old content is not modelled;
    [blas::apply] (gemv) adds from the left; times and prints are omitted.  [_apply] for [perLambda = true] (never used) is not modelled. *)
From Coq Require Import List Arith Bool.
From Verif Require Import Base M_Equality.
Import ListNotations.
Local Open Scope out_scope.

Section TotalFeti.
  Context {T : Type}.
  Variables (zero one : T) (add mul : T -> T -> T) (opp : T -> T).
  Local Notation vec := (list T).
  Local Notation rows := (list (nat * list (nat * T))).

  (** the used part of [feti] on a rank: B1 with D2C, the numbers of rows of K, lambdas.size *)
  Record feti := { B1 : list rows; Kn : list nat; lambdas : nat }.
  Variable F : feti.
  Variable solve : nat -> vec -> vec.

  (** applyB.h:13-22; [n]: the size of the output *)
  Definition apply_Bt (d n : nat) (lambda : vec) (alpha : T) : outcome vec :=
    b <- rd (B1 F) d ;;
    foldM (fun out row => foldM (fun out e => bt_row add mul alpha lambda out (fst row, e)) (snd row) out) b (repeat zero n).

  (** applyB.h:35-57; [ds]: all domains or the filter *)
  Definition apply_B (ds : list nat) (in_ : list vec) : outcome vec :=
    foldM (fun out d => b <- rd (B1 F) d ;; x <- rd in_ d ;;
                        foldM (fun out row => foldM (fun out e => b_row add mul x out (fst row, e)) (snd row) out) b out)
      ds (repeat zero (lambdas F)).

  (** totalfeti.implicit.cpp:115-120; Btx *)
  Definition domain_Btx (x : vec) (Btx : list vec) (d : nat) : outcome (list vec) :=
    n <- rd (Kn F) d ;; v <- apply_Bt d n x one ;; Ok (Btx ++ [v]).
  Definition all_Btx (x : vec) : outcome (list vec) := foldM (domain_Btx x) (seq 0 (length (Kn F))) [].

  (** totalfeti.implicit.cpp:210-217 *)
  Definition solve_all (x : list vec) : list vec := map (fun dv => solve (fst dv) (snd dv)) (combine (seq 0 (length x)) x).
  (** totalfeti.implicit.cpp:219-226; [y]: the old vectors *)
  Definition solve_filter (filter : list nat) (x y : list vec) : outcome (list vec) :=
    foldM (fun y d => v <- rd x d ;; wr y d (solve d v)) filter y.

  (** TotalFETIImplicit::_apply, totalfeti.implicit.cpp:114-124; [apply] (139-144) synchronizes the result *)
  Definition implicit_apply (x : vec) : outcome vec :=
    Btx <- all_Btx x ;; apply_B (seq 0 (length (Kn F))) (solve_all Btx).
  (** totalfeti.implicit.cpp:126-136; [old]: the content of KplusBtx *)
  Definition implicit_apply_filter (filter : list nat) (old : list vec) (x : vec) : outcome vec :=
    Btx <- all_Btx x ;; y <- solve_filter filter Btx old ;; apply_B filter y.

  (** totalfeti.implicit.cpp:102-103: before the synchronization of d *)
  Definition dual_rhs (f : list vec) : outcome vec := apply_B (seq 0 (length (Kn F))) (solve_all f).
  (** totalfeti.implicit.cpp:105: after the synchronization; math::add of vectors of the same size *)
  Definition axpy (y : vec) (alpha : T) (x : vec) : vec := map (fun p => add (fst p) (mul alpha (snd p))) (combine y x).

  (** toPrimal, totalfeti.implicit.cpp:188-198 *)
  Definition to_primal (f : list vec) (x : vec) : outcome (list vec) :=
    Btx <- all_Btx x ;; Ok (solve_all (map (fun p => axpy (fst p) (opp one) (snd p)) (combine f Btx))).

  (** ** Explicit operator *)

  (** while (cc < stop) { vals[base + cc] = 0; ++cc; }, totalfeti.explicit.cpp:148-151 and 154-157 *)
  Definition zeros (base stop : nat) (st : vec * nat) : outcome (vec * nat) :=
    let '(vals, cc) := st in
    vals <- foldM (fun vals c => wr vals (base + c) zero) (seq cc (stop - cc)) vals ;; Ok (vals, Nat.max cc stop).
  (** totalfeti.explicit.cpp:147-153 *)
  Definition fill_entry (base : nat) (st : vec * nat) (e : nat * T) : outcome (vec * nat) :=
    '(vals, cc) <- zeros base (fst e) st ;;
    vals <- wr vals (base + cc) (snd e) ;; Ok (vals, cc + 1).
  (** totalfeti.explicit.cpp:145-158 *)
  Definition fill_row (ncols : nat) (vals : vec) (r : nat * (nat * list (nat * T))) : outcome vec :=
    st <- foldM (fill_entry (fst r * ncols)) (snd (snd r)) (vals, 0) ;;
    '(vals, _) <- zeros (fst r * ncols) ncols st ;; Ok vals.
  Definition fill_Bt (ncols : nat) (b : rows) (vals : vec) : outcome vec :=
    foldM (fill_row ncols) (combine (seq 0 (length b)) b) vals.

  (** KSolver[d].solve(Bt, KplusBt): one right-hand side in every row of the matrix *)
  Definition solve_rows (d n ncols : nat) (Bt : vec) : vec :=
    flat_map (fun r => solve d (slice (r * ncols) (r * ncols + ncols) Bt)) (seq 0 n).

  (** totalfeti.explicit.cpp:162-165; [n]: the number of rows of B1[d] *)
  Definition F_entry (n ncols r : nat) (KplusBt : vec) (vals : vec) (lrow : nat * (nat * list (nat * T))) : outcome vec :=
    let i := fst lrow * n + r in
    vals <- wr vals i zero ;;
    foldM (fun vals e => o <- rd vals i ;; k <- rd KplusBt (r * ncols + fst e) ;; wr vals i (add o (mul (snd e) k))) (snd (snd lrow)) vals.
  (** totalfeti.explicit.cpp:140-168, one domain; [bt], [f]: the new arrays Bt.vals and F[d].vals *)
  Definition assemble (d : nat) (bt f : vec) : outcome vec :=
    b <- rd (B1 F) d ;; ncols <- rd (Kn F) d ;;
    bt <- fill_Bt ncols b bt ;;
    let KplusBt := solve_rows d (length b) ncols bt in
    foldM (fun f r => foldM (F_entry (length b) ncols r KplusBt) (combine (seq 0 (length b)) b) f) (seq 0 (length b)) f.

  (** applyB.h:24-31 *)
  Definition extract_domain (b : rows) (x : vec) : outcome vec :=
    foldM (fun out row => v <- rd x (fst row) ;; Ok (out ++ [v])) b [].
  (** applyB.h:76-86: one domain *)
  Definition insert_domain (b : rows) (v : vec) (y : vec) : outcome vec :=
    foldM (fun y rv => o <- rd y (fst (fst rv)) ;; wr y (fst (fst rv)) (add o (snd rv))) (combine b v) y.
  (** math::blas::apply(out, 1, F, 0, in) *)
  Definition gemv (n : nat) (f x : vec) : vec :=
    map (fun i => fold_left (fun s j => add s (mul (nth (i * n + j) f zero) (nth j x zero))) (seq 0 n) zero) (seq 0 n).
  (** TotalFETIExplicit::_apply, totalfeti.explicit.cpp:179-188; [fs]: F[d].vals *)
  Definition explicit_out (fs : list vec) (x : vec) (out : list vec) (d : nat) : outcome (list vec) :=
    b <- rd (B1 F) d ;; f <- rd fs d ;; v <- extract_domain b x ;; Ok (out ++ [gemv (length b) f v]).
  Definition explicit_apply (fs : list vec) (x : vec) : outcome vec :=
    out <- foldM (explicit_out fs x) (seq 0 (length (Kn F))) [] ;;
    foldM (fun y d => b <- rd (B1 F) d ;; v <- rd out d ;; insert_domain b v y) (seq 0 (length (Kn F))) (repeat zero (lambdas F)).
End TotalFeti.
Arguments feti T : clear implicits.
