(** * The update of the projector

    /repo/src/feti/projector/tfeti.orthogonal.symmetric.cpp:32-82: TFETIOrthogonalSymmetric::update, and
    /repo/src/feti/projector/projector.cpp:82-93: Projector::reset.

    Simplifications: as in M_DualGraph, M_ProjectorG, M_ProjectorGGt and M_Projector.  [D]: the decomposition, the same in all updates.  A function
    that all ranks call is a relation between the states of the ranks.  MPI_Allreduce with MPI_MAX of the flags [reset] is their disjunction.
    The functions [alloc..], [fresh]: the content of new arrays.  The members of Projector::Kernel and of Vector_Kernel with the same meaning are one
    field.  Fx, _print and the sizes of the matrices invGGt, invL and invU are left out. *)
From Coq Require Import List Arith Bool ZArith.
From Verif Require Import Base S_Mpi M_Mpi M_Comm M_Distribute M_Scan M_Nb S_Nb M_Exchange M_Dual M_DualGraph M_Projector M_ProjectorG M_ProjectorRanks M_ProjectorGGt.
Import ListNotations.
Local Open Scope out_scope.

(** what a rank keeps between two updates: kernel\[d\].size, Gt.ncols, Kernel::roffset, rsize, total, Vector_Kernel::distribution, the graph of domains, the
    matrices, GGTtype and the vectors *)
Record pstate (T : Type) := {
  s_sizes : list nat; s_lambdas : nat; s_roffset : nat; s_rsize : nat; s_total : nat; s_dist : list nat;
  s_vs : smap vertex; s_es : smap (list nat); s_G : gmatrix T; s_GGt : ggt T; s_inv : @inverse_rows T; s_type : ggt_type;
  s_Gx : list T; s_iGGtGx : list T; s_e : list T }.
Arguments s_sizes {T}. Arguments s_lambdas {T}. Arguments s_roffset {T}. Arguments s_rsize {T}. Arguments s_total {T}. Arguments s_dist {T}. Arguments s_vs {T}. Arguments s_es {T}.
Arguments s_G {T}. Arguments s_GGt {T}. Arguments s_inv {T}. Arguments s_type {T}. Arguments s_Gx {T}. Arguments s_iGGtGx {T}. Arguments s_e {T}.
(** feti.R1, feti.B1 (D2C and the rows), feti.lambdas.size, feti.lambdas.cmap, feti.f *)
Record pinput (T : Type) := { in_R1 : list (kernel T); in_B1 : list (list (nat * list (nat * T))); in_lambdas : nat; in_cmap : list nat; in_f : list (list T) }.
Arguments in_R1 {T}. Arguments in_B1 {T}. Arguments in_lambdas {T}. Arguments in_cmap {T}. Arguments in_f {T}.

Section Update.
  Context {T : Type}.
  Variables (zero one : T) (add sub mul : T -> T -> T) (opp : T -> T).
  Variables (sort : list nat -> list nat) (n limit chunk threads : nat) (D : nat -> decomposition).
  Variables (u1 u2 u3 : Z) (allocG : nat -> nat -> nat -> list nat * list nat * list T) (allocGGt : nat -> nat -> nat -> list nat * list nat * list T) (fresh : nat -> nat -> list T).
  Variables (solve forward backward : list nat -> list nat -> list T -> list T -> list T).
  Local Notation ranks f := (forall r, r < n -> f r).

  (** tfeti.orthogonal.symmetric.cpp:35-38 *)
  Definition needs_reset (s : pstate T) (i : pinput T) : bool :=
    negb (length (s_sizes s) =? length (in_R1 i)) || negb (s_lambdas s =? in_lambdas i) || existsb (fun p => negb (fst p =? nrows (snd p))) (combine (s_sizes s) (in_R1 i)).
  (** tfeti.orthogonal.symmetric.cpp:39 *)
  Definition any_reset (s : nat -> pstate T) (i : nat -> pinput T) : bool := existsb (fun r => needs_reset (s r) (i r)) (seq 0 n).
  (** tfeti.orthogonal.symmetric.cpp:59-62 *)
  Definition push_vertices (dbegin : nat) (R1 : list (kernel T)) : smap vertex :=
    fold_left (fun vs p => push_vertex (fst p) (dbegin + fst p) (snd p) vs) (combine (seq 0 (length R1)) (map nrows R1)) [].
  (** tfeti.orthogonal.symmetric.cpp:41-67: all is new except of the type *)
  Definition run_reset (i : nat -> pinput T) (s s' : nat -> pstate T) : Prop :=
    exists koffs goffs (g : nat -> smap vertex * smap (list nat)) vs M0 M1 dist,
      exscan (Signed 32) u1 (map (fun r => Z.of_nat (kernel_size (in_R1 (i r)))) (seq 0 n)) = Ok koffs /\
      exscan (Signed 32) u2 (map (fun r => Z.of_nat (local_kernels (push_vertices (dbegin (D r)) (in_R1 (i r))))) (seq 0 n)) = Ok goffs /\
      let roffset r := Z.to_nat (fst (nth r koffs (0, 0)%Z)) in let total r := Z.to_nat (snd (nth r koffs (0, 0)%Z)) in
      let rsize r := kernel_size (in_R1 (i r)) in
      (ranks (fun r => kernel_distribution chunk threads (rsize r) (s_dist (s r)) = Ok (dist r))) /\
      ncompletes n (map (fun r => dual_set sort limit r (Z.to_nat (fst (nth r goffs (0, 0)%Z))) (D r) (in_cmap (i r)) (push_vertices (dbegin (D r)) (in_R1 (i r)))) (seq 0 n)) (map g (seq 0 n)) /\
      (ranks (fun r => set_G (allocG r) (D r) (fst (g r)) = Ok (vs r, M0 r))) /\
      run_set_GGt n D vs (fun r => snd (g r)) roffset (fun r => g_nrows (M0 r)) u3 (fun r => allocGGt r (total r)) M1 /\
      ranks (fun r => s' r = {| s_sizes := map nrows (in_R1 (i r)); s_lambdas := in_lambdas (i r); s_roffset := roffset r; s_rsize := rsize r; s_total := total r; s_dist := dist r;
                                s_vs := vs r; s_es := snd (g r); s_G := M0 r; s_GGt := M1 r; s_inv := INothing; s_type := s_type (s r);
                                s_Gx := fresh r (total r); s_iGGtGx := fresh r (rsize r); s_e := fresh r (total r) |}).

  (** tfeti.orthogonal.symmetric.cpp:73: vertices.at *)
  Definition goffsets (dbegin : nat) (vs : smap vertex) (k : nat) : outcome (list nat) :=
    foldM (fun l d => match mget (dbegin + d) vs with Some v => Ok (l ++ [v_goffset v]) | None => Fail end) (seq 0 k) [].
  (** tfeti.orthogonal.symmetric.cpp:69-76 *)
  Definition local_e (dbegin : nat) (i : pinput T) (s : pstate T) : outcome (list T) :=
    o <- goffsets dbegin (s_vs s) (length (in_R1 i)) ;; compute_e zero one add mul opp (in_R1 i) o (in_f i) (s_e s).
  Definition with_e (s : pstate T) (e : list T) : pstate T :=
    {| s_sizes := s_sizes s; s_lambdas := s_lambdas s; s_roffset := s_roffset s; s_rsize := s_rsize s; s_total := s_total s; s_dist := s_dist s; s_vs := s_vs s; s_es := s_es s; s_G := s_G s; s_GGt := s_GGt s;
       s_inv := s_inv s; s_type := s_type s; s_Gx := s_Gx s; s_iGGtGx := s_iGGtGx s; s_e := e |}.
  Definition run_dual_rhs (i : nat -> pinput T) (s s' : nat -> pstate T) : Prop :=
    exists e e' : nat -> list T, (ranks (fun r => local_e (dbegin (D r)) (i r) (s r) = Ok (e r))) /\ gather_all n e (fun r => s_roffset (s r)) (fun r => s_rsize (s r)) e' /\
      ranks (fun r => s' r = with_e (s r) (e' r)).

  (** tfeti.orthogonal.symmetric.cpp:78-81 *)
  Definition with_matrices (s : pstate T) (G : gmatrix T) (M : ggt T) (inv : inverse_rows * ggt_type) : pstate T :=
    {| s_sizes := s_sizes s; s_lambdas := s_lambdas s; s_roffset := s_roffset s; s_rsize := s_rsize s; s_total := s_total s; s_dist := s_dist s; s_vs := s_vs s; s_es := s_es s; s_G := G; s_GGt := M;
       s_inv := fst inv; s_type := snd inv; s_Gx := s_Gx s; s_iGGtGx := s_iGGtGx s; s_e := s_e s |}.
  Definition run_matrices (i : nat -> pinput T) (s s' : nat -> pstate T) : Prop :=
    exists G M inv,
      ncompletes n (map (fun r => update_G zero sub mul limit (D r) (s_roffset (s r)) (s_vs (s r)) (s_G (s r)) (in_B1 (i r)) (in_R1 (i r))) (seq 0 n)) (map G (seq 0 n)) /\
      run_values zero add mul n D (fun r => s_vs (s r)) (fun r => s_es (s r)) G (fun r => s_GGt (s r)) M /\
      (ranks (fun r => invert zero one (fun r => s_roffset (s r)) (s_total (s r)) (fun r => g_nrows (G r)) solve forward backward (s_type (s r)) r (M r) = Ok (inv r))) /\
      ranks (fun r => s' r = with_matrices (s r) (G r) (M r) (inv r)).

  (** TFETIOrthogonalSymmetric::update; [updated]: feti.updated.K || feti.updated.B *)
  Definition run_update (updated : bool) (i : nat -> pinput T) (s s' : nat -> pstate T) : Prop :=
    exists s1 s2, (if any_reset s i then run_reset i s s1 else ranks (fun r => s1 r = s r)) /\ run_dual_rhs i s1 s2 /\ (if updated then run_matrices i s2 s' else ranks (fun r => s' r = s2 r)).
End Update.
