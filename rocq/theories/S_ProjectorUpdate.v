(** * What a sequence of updates of the projector should give *)
From Coq Require Import List Arith Bool ZArith Reals.
From Verif Require Import Base S_Nb M_Distribute M_Scan S_Scan M_Dual S_Dual S_DualGraph S_Equality M_TotalFeti S_Feti M_Projector S_Projector M_ProjectorG S_ProjectorG M_ProjectorRanks S_ProjectorRanks M_ProjectorGGt S_ProjectorGGt S_ProjectorInverse
  M_ProjectorUpdate.
Import ListNotations.
Local Open Scope R_scope.

(** the system at the time of an update: the multipliers, their maps on the ranks, the kernels, their entries and the right side *)
Record problem := {
  p_L : list (list nat); p_cmap : nat -> list nat; p_ksize : nat -> nat; p_len : nat -> nat; p_row : nat -> nat -> list (nat * R); p_Rk : nat -> nat -> nat -> R; p_f : nat -> nat -> R }.

Section Updates.
  Variables (n limit : nat) (first : nat -> nat) (nb : nat -> list nat) (u1 u2 : Z).
  Variables (solve forward backward : list nat -> list nat -> list R -> list R -> list R).

  (** what rank [r] gets *)
  Definition input_of (p : problem) (r : nat) : pinput R :=
    {| in_R1 := R_stored first (p_len p) (p_ksize p) (p_Rk p) r; in_B1 := map (stored_rows first (p_L p) (p_row p) r) (own first r); in_lambdas := length (held first (p_L p) r); in_cmap := p_cmap p r;
       in_f := map (dense (p_len p) (p_f p)) (own first r) |}.

  (** the system is one that the projector can be made for: the rows of G are independent, the sizes are in the range of int, the solver keeps its
      contract and the (undefined) variable of MPI_Exscan on rank 0 does not overflow *)
  Record posed (p : problem) : Prop := {
    po_maps : consistent n first (p_L p) nb (p_cmap p);
    po_domains : forall m, (m < length (p_L p))%nat -> NoDup (domains (p_L p) m);
    po_entries : entries_ok (p_L p) (p_len p) (p_row p);
    po_independent : independent n first (p_L p) (p_len p) (p_row p) (p_ksize p) (p_Rk p);
    po_kernels : (Z.of_nat (first_kernel first (p_ksize p) (first n)) < 2 ^ 31)%Z;
    po_nonzeros : (Z.of_nat (length (upper_pairs n first (p_L p) (p_ksize p))) < 2 ^ 31 - 1)%Z;
    po_exscan : (1 < n)%nat -> defined_sum (Signed 32) u1 (Z.of_nat (list_sum (map (p_ksize p) (own first 0)))) /\ defined_sum (Signed 32) u2 (Z.of_nat (list_sum (map (p_ksize p) (own first 0))));
    po_limit : forall r, (r < n)%nat -> (length (concat (G_stored first (p_L p) (p_len p) (p_row p) (p_ksize p) (p_Rk p) r)) <= limit)%nat;
    po_solver : let K := length (kernel_list n first (p_ksize p)) in let A := GGt_of n first (p_L p) (p_len p) (p_row p) (p_ksize p) (p_Rk p) in
      forall rows cols vals, upper_csr K A rows cols vals -> solves K A (solve rows cols vals) /\ factorizes K A (forward rows cols vals) (backward rows cols vals) }.

  (** the projector that the other functions (M_ProjectorRanks) see *)
  Definition projector_of (threads : nat) (s : pstate R) (R1 : list (kernel R)) (D : decomposition) (dm : dual_map) (send recv : list (list R)) (mid : list R) : projector R :=
    {| threads := threads; dist := s_dist s; koffset := s_roffset s; ksize_local := s_rsize s; ktotal := s_total s;
       mG := csr_rows (g_nrows (s_G s)) (g_rows (s_G s)) (g_cols (s_G s)) (g_vals (s_G s));
       invGGt := match s_inv s with IWhole a => a | _ => [] end; invL := match s_inv s with IFactors a _ => a | _ => [] end; invU := match s_inv s with IFactors _ a => a | _ => [] end;
       mR1 := R1; arrGx := s_Gx s; arrIGGtGx := s_iGGtGx s; arrMid := mid; deco := D; dmap := dm; sendBuffer := send; recvBuffer := recv |}.

  (** the states of the ranks are those of the projector of [p]: with some inverse of G G^T they keep what S_ProjectorRanks asks for, and e = - R f *)
  Definition projects (threads : nat) (p : problem) (s : nat -> pstate R) : Prop :=
    exists J type, inverts n first (p_L p) (p_len p) (p_row p) (p_ksize p) (p_Rk p) J /\
    forall r, (r < n)%nat -> s_type (s r) = type /\ s_e (s r) = kernel_vector (p_ksize p) (everything n first) (e_of (p_len p) (p_Rk p) (p_f p)) /\
    forall sz itv sizes dm send recv mid, dual_map_set (decomposed first nb r) (sz r) (itv r) (p_cmap p r) = Ok dm -> intervals_ok first (p_L p) sizes r (itv r) ->
      buffers dm send -> buffers dm recv -> length mid = kernels (p_ksize p) (everything n first) ->
      keeps n first (p_L p) nb (p_cmap p) sz itv sizes (p_len p) (p_row p) (p_ksize p) (p_Rk p) J type r (projector_of threads (s r) (in_R1 (input_of p r)) (decomposed first nb r) dm send recv mid).

  (** some rank has another number of multipliers or of kernels of an own domain *)
  Definition resized (p q : problem) : Prop :=
    exists r, (r < n)%nat /\ (length (held first (p_L p) r) <> length (held first (p_L q) r) \/ exists d, In d (own first r) /\ p_ksize p d <> p_ksize q d).
  (** what may change between two updates; the flag is feti.updated.K || feti.updated.B.  Once there is no kernel, there is none later (see [type_none_stays_refuted]) *)
  Definition follows (p : problem) (updated : bool) (q : problem) : Prop :=
    (if updated then (p_L p = p_L q /\ p_ksize p = p_ksize q) \/ resized p q
     else p_L p = p_L q /\ p_ksize p = p_ksize q /\ p_len p = p_len q /\ p_row p = p_row q /\ p_Rk p = p_Rk q) /\
    (kernel_list n first (p_ksize p) = [] -> kernel_list n first (p_ksize q) = []).
  Fixpoint follow (p : problem) (qs : list (bool * problem)) : Prop :=
    match qs with [] => True | (updated, q) :: qs => follows p updated q /\ follow q qs end.
  (** each of the updates [step] makes the projector of its problem *)
  Fixpoint all_project (step : bool -> problem -> (nat -> pstate R) -> (nat -> pstate R) -> Prop) (threads : nat) (s : nat -> pstate R) (qs : list (bool * problem)) : Prop :=
    match qs with [] => True | (updated, q) :: qs => exists s', step updated q s s' /\ projects threads q s' /\ all_project step threads s' qs end.
End Updates.
