(** * Properties of PCPG on all ranks: C128, C129 *)
From Coq Require Import List Arith Bool Permutation Reals Lia Lra FunctionalExtensionality.
From Verif Require Import Base M_Csx M_Dnx S_Csx S_Dnx M_Math S_Math P_Math.
From Verif Require Import S_Order M_Nb S_Nb S_Comm M_Exchange M_Mpi M_Dual S_Dual P_Dual L_Dual5 S_Equality M_Equality L_Equality6 M_TotalFeti S_Feti L_TotalFeti L_TotalFeti2 P_TotalFeti L_Sort M_Projector S_Projector L_Projector L_Projector2 L_Projector3 M_ProjectorRanks S_ProjectorRanks P_Projector M_Reconstruct S_Reconstruct P_Reconstruct.
From Verif Require Import M_Precond S_Precond L_Precond L_Precond2 L_Precond3 L_Precond4 L_Precond5 L_Precond6 P_Precond.
From Verif Require Import M_DualVector M_Mprgp M_SolverInfo S_Mprgp M_PcpgRanks S_PcpgRanks L_PcpgRanks L_PcpgRanks2.
From Verif Require M_Pcpg S_Pcpg L_Pcpg L_Pcpg2 L_Pcpg3 P_Pcpg.
Import ListNotations.
Local Open Scope out_scope.
Local Open Scope R_scope.

Section Ranks.
  Variables (h : R).
  Local Notation E := (exact h).
  Variables (isnan : R -> bool) (infinity : R) (C : config (exact h)).
  Variables (n limit : nat) (first : nat -> nat) (L : list (list nat)) (nb : nat -> list nat) (cmap : nat -> list nat) (sz : nat -> nat) (itv : nat -> list (nat * nat)) (sizes : list nat).
  Hypothesis HC : S_Dual.consistent n first L nb cmap.
  Hypothesis Hn : (0 < n)%nat.
  Hypothesis Hlimit : forall r q, (r < n)%nat -> In q (nb r) -> (length (common first L r q) <= limit)%nat.
  Variables (len : nat -> nat) (row : nat -> nat -> list (nat * R)).
  Hypothesis HB : entries_ok L len row.
  Variables (ksize : nat -> nat) (Rk : nat -> nat -> nat -> R) (J : inverse) (type : ggt_type) (p : nat -> projector R).
  Hypothesis HP : forall r, (r < n)%nat -> keeps n first L nb cmap sz itv sizes len row ksize Rk J type r (p r).
  Local Notation all := (everything n first).
  Local Notation own := (own first).
  Local Notation dual := (dual first L).
  Local Notation st := (stored first L len row).
  Local Notation sized a := (forall r, (r < n)%nat -> length (a r) = length (held first L r)).
  Variables (arrFx arrL arrW arrY : nat -> list R).
  Hypotheses (LFx : sized arrFx) (LL : sized arrL) (LW : sized arrW) (LY : sized arrY).

  (** C128: the ranks compute what the solver with whole vectors computes: for every number of passes, any division, both kinds of projectors,
      every dual operator and every preconditioner whose results are synchronized *)
  Theorem pcpg_ranks_compute quotient conjugate (runF runS : (nat -> list R) -> (nat -> list R) -> Prop) (Fg Sg : (nat -> R) -> nat -> R) dg eg k s :
    (forall z, runF (dual z) (dual (Fg z))) -> (forall z, runS (dual z) (dual (Sg z))) -> respects L Fg ->
    M_Pcpg.pcpg E isnan infinity quotient C (global n first L len row ksize Rk J h conjugate Fg Sg) k (multipliers_of L dg) (kernel_vector ksize all eg) = Ok s ->
    exists t, run_pcpg E isnan infinity quotient C n limit type p conjugate runF runS arrFx arrL arrW arrY k (dual dg) (fun _ => kernel_vector ksize all eg) t /\
      px E t = dual (as_function (M_Pcpg.x E s)) /\ pr E t = dual (as_function (M_Pcpg.r E s)) /\ pw E t = dual (as_function (M_Pcpg.w E s)) /\
      pp E t = dual (as_function (M_Pcpg.p E s)) /\ pyw E t = M_Pcpg.yw E s /\ pstatus E t = M_Pcpg.status E s.
  Proof.
    intros HF HS RF H. destruct (pcpg_same h isnan infinity quotient C n limit first L nb cmap sz itv sizes HC Hn Hlimit len row HB ksize Rk J type p HP conjugate runF runS Fg Sg HF HS RF arrFx arrL arrW arrY LFx LL LW LY dg eg k s H) as (t & R1 & R2).
    exists t. split; [exact R1|]. unfold same in R2. tauto.
  Qed.

  (* ---- the operators ---- *)
  Lemma keeps_map r : (r < n)%nat -> dual_map_set (decomposed first nb r) (sz r) (itv r) (cmap r) = Ok (dmap (p r)). Proof. intros Hr. apply (HP r Hr). Qed.
  Lemma keeps_send r : (r < n)%nat -> buffers (dmap (p r)) (sendBuffer (p r)). Proof. intros Hr. apply (HP r Hr). Qed.
  Lemma keeps_recv r : (r < n)%nat -> buffers (dmap (p r)) (recvBuffer (p r)). Proof. intros Hr. apply (HP r Hr). Qed.
  Lemma synced_dual (y : nat -> list R) ends z :
    ncompletes n (map (fun r => synchronize Rplus limit (decomposed first nb r) (dmap (p r)) (y r) (sendBuffer (p r)) (recvBuffer (p r))) (seq 0 n)) ends ->
    map (fun e => fst (fst e)) ends = map (dual z) (seq 0 n) -> dual_sync Rplus n limit p y (dual z).
  Proof.
    intros H1 H2. exists ends. split; [|exact H2]. rewrite (map_ext_in _ (fun r => synchronize Rplus limit (decomposed first nb r) (dmap (p r)) (y r) (sendBuffer (p r)) (recvBuffer (p r)))); [exact H1|].
    intros r Ir. apply in_seq in Ir. now rewrite (k_deco _ _ _ _ _ _ _ _ _ _ _ _ _ _ _ _ (HP r ltac:(lia))).
  Qed.

  Variables (K kplus : nat -> nat -> nat -> R) (solve : nat -> nat -> list R -> list R).
  Hypothesis Hsolve : forall r, (r < n)%nat -> solves first len kplus r (solve r).
  Local Notation F_of := (F_of n first L len row kplus).
  (** C128: the dual operator *)
  Theorem implicit_operator_runs z : run_F E n limit p st solve (dual z) (dual (F_of z)).
  Proof.
    destruct (implicit_apply_computes n limit first L nb cmap HC (fun r => dmap (p r)) sz itv keeps_map Hlimit len row HB kplus solve Hsolve (fun r => sendBuffer (p r)) (fun r => recvBuffer (p r)) keeps_send keeps_recv z) as (y & Y1 & ends & Y2 & Y3).
    exists y. split; [exact Y1|]. now apply (synced_dual y ends).
  Qed.
  (** C128: the preconditioners *)
  Theorem empty_runs z : run_empty n (dual z) (dual z).
  Proof. intros r _. reflexivity. Qed.
  Theorem lumped_runs kmul z : (forall r, (r < n)%nat -> solves first len K r (kmul r)) ->
    run_synchronized Rplus n limit p (fun r => lumped_apply 0 1 Rplus Rmult (st r) (kmul r)) (dual z) (dual (lumped_of n first L len row K z)).
  Proof.
    intros HK. destruct (lumped_apply_computes n limit first L nb cmap HC (fun r => dmap (p r)) sz itv keeps_map Hlimit len row HB (fun r => sendBuffer (p r)) (fun r => recvBuffer (p r)) keeps_send keeps_recv K kmul z HK) as (y & Y1 & ends & Y2 & Y3).
    exists y. split; [exact Y1|]. now apply (synced_dual y ends).
  Qed.

  Section Dirichlet.
    Variable M : nat -> csx R.
    Hypothesis HM : forall d, In d all -> stores (len d) (K d) (M d).
    Variable sym : nat -> symmetry.
    Hypothesis Hsym : forall d, unsymmetric (sym d) = false.
    Variable sort : list (nat * nat * R) -> list (nat * nat * R).
    Hypothesis Hsort : sort_contract ijv_ltb sort.
    Variable alloc : nat -> nat -> nat -> list nat * list nat * list R.
    Hypothesis Halloc : forall r c n, length (fst (fst (alloc r c n))) = (r + 1)%nat /\ length (snd (fst (alloc r c n))) = n /\ length (snd (alloc r c n)) = n.
    Variable asolve : csx R -> list R -> list R.
    Hypothesis Hsol : forall d, In d all -> solves_system (length (interior_list (len d) (surface L row d))) (interior_block (len d) (surface L row d) (K d)) asolve.
    Local Notation is_dirichlet := (is_dirichlet n first L len row K).

    Lemma choose_any {A} (a : A) (P : nat -> A -> Prop) l : (forall d, In d l -> exists w, P d w) -> exists W, forall d, In d l -> P d (W d).
    Proof.
      induction l as [|d l IH]; intros H; [exists (fun _ => a); intros d []|]. destruct (H d (or_introl eq_refl)) as (w & Hw). destruct (IH (fun x Hx => H x (or_intror Hx))) as (W & HW).
      exists (fun d' => if (d' =? d)%nat then w else W d'). intros d' [<-|I]; [now rewrite Nat.eqb_refl|]. destruct (Nat.eqb_spec d' d) as [->|]; [easy|now apply HW].
    Qed.
    (** the Dirichlet preconditioner is a function *)
    Lemma dirichlet_function : exists S, forall x, is_dirichlet x (S x).
    Proof.
      assert (X : forall d, In d all -> exists A, stores (length (interior_list (len d) (surface L row d))) (interior_block (len d) (surface L row d) (K d)) A).
      { intros d Id. destruct (permuted (len d) (surface L row d) (K d) (M d) (HM d Id) sort Hsort) as (P & _ & SP & AP). destruct (the_blocks (len d) (surface L row d) (K d) alloc Halloc (sym d) P SP AP) as ((A & sy & _ & SA) & _). now exists A. }
      destruct (choose_any (M 0%nat) _ all X) as (A & HA).
      exists (fun x => B_of n first len row (fun d => times (len d) (K d) (extended (len d) (surface L row d) (K d) (asolve (A d)) (Bt_of L row x d)))). intros x.
      exists (fun d => extended (len d) (surface L row d) (K d) (asolve (A d)) (Bt_of L row x d)). split; [|reflexivity]. intros d Id. apply extended_ok. intros v Hv. now apply (Hsol d Id (A d) v (HA d Id)).
    Qed.
    Local Notation right_sizes := (P_Precond.right_sizes first len).
    Local Notation updated := (P_Precond.updated first L row M sym sort alloc asolve).
    (** the result of a synchronized application is the one of the function *)
    Lemma dirichlet_any S (f : nat -> list R -> outcome (list R)) z : (forall x, is_dirichlet x (S x)) ->
      (exists y, (forall r, (r < n)%nat -> f r (dual z r) = Ok (y r)) /\ exists ends z', ncompletes n (map (fun r => synchronize Rplus limit (decomposed first nb r) (dmap (p r)) (y r) (sendBuffer (p r)) (recvBuffer (p r))) (seq 0 n)) ends /\
        map (fun e => fst (fst e)) ends = map (dual z') (seq 0 n) /\ is_dirichlet z z') ->
      run_synchronized Rplus n limit p f (dual z) (dual (S z)).
    Proof.
      intros HS (y & Y1 & ends & z' & Y2 & Y3 & Y4). exists y. split; [exact Y1|]. apply (synced_dual y ends _ Y2). rewrite Y3. apply map_ext. intros r. apply map_ext_in. intros m Im. apply filter_In in Im. destruct Im as [Im _]. apply in_seq in Im.
      apply (dirichlet_determined n first L len row K M HM sym sort Hsort alloc Halloc asolve Hsol z); auto. lia.
    Qed.
    (** C128: Dirichlet, with any content of its vectors *)
    Theorem dirichlet_runs ixs scs : (forall r, (r < n)%nat -> updated r (ixs r) (scs r)) ->
      exists S, (forall x, is_dirichlet x (S x)) /\ forall olds z, (forall r, (r < n)%nat -> right_sizes r (olds r)) ->
        run_synchronized Rplus n limit p (fun r => dirichlet_apply 0 1 Rplus Rmult (st r) (ixs r) (scs r) (olds r)) (dual z) (dual (S z)).
    Proof.
      intros HU. destruct dirichlet_function as (S & HS). exists S. split; [exact HS|]. intros olds z HO. apply (dirichlet_any S _ z HS).
      exact (dirichlet_apply_computes n limit first L nb cmap HC (fun r => dmap (p r)) sz itv keeps_map Hlimit len row HB (fun r => sendBuffer (p r)) (fun r => recvBuffer (p r)) keeps_send keeps_recv K M HM sym Hsym sort Hsort alloc Halloc asolve Hsol ixs scs olds z HU HO).
    Qed.
    (** C128: implicit Dirichlet *)
    Theorem implicit_dirichlet_runs Ps : (forall r, (r < n)%nat -> P_Precond.implicit_updated first L row M sym sort alloc r (Ps r)) ->
      exists S, (forall x, is_dirichlet x (S x)) /\ forall z, run_synchronized Rplus n limit p (fun r => implicit_dirichlet_apply 0 1 Rplus Rmult Ropp asolve (st r) (Ps r)) (dual z) (dual (S z)).
    Proof.
      intros HU. destruct dirichlet_function as (S & HS). exists S. split; [exact HS|]. intros z. apply (dirichlet_any S _ z HS).
      exact (implicit_dirichlet_computes n limit first L nb cmap HC (fun r => dmap (p r)) sz itv keeps_map Hlimit len row HB (fun r => sendBuffer (p r)) (fun r => recvBuffer (p r)) keeps_send keeps_recv K M HM sym sort Hsort alloc Halloc asolve Hsol Ps z HU).
    Qed.
  End Dirichlet.

  (* ---- the solution ---- *)
  Hypothesis HK : semidefinite n first len K.
  Hypothesis HR : kernels_of n first len ksize Rk K.
  Hypothesis HR' : spans_kernel n first len ksize Rk K.
  Hypothesis HI : independent n first L len row.
  Hypothesis HG : generalized_inverse n first len ksize Rk K kplus.
  Hypothesis Hsym : forall d i j, In d all -> (i < len d)%nat -> (j < len d)%nat -> kplus d i j = kplus d j i.
  Hypothesis HJ : inverts n first L len row ksize Rk J.
  Variables (Sg : (nat -> R) -> nat -> R) (runS : (nat -> list R) -> (nat -> list R) -> Prop).
  Hypothesis HS : is_preconditioner n first L len row K Sg.
  Hypothesis HrunS : forall z, runS (dual z) (dual (Sg z)).
  Variables (f : nat -> nat -> R) (c : nat -> R) (arrE : nat -> list R) (arrRa : nat -> list (list R)).
  Hypothesis LE : forall r, (r < n)%nat -> length (arrE r) = kernels ksize all.
  Hypothesis LRa : forall r, (r < n)%nat -> map (@length R) (arrRa r) = map len (own r).
  Local Notation A := (global n first L len row ksize Rk J h false F_of Sg).
  Local Notation dg := (fun m => B_of n first len row (Kplus_of len kplus f) m - c m).
  Local Notation eg := (e_of len Rk f).
  Local Notation whole q k := (M_Pcpg.pcpg E isnan infinity q C A k (multipliers_of L dg) (kernel_vector ksize all eg)).
  Local Notation G_of := (G_of L len row Rk).
  Local Notation Bt := (Bt_of L row).

  (** C129: the dual problem of Total FETI is a problem of PCPG: the operator is definite on the kernel of G and so is every preconditioner *)
  Theorem total_feti_problem : S_Pcpg.spd_problem h (length L) (kernels ksize all) A (multipliers_of L dg) (kernel_vector ksize all eg).
  Proof. apply (total_feti_spd h n first L len row ksize Rk J K kplus Sg HK HR' HI HG Hsym HS HJ). Qed.
  (** C129: on the kernel of G the quadratic form of the dual operator is the energy of the domains under the load B^T x *)
  Theorem dual_energy x : (forall d k, In d all -> (k < ksize d)%nat -> G_of x d k = 0) ->
    Sum (multiplier_list L) (fun m => x m * F_of x m) = Sum all (fun d => Sum (seq 0 (len d)) (fun j => Kplus_of len kplus (Bt x) d j * K_of len K (Kplus_of len kplus (Bt x)) d j)) /\
    forall d i, In d all -> (i < len d)%nat -> K_of len K (Kplus_of len kplus (Bt x)) d i = Bt x d i.
  Proof. exact (F_energy n first L len row ksize Rk K kplus HG Hsym x). Qed.

  (** a run of all ranks from a run with whole vectors *)
  Lemma solve_runs q k s : whole q k = Ok s ->
    exists t u btl lambda w, run_solve E isnan infinity q C n limit type p st solve runS arrFx arrL arrW arrY arrE arrRa k (fun r => map (dense len f) (own r)) (dual c) t u btl /\
      (u = fun r => map (dense len (primal L len row ksize Rk kplus f lambda (inverse_of n first ksize J (G_of (dual_residual n first L len row kplus f c lambda))))) (own r)) /\
      (btl = fun r => map (dense len (Bt lambda)) (own r)) /\ px E t = dual lambda /\ pw E t = dual w /\ pyw E t = M_Pcpg.yw E s /\ pstatus E t = M_Pcpg.status E s /\
      multipliers_of L w = M_Pcpg.w E s /\
      (forall m, (m < length L)%nat -> w m = P_of n first L len row ksize Rk J (dual_residual n first L len row kplus f c lambda) m) /\
      (forall d k, In d all -> (k < ksize d)%nat -> G_of lambda d k = eg d k).
  Proof.
    intros H. pose proof total_feti_problem as SP. pose proof (S_Pcpg.sp_linear _ _ _ _ _ _ SP) as LP.
    destruct (pcpg_ranks_compute q false (run_F E n limit p st solve) runS F_of Sg dg eg k s implicit_operator_runs HrunS (F_respects n first L len row kplus) H) as (t & T1 & T2 & T3 & T4 & T5 & T6 & T7).
    destruct (L_Pcpg3.run_inv1 h (length L) (kernels ksize all) A _ _ isnan infinity C q LP k s H) as [I X]. pose proof (L_Pcpg.i_x _ _ _ _ _ I) as Lx. pose proof (L_Pcpg.i_r _ _ _ _ _ I) as Er. pose proof (L_Pcpg.i_w _ _ _ _ _ I) as Ew.
    set (lambda := as_function (M_Pcpg.x E s)). set (w := as_function (M_Pcpg.w E s)).
    assert (Erho : M_Pcpg.r E s = multipliers_of L (dual_residual n first L len row kplus f c lambda)).
    { rewrite Er. unfold L_Pcpg.residual_of. change (M_Pcpg.F E A (M_Pcpg.x E s)) with (multipliers_of L (F_of lambda)). etransitivity; [apply (comb_lst L)|]. apply lst_ext. intros m _. unfold dual_residual. lra. }
    assert (Ewv : M_Pcpg.w E s = multipliers_of L (P_of n first L len row ksize Rk J (dual_residual n first L len row kplus f c lambda))).
    { rewrite Ew, Erho. rewrite (projectT_lst h n first L len row ksize Rk J false F_of Sg (F_respects n first L len row kplus)). reflexivity. }
    exists t, (fun r => map (dense len (primal L len row ksize Rk kplus f lambda (inverse_of n first ksize J (G_of (dual_residual n first L len row kplus f c lambda))))) (own r)), (fun r => map (dense len (Bt lambda)) (own r)), lambda, w.
    split; [|split; [reflexivity|split; [reflexivity|repeat split]]]; try assumption.
    - exists (dual dg), (fun _ => kernel_vector ksize all eg). split; [|split; [|split; [exact T1|]]].
      + destruct (dual_rhs_computes n limit first L nb cmap HC (fun r => dmap (p r)) sz itv keeps_map Hlimit len row HB kplus solve Hsolve (fun r => sendBuffer (p r)) (fun r => recvBuffer (p r)) keeps_send keeps_recv f c) as (y & Y1 & ends & Y2 & Y3).
        destruct (parts_synchronized n limit first L nb cmap HC (fun r => dmap (p r)) sz itv keeps_map Hlimit len row HB (Kplus_of len kplus f) (fun r => map (part len row (own r) (Kplus_of len kplus f)) (held first L r)) (fun r => sendBuffer (p r)) (fun r => recvBuffer (p r)) keeps_send keeps_recv (fun r _ => eq_refl)) as (ends' & Z1 & Z2).
        exists (fun r => map (part len row (own r) (Kplus_of len kplus f)) (held first L r)), (dual (B_of n first len row (Kplus_of len kplus f))). split; [|split].
        * intros r Hr. apply (rhs_ok first L len row HB r kplus (solve r) (Hsolve r Hr)).
        * now apply (synced_dual _ ends').
        * intros r _. etransitivity; [apply axpy_dual|]. apply map_ext. intros m. cbn [opp one exact]. lra.
      + now apply (e_computes n first L nb cmap sz itv sizes HC Hn len row ksize Rk J type p HP).
      + rewrite T2, T3, Erho, D_lst. fold lambda. now apply (reconstruct_computes n first L nb cmap sz itv sizes HC Hn len row HB ksize Rk J type p HP kplus solve Hsolve).
    - rewrite Ewv. apply lst_ext. intros m Hm. unfold w. rewrite Ewv. now apply as_lst.
    - intros m Hm. unfold w. rewrite Ewv. now apply as_lst.
    - intros d k0 Id Hk. unfold S_Pcpg.constrained in X. cbn [global M_Pcpg.conjugate M_Pcpg.G] in X. rewrite <- (ask_vector n first ksize (G_of lambda) d k0 Id Hk), <- (ask_vector n first ksize eg d k0 Id Hk). f_equal. exact X.
  Qed.

  (** C129: after every number of passes, with any division: the reconstructed vectors are in equilibrium with the multipliers and the gap at
      the interfaces is the projected residual that the solver tests *)
  Theorem total_feti_states q k s : whole q k = Ok s ->
    exists t u lambda w, run_solve E isnan infinity q C n limit type p st solve runS arrFx arrL arrW arrY arrE arrRa k (fun r => map (dense len f) (own r)) (dual c) t
        (fun r => map (dense len u) (own r)) (fun r => map (dense len (Bt lambda)) (own r)) /\
      px E t = dual lambda /\ pw E t = dual w /\ pstatus E t = M_Pcpg.status E s /\
      equilibrium n first L len row K f u lambda /\ forall m, (m < length L)%nat -> B_of n first len row u m - c m = w m.
  Proof.
    intros H. destruct (solve_runs q k s H) as (t & u & btl & lambda & w & T1 & -> & -> & T4 & T5 & T6 & T7 & T8 & T9 & T10).
    exists t, (primal L len row ksize Rk kplus f lambda (inverse_of n first ksize J (G_of (dual_residual n first L len row kplus f c lambda)))), lambda, w. do 4 (split; [assumption|]). split.
    - now apply reconstructed_equilibrium.
    - intros m Hm. rewrite T9 by exact Hm. apply gap_is_projected_residual.
  Qed.
  (** C129: exact arithmetic: after at most as many passes as there are multipliers the solver has stopped by a criterion or the vectors of the
      domains solve the problem *)
  Theorem total_feti_solves : (0 < max_stagnation E C)%nat -> (0 < print_iteration E C)%nat ->
    exists k t u lambda, (k <= length L)%nat /\
      run_solve E isnan infinity S_Pcpg.quotient C n limit type p st solve runS arrFx arrL arrW arrY arrE arrRa k (fun r => map (dense len f) (own r)) (dual c) t
        (fun r => map (dense len u) (own r)) (fun r => map (dense len (Bt lambda)) (own r)) /\ px E t = dual lambda /\
      equilibrium n first L len row K f u lambda /\ (converged E (pstatus E t) = true \/ compatible n first L len row c u).
  Proof.
    intros M0 P0. pose proof total_feti_problem as SP. destruct (P_Pcpg.pcpg_terminates h _ _ A _ _ isnan infinity C SP M0 P0) as (k & s & Hk & H & D).
    destruct (solve_runs S_Pcpg.quotient k s H) as (t & u & btl & lambda & w & T1 & -> & -> & T4 & T5 & T6 & T7 & T8 & T9 & T10).
    exists k, t, (primal L len row ksize Rk kplus f lambda (inverse_of n first ksize J (G_of (dual_residual n first L len row kplus f c lambda)))), lambda. do 3 (split; [assumption|]). split; [now apply reconstructed_equilibrium|].
    destruct D as [D|D]; [right|left; congruence]. intros m Hm. enough (W : w m = 0). { rewrite T9 in W by exact Hm. rewrite <- gap_is_projected_residual in W. lra. }
    destruct (P_Pcpg.pcpg_solution h _ _ A _ _ isnan infinity C S_Pcpg.quotient k s SP H) as [Y1 Y2]. apply Y2 in D. destruct (L_Pcpg3.run_inv1 h _ _ A _ _ isnan infinity C S_Pcpg.quotient (S_Pcpg.sp_linear _ _ _ _ _ _ SP) k s H) as [I _].
    assert (Z : is_zero (M_Pcpg.w E s)).
    { destruct (Forall_dec (fun a => a = 0) (fun a => Req_EM_T a 0) (M_Pcpg.w E s)) as [Z|Z]; [exact Z|]. pose proof (L_Pcpg2.yw_pos h _ _ A _ _ SP s I Z). lra. }
    rewrite <- T8 in Z. apply (proj1 (zero_lst L w) Z m Hm).
  Qed.
End Ranks.

(** ** A case: the gluing of P_Dual; every multiplier has its own degree of freedom in its domains; domains 2 and 4 float (the matrix
    projects to the vectors with the sum 0), the others are fixed *)
Definition tr_row (m d : nat) : list (nat * R) :=
  if existsb (Nat.eqb d) (domains ex_L m) then [(m, if (hd 0%nat (domains ex_L m) =? d)%nat then 1 else -1)] else [].
Definition tr_len (d : nat) : nat := 7.
Definition tr_float (d : nat) : bool := (d =? 2)%nat || (d =? 4)%nat.
Definition tr_K (d i j : nat) : R := if tr_float d then (if (i =? j)%nat then 1 else 0) - 1 / 7 else (if (i =? j)%nat then 2 else 0).
Definition tr_kplus (d i j : nat) : R := if tr_float d then (if (i =? j)%nat then 1 else 0) - 1 / 7 else (if (i =? j)%nat then / 2 else 0).
Definition tr_solve (k : nat -> nat -> nat -> R) (r i : nat) (v : list R) : list R := dense tr_len (Kplus_of tr_len k (fun _ j => nth j v 0)) (ex_first r + i).
Definition tr (r : nat) : projector R :=
  {| threads := 3; dist := pj_dist 8 3 (kernels pj_ksize (own ex_first r)); koffset := kernels_before ex_first pj_ksize r; ksize_local := kernels pj_ksize (own ex_first r);
     ktotal := kernels pj_ksize (everything 3 ex_first); mG := G_stored ex_first ex_L tr_len tr_row pj_ksize pj_R r; invGGt := kernel_rows 3 ex_first pj_ksize (own ex_first r) pj_inverse;
     invL := []; invU := []; mR1 := R_stored ex_first tr_len pj_ksize pj_R r; arrGx := repeat 7 2; arrIGGtGx := repeat 8 (kernels pj_ksize (own ex_first r)); arrMid := repeat 9 2;
     deco := decomposed ex_first ex_nbs r; dmap := ex_map r; sendBuffer := tf_buf r; recvBuffer := tf_buf r |}.
Lemma tr_entries : entries_ok ex_L tr_len tr_row.
Proof.
  intros m d Hm. unfold tr_row. destruct (existsb (Nat.eqb d) (domains ex_L m)) eqn:X.
  - split; [intros e [<-|[]]; exact Hm|]. intros N. destruct N. apply existsb_exists in X as (d' & I & X). apply Nat.eqb_eq in X. now subst.
  - split; [intros e []|reflexivity].
Qed.
Lemma tr_keeps r : (r < 3)%nat -> keeps 3 ex_first ex_L ex_nbs ex_cmap (fun r => nth r [5; 4; 3]%nat 0%nat) ex_itv [7%nat] tr_len tr_row pj_ksize pj_R (Whole pj_inverse) GGT r (tr r).
Proof.
  intros Hr. split; try reflexivity.
  - cbn [tr threads dist]. unfold pj_dist. destruct (kernel_distribution_covers 8 3 (kernels pj_ksize (own ex_first r)) [0; 0]%nat ltac:(lia) ltac:(lia) ltac:(discriminate) eq_refl) as (d & -> & D). exact D.
  - split; reflexivity.
  - cbn [tr arrIGGtGx]. apply repeat_length.
  - now apply ex_map_ok.
  - now apply ex_intervals_ok.
  - apply tf_buffers.
  - apply tf_buffers.
Qed.
Lemma tr_solves k r : solves ex_first tr_len k r (tr_solve k r).
Proof. intros d v Id Lv. unfold tr_solve. unfold own, own_domains in Id. apply in_seq in Id. f_equal. lia. Qed.
Lemma tr_semidefinite : semidefinite 3 ex_first tr_len tr_K.
Proof.
  split.
  - intros d i j _ _ _. unfold tr_K. rewrite (Nat.eqb_sym j i). reflexivity.
  - intros d v _. unfold tr_len, times, tr_K. destruct (tr_float d).
    + cbn [seq]. rewrite !Sum_cons, !Sum_nil. cbn [Nat.eqb]. set (s := v 0%nat + v 1%nat + v 2%nat + v 3%nat + v 4%nat + v 5%nat + v 6%nat).
      match goal with |- 0 <= ?e => replace e with ((v 0%nat - s / 7) * (v 0%nat - s / 7) + (v 1%nat - s / 7) * (v 1%nat - s / 7) + (v 2%nat - s / 7) * (v 2%nat - s / 7) + (v 3%nat - s / 7) * (v 3%nat - s / 7) + (v 4%nat - s / 7) * (v 4%nat - s / 7) + (v 5%nat - s / 7) * (v 5%nat - s / 7) + (v 6%nat - s / 7) * (v 6%nat - s / 7)) by (unfold s; field) end.
      repeat apply Rplus_le_le_0_compat; apply Rle_0_sqr.
    + cbn [seq]. rewrite !Sum_cons, !Sum_nil. cbn [Nat.eqb]. match goal with |- 0 <= ?e => replace e with (2 * (v 0%nat * v 0%nat + v 1%nat * v 1%nat + v 2%nat * v 2%nat + v 3%nat * v 3%nat + v 4%nat * v 4%nat + v 5%nat * v 5%nat + v 6%nat * v 6%nat)) by ring end.
      apply Rmult_le_pos; [lra|]. repeat apply Rplus_le_le_0_compat; apply Rle_0_sqr.
Qed.
Local Ltac seven i Hi := destruct i as [|[|[|[|[|[|[|i]]]]]]]; [| | | | | | |exfalso; clear - Hi; cbn in Hi; lia].
Lemma tr_kernels : kernels_of 3 ex_first tr_len pj_ksize pj_R tr_K.
Proof.
  intros d k i Id Hk Hi. unfold pj_ksize, tr_K, tr_float, pj_R, tr_len in *. destruct ((d =? 2)%nat || (d =? 4)%nat); [|lia]. cbn [seq]. rewrite !Sum_cons, !Sum_nil. seven i Hi; cbn [Nat.eqb]; lra.
Qed.
Lemma tr_spans : spans_kernel 3 ex_first tr_len pj_ksize pj_R tr_K.
Proof.
  intros d v Id H. unfold times, pj_ksize, tr_K, tr_float, pj_R, tr_len in *. destruct ((d =? 2)%nat || (d =? 4)%nat).
  - exists (fun _ => (v 0%nat + v 1%nat + v 2%nat + v 3%nat + v 4%nat + v 5%nat + v 6%nat) / 7). intros j Hj. specialize (H j Hj). cbn [seq] in *. rewrite !Sum_cons, !Sum_nil in *. seven j Hj; cbn [Nat.eqb] in H; lra.
  - exists (fun _ => 0). intros j Hj. specialize (H j Hj). cbn [seq] in *. rewrite ?Sum_cons, ?Sum_nil in *. seven j Hj; cbn [Nat.eqb] in H; lra.
Qed.
Lemma tr_inverse : generalized_inverse 3 ex_first tr_len pj_ksize pj_R tr_K tr_kplus.
Proof.
  intros g d i Id Hi O. unfold K_of, Kplus_of, tr_K, tr_kplus, tr_float, pj_ksize, pj_R, tr_len in *. destruct ((d =? 2)%nat || (d =? 4)%nat).
  - specialize (O 0%nat ltac:(lia)). cbn [seq] in *. rewrite !Sum_cons, !Sum_nil in *. seven i Hi; cbn [Nat.eqb]; lra.
  - cbn [seq] in *. rewrite !Sum_cons, !Sum_nil in *. seven i Hi; cbn [Nat.eqb]; lra.
Qed.
Lemma tr_independent : independent 3 ex_first ex_L tr_len tr_row.
Proof.
  intros x H m Hm. assert (A : forall d, In d (everything 3 ex_first) -> Bt_of ex_L tr_row x d m = 0) by (intros; now apply H). clear H. unfold Bt_of, multiplier_list, B, tr_row in A. cbn [length ex_L seq] in A, Hm.
  assert (I : forall d, (d < 5)%nat -> In d (everything 3 ex_first)) by (intros d Hd; apply in_seq; cbn; lia).
  seven m Hm; [specialize (A 0%nat (I 0%nat ltac:(lia)))|specialize (A 0%nat (I 0%nat ltac:(lia)))|specialize (A 0%nat (I 0%nat ltac:(lia)))|specialize (A 0%nat (I 0%nat ltac:(lia)))|specialize (A 2%nat (I 2%nat ltac:(lia)))|specialize (A 3%nat (I 3%nat ltac:(lia)))|specialize (A 1%nat (I 1%nat ltac:(lia)))];
    unfold Sum in A; cbn in A; lra.
Qed.
Lemma tr_inverts : inverts 3 ex_first ex_L tr_len tr_row pj_ksize pj_R (Whole pj_inverse).
Proof.
  assert (X : everything 3 ex_first = [0; 1; 2; 3; 4]%nat) by reflexivity.
  assert (GG : forall d d', (d = 2 \/ d = 4)%nat -> (d' = 2 \/ d' = 4)%nat -> GGt ex_L tr_len tr_row pj_R d 0 d' 0 = if (d =? 2)%nat then (if (d' =? 2)%nat then 4 else -1) else (if (d' =? 2)%nat then -1 else 2)).
  { intros d d' [-> | ->] [-> | ->]; cbn [Nat.eqb]; unfold GGt, S_Projector.G, B, multiplier_list, Sum, tr_row, tr_len, pj_R; cbn; lra. }
  intros w d k Id Hk. rewrite X in Id. assert (D : (d = 2 \/ d = 4)%nat /\ k = 0%nat).
  { repeat (destruct Id as [<-|Id]; [cbn in Hk; lia|]). destruct Id. }
  destruct D as [D ->]. cbn [inverse_of]. unfold kernel_product. rewrite X.
  assert (S : forall f : nat -> nat -> R, Sum [0; 1; 2; 3; 4]%nat (fun d' => Sum (seq 0 (pj_ksize d')) (fun k' => f d' k')) = f 2%nat 0%nat + f 4%nat 0%nat) by (intros f; unfold Sum; cbn; lra).
  rewrite !S. rewrite !(GG 2%nat), !(GG 4%nat) by auto. rewrite ?S. destruct D as [-> | ->]; rewrite ?(GG 2%nat), ?(GG 4%nat) by auto; unfold pj_inverse; cbn [Nat.eqb]; split; lra.
Qed.
Definition tr_config : config (exact 1000) := Build_config (exact 1000) RELATIVE (/ 10) 1 10 3.
Definition tr_arr (r : nat) : list R := repeat 5 (length (held ex_first ex_L r)).
Definition tr_lumped : (nat -> list R) -> (nat -> list R) -> Prop := run_synchronized Rplus 3 7 tr (fun r => lumped_apply 0 1 Rplus Rmult (stored ex_first ex_L tr_len tr_row r) (tr_solve tr_K r)).
Example tr_lumped_runs z : tr_lumped (dual ex_first ex_L z) (dual ex_first ex_L (lumped_of 3 ex_first ex_L tr_len tr_row tr_K z)).
Proof.
  apply (lumped_runs 3 7 ex_first ex_L ex_nbs ex_cmap (fun r => nth r [5; 4; 3]%nat 0%nat) ex_itv [7%nat] ex_consistent ltac:(lia) pc_limit tr_len tr_row tr_entries pj_ksize pj_R (Whole pj_inverse) GGT tr tr_keeps). intros r _. apply tr_solves.
Qed.
(** all hypotheses hold: the solution with the lumped preconditioner, for any loads and gaps *)
Example tr_solution (f : nat -> nat -> R) (c : nat -> R) : exists k t u lambda, (k <= 7)%nat /\
  run_solve (exact 1000) (fun _ => false) 1000 S_Pcpg.quotient tr_config 3 7 GGT tr (stored ex_first ex_L tr_len tr_row) (tr_solve tr_kplus) tr_lumped tr_arr tr_arr tr_arr tr_arr (fun _ => [0; 0]) (fun r => map (fun _ => repeat 5 7) (own ex_first r))
    k (fun r => map (dense tr_len f) (own ex_first r)) (dual ex_first ex_L c) t (fun r => map (dense tr_len u) (own ex_first r)) (fun r => map (dense tr_len (Bt_of ex_L tr_row lambda)) (own ex_first r)) /\
  px (exact 1000) t = dual ex_first ex_L lambda /\ equilibrium 3 ex_first ex_L tr_len tr_row tr_K f u lambda /\ (converged (exact 1000) (pstatus (exact 1000) t) = true \/ compatible 3 ex_first ex_L tr_len tr_row c u).
Proof.
  assert (La : forall r, (r < 3)%nat -> length (tr_arr r) = length (held ex_first ex_L r)) by (intros; apply repeat_length).
  apply (total_feti_solves 1000 (fun _ => false) 1000 tr_config 3 7 ex_first ex_L ex_nbs ex_cmap (fun r => nth r [5; 4; 3]%nat 0%nat) ex_itv [7%nat] ex_consistent ltac:(lia) pc_limit tr_len tr_row tr_entries pj_ksize pj_R (Whole pj_inverse) GGT tr tr_keeps
    tr_arr tr_arr tr_arr tr_arr La La La La tr_K tr_kplus (tr_solve tr_kplus) (fun r _ => tr_solves tr_kplus r) tr_semidefinite tr_kernels tr_spans tr_independent tr_inverse) with (Sg := lumped_of 3 ex_first ex_L tr_len tr_row tr_K).
  - intros d i j _ _ _. unfold tr_kplus. rewrite (Nat.eqb_sym j i). reflexivity.
  - exact tr_inverts.
  - right. left. reflexivity.
  - exact tr_lumped_runs.
  - reflexivity.
  - intros r _. rewrite !map_map. reflexivity.
  - cbn. lia.
  - cbn. lia.
Qed.
(** Dirichlet on the domains of P_Precond, without kernels *)
Definition td (r : nat) : projector R :=
  {| threads := 3; dist := pj_dist 8 3 0; koffset := 0; ksize_local := 0; ktotal := 0; mG := []; invGGt := []; invL := []; invU := []; mR1 := R_stored ex_first (fun _ => 3%nat) (fun _ => 0%nat) pj_R r;
     arrGx := []; arrIGGtGx := []; arrMid := []; deco := decomposed ex_first ex_nbs r; dmap := ex_map r; sendBuffer := tf_buf r; recvBuffer := tf_buf r |}.
Lemma td_keeps r : (r < 3)%nat -> keeps 3 ex_first ex_L ex_nbs ex_cmap (fun r => nth r [5; 4; 3]%nat 0%nat) ex_itv [7%nat] (fun _ => 3%nat) tf_row (fun _ => 0%nat) pj_R Nothing NONE r (td r).
Proof.
  intros Hr. assert (Z : forall ds, kernels (fun _ => 0%nat) ds = 0%nat) by (induction ds as [|d ds IH]; [reflexivity|exact IH]). split; try (cbn [td koffset ksize_local ktotal arrGx arrIGGtGx arrMid length]; now rewrite Z); try reflexivity.
  - cbn [td threads dist]. unfold pj_dist. rewrite Z. destruct (kernel_distribution_covers 8 3 0 [0; 0]%nat ltac:(lia) ltac:(lia) ltac:(discriminate) eq_refl) as (d & -> & D). exact D.
  - symmetry. apply (Z (seq (ex_first 0) (ex_first r - ex_first 0))).
  - symmetry. unfold td, mG, G_stored. induction (own ex_first r) as [|d l IH]; [reflexivity|exact IH].
  - split; [reflexivity|]. reflexivity.
  - now apply ex_map_ok.
  - now apply ex_intervals_ok.
  - apply tf_buffers.
  - apply tf_buffers.
Qed.
Example td_dirichlet_runs : exists S, (forall x, is_dirichlet 3 ex_first ex_L (fun _ => 3%nat) tf_row pc_k x (S x)) /\
  forall z, run_synchronized Rplus 3 7 td (fun r => dirichlet_apply 0 1 Rplus Rmult (stored ex_first ex_L (fun _ => 3%nat) tf_row r) (pc_ixs r) (pc_scs r) (pc_olds r)) (dual ex_first ex_L z) (dual ex_first ex_L (S z)).
Proof.
  destruct (dirichlet_runs 3 7 ex_first ex_L ex_nbs ex_cmap (fun r => nth r [5; 4; 3]%nat 0%nat) ex_itv [7%nat] ex_consistent ltac:(lia) pc_limit (fun _ => 3%nat) tf_row (proj1 tf_entries) (fun _ => 0%nat) pj_R Nothing NONE td td_keeps
    pc_k pc_K (fun d _ => pc_stores d) (fun _ => SymSymmetric) (fun _ => eq_refl) (isort ijv_ltb) (isort_contract _ pc_order) pc_alloc pc_alloc_ok pc_solve pc_solves pc_ixs pc_scs pc_updated) as (S & S1 & S2).
  exists S. split; [exact S1|]. intros z. apply S2. intros r Hr. split; [unfold pc_olds; now rewrite map_length|]. intros d Id. unfold pc_olds. now rewrite (own_nth ex_first r (fun _ => [5; 6; 7])).
Qed.

Print Assumptions pcpg_ranks_compute.
Print Assumptions implicit_operator_runs.
Print Assumptions empty_runs.
Print Assumptions lumped_runs.
Print Assumptions dirichlet_runs.
Print Assumptions implicit_dirichlet_runs.
Print Assumptions total_feti_problem.
Print Assumptions dual_energy.
Print Assumptions total_feti_states.
Print Assumptions total_feti_solves.
