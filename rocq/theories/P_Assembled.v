(** * Properties of the whole Total FETI solution: C130 *)
From Coq Require Import List Arith Bool Permutation Sorted Reals Lia Lra.
From Verif Require Import Base S_Order M_Nb S_Nb S_Comm M_Exchange M_Mpi M_Dual S_Dual P_Dual S_Equality M_Equality L_Equality4 L_Equality6 L_Equality7 P_Equality M_TotalFeti S_Feti L_TotalFeti L_TotalFeti2 P_TotalFeti L_Sort.
From Verif Require Import M_Projector S_Projector L_Projector L_Projector2 L_Projector3 M_ProjectorRanks S_ProjectorRanks P_Projector M_Reconstruct S_Reconstruct P_Reconstruct.
From Verif Require Import M_Precond S_Precond P_Precond M_DualVector M_Mprgp M_SolverInfo S_Mprgp M_PcpgRanks S_PcpgRanks L_PcpgRanks L_PcpgRanks2 P_PcpgRanks M_Assembled S_Assembled L_Assembled.
From Verif Require M_Pcpg S_Pcpg.
Import ListNotations.
Local Open Scope R_scope.

Section Assembled.
  (* the mesh and the constraints *)
  Variables (n limit : nat) (first : nat -> nat) (N : nat) (copies : nat -> list nat) (fixed : nat -> bool) (index : nat -> nat -> nat -> nat).
  Hypothesis M : mesh n first N copies.
  Variable nb : nat -> list nat.
  Variable glued : list (nat * nat).
  Hypothesis Hg : ordered N copies fixed glued.
  Variable sort : (nat * nat -> nat * nat -> bool) -> list (nat * nat) -> list (nat * nat).
  Hypothesis Hsort : forall lt, strict_weak_order lt -> sort_contract lt (sort lt).
  Variables (ix : nat -> nat -> nat) (len : nat -> nat).
  Hypothesis HN : numbered N copies ix len.
  Hypothesis Hix : forall r d g, (r < n)%nat -> In d (own_domains first r) -> (g < N)%nat -> In d (copies g) -> index r d g = ix d g.
  Local Notation ms := (multipliers n first N copies fixed glued).
  Local Notation L := (map (domains_of copies) ms).
  Local Notation row := (equality_row n first N copies fixed glued ix).
  Local Notation all := (everything n first).
  Local Notation own := (own first).
  Variable E : nat -> constraints R.
  Hypothesis HE : forall r, (r < n)%nat ->
    equality_set 0 1 low diag sort (decomposed first nb r) (dmap_of first N copies index r) (fixed_of first N copies fixed r) = Ok (E r).
  Variables (value : nat -> R) (cs : nat -> list R).
  Hypothesis Hcs : forall r, (r < n)%nat ->
    equality_update 0 (decomposed first nb r) (E r) (dmap_of first N copies index r) (dirichlet_of first N copies fixed value r) = Ok (cs r).
  Local Notation F := (fun r => feti_of (E r) (map len (own r))).

  (** the program's constraints are what the solver gets *)
  Lemma feti_stored r : (r < n)%nat -> F r = stored first L len row r.
  Proof.
    intros Hr. destruct (set_facts 0 1 low diag n first N copies fixed index M nb glued Hg sort Hsort E HE r Hr) as (E1 & _). unfold feti_of, stored. f_equal.
    - rewrite map_length. unfold S_Feti.own, own_domains. rewrite seq_length.
      transitivity (map (fun i => stored_rows first L row r (first r + i)) (seq 0 (first (r + 1) - first r))).
      + apply map_ext_in. intros i Ii. apply in_seq in Ii. destruct (equality_rows_stored n first N copies fixed index M nb glued Hg sort Hsort ix Hix r (E r) (first r + i) Hr ltac:(unfold own_domains; apply in_seq; lia) (HE r Hr)) as (rows & R1 & R2).
        replace (first r + i - first r)%nat with i in R1 by lia. rewrite R1. exact R2.
      + replace (seq (first r) (first (r + 1) - first r)) with (map (fun i => first r + i)%nat (seq 0 (first (r + 1) - first r))); [now rewrite map_map|]. generalize (first (r + 1) - first r)%nat as k. intros k. clear.
        apply (nth_ext _ _ (first r + 0)%nat O); [now rewrite map_length, !seq_length|]. intros i Hi. rewrite map_length, seq_length in Hi. rewrite (map_nth (fun i => first r + i)%nat), !seq_nth by exact Hi. lia.
    - rewrite E1. unfold S_Dual.held, held_multipliers. rewrite map_length. rewrite <- (filter_nth_seq (fun m => touches first r (domains_of copies m)) ms (Fix 0 0)), map_length. f_equal. apply filter_ext_in. intros i Ii. apply in_seq in Ii.
      rewrite L_nth; [reflexivity|rewrite map_length; lia].
  Qed.
  Lemma gaps_stored r : (r < n)%nat -> S_Feti.dual first L (fun i => rhs 0 value (nth i ms (Fix 0 0))) r = cs r.
  Proof.
    intros Hr. pose proof (constraints_update 0 1 low diag n first N copies fixed index M nb glued Hg sort Hsort E HE value r Hr) as U. rewrite Hcs in U by exact Hr. injection U as ->. symmetry. apply held_vector.
  Qed.

  (* the solver *)
  Hypothesis Hn : (0 < n)%nat.
  Hypothesis Hnb : neighbourhood n nb.
  Hypothesis Hme : forall r, (r < n)%nat -> ~ In r (nb r).
  Hypothesis Hsh : knows_sharing n first L nb.
  Hypothesis Hlimit : forall r q, (r < n)%nat -> In q (nb r) -> (length (common first L r q) <= limit)%nat.
  Variables (h : R) (isnan : R -> bool) (infinity : R) (C : config (exact h)).
  Variables (ksize : nat -> nat) (Rk : nat -> nat -> nat -> R) (J : inverse) (type : ggt_type) (p : nat -> projector R).
  Hypothesis HP : forall r, (r < n)%nat -> keeps n first L nb (fun r => e_cmap (E r)) (fun r => e_size (E r)) (fun r => [e_interval (E r)]) [length L] len row ksize Rk J type r (p r).
  Local Notation sized a := (forall r, (r < n)%nat -> length (a r) = e_size (E r)).
  Variables (arrFx arrL arrW arrY : nat -> list R).
  Hypotheses (LFx : sized arrFx) (LL : sized arrL) (LW : sized arrW) (LY : sized arrY).
  Variables (K kplus : nat -> nat -> nat -> R) (solve : nat -> nat -> list R -> list R).
  Hypothesis Hsolve : forall r, (r < n)%nat -> solves first len kplus r (solve r).
  Hypothesis HK : semidefinite n first len K.
  Hypothesis HR : kernels_of n first len ksize Rk K.
  Hypothesis HR' : spans_kernel n first len ksize Rk K.
  Hypothesis HG : generalized_inverse n first len ksize Rk K kplus.
  Hypothesis Hsym : forall d i j, In d all -> (i < len d)%nat -> (j < len d)%nat -> kplus d i j = kplus d j i.
  Hypothesis HJ : inverts n first L len row ksize Rk J.
  Variables (Sg : (nat -> R) -> nat -> R) (runS : (nat -> list R) -> (nat -> list R) -> Prop).
  Hypothesis HS : is_preconditioner n first L len row K Sg.
  Hypothesis HrunS : forall z, runS (S_Feti.dual first L z) (S_Feti.dual first L (Sg z)).
  Variables (f : nat -> nat -> R) (arrE : nat -> list R) (arrRa : nat -> list (list R)).
  Hypothesis LE : forall r, (r < n)%nat -> length (arrE r) = kernels ksize all.
  Hypothesis LRa : forall r, (r < n)%nat -> map (@length R) (arrRa r) = map len (own r).

  Lemma size_held r : (r < n)%nat -> e_size (E r) = length (held first L r).
  Proof. intros Hr. pose proof (f_equal (@lambdas R) (feti_stored r Hr)) as X. exact X. Qed.

  (** C130: Total FETI on all ranks solves the assembled problem: at every free DOF the forces of the domains are the load; unless a stopping
      criterion was met before, the copies of every DOF are equal, the fixed ones have their values and the common values solve the problem
      without domains *)
  Theorem total_feti_assembled : covered n first N copies ix len -> (0 < max_stagnation (exact h) C)%nat -> (0 < print_iteration (exact h) C)%nat ->
    exists k t u btl, (k <= length ms)%nat /\
      run_solve (exact h) isnan infinity S_Pcpg.quotient C n limit type p F solve runS arrFx arrL arrW arrY arrE arrRa k (fun r => map (dense len f) (own r)) cs t
        (fun r => map (dense len u) (own r)) btl /\
      balanced N copies fixed ix len K f u /\
      (converged (exact h) (pstatus (exact h) t) = true \/ exists U, restricts N copies ix U u /\ solves_assembled N copies fixed ix K f value U).
  Proof.
    intros HC M0 P0. pose proof (constraints_consistent 0 1 low diag n first N copies fixed index M nb glued Hg sort Hsort E HE Hnb Hme Hsh) as CC.
    assert (LH : forall a : nat -> list R, sized a -> forall r, (r < n)%nat -> length (a r) = length (held first L r)) by (intros a Ha r Hr; rewrite <- size_held by exact Hr; now apply Ha).
    destruct (total_feti_solves h isnan infinity C n limit first L nb _ _ _ _ CC Hn Hlimit len row (proj1 (equality_rows_ok n first N copies fixed M glued Hg ix len HN)) ksize Rk J type p HP arrFx arrL arrW arrY (LH _ LFx) (LH _ LL) (LH _ LW) (LH _ LY)
      K kplus solve Hsolve HK HR HR' (rows_independent n first N copies fixed M glued Hg ix len HN) HG Hsym HJ Sg runS HS HrunS f (fun i => rhs 0 value (nth i ms (Fix 0 0))) arrE arrRa LE LRa M0 P0) as (k & t & u & lambda & Hk & T1 & T2 & T3 & T4).
    exists k, t, u, (fun r => map (dense len (Bt_of L row lambda)) (own r)). rewrite map_length in Hk. split; [exact Hk|]. split.
    - revert T1. apply (solve_ext (exact h)); [intros r Hr; symmetry; now apply feti_stored|exact gaps_stored].
    - pose proof (equilibrium_balanced n first N copies fixed M glued Hg ix len HN K f u lambda T3) as BA. split; [exact BA|]. destruct T4 as [T4|T4]; [now left|right].
      apply (assembled_solution n first N copies fixed M ix len HN K f value u HC BA). now apply (compatible_meaning n first N copies fixed M glued Hg ix len HN).
  Qed.
  (** C130: in every state of the solver, with any division *)
  Theorem total_feti_balanced q k s : 
    M_Pcpg.pcpg (exact h) isnan infinity q C (global n first L len row ksize Rk J h false (F_of n first L len row kplus) Sg) k
      (multipliers_of L (fun i => B_of n first len row (Kplus_of len kplus f) i - rhs 0 value (nth i ms (Fix 0 0)))) (kernel_vector ksize all (e_of len Rk f)) = Ok s ->
    exists t u btl, run_solve (exact h) isnan infinity q C n limit type p F solve runS arrFx arrL arrW arrY arrE arrRa k (fun r => map (dense len f) (own r)) cs t
        (fun r => map (dense len u) (own r)) btl /\ pstatus (exact h) t = M_Pcpg.status (exact h) s /\ balanced N copies fixed ix len K f u.
  Proof.
    intros H. pose proof (constraints_consistent 0 1 low diag n first N copies fixed index M nb glued Hg sort Hsort E HE Hnb Hme Hsh) as CC.
    assert (LH : forall a : nat -> list R, sized a -> forall r, (r < n)%nat -> length (a r) = length (held first L r)) by (intros a Ha r Hr; rewrite <- size_held by exact Hr; now apply Ha).
    destruct (total_feti_states h isnan infinity C n limit first L nb _ _ _ _ CC Hn Hlimit len row (proj1 (equality_rows_ok n first N copies fixed M glued Hg ix len HN)) ksize Rk J type p HP arrFx arrL arrW arrY (LH _ LFx) (LH _ LL) (LH _ LW) (LH _ LY)
      K kplus solve Hsolve HK HR HR' (rows_independent n first N copies fixed M glued Hg ix len HN) HG Hsym HJ Sg runS HS HrunS f (fun i => rhs 0 value (nth i ms (Fix 0 0))) arrE arrRa LE LRa q k s H) as (t & u & lambda & w & T1 & T2 & T3 & T4 & T5 & T6).
    exists t, u, (fun r => map (dense len (Bt_of L row lambda)) (own r)). split; [|split; [exact T4|now apply (equilibrium_balanced n first N copies fixed M glued Hg ix len HN K f u lambda)]].
    revert T1. apply (solve_ext (exact h)); [intros r Hr; symmetry; now apply feti_stored|exact gaps_stored].
  Qed.
End Assembled.

(** ** A case: the mesh of P_Equality (three domains on two ranks, the last DOF is fixed); domain 1 floats *)
Local Notation as_ms := (multipliers 2 eq_first 4 eq_copies eq_fixed eq_glued).
Local Notation as_L := (map (domains_of eq_copies) as_ms).
Local Notation as_row := (equality_row 2 eq_first 4 eq_copies eq_fixed eq_glued eq_ix).
Definition as_len (d : nat) : nat := 3.
Definition as_ksize (d : nat) : nat := if (d =? 1)%nat then 1 else 0.
Definition as_R (d k j : nat) : R := 1.
Definition as_K (d i j : nat) : R := if (d =? 1)%nat then (if (i =? j)%nat then 1 else 0) - 1 / 3 else (if (i =? j)%nat then 2 else 0).
Definition as_kplus (d i j : nat) : R := if (d =? 1)%nat then (if (i =? j)%nat then 1 else 0) - 1 / 3 else (if (i =? j)%nat then / 2 else 0).
Definition as_solve (k : nat -> nat -> nat -> R) (r i : nat) (v : list R) : list R := dense as_len (Kplus_of as_len k (fun _ j => nth j v 0)) (eq_first r + i).
Definition as_inverse (d k d' k' : nat) : R := 6 / 13.
Definition as_map (r : nat) : dual_map :=
  match dual_map_set (decomposed eq_first eq_nb r) (e_size (eq_E r)) [e_interval (eq_E r)] (e_cmap (eq_E r)) with Ok M => M | _ => Build_dual_map 0 [] [] [] end.
Definition as_buf (r : nat) : list (list R) := map (fun s => repeat 0 s) (nsize (as_map r)).
Definition as_p (r : nat) : projector R :=
  {| threads := 3; dist := pj_dist 8 3 (kernels as_ksize (own eq_first r)); koffset := kernels_before eq_first as_ksize r; ksize_local := kernels as_ksize (own eq_first r);
     ktotal := kernels as_ksize (everything 2 eq_first); mG := G_stored eq_first as_L as_len as_row as_ksize as_R r; invGGt := kernel_rows 2 eq_first as_ksize (own eq_first r) as_inverse;
     invL := []; invU := []; mR1 := R_stored eq_first as_len as_ksize as_R r; arrGx := repeat 7 1; arrIGGtGx := repeat 8 (kernels as_ksize (own eq_first r)); arrMid := repeat 9 1;
     deco := decomposed eq_first eq_nb r; dmap := as_map r; sendBuffer := as_buf r; recvBuffer := as_buf r |}.
Lemma as_consistent : S_Dual.consistent 2 eq_first as_L eq_nb (fun r => e_cmap (eq_E r)).
Proof.
  destruct products_hyps as (H1 & H2 & H3). exact (constraints_consistent 0 1 low diag 2 eq_first 4 eq_copies eq_fixed eq_index eq_mesh eq_nb eq_glued eq_ordered isort eq_sort eq_E eq_E_ok H1 H2 H3).
Qed.
Lemma as_map_ok r : (r < 2)%nat -> dual_map_set (decomposed eq_first eq_nb r) (e_size (eq_E r)) [e_interval (eq_E r)] (e_cmap (eq_E r)) = Ok (as_map r).
Proof. intros Hr. unfold as_map. destruct (dual_map_sizes 2 eq_first as_L eq_nb _ as_consistent r (e_size (eq_E r)) [e_interval (eq_E r)] Hr) as (M & E & _). now rewrite E. Qed.
Lemma as_buffers r : buffers (as_map r) (as_buf r).
Proof. unfold buffers, as_buf. rewrite map_map. etransitivity; [|apply map_id]. apply map_ext. intros s. apply repeat_length. Qed.
Lemma as_keeps r : (r < 2)%nat -> keeps 2 eq_first as_L eq_nb (fun r => e_cmap (eq_E r)) (fun r => e_size (eq_E r)) (fun r => [e_interval (eq_E r)]) [length as_L] as_len as_row as_ksize as_R (Whole as_inverse) GGT r (as_p r).
Proof.
  intros Hr. split; try reflexivity.
  - cbn [as_p threads dist]. unfold pj_dist. destruct (kernel_distribution_covers 8 3 (kernels as_ksize (own eq_first r)) [0; 0]%nat ltac:(lia) ltac:(lia) ltac:(discriminate) eq_refl) as (d & -> & D). exact D.
  - split; reflexivity.
  - cbn [as_p arrIGGtGx]. apply repeat_length.
  - now apply as_map_ok.
  - destruct (constraints_set 0 1 low diag 2 eq_first 4 eq_copies eq_fixed eq_index eq_mesh eq_nb eq_glued eq_ordered isort eq_sort r Hr) as (E & E1 & _ & _ & E4 & _). fold (eq_set r) in E1. rewrite eq_E_ok in E1 by exact Hr. injection E1 as <-. exact E4.
  - apply as_buffers.
  - apply as_buffers.
Qed.
Lemma as_solves k r : solves eq_first as_len k r (as_solve k r).
Proof. intros d v Id Lv. unfold as_solve. unfold own, own_domains in Id. apply in_seq in Id. f_equal. lia. Qed.
Local Ltac three i Hi := destruct i as [|[|[|i]]]; [| | |exfalso; clear - Hi; cbn in Hi; lia].
Lemma as_semidefinite : semidefinite 2 eq_first as_len as_K.
Proof.
  split.
  - intros d i j _ _ _. unfold as_K. rewrite (Nat.eqb_sym j i). reflexivity.
  - intros d v _. unfold as_len, S_Precond.times, as_K. destruct (d =? 1)%nat; cbn [seq]; rewrite !Sum_cons, !Sum_nil; cbn [Nat.eqb].
    + set (s := v 0%nat + v 1%nat + v 2%nat). match goal with |- 0 <= ?e => replace e with ((v 0%nat - s / 3) * (v 0%nat - s / 3) + (v 1%nat - s / 3) * (v 1%nat - s / 3) + (v 2%nat - s / 3) * (v 2%nat - s / 3)) by (unfold s; field) end.
      repeat apply Rplus_le_le_0_compat; apply Rle_0_sqr.
    + match goal with |- 0 <= ?e => replace e with (2 * (v 0%nat * v 0%nat + v 1%nat * v 1%nat + v 2%nat * v 2%nat)) by ring end. apply Rmult_le_pos; [lra|]. repeat apply Rplus_le_le_0_compat; apply Rle_0_sqr.
Qed.
Lemma as_kernels : kernels_of 2 eq_first as_len as_ksize as_R as_K.
Proof. intros d k i Id Hk Hi. unfold as_ksize, as_K, as_R, as_len in *. destruct (d =? 1)%nat; [|lia]. cbn [seq]. rewrite !Sum_cons, !Sum_nil. three i Hi; cbn [Nat.eqb]; lra. Qed.
Lemma as_spans : spans_kernel 2 eq_first as_len as_ksize as_R as_K.
Proof.
  intros d v Id H. unfold S_Precond.times, as_ksize, as_K, as_R, as_len in *. destruct (d =? 1)%nat.
  - exists (fun _ => (v 0%nat + v 1%nat + v 2%nat) / 3). intros j Hj. specialize (H j Hj). cbn [seq] in *. rewrite !Sum_cons, !Sum_nil in *. three j Hj; cbn [Nat.eqb] in H; lra.
  - exists (fun _ => 0). intros j Hj. specialize (H j Hj). cbn [seq] in *. rewrite ?Sum_cons, ?Sum_nil in *. three j Hj; cbn [Nat.eqb] in H; lra.
Qed.
Lemma as_generalized : generalized_inverse 2 eq_first as_len as_ksize as_R as_K as_kplus.
Proof.
  intros g d i Id Hi O. unfold K_of, Kplus_of, as_K, as_kplus, as_ksize, as_R, as_len in *. destruct (d =? 1)%nat.
  - specialize (O 0%nat ltac:(lia)). cbn [seq] in *. rewrite !Sum_cons, !Sum_nil in *. three i Hi; cbn [Nat.eqb]; lra.
  - cbn [seq] in *. rewrite !Sum_cons, !Sum_nil in *. three i Hi; cbn [Nat.eqb]; lra.
Qed.
Lemma as_inverts : inverts 2 eq_first as_L as_len as_row as_ksize as_R (Whole as_inverse).
Proof.
  assert (X : everything 2 eq_first = [0; 1; 2]%nat) by reflexivity.
  assert (GG : GGt as_L as_len as_row as_R 1 0 1 0 = 13 / 6).
  { unfold GGt, S_Projector.G. rewrite (Sum_ext _ _ (fun m => Sum (seq 0 3) (fun j => entry eq_copies low diag eq_ix (nth m as_ms (Fix 0 0)) 1 j) * Sum (seq 0 3) (fun j => entry eq_copies low diag eq_ix (nth m as_ms (Fix 0 0)) 1 j))).
    2: { intros m. unfold as_len, as_R. rewrite (Sum_ext _ _ (fun j => entry eq_copies low diag eq_ix (nth m as_ms (Fix 0 0)) 1 j)); [lra|]. intros j. rewrite row_entry. lra. }
    assert (S1 : scale 1 * scale 1 = 2). { pose proof (scale_square 1 ltac:(lia)) as Q. cbn in Q. lra. }
    assert (S2 : scale 2 * scale 2 * 2 = 3). { pose proof (scale_square 2 ltac:(lia)) as Q. cbn in Q. lra. }
    unfold Sum. cbn. unfold low, diag. cbn [INR]. nra. }
  intros w d k Id Hk. rewrite X in Id. assert (D : d = 1%nat /\ k = 0%nat).
  { repeat (destruct Id as [<-|Id]; [cbn in Hk; lia|]). destruct Id. }
  destruct D as [-> ->]. cbn [inverse_of]. unfold kernel_product. rewrite X.
  assert (S : forall f : nat -> nat -> R, Sum [0; 1; 2]%nat (fun d' => Sum (seq 0 (as_ksize d')) (fun k' => f d' k')) = f 1%nat 0%nat) by (intros f; unfold Sum; cbn; lra).
  rewrite !S. rewrite ?S, !GG. unfold as_inverse. split; lra.
Qed.
Lemma as_covered : covered 2 eq_first 4 eq_copies eq_ix as_len.
Proof.
  intros d j Id Hj. unfold as_len in Hj. assert (D : (d < 3)%nat) by (unfold all_domains in Id; apply in_seq in Id; cbn in Id; lia).
  exists (nth j (nth d [[0; 2; 3]; [0; 1; 3]; [1; 0; 3]] [])%nat 0%nat). destruct d as [|[|[|d]]]; [| | |lia]; three j Hj; cbn; repeat split; auto; lia.
Qed.
Definition as_arr (r : nat) : list R := repeat 5 (e_size (eq_E r)).
Definition as_gaps (value : nat -> R) (r : nat) : list R := match equality_update 0 (decomposed eq_first eq_nb r) (eq_E r) (dmap_of eq_first 4 eq_copies eq_index r) (dirichlet_of eq_first 4 eq_copies eq_fixed value r) with Ok c => c | _ => [] end.
(** all hypotheses hold, without a preconditioner: for any loads and any value of the fixed DOF *)
Example as_solution (f : nat -> nat -> R) (value : nat -> R) : exists k t u btl, (k <= 6)%nat /\
  run_solve (exact 1000) (fun _ => false) 1000 S_Pcpg.quotient tr_config 2 6 GGT as_p (fun r => feti_of (eq_E r) (map as_len (own eq_first r))) (as_solve as_kplus) (run_empty 2) as_arr as_arr as_arr as_arr (fun _ => [0]) (fun r => map (fun _ => repeat 5 3) (own eq_first r))
    k (fun r => map (dense as_len f) (own eq_first r)) (as_gaps value) t (fun r => map (dense as_len u) (own eq_first r)) btl /\ balanced 4 eq_copies eq_fixed eq_ix as_len as_K f u /\
  (converged (exact 1000) (pstatus (exact 1000) t) = true \/ exists U, restricts 4 eq_copies eq_ix U u /\ solves_assembled 4 eq_copies eq_fixed eq_ix as_K f value U).
Proof.
  assert (La : forall r, (r < 2)%nat -> length (as_arr r) = e_size (eq_E r)) by (intros; apply repeat_length). destruct products_hyps as (H1 & H2 & H3).
  assert (Hc : forall r, (r < 2)%nat -> equality_update 0 (decomposed eq_first eq_nb r) (eq_E r) (dmap_of eq_first 4 eq_copies eq_index r) (dirichlet_of eq_first 4 eq_copies eq_fixed value r) = Ok (as_gaps value r)).
  { intros r Hr. unfold as_gaps. now rewrite (constraints_update 0 1 low diag 2 eq_first 4 eq_copies eq_fixed eq_index eq_mesh eq_nb eq_glued eq_ordered isort eq_sort eq_E eq_E_ok value r Hr). }
  apply (total_feti_assembled 2 6 eq_first 4 eq_copies eq_fixed eq_index eq_mesh eq_nb eq_glued eq_ordered isort eq_sort eq_ix as_len eq_numbered eq_index_own eq_E eq_E_ok value (as_gaps value) Hc ltac:(lia) H1 H2 H3) with (ksize := as_ksize) (Rk := as_R) (J := Whole as_inverse) (kplus := as_kplus) (Sg := fun x => x).
  - intros r q Hr I. destruct r as [|[|r]]; [| |lia]; destruct I as [<-|[]]; cbn; lia.
  - exact as_keeps.
  - exact La.
  - exact La.
  - exact La.
  - exact La.
  - intros r _. apply as_solves.
  - exact as_semidefinite.
  - exact as_kernels.
  - exact as_spans.
  - exact as_generalized.
  - intros d i j _ _ _. unfold as_kplus. rewrite (Nat.eqb_sym j i). reflexivity.
  - exact as_inverts.
  - left. reflexivity.
  - intros z. apply empty_runs.
  - reflexivity.
  - intros r _. rewrite !map_map. reflexivity.
  - exact as_covered.
  - cbn. lia.
  - cbn. lia.
Qed.

Print Assumptions total_feti_assembled.
Print Assumptions total_feti_balanced.
