(** * Lemmas about PCPG on all ranks *)
From Coq Require Import List Arith Bool Permutation Reals Lia Lra FunctionalExtensionality.
From Verif Require Import Base S_Nb M_Mpi M_Dual S_Dual P_Dual S_Equality M_Equality L_Equality6 M_TotalFeti S_Feti L_TotalFeti L_TotalFeti2 P_TotalFeti M_Projector S_Projector L_Projector L_Projector2 L_Projector3 M_ProjectorRanks S_ProjectorRanks P_Projector M_Reconstruct S_Reconstruct.
From Verif Require Import M_DualVector M_Mprgp M_SolverInfo S_Mprgp M_PcpgRanks S_Precond S_PcpgRanks.
From Verif Require M_Pcpg S_Pcpg.
Import ListNotations.
Local Open Scope out_scope.
Local Open Scope R_scope.

Lemma nth_map_seq (g : nat -> R) N m : (m < N)%nat -> nth m (map g (seq 0 N)) 0 = g m.
Proof. intros H. rewrite (nth_indep _ 0 (g 0%nat)) by (rewrite map_length, seq_length; lia). rewrite map_nth. f_equal. rewrite seq_nth; lia. Qed.
Lemma map_nth_seq (v : list R) : map (fun m => nth m v 0) (seq 0 (length v)) = v.
Proof.
  apply (nth_ext _ _ 0 0); [now rewrite map_length, seq_length|]. intros i Hi. rewrite map_length, seq_length in Hi. rewrite (nth_map_seq (fun m => nth m v 0)) by lia. reflexivity.
Qed.
Lemma kernel_vector_app ksize a b w : kernel_vector ksize (a ++ b) w = kernel_vector ksize a w ++ kernel_vector ksize b w.
Proof. apply flat_map_app. Qed.

Section Simulation.
  Variables (h : R).
  Local Notation E := (exact h).
  Variables (isnan : R -> bool) (infinity : R) (quotient : R -> R -> outcome R) (C : config (exact h)).
  Variables (n limit : nat) (first : nat -> nat) (L : list (list nat)) (nb : nat -> list nat) (cmap : nat -> list nat) (sz : nat -> nat) (itv : nat -> list (nat * nat)) (sizes : list nat).
  Hypothesis HC : consistent n first L nb cmap.
  Hypothesis Hn : (0 < n)%nat.
  Hypothesis Hlimit : forall r q, (r < n)%nat -> In q (nb r) -> (length (common first L r q) <= limit)%nat.
  Variables (len : nat -> nat) (row : nat -> nat -> list (nat * R)).
  Hypothesis HB : entries_ok L len row.
  Variables (ksize : nat -> nat) (Rk : nat -> nat -> nat -> R) (J : inverse) (type : ggt_type) (p : nat -> projector R).
  Hypothesis HP : forall r, (r < n)%nat -> keeps n first L nb cmap sz itv sizes len row ksize Rk J type r (p r).
  Variables (conjugate : bool) (runF runS : (nat -> list R) -> (nat -> list R) -> Prop) (Fg Sg : (nat -> R) -> nat -> R).
  Local Notation dual := (dual first L).
  Hypothesis HF : forall z, runF (dual z) (dual (Fg z)).
  Hypothesis HS : forall z, runS (dual z) (dual (Sg z)).
  Hypothesis RF : respects L Fg.
  Variables (arrFx arrL arrW arrY : nat -> list R).
  Local Notation sized a := (forall r, (r < n)%nat -> length (a r) = length (held first L r)).
  Hypotheses (LFx : sized arrFx) (LL : sized arrL) (LW : sized arrW) (LY : sized arrY).
  Local Notation all := (everything n first).
  Local Notation G_of := (G_of L len row Rk).
  Local Notation Gt_of := (Gt_of n first len row ksize Rk).
  Local Notation J_of := (inverse_of n first ksize J).
  Local Notation N := (length L).
  Local Notation lst := (multipliers_of L).
  Local Notation A := (global n first L len row ksize Rk J h conjugate Fg Sg).
  Local Notation ask := (as_kernels first ksize).
  Local Notation D v := (dual (as_function v)).

  Lemma lst_len g : length (lst g) = N.
  Proof. unfold multipliers_of, multiplier_list. now rewrite map_length, seq_length. Qed.
  Lemma as_lst g m : (m < N)%nat -> as_function (lst g) m = g m.
  Proof. intros H. now apply nth_map_seq. Qed.
  Lemma lst_as v : length v = N -> lst (as_function v) = v.
  Proof. intros H. unfold multipliers_of, multiplier_list. rewrite <- H. apply map_nth_seq. Qed.
  Lemma lst_ext g g' : (forall m, (m < N)%nat -> g m = g' m) -> lst g = lst g'.
  Proof. clear Hn. intros H. apply map_ext_in. intros m Im. apply in_seq in Im. apply H. lia. Qed.
  Lemma held_in r m : In m (held first L r) -> (m < N)%nat.
  Proof. clear Hn. intros H. apply filter_In in H. destruct H as [H _]. apply in_seq in H. lia. Qed.
  Lemma dual_ext g g' : (forall m, (m < N)%nat -> g m = g' m) -> dual g = dual g'.
  Proof. intros H. apply functional_extensionality. intros r. apply map_ext_in. intros m Im. apply H. now apply (held_in r). Qed.
  Lemma D_lst g : D (lst g) = dual g.
  Proof. apply dual_ext. apply as_lst. Qed.
  Lemma dual_len g r : length (dual g r) = length (held first L r).
  Proof. apply map_length. Qed.
  Lemma vadd_lst g a g' : vadd E (lst g) a (lst g') = lst (fun m => g m + a * g' m).
  Proof. unfold multipliers_of. generalize (multiplier_list L). intros l. induction l as [|m l IH]; [reflexivity|]. cbn [map]. cbn [vadd zip]. f_equal. exact IH. Qed.
  Lemma vadd_len (x : list R) (a : R) (y : list R) : length x = N -> length y = N -> length (vadd E x a y) = N.
  Proof. intros Hx Hy. rewrite <- (lst_as x Hx), <- (lst_as y Hy), vadd_lst. apply lst_len. Qed.
  Lemma axpy_dual g a g' r : axpy Rplus Rmult (dual g r) a (dual g' r) = dual (fun m => g m + a * g' m) r.
  Proof. unfold S_Feti.dual, vector, axpy. generalize (held first L r). intros l. induction l as [|m l IH]; [reflexivity|]. cbn [map combine fst snd]. now rewrite IH. Qed.
  Lemma axpy_D (x : list R) (a : R) (y : list R) r : length x = N -> length y = N -> axpy Rplus Rmult (D x r) a (D y r) = D (vadd E x a y) r.
  Proof.
    intros Hx Hy. rewrite axpy_dual. replace (vadd E x a y) with (vadd E (lst (as_function x)) a (lst (as_function y))) by (now rewrite !lst_as). rewrite vadd_lst, D_lst. reflexivity.
  Qed.
  Lemma dot_D (x y : list R) : length x = N -> length y = N -> run_dot E n p (D x) (D y) (dot E x y).
  Proof.
    intros Hx Hy. pose proof (maps_set n first L nb cmap sz itv sizes len row ksize Rk J type p HP) as Hm. pose proof (maps_intervals n first L nb cmap sz itv sizes len row ksize Rk J type p HP) as Hi.
    destruct (dot_counts_once Rplus n first L nb cmap HC (fun r => dmap (p r)) sz itv Hm sizes Hi 0 Rmult (as_function x) (as_function y)) as (locals & H1 & H2).
    { intros a b c. symmetry. apply Rplus_assoc. } { intros a b. apply Rplus_comm. } { intros a. apply Rplus_0_l. }
    exists locals. split; [exact H1|]. intros s R. rewrite (H2 s R). replace (dot E x y) with (dot E (lst (as_function x)) (lst (as_function y))) by (now rewrite !lst_as). unfold multipliers_of, multiplier_list. generalize (seq 0 N). intros l. induction l as [|m l IH]; [reflexivity|]. cbn [map fold_right]. cbn [dot]. now rewrite IH.
  Qed.

  (** kernels *)
  Lemma kernel_vector_len ds w : length (kernel_vector ksize ds w) = kernels ksize ds.
  Proof. unfold kernels, kernel_vector. induction ds as [|d ds IH]; [reflexivity|]. cbn [flat_map]. rewrite !app_length, IH, !map_length. reflexivity. Qed.
  Lemma ask_vector w d k : In d all -> (k < ksize d)%nat -> ask (kernel_vector ksize all w) d k = w d k.
  Proof.
    clear Hn. intros Id Hk. unfold as_kernels, everything, all_domains in *. apply in_seq in Id.
    replace (first n - first 0%nat)%nat with ((d - first 0%nat) + (1 + (first n - d - 1)))%nat by lia. rewrite seq_app, kernel_vector_app.
    rewrite <- (kernel_vector_len _ w), app_nth2_plus. replace (first 0%nat + (d - first 0%nat))%nat with d by lia. cbn [seq Nat.add]. unfold kernel_vector at 1. cbn [flat_map]. rewrite app_nth1 by (rewrite map_length, seq_length; lia). now apply nth_map_seq.
  Qed.
  Lemma J_ask w d k : J_of (ask (kernel_vector ksize all w)) d k = J_of w d k.
  Proof. apply (J_ext n first ksize J). intros. now apply ask_vector. Qed.
  Lemma G_ext x y : (forall m, (m < N)%nat -> x m = y m) -> forall d k, G_of x d k = G_of y d k.
  Proof. clear Hn. intros H d k. apply Sum_ext_in. intros m Im. apply in_seq in Im. rewrite H by lia. reflexivity. Qed.
  Lemma Gt_ext a b : (forall d k, In d all -> (k < ksize d)%nat -> a d k = b d k) -> forall m, Gt_of a m = Gt_of b m.
  Proof. clear Hn. intros H m. apply Sum_ext_in. intros d Id. apply Sum_ext_in. intros k Ik. apply in_seq in Ik. rewrite H by (auto; lia). reflexivity. Qed.
  Lemma Gt_inv w : M_Pcpg.Gt E A (M_Pcpg.inv E A (kernel_vector ksize all w)) = lst (Gt_of (J_of w)).
  Proof. cbn [global M_Pcpg.Gt M_Pcpg.inv]. apply lst_ext. intros m _. apply Gt_ext. intros d k Id Hk. rewrite ask_vector by auto. apply J_ask. Qed.
  Lemma Gt_inv_G g : M_Pcpg.Gt E A (M_Pcpg.inv E A (M_Pcpg.G E A (lst g))) = lst (Gt_of (J_of (G_of g))).
  Proof.
    replace (M_Pcpg.G E A (lst g)) with (kernel_vector ksize all (G_of g)); [apply Gt_inv|]. cbn [global M_Pcpg.G]. f_equal. apply functional_extensionality. intros d. apply functional_extensionality. intros k. symmetry. apply G_ext. apply as_lst.
  Qed.
  Lemma F_lst g : M_Pcpg.F E A (lst g) = lst (Fg g).
  Proof. cbn [global M_Pcpg.F]. apply lst_ext. apply RF. apply as_lst. Qed.
  Lemma vzero_lst : vzero E N = lst (fun _ => 0).
  Proof. unfold vzero, multipliers_of, multiplier_list. generalize 0%nat. induction N as [|k IH]; intros b; [reflexivity|]. cbn [repeat seq map]. now rewrite <- IH. Qed.
  Lemma project_lst g : M_Pcpg.project E A (lst g) = lst (fun m => g m - Gt_of (J_of (G_of (if conjugate then Fg g else g))) m).
  Proof.
    unfold M_Pcpg.project, M_Pcpg.apply_Gt. cbv zeta. change (M_Pcpg.conjugate E A) with conjugate. rewrite F_lst. match goal with |- context [M_Pcpg.G E A ?t] => replace t with (lst (if conjugate then Fg g else g)) by (destruct conjugate; reflexivity) end.
    rewrite Gt_inv_G, vadd_lst. apply lst_ext. intros m _. cbn [opp one exact]. lra.
  Qed.
  Definition PT_of (g : nat -> R) : nat -> R :=
    if conjugate then fun m => Fg (fun m => (- 1) * Gt_of (J_of (G_of g)) m) m + g m else fun m => g m - Gt_of (J_of (G_of g)) m.
  Lemma projectT_lst g : M_Pcpg.projectT E A (lst g) = lst (PT_of g).
  Proof.
    unfold M_Pcpg.projectT, M_Pcpg.apply_Gt, PT_of. cbv zeta. change (M_Pcpg.conjugate E A) with conjugate. rewrite Gt_inv_G, lst_len, vzero_lst, !vadd_lst, F_lst, vadd_lst. destruct conjugate.
    - apply lst_ext. intros m Hm. cbn [opp one exact]. rewrite (RF _ (fun m => -1 * Gt_of (J_of (G_of g)) m)) by (intros; lra || exact Hm). lra.
    - apply lst_ext. intros m _. cbn [opp one exact]. lra.
  Qed.

  (** the functions of all ranks *)
  Lemma run_project_lst g y : sized y -> run_project E n limit type p conjugate runF (dual g) y (D (M_Pcpg.project E A (lst g))).
  Proof.
    intros Ly. rewrite project_lst, D_lst. exists (dual (if conjugate then Fg g else g)). split; [destruct conjugate; [apply HF|reflexivity]|].
    now apply (projector_apply_computes n limit first L nb cmap sz itv sizes HC Hn Hlimit len row HB ksize Rk J type p HP).
  Qed.
  Lemma run_projectT_lst g y : sized y -> run_projectT E n limit type p conjugate runF arrFx (dual g) y (D (M_Pcpg.projectT E A (lst g))).
  Proof.
    intros Ly. rewrite projectT_lst, D_lst. unfold run_projectT, PT_of. destruct conjugate.
    - now apply (conjugate_applyT_computes n limit first L nb cmap sz itv sizes HC Hn Hlimit len row HB ksize Rk J type p HP).
    - now apply (projector_apply_computes n limit first L nb cmap sz itv sizes HC Hn Hlimit len row HB ksize Rk J type p HP).
  Qed.

  (** a state of the ranks and a state with whole vectors *)
  Local Notation pst := (pstate E).
  Definition same (s : M_Pcpg.state E) (t : pst) : Prop :=
    (length (M_Pcpg.x E s) = N /\ length (M_Pcpg.r E s) = N /\ length (M_Pcpg.w E s) = N /\ length (M_Pcpg.p E s) = N) /\
    px E t = D (M_Pcpg.x E s) /\ pr E t = D (M_Pcpg.r E s) /\ pw E t = D (M_Pcpg.w E s) /\ pp E t = D (M_Pcpg.p E s) /\
    sized (py E t) /\ pyw E t = M_Pcpg.yw E s /\ pstatus E t = M_Pcpg.status E s.

  Lemma project_len v : length v = N -> length (M_Pcpg.project E A v) = N.
  Proof. intros H. rewrite <- (lst_as v H), project_lst. apply lst_len. Qed.
  Lemma projectT_len v : length v = N -> length (M_Pcpg.projectT E A v) = N.
  Proof. intros H. rewrite <- (lst_as v H), projectT_lst. apply lst_len. Qed.
  Lemma S_len v : length (M_Pcpg.S E A v) = N. Proof. apply lst_len. Qed.
  Lemma F_len v : length (M_Pcpg.F E A v) = N. Proof. apply lst_len. Qed.
  Lemma runF_D v : runF (D v) (D (M_Pcpg.F E A v)).
  Proof. cbn [global M_Pcpg.F]. rewrite D_lst. apply HF. Qed.
  Lemma runS_D v : runS (D v) (D (M_Pcpg.S E A v)).
  Proof. cbn [global M_Pcpg.S]. rewrite D_lst. apply HS. Qed.
  Lemma run_project_D v y : length v = N -> sized y -> run_project E n limit type p conjugate runF (D v) y (D (M_Pcpg.project E A v)).
  Proof. intros H Ly. replace (M_Pcpg.project E A v) with (M_Pcpg.project E A (lst (as_function v))) by (now rewrite lst_as). now apply run_project_lst. Qed.
  Lemma run_projectT_D v y : length v = N -> sized y -> run_projectT E n limit type p conjugate runF arrFx (D v) y (D (M_Pcpg.projectT E A v)).
  Proof. intros H Ly. replace (M_Pcpg.projectT E A v) with (M_Pcpg.projectT E A (lst (as_function v))) by (now rewrite lst_as). now apply run_projectT_lst. Qed.

  Variables (dg : nat -> R) (eg : nat -> nat -> R).
  Lemma start_same : exists t, run_start E infinity C n limit type p conjugate runF runS arrFx arrL arrW arrY (dual dg) (fun _ => kernel_vector ksize all eg) t /\
    same (M_Pcpg.pcpg_start E infinity C A (lst dg) (kernel_vector ksize all eg)) t.
  Proof.
    set (s := M_Pcpg.pcpg_start E infinity C A (lst dg) (kernel_vector ksize all eg)). cbv zeta delta [M_Pcpg.pcpg_start] in s.
    set (l := if M_Pcpg.conjugate E A then M_Pcpg.apply_GtinvGGtG E A (lst dg) else M_Pcpg.apply_GtinvGGt E A (length (lst dg)) (kernel_vector ksize all eg)) in s.
    assert (El : l = lst (Gt_of (J_of (if conjugate then G_of dg else eg)))).
    { unfold l, M_Pcpg.apply_GtinvGGtG, M_Pcpg.apply_GtinvGGt, M_Pcpg.apply_Gt. change (M_Pcpg.conjugate E A) with conjugate. rewrite lst_len, vzero_lst, Gt_inv_G, Gt_inv. destruct conjugate; try rewrite (lst_len dg : length (lst dg : list (num E)) = N); rewrite ?lst_len, ?vzero_lst, vadd_lst; apply lst_ext; intros; cbn [one exact]; lra. }
    assert (Ll : length l = N) by (rewrite El; apply lst_len).
    set (r := M_Pcpg.residual E A (lst dg) l) in s. assert (Lr : length r = N) by (unfold r, M_Pcpg.residual; apply vadd_len; [unfold vscale; rewrite map_length; apply F_len|apply lst_len]).
    set (w := M_Pcpg.projectT E A r) in s. assert (Lw : length w = N) by (now apply projectT_len).
    set (y := M_Pcpg.project E A (M_Pcpg.S E A w)) in s. assert (Lyy : length y = N) by (apply project_len, S_len).
    exists (Build_pstate E (D l) (D r) (D w) (D y) (D y) (dot E y w) (set_info E infinity C (dot E y w))). split.
    2:{ split; [|repeat split]; [cbn; auto|]. intros q _. apply dual_len. }
    exists (D l), (D (M_Pcpg.F E A l)), (D (M_Pcpg.S E A w)), (D y). cbn [px pr pw py pp pyw pstatus]. repeat split.
    - rewrite El, D_lst. destruct conjugate.
      + now apply (GtintGGtG_computes n limit first L nb cmap sz itv sizes HC Hn Hlimit len row HB ksize Rk J type p HP).
      + now apply (GtintGGt_computes n limit first L nb cmap sz itv sizes HC Hn Hlimit len row HB ksize Rk J type p HP).
    - apply runF_D.
    - intros q Hq. unfold r, M_Pcpg.residual. rewrite <- (axpy_D (vscale E (opp E (one E)) (M_Pcpg.F E A l)) (one E) (lst dg) q); [|unfold vscale; rewrite map_length; apply F_len|apply lst_len]. rewrite D_lst. f_equal.
      cbn [global M_Pcpg.F]. set (g := Fg (as_function l)). rewrite D_lst. replace (vscale E (opp E (one E)) (lst g)) with (lst (fun m => - 1 * g m)) by (unfold vscale, multipliers_of; rewrite map_map; reflexivity). rewrite D_lst. unfold S_Feti.dual, vector. rewrite map_map. reflexivity.
    - now apply run_projectT_D.
    - apply runS_D.
    - apply run_project_D; [apply S_len|assumption].
    - now apply dot_D.
  Qed.

  Lemma step_same s s' t : same s t -> M_Pcpg.pcpg_step E isnan infinity quotient C A s = Ok s' ->
    exists t', run_step E isnan infinity quotient C n limit type p conjugate runF runS arrFx t t' /\ same s' t'.
  Proof.
    intros ((Lx & Lr & Lw & Lp) & Ex & Er & Ew & Ep & Ey & Eyw & Est) H. unfold M_Pcpg.pcpg_step in H.
    destruct (quotient (M_Pcpg.yw E s) (dot E (M_Pcpg.p E s) (M_Pcpg.F E A (M_Pcpg.p E s)))) as [gamma| |] eqn:Hg; [|discriminate|discriminate]. cbn [obind] in H.
    set (x1 := vadd E (M_Pcpg.x E s) gamma (M_Pcpg.p E s)) in H. set (r1 := vadd E (M_Pcpg.r E s) (opp E gamma) (M_Pcpg.F E A (M_Pcpg.p E s))) in H. cbv zeta in H.
    set (w1 := M_Pcpg.projectT E A r1) in H. set (y1 := M_Pcpg.project E A (M_Pcpg.S E A w1)) in H.
    destruct (quotient (dot E y1 w1) (M_Pcpg.yw E s)) as [beta| |] eqn:Hb; [|discriminate|discriminate]. cbn [obind] in H.
    destruct (update_info E isnan infinity C (M_Pcpg.yw E s) (M_Pcpg.status E s)) as [i| |] eqn:Hi; [|discriminate|discriminate]. cbn [obind] in H. injection H as <-.
    assert (Lr1 : length r1 = N) by (apply vadd_len; [exact Lr|apply F_len]). assert (Lw1 : length w1 = N) by (now apply projectT_len). assert (Ly1 : length y1 = N) by (apply project_len, S_len).
    exists (Build_pstate E (D x1) (D r1) (D w1) (pp E t) (D (vadd E y1 beta (M_Pcpg.p E s))) (dot E y1 w1) i). split.
    - exists (D (M_Pcpg.F E A (M_Pcpg.p E s))), (D (M_Pcpg.S E A w1)), (D y1), (dot E (M_Pcpg.p E s) (M_Pcpg.F E A (M_Pcpg.p E s))), gamma, beta.
      rewrite Ex, Er, Ew, Ep, Eyw, Est. cbn [px pr pw py pp pyw pstatus]. repeat split; auto.
      + apply runF_D.
      + apply dot_D; [exact Lp|apply F_len].
      + intros q _. now apply axpy_D.
      + intros q _. apply axpy_D; [exact Lr|apply F_len].
      + apply run_projectT_D; [exact Lr1|]. intros q _. apply dual_len.
      + apply runS_D.
      + apply run_project_D; [apply S_len|exact Ey].
      + now apply dot_D.
      + intros q _. now apply axpy_D.
    - split; [|repeat split]; cbn [M_Pcpg.x M_Pcpg.r M_Pcpg.w M_Pcpg.p M_Pcpg.yw M_Pcpg.status px pr pw py pp pyw pstatus].
      + repeat split; auto; now apply vadd_len.
      + intros q _. rewrite Ep. apply dual_len.
  Qed.

  Lemma loop_same k : forall s s' t, same s t -> M_Pcpg.pcpg_loop E isnan infinity quotient C A k s = Ok s' ->
    exists t', run_loop E isnan infinity quotient C n limit type p conjugate runF runS arrFx k t t' /\ same s' t'.
  Proof.
    induction k as [|k IH]; intros s s' t H; cbn [M_Pcpg.pcpg_loop run_loop]; (destruct H as (H1 & H2); pose proof (proj2 (proj2 (proj2 (proj2 (proj2 (proj2 H2)))))) as Es; rewrite Es; destruct (converged E (M_Pcpg.status E s)) eqn:Ec).
    - intros R. injection R as <-. exists t. repeat split; auto; try apply H1; try apply H2.
    - intros R. injection R as <-. exists t. repeat split; auto; try apply H1; try apply H2.
    - intros R. injection R as <-. exists t. repeat split; auto; try apply H1; try apply H2.
    - intros R. destruct (M_Pcpg.pcpg_step E isnan infinity quotient C A s) as [u| |] eqn:Hu; [|discriminate|discriminate]. cbn [obind] in R.
      destruct (step_same s u t (conj H1 H2) Hu) as (t1 & S1 & S2). destruct (IH u s' t1 S2 R) as (t2 & R1 & R2). exists t2. split; [|exact R2]. exists t1. auto.
  Qed.
  Lemma pcpg_same k s : M_Pcpg.pcpg E isnan infinity quotient C A k (lst dg) (kernel_vector ksize all eg) = Ok s ->
    exists t, run_pcpg E isnan infinity quotient C n limit type p conjugate runF runS arrFx arrL arrW arrY k (dual dg) (fun _ => kernel_vector ksize all eg) t /\ same s t.
  Proof.
    intros H. destruct start_same as (t0 & A1 & A2). destruct (loop_same k _ _ _ A2 H) as (t & B1 & B2). exists t. split; [|exact B2]. exists t0. auto.
  Qed.
End Simulation.
