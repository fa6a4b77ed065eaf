(** * Runs of PCPG *)
From Coq Require Import List Reals Bool Lra Lia.
From Verif Require Import Base M_DualVector M_Mprgp M_SolverInfo M_Pcpg S_SolverInfo S_Mprgp S_Pcpg
  L_RVec L_Pcpg L_Pcpg2 P_SolverInfo.
Import ListNotations.
Local Open Scope R_scope.
Local Open Scope out_scope.

Local Notation comb := combination.
Local Notation sp := scalar_product.

Lemma quotient_inv a b c : quotient a b = Ok c -> b <> 0 /\ c = a / b.
Proof.
  unfold quotient. destruct (Req_EM_T b 0); [discriminate|]. intros E. injection E as <-. auto.
Qed.
Lemma quotient_ok a b : b <> 0 -> quotient a b = Ok (a / b).
Proof. intros N. unfold quotient. destruct (Req_EM_T b 0); tauto. Qed.

Section Loop.
Variable K : scalar.
Variable isnan : num K -> bool.
Variable infinity : num K.
Variable q : num K -> num K -> outcome (num K).
Variable C : config K.
Variable A : operators K.
Local Notation step := (pcpg_step K isnan infinity q C A).
Local Notation loop := (pcpg_loop K isnan infinity q C A).

(** the last pass of a run *)
Lemma loop_snoc k s0 s' : loop (Datatypes.S k) s0 = Ok s' <->
  exists s, loop k s0 = Ok s /\
    if converged K (status K s) then s' = s else step s = Ok s'.
Proof.
  revert s0; induction k as [|k IH]; intros s0.
  - cbn [pcpg_loop]. destruct (converged K (status K s0)) eqn:E.
    + split; [intros H; injection H as <-; exists s0; now rewrite E|].
      intros (s & H & D). injection H as <-. rewrite E in D. now subst.
    + split.
      * intros H. exists s0. rewrite E. split; auto.
        destruct (step s0) as [s1| |]; cbn [obind] in H; try discriminate.
        now destruct (converged K (status K s1)).
      * intros (s & H & D). injection H as <-. rewrite E in D. rewrite D. cbn [obind].
        now destruct (converged K (status K s')).
  - remember (Datatypes.S k) as k1 eqn:Ek. cbn [pcpg_loop]. subst k1.
    destruct (converged K (status K s0)) eqn:E.
    + cbn [pcpg_loop]. rewrite E.
      split; [intros H; injection H as <-; exists s0; now rewrite E|].
      intros (s & H & D). injection H as <-. rewrite E in D. now subst.
    + assert (X : forall s, loop (Datatypes.S k) s0 = Ok s <-> (s1 <- step s0 ;; loop k s1) = Ok s).
      { intros s. cbn [pcpg_loop]. rewrite E. tauto. }
      destruct (step s0) as [s1| |] eqn:Es; cbn [obind] in *.
      * rewrite IH. split; intros (s & H & D); exists s; split; auto; now apply X.
      * split; [discriminate|]. intros (s & H & D). apply X in H. discriminate.
      * split; [discriminate|]. intros (s & H & D). apply X in H. discriminate.
Qed.

Lemma loop_prefix k j s0 s : loop (j + k) s0 = Ok s -> exists t, loop k s0 = Ok t.
Proof.
  revert s; induction j as [|j IH]; intros s E; [eauto|].
  cbn [Nat.add] in E. apply loop_snoc in E. destruct E as (t & E & _). eauto.
Qed.

(** what the status of a run has seen *)
Lemma loop_watched k s0 s : status K s0 = set_info K infinity C (yw K s0) -> loop k s0 = Ok s ->
  exists ws, watched K isnan infinity C (yw K s0) ws (status K s) /\
    (length ws <= k)%nat /\ (converged K (status K s) = false -> length ws = k) /\
    (exists s', loop (length ws) s0 = Ok s' /\ s' = s) /\
    (forall j, (j < length ws)%nat -> exists t, loop j s0 = Ok t /\ nth_error ws j = Some (yw K t) /\
       converged K (status K t) = false).
Proof.
  intros E0. revert s; induction k as [|k IH]; intros s E.
  - exists []. assert (s0 = s) as <-.
    { cbn [pcpg_loop] in E. destruct (converged K (status K s0)); congruence. }
    rewrite E0. split; [constructor|]. split; auto. split; auto. split; [eauto|]. cbn. intros; lia.
  - apply loop_snoc in E. destruct E as (t & Et & D).
    destruct (IH t Et) as (ws & W & L & Lc & (t' & Et' & ->) & H).
    destruct (converged K (status K t)) eqn:Ct.
    + subst s. exists ws. split; auto. split; [lia|]. split; [congruence|]. split; eauto.
    + specialize (Lc eq_refl). exists (ws ++ [yw K t]). rewrite app_length. cbn [length].
      assert (U : update_info K isnan infinity C (yw K t) (status K t) = Ok (status K s)).
      { unfold pcpg_step in D. destruct (q _ _) as [g| |]; cbn [obind] in D; try discriminate.
        destruct (q _ _) as [b| |]; cbn [obind] in D; try discriminate.
        destruct (update_info _ _ _ _ _ _) as [i| |]; cbn [obind] in D; try discriminate.
        injection D as <-. reflexivity. }
      split; [econstructor; eauto|]. split; [lia|]. split; [lia|]. split.
      * exists s. split; auto. replace (length ws + 1)%nat with (Datatypes.S k) by lia.
        apply loop_snoc. exists t. now rewrite Ct.
      * intros j Lj. destruct (Nat.eq_dec j (length ws)) as [->|Nj].
        -- exists t. rewrite nth_error_app2, Nat.sub_diag by lia. auto.
        -- destruct (H j ltac:(lia)) as (u & Eu & Nu & Cu). exists u.
           rewrite nth_error_app1 by lia. auto.
Qed.

(** a state that was left has not stopped the run *)
Lemma loop_left k s0 s : loop k s0 = Ok s -> converged K (status K s) = false ->
  forall j t, (j <= k)%nat -> loop j s0 = Ok t -> converged K (status K t) = false.
Proof.
  revert s; induction k as [|k IH]; intros s E Cv j t Lj Et.
  - replace j with 0%nat in Et by lia. congruence.
  - destruct (Nat.eq_dec j (Datatypes.S k)) as [->|Nj]; [congruence|].
    apply loop_snoc in E. destruct E as (u & Eu & D).
    destruct (converged K (status K u)) eqn:Cu; [subst; congruence|].
    apply (IH u Eu Cu j t); auto. lia.
Qed.
End Loop.

Section Linear.
Variable h : R.
Local Notation K := (exact h).
Variable n m : nat.
Variable A : operators (exact h).
Variable d e : list R.
Local Notation Fo := (F (exact h) A).
Local Notation B := (constrained h A).
Variable isnan : R -> bool.
Variable infinity : R.
Variable C : config (exact h).
Variable q : R -> R -> outcome R.
Hypothesis LP : linear_problem h n m A d e.
Local Notation inv1 := (inv1 h n A d).

Lemma run_inv1 k s : pcpg K isnan infinity q C A k d e = Ok s ->
  inv1 s /\ B (x K s) = (if conjugate K A then G K A d else e).
Proof.
  unfold pcpg. revert s; induction k as [|k IH]; intros s E.
  - destruct (start_inv1 h n m A d e LP infinity C) as (I & X & _). cbn [pcpg_loop] in E.
    destruct (converged K _); injection E as <-; auto.
  - apply loop_snoc in E. destruct E as (t & Et & D). destruct (IH t Et) as [I X].
    destruct (converged K (status K t)); [subst; auto|].
    destruct (step_moves h n m A d e LP isnan infinity C q t s I D) as (g & b & _ & _ & _ & _ & _ & _ & I' & X').
    split; auto. now rewrite X'.
Qed.
End Linear.

Section Exact.
Variable h : R.
Local Notation K := (exact h).
Variable n m : nat.
Variable A : operators (exact h).
Variable d e : list R.
Local Notation Fo := (F (exact h) A).
Local Notation B := (constrained h A).
Variable isnan : R -> bool.
Variable infinity : R.
Variable C : config (exact h).
Hypothesis SP : spd_problem h n m A d e.
Let LP : linear_problem h n m A d e := sp_linear _ _ _ _ _ _ SP.
Local Notation inv1 := (inv1 h n A d).
Local Notation run k := (pcpg K isnan infinity quotient C A k d e).
Local Notation s0 := (pcpg_start K infinity C A d e).

(** the states of a run *)
Definition nth_state (k : nat) : state K := match run k with Ok s => s | _ => s0 end.
Local Notation st := nth_state.

Section Run.
Variable N : nat.
Variable s : state K.
Hypothesis HN : run N = Ok s.
Hypothesis HL : forall j t, (j < N)%nat -> run j = Ok t -> converged K (status K t) = false.

Lemma st_run k : (k <= N)%nat -> run k = Ok (st k).
Proof.
  intros L. unfold nth_state. destruct (loop_prefix K isnan infinity quotient C A k (N - k) s0 s) as [t Et].
  - now replace (N - k + k)%nat with N by lia.
  - unfold pcpg. now rewrite Et.
Qed.

Lemma st_step k : (k < N)%nat -> pcpg_step K isnan infinity quotient C A (st k) = Ok (st (Datatypes.S k)).
Proof.
  intros L. pose proof (st_run (Datatypes.S k) L) as E. apply loop_snoc in E.
  destruct E as (t & Et & D). pose proof (st_run k ltac:(lia)) as Ek. unfold pcpg in Ek.
  assert (t = st k) as -> by congruence.
  rewrite (HL k (st k) L) in D by (apply st_run; lia). auto.
Qed.

Definition step_length (k : nat) : R := yw K (st k) / sp (p K (st k)) (Fo (p K (st k))).
Definition step_beta (k : nat) : R := yw K (st (Datatypes.S k)) / yw K (st k).

Lemma st_inv1 k : (k <= N)%nat -> inv1 (st k).
Proof. intros L. eapply (run_inv1 h n m A d e); [exact LP|]. apply st_run, L. Qed.

Lemma st_moves k : (k < N)%nat ->
  sp (p K (st k)) (Fo (p K (st k))) <> 0 /\ yw K (st k) <> 0 /\
  x K (st (Datatypes.S k)) = comb (x K (st k)) (step_length k) (p K (st k)) /\
  r K (st (Datatypes.S k)) = comb (r K (st k)) (- step_length k) (Fo (p K (st k))) /\
  p K (st (Datatypes.S k)) = comb (y K (st (Datatypes.S k))) (step_beta k) (p K (st k)).
Proof.
  intros L. destruct (step_moves h n m A d e LP isnan infinity C quotient (st k) _ (st_inv1 k ltac:(lia)) (st_step k L))
    as (g & b & Eg & Eb & E1 & E2 & E3 & _).
  apply quotient_inv in Eg. apply quotient_inv in Eb. destruct Eg as [N1 ->]. destruct Eb as [N2 ->]. auto.
Qed.

Lemma st_span k : (k <= N)%nat -> exists v, in_span h n st k v /\ length v = n /\
  p K (st k) = comb (y K (st k)) 1 v.
Proof.
  intros L. destruct k as [|k].
  - exists (repeat 0 n). split; [|split; [apply repeat_length|]].
    + exists (fun _ => 0). intros u _. cbn. apply sp_zero_l, zeros_is_zero.
    + pose proof (st_run 0%nat L) as E. unfold pcpg in E. cbn [pcpg_loop] in E.
      assert (st 0 = s0) as -> by (destruct (converged K _); congruence).
      destruct (start_inv1 h n m A d e LP infinity C) as (I & _ & Ep). rewrite Ep.
      symmetry. apply comb_ext_zero; [apply zeros_is_zero|].
      rewrite repeat_length. apply (y_len h n m A d e LP _ I).
  - destruct (st_moves k L) as (_ & _ & _ & _ & Ep).
    pose proof (i_p _ _ _ _ _ (st_inv1 k ltac:(lia))) as Lp.
    pose proof (y_len h n m A d e LP _ (st_inv1 (Datatypes.S k) L)) as Ly.
    exists (comb (repeat 0 n) (step_beta k) (p K (st k))). split; [|split].
    + exists (fun j => if Nat.eqb j k then step_beta k else 0). intros u Lu.
      rewrite sp_comb_l by (rewrite repeat_length; auto). rewrite (sp_zero_l (repeat 0 n)) by apply zeros_is_zero.
      rewrite seq_S, fold_right_app. cbn [fold_right Nat.add]. rewrite Nat.eqb_refl.
      assert (X : forall a l, (forall j, In j l -> j <> k) ->
        fold_right (fun j acc => (if Nat.eqb j k then step_beta k else 0) * sp (p K (st j)) u + acc) a l = a).
      { intros a l Hl. induction l as [|j l IH]; auto. cbn [fold_right].
        rewrite IH by (intros; apply Hl; right; auto).
        destruct (Nat.eqb_spec j k) as [->|_]; [destruct (Hl k); cbn; auto|ring]. }
      rewrite X by (intros j Hj; apply in_seq in Hj; lia). ring.
    + apply comb_len; auto. apply repeat_length.
    + rewrite Ep. revert Ly Lp. generalize (y K (st (Datatypes.S k))) (p K (st k)) (step_beta k).
      cbn [num exact]. intros a v b. revert a v. clear. induction n as [|i IH]; intros [|a1 a] [|b1 v] E1 E2; try discriminate; auto.
      cbn [repeat]. rewrite !comb_cons. f_equal; [ring|]. apply IH; auto.
Qed.

Lemma st_conj k : (Datatypes.S k <= N)%nat ->
  (forall j, (j <= k)%nat -> sp (y K (st (Datatypes.S k))) (w K (st j)) = 0) ->
  (forall i j, (i < j <= k)%nat -> sp (p K (st i)) (Fo (p K (st j))) = 0) ->
  forall j, (j <= k)%nat -> sp (p K (st j)) (Fo (p K (st (Datatypes.S k)))) = 0.
Proof.
  intros L Y Pc j Lj. destruct (st_moves k L) as (N1 & N2 & _ & _ & Ep).
  pose proof (st_inv1 (Datatypes.S k) L) as I'. pose proof (y_len h n m A d e LP _ I') as Ly.
  pose proof (i_p _ _ _ _ _ (st_inv1 k ltac:(lia))) as Lpk. pose proof (i_p _ _ _ _ _ (st_inv1 j ltac:(lia))) as Lpj.
  pose proof (F_len h n m A d e LP (p K (st j)) Lpj) as LFj.
  assert (YF : step_length j * sp (y K (st (Datatypes.S k))) (Fo (p K (st j)))
               = - sp (y K (st (Datatypes.S k))) (w K (st (Datatypes.S j)))).
  { destruct (st_moves j ltac:(lia)) as (_ & _ & _ & Er & _).
    assert (By : is_zero (B (y K (st (Datatypes.S k))))) by (apply (B_y h n m A d e LP), I').
    rewrite <- (sp_r_w h n m A d e SP) by (auto; apply st_inv1; lia). rewrite Er.
    rewrite sp_comb_r by (transitivity n; [apply (r_len h n m A d e LP), st_inv1; lia|auto]).
    rewrite (sp_r_w h n m A d e SP) by (auto; apply st_inv1; lia). rewrite Y by lia. ring. }
  destruct (lp_F _ _ _ _ _ _ LP) as [F1 F2].
  rewrite Ep, F2 by auto. rewrite sp_comb_r by (rewrite !F1; auto).
  assert (E1 : sp (p K (st j)) (Fo (y K (st (Datatypes.S k)))) = sp (y K (st (Datatypes.S k))) (Fo (p K (st j)))).
  { rewrite (sp_Fsym _ _ _ _ _ _ SP) by auto. apply sp_comm. }
  rewrite E1. clear E1. destruct (Nat.eq_dec j k) as [->|Nj].
  - rewrite <- (i_yw _ _ _ _ _ I') in YF. unfold step_beta. unfold step_length in YF.
    set (a := sp (y K (st (Datatypes.S k))) (Fo (p K (st k)))) in *.
    set (b := sp (p K (st k)) (Fo (p K (st k)))) in *.
    assert (yw K (st (Datatypes.S k)) = - (yw K (st k) / b * a)) as -> by lra.
    field. auto.
  - rewrite Y in YF by lia. rewrite Pc by lia.
    assert (step_length j <> 0).
    { destruct (st_moves j ltac:(lia)) as (M1 & M2 & _). unfold step_length.
      apply Rmult_integral_contrapositive_currified; auto. now apply Rinv_neq_0_compat. }
    assert (sp (y K (st (Datatypes.S k))) (Fo (p K (st j))) = 0).
    { assert (Z : step_length j * sp (y K (st (Datatypes.S k))) (Fo (p K (st j))) = 0) by lra.
      apply Rmult_integral in Z. tauto. }
    lra.
Qed.

Lemma run_conjugate :
  (forall i j, (i < j <= N)%nat -> sp (p K (st i)) (r K (st j)) = 0) /\
  (forall i j, (i < j <= N)%nat -> sp (p K (st i)) (Fo (p K (st j))) = 0).
Proof.
  apply (conjugate_all h n m A d e SP st N step_length st_inv1); auto using st_span, st_conj;
    try (intros; reflexivity); intros; now apply st_moves.
Qed.

Lemma run_orthogonal i j : (i < j <= N)%nat -> sp (y K (st j)) (w K (st i)) = 0.
Proof.
  apply (yr_zero h n m A d e SP st N step_length st_inv1); auto using st_span, st_conj;
    try (intros; reflexivity); intros; now apply st_moves.
Qed.

Lemma run_pr k : (k <= N)%nat -> sp (p K (st k)) (r K (st k)) = yw K (st k).
Proof.
  apply (pr_yw h n m A d e SP st N step_length st_inv1); auto using st_span, st_conj;
    try (intros; reflexivity); intros; now apply st_moves.
Qed.

Lemma run_short : (N <= n)%nat.
Proof.
  apply (few_directions h n m A d e SP st N step_length st_inv1); auto using st_span, st_conj;
    try (intros; reflexivity); intros; now apply st_moves.
Qed.

Lemma run_minimal cs : length cs = N ->
  energy Fo d (x K (st N)) <= energy Fo d (walk (x K (st 0)) cs (map (fun j => p K (st j) : list R) (seq 0 N))).
Proof.
  intros Lc. apply (minimal h n m A d e SP st N step_length st_inv1); auto using st_span, st_conj;
    try (intros; reflexivity); intros; now apply st_moves.
Qed.
End Run.

(** a further pass is defined unless the projected residual vanishes *)
Lemma run_continues N s : (0 < max_stagnation K C)%nat -> (0 < print_iteration K C)%nat ->
  run N = Ok s -> converged K (status K s) = false -> ~ is_zero (w K s) ->
  exists s', run (Datatypes.S N) = Ok s'.
Proof.
  intros M P E Cv W. pose proof (loop_left _ _ _ _ _ _ _ _ _ E Cv) as HL.
  assert (HL' : forall j t, (j < N)%nat -> run j = Ok t -> converged K (status K t) = false).
  { intros j t Lj. apply HL. lia. }
  pose proof (run_pr N s E HL' N (le_n N)) as Pr.
  assert (Es : st N = s) by (unfold nth_state; now rewrite E). rewrite Es in Pr.
  destruct (run_inv1 h n m A d e isnan infinity C quotient LP N s E) as [I _].
  pose proof (yw_pos h n m A d e SP s I W) as Y.
  assert (Np : ~ is_zero (p K s)).
  { intros Z. rewrite (sp_zero_l _ (r K s)) in Pr by exact Z. lra. }
  pose proof (pFp_pos h n m A d e SP s I Np) as Q.
  assert (X : exists s', pcpg_step K isnan infinity quotient C A s = Ok s').
  { unfold pcpg_step. rewrite dot_sp, quotient_ok by lra. cbn [obind].
    rewrite quotient_ok by lra. cbn [obind].
    destruct (loop_watched K isnan infinity quotient C A N s0 s eq_refl E) as (ws & Ww & _).
    destruct (status_defined K isnan infinity C _ ws (status K s) (yw K s) M P Ww) as [i Ei].
    rewrite Ei. cbn [obind]. eauto. }
  destruct X as [s' X]. exists s'. apply loop_snoc. exists s. now rewrite Cv.
Qed.

Lemma run_terminates : (0 < max_stagnation K C)%nat -> (0 < print_iteration K C)%nat ->
  exists k s, (k <= n)%nat /\ run k = Ok s /\ (is_zero (w K s) \/ converged K (status K s) = true).
Proof.
  intros M P.
  assert (X : forall k, (exists j s, (j <= k)%nat /\ run j = Ok s /\ (is_zero (w K s) \/ converged K (status K s) = true))
    \/ exists s, run k = Ok s /\ ~ is_zero (w K s) /\ converged K (status K s) = false).
  { induction k as [|k IH].
    - destruct (run 0%nat) as [s| |] eqn:E; [|exfalso|exfalso];
        try (unfold pcpg in E; cbn [pcpg_loop] in E; destruct (converged K _); discriminate).
      destruct (is_zero_dec (w K s)) as [Z|Z]; [left; exists 0%nat, s; auto|].
      destruct (converged K (status K s)) eqn:Cv; [left; exists 0%nat, s; auto|right; eauto].
    - destruct IH as [(j & s & L & E & D)|(s & E & W & Cv)]; [left; exists j, s; auto|].
      destruct (run_continues k s M P E Cv W) as [s' E'].
      destruct (is_zero_dec (w K s')) as [Z|Z]; [left; exists (Datatypes.S k), s'; auto|].
      destruct (converged K (status K s')) eqn:Cv'; [left; exists (Datatypes.S k), s'; auto|right; eauto]. }
  destruct (X n) as [(j & s & L & E & D)|(s & E & W & Cv)]; [exists j, s; auto|].
  exfalso. destruct (run_continues n s M P E Cv W) as [s' E'].
  pose proof (run_short (Datatypes.S n) s' E') as Sh.
  assert (Datatypes.S n <= n)%nat; [|lia]. apply Sh. intros j t Lj Et.
  eapply (loop_left _ _ _ _ _ _ _ _ _ E Cv); [|exact Et]. lia.
Qed.
End Exact.
