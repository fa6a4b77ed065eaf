(** * The invariant of the iterations of MPRGP *)
From Coq Require Import List Reals Bool Lra Lia.
From Verif Require Import Base M_DualVector M_Mprgp S_Mprgp L_RVec L_Mprgp.
Import ListNotations.
Local Open Scope R_scope.
Local Open Scope out_scope.

Local Notation comb := combination.
Local Notation sp := scalar_product.

Section Run.
Variable h : R.
Local Notation K := (exact h).
Variable P : problem (exact h).
Variable n : nat.
Variable alpha : R.
Variable H M : list R -> list R.
Variable stop : list R -> list R -> bool.
Variable b : list R.

Local Notation neq := (equalities K P).
Local Notation lbs := (lb K P : list R).
Local Notation ubs := (ub K P : list R).

Hypothesis Hh : 0 <= h.
Hypothesis Ha : 0 < alpha.
Hypothesis Hn : (neq + length lbs = n)%nat.
Hypothesis Hu : length ubs = length lbs.
Hypothesis Hb : length b = n.
Hypothesis HL : linear n H.
Hypothesis HD : positive_definite n H.
Hypothesis ML : forall x, length x = n -> length (M x) = n.
Hypothesis MD : positive_definite n M.

Local Notation redg g x := (reduced_gradient K P g x alpha).
Local Notation g0 := (minus K b).

Definition feas (x : list R) : Prop := length x = n /\ between lbs ubs (skipn neq x).

Lemma skip_length (x : list R) : length x = n -> length (skipn neq x) = length lbs.
Proof. intros E. rewrite skipn_length. lia. Qed.
Lemma first_length (x : list R) : length x = n -> length (firstn neq x) = neq.
Proof. intros E. rewrite firstn_length. lia. Qed.

Lemma skipn_app_exact {A} (u v : list A) k : length u = k -> skipn k (u ++ v) = v.
Proof. intros <-. rewrite skipn_app, skipn_all, Nat.sub_diag. reflexivity. Qed.
Lemma firstn_app_exact {A} (u v : list A) k : length u = k -> firstn k (u ++ v) = u.
Proof. intros <-. rewrite firstn_app, firstn_all, Nat.sub_diag, app_nil_r. reflexivity. Qed.

Lemma restrict_length (x : list R) : length x = n -> length (restrict K P x) = n.
Proof.
  intros E. unfold restrict. rewrite app_length, first_length by auto.
  rewrite clamp_all_length; rewrite skip_length by auto; auto.
Qed.

Lemma restrict_feas (x : list R) : Forall2 Rle lbs ubs -> length x = n -> feas (restrict K P x).
Proof.
  intros F E. split; [now apply restrict_length|].
  unfold restrict. rewrite skipn_app_exact by (now apply first_length).
  apply clamp_all_between; auto. now rewrite skip_length.
Qed.

Lemma equality_part (x g : list R) : length g = length x ->
  map (fun v => 1 / alpha * v) (comb x (-1) (comb x (- alpha) g)) = g.
Proof.
  revert g; induction x as [|a x IH]; intros [|c g] E; try discriminate; auto.
  rewrite !comb_cons. cbn [map]. rewrite IH by (cbn in E; lia). f_equal. field. lra.
Qed.

Lemma reduced_split (g x : list R) : length g = n -> length x = n ->
  redg g x = firstn neq g ++ red_all h alpha lbs ubs (skipn neq g) (skipn neq x).
Proof.
  intros Eg Ex. unfold reduced_gradient. cbn [exact one opp div num].
  set (xp := restrict K P (vadd K x (- alpha) g) : list R).
  assert (V : length (vadd K x (- alpha) g) = n) by (rewrite vadd_comb; now apply comb_len).
  assert (X1 : firstn neq xp = comb (firstn neq x) (- alpha) (firstn neq g)).
  { unfold xp, restrict. rewrite firstn_app_exact by (now apply first_length).
    now rewrite vadd_comb, comb_firstn. }
  assert (X2 : skipn neq xp = clamp_all K lbs ubs (vadd K (skipn neq x) (- alpha) (skipn neq g))).
  { unfold xp, restrict. rewrite skipn_app_exact by (now apply first_length).
    now rewrite !vadd_comb, comb_skipn. }
  f_equal.
  - rewrite vscale_comb, firstn_map, vadd_comb, comb_firstn.
    change (firstn neq (xp : list (num K))) with (firstn neq xp). rewrite X1. apply equality_part.
    now rewrite !first_length.
  - rewrite <- red_all_model.
    + f_equal. rewrite !vscale_comb, skipn_map, !vadd_comb, comb_skipn, X2. now rewrite vadd_comb.
    + now rewrite skip_length.
    + now rewrite skip_length.
    + now rewrite !skip_length.
Qed.

Lemma sp_split (x y : list R) : length x = n -> length y = n ->
  sp x y = sp (firstn neq x) (firstn neq y) + sp (skipn neq x) (skipn neq y).
Proof.
  intros Ex Ey. rewrite <- (firstn_skipn neq x) at 1. rewrite <- (firstn_skipn neq y) at 1.
  apply sp_app. now rewrite !first_length.
Qed.

Lemma masked_self_le x r : masked x r -> sp r r <= sp r x.
Proof.
  induction 1 as [|a x r H1 IH|a x r H1 IH]; rewrite ?sp_nil_l, ?sp_cons; lra.
Qed.

(** a step along a part of the reduced gradient stays feasible *)
Lemma reduced_move (g x r : list R) :
  length g = n -> feas x -> masked (redg g x) r ->
  feas (comb x (- alpha) r) /\ sp r r <= sp r g /\ length r = n.
Proof.
  intros Eg [Ex B] Ms. rewrite reduced_split in Ms by auto.
  destruct (masked_app_inv _ _ _ Ms) as (r1 & r2 & -> & M1 & M2).
  destruct (red_all_move h alpha lbs ubs (skipn neq g) (skipn neq x) r2) as (A1 & A2 & A3); auto.
  { now rewrite !skip_length. }
  pose proof (masked_length _ _ M1) as L1. rewrite first_length in L1 by auto.
  rewrite skip_length in A3 by auto.
  assert (Lr : length (r1 ++ r2) = n) by (rewrite app_length; lia).
  split; [split|split].
  - now apply comb_len.
  - rewrite comb_skipn. rewrite skipn_app_exact by auto. exact A1.
  - rewrite (sp_split (r1 ++ r2) g) by auto.
    rewrite firstn_app_exact, skipn_app_exact by auto.
    rewrite sp_app by auto. pose proof (masked_self_le _ _ M1). lra.
  - exact Lr.
Qed.

Lemma red_length (g x : list R) : length g = n -> feas x -> length (redg g x) = n.
Proof.
  intros Eg F. destruct (reduced_move g x (redg g x)) as (_ & _ & E); auto. apply masked_refl.
Qed.

Lemma free_all_length ls us (x : list R) : length ls = length x -> length us = length x ->
  length (free_all K P ls us x) = length x.
Proof.
  revert us x; induction ls as [|l ls IH]; intros [|u us] [|a x] E1 E2; try discriminate; auto.
  cbn [free_all length]. f_equal. apply IH; cbn in *; lia.
Qed.

Lemma free_length (x : list R) : length x = n -> length (free_set K P x) = n.
Proof.
  intros E. unfold free_set. rewrite app_length, map_length, first_length by auto.
  rewrite free_all_length; rewrite skip_length by auto; auto.
Qed.

Lemma sp_mask f (x y : list R) : length f = length x -> length x = length y ->
  sp (mask K f x) y = sp x (mask K f y).
Proof.
  revert x y; induction f as [|c f IH]; intros [|a x] [|d y] E1 E2; try discriminate; auto.
  cbn [mask]. rewrite !sp_cons, IH by (cbn in *; lia). destruct c; cbn; ring.
Qed.

(** ** the feasible step *)
Lemma feasible_step (x p : list R) :
  feas x -> length p = n ->
  0 <= feasible_step_length K P x p /\
  (forall t, 0 <= t <= feasible_step_length K P x p -> feas (comb x (- t) p)).
Proof.
  intros [Ex B] Ep. unfold feasible_step_length. cbn [huge exact].
  destruct (step_length_all_spec h lbs ubs (skipn neq x) (skipn neq p) h) as [[S1 S2] S3]; auto.
  { now rewrite !skip_length. }
  split; auto. intros t T. split; [now apply comb_len|]. rewrite comb_skipn. now apply S3.
Qed.

(** ** gradients *)
Definition grad (x : list R) : list R := comb (H x) 1 g0.

Lemma g0_length : length (minus K b : list R) = n.
Proof. unfold minus. rewrite vscale_comb, map_length. exact Hb. Qed.

Lemma gradient_grad (x : list R) : gradient K H g0 x = grad x.
Proof. unfold gradient, grad. now rewrite vadd_comb. Qed.

Lemma H_length (x : list R) : length x = n -> length (H x) = n.
Proof. apply HL. Qed.

Lemma grad_length (x : list R) : length x = n -> length (grad x) = n.
Proof. intros E. apply comb_len; auto using H_length, g0_length. Qed.

Lemma grad_move (x p : list R) t : length x = n -> length p = n ->
  comb (grad x) t (H p) = grad (comb x t p).
Proof.
  intros Ex Ep. unfold grad. rewrite (proj2 HL) by auto.
  apply comb_swap; rewrite !H_length; auto using g0_length.
Qed.

(** ** the invariant *)
Record inv (s : state K) : Prop := {
  i_feas : feas (s_x K s);
  i_g : s_g K s = grad (s_x K s);
  i_red : s_red K s = redg (s_g K s) (s_x K s);
  i_stop : s_stop K s = redg (s_g K s) (s_x K s);
  i_free : s_free K s = free_set K P (s_x K s);
  i_gfree : s_gfree K s = mask K (s_free K s) (s_g K s);
  i_z : s_z K s = s_p K s;
  i_p : length (s_p K s : list R) = n;
  i_pg : sp (s_p K s) (s_g K s) = sp (s_gfree K s) (M (s_gfree K s))
}.

Lemma precond_pg (x g : list R) : length x = n -> length g = n ->
  let free := free_set K P x in
  let gfree := mask K free g : list R in
  length (preconditioned K M free gfree : list R) = n /\
  sp (preconditioned K M free gfree) g = sp gfree (M gfree).
Proof.
  intros Ex Eg free gfree.
  assert (Lf : length free = n) by (now apply free_length).
  assert (Lg : length gfree = n) by (unfold gfree; rewrite mask_length; congruence).
  assert (LM := ML _ Lg).
  unfold preconditioned. split.
  - rewrite mask_length; congruence.
  - rewrite sp_mask by congruence. apply sp_comm.
Qed.

Lemma inv_init x0 it : feas x0 -> inv (init K P alpha H M b x0 it).
Proof.
  intros F. unfold init. rewrite gradient_grad.
  destruct (precond_pg x0 (grad x0)) as [L E]; [apply F|apply grad_length, F|].
  constructor; cbn [s_x s_g s_red s_stop s_free s_gfree s_z s_p]; auto.
Qed.

Lemma inv_restart (x : list R) it a c d : feas x -> inv (restart K P alpha M x (grad x) it a c d).
Proof.
  intros F. unfold restart.
  destruct (precond_pg x (grad x)) as [L E]; [apply F|apply grad_length, F|].
  constructor; cbn [s_x s_g s_red s_stop s_free s_gfree s_z s_p]; auto.
Qed.

Lemma inv_count s : inv s -> inv (count K s).
Proof. intros [? ? ? ? ? ? ? ? ?]. constructor; auto. Qed.

Lemma g_length s : inv s -> length (s_g K s : list R) = n.
Proof. intros I. rewrite (i_g _ I). apply grad_length, (i_feas _ I). Qed.

Lemma quot_ok a c v : quot K a c = Ok v -> c <> 0 /\ v = a / c.
Proof.
  unfold quot. cbn. destruct (Rltb c 0) eqn:E1, (Rltb 0 c) eqn:E2; cbn; intros E; rb;
    try discriminate; injection E as <-; split; auto; lra.
Qed.

Lemma quot_def a c : c <> 0 -> quot K a c = Ok (a / c).
Proof.
  intros N. unfold quot. cbn. destruct (Rltb c 0) eqn:E1, (Rltb 0 c) eqn:E2; cbn; rb; auto.
  lra.
Qed.

Lemma gfree_length s : inv s -> length (s_gfree K s : list R) = n.
Proof.
  intros I. rewrite (i_gfree _ I), (i_free _ I), mask_length; [now apply g_length|].
  rewrite free_length by (apply (i_feas _ I)). symmetry. now apply g_length.
Qed.

Lemma pg_nonneg s : inv s -> 0 <= sp (s_p K s) (s_g K s).
Proof.
  intros I. rewrite (i_pg _ I). pose proof (gfree_length s I) as E.
  destruct (is_zero_dec (s_gfree K s)) as [Z|Z].
  - rewrite sp_zero_l by auto. lra.
  - left. now apply MD.
Qed.

Lemma alpha_cg_sign s v :
  inv s -> quot K (dot K (s_z K s) (s_g K s)) (dot K (s_p K s) (H (s_p K s))) = Ok v ->
  0 < sp (s_p K s) (H (s_p K s)) /\ 0 <= v /\
  v * sp (s_p K s) (H (s_p K s)) = sp (s_p K s) (s_g K s).
Proof.
  intros I Q. apply quot_ok in Q. destruct Q as [N ->]. rewrite !dot_sp in *.
  rewrite (i_z _ I).
  pose proof (pd_nonneg n H _ HL HD (i_p _ I)) as N0.
  assert (0 < sp (s_p K s) (H (s_p K s))) by lra.
  pose proof (pg_nonneg s I). split; [auto|split].
  - apply Rmult_le_pos; auto. left. now apply Rinv_0_lt_compat.
  - field. lra.
Qed.

Lemma inv_cg s v s' :
  inv s -> quot K (dot K (s_z K s) (s_g K s)) (dot K (s_p K s) (H (s_p K s))) = Ok v ->
  v <= feasible_step_length K P (s_x K s) (s_p K s) ->
  cg_step K P alpha M v (dot K (s_p K s) (H (s_p K s))) (H (s_p K s)) s = Ok s' ->
  inv s' /\ s_x K s' = comb (s_x K s) (- v) (s_p K s).
Proof.
  intros I Q V C. destruct (alpha_cg_sign s v I Q) as (D & V0 & VD).
  unfold cg_step in C. cbn [opp exact] in C. rewrite !vadd_comb in C.
  set (x := comb (s_x K s) (- v) (s_p K s)) in *.
  assert (F : feas x).
  { apply feasible_step; auto using (i_feas _ I), (i_p _ I). }
  assert (G : comb (s_g K s) (- v) (H (s_p K s)) = grad x).
  { rewrite (i_g _ I). apply grad_move; auto using (i_p _ I). apply (i_feas _ I). }
  rewrite G in C.
  destruct (precond_pg x (grad x)) as [Lz Pz]; [apply F|apply grad_length, F|].
  destruct (quot K _ _) as [ga| |] eqn:Q2 in C; cbn [obind] in C; try discriminate.
  rewrite vadd_comb in C.
  injection C as <-. split; [|reflexivity].
  constructor; cbn [s_x s_g s_red s_stop s_free s_gfree s_z s_p]; auto.
  - apply comb_len; auto using (i_p _ I).
  - rewrite sp_comb_l by (rewrite Lz; symmetry; apply (i_p _ I)).
    rewrite Pz. rewrite <- G at 3. rewrite sp_comb_r.
    + rewrite <- VD. ring.
    + rewrite H_length by (apply (i_p _ I)). now apply g_length.
Qed.

(** ** the mixed step and the proportioning step *)
Hypothesis HO : Forall2 Rle lbs ubs.

Lemma half_step_feas s t :
  inv s -> 0 <= t <= feasible_step_length K P (s_x K s) (s_p K s) ->
  exists r, let x1 := comb (s_x K s) (- t) (s_p K s) in
    feas x1 /\ masked (redg (grad x1) x1) r /\
    half_step K P alpha t (H (s_p K s)) s = comb x1 (- alpha) r.
Proof.
  intros I T. unfold half_step. cbn [opp exact]. rewrite !vadd_comb.
  set (x1 := comb (s_x K s) (- t) (s_p K s)).
  assert (F : feas x1) by (apply feasible_step; auto using (i_feas _ I), (i_p _ I)).
  assert (G : comb (s_g K s) (- t) (H (s_p K s)) = grad x1).
  { rewrite (i_g _ I). apply grad_move; auto using (i_p _ I). apply (i_feas _ I). }
  rewrite G. destruct (gradproj K P).
  - eexists. split; [exact F|split; [apply masked_refl|reflexivity]].
  - eexists. split; [exact F|split; [|reflexivity]].
    apply mask_masked. rewrite free_length by apply F.
    rewrite red_length; auto. apply grad_length, F.
Qed.

Lemma inv_mixed s v hf :
  inv s -> 0 <= v ->
  inv (mixed_step K P alpha H M hf g0 v (feasible_step_length K P (s_x K s) (s_p K s))
                  (H (s_p K s)) s).
Proof.
  intros I V. unfold mixed_step. cbn [opp exact]. rewrite !vadd_comb.
  match goal with |- context [ltb K ?a ?c] => set (better := ltb K a c) end.
  destruct better eqn:B.
  - rewrite gradient_grad. apply inv_restart, restrict_feas; auto.
    apply comb_len; [apply (i_feas _ I)|apply (i_p _ I)].
  - rewrite gradient_grad. apply inv_restart.
    destruct (feasible_step (s_x K s) (s_p K s)) as [F0 _]; auto using (i_feas _ I), (i_p _ I).
    destruct (half_step_feas s (feasible_step_length K P (s_x K s) (s_p K s)) I)
      as (r & F & Ms & ->); [lra|].
    apply (reduced_move (grad (comb (s_x K s) (- feasible_step_length K P (s_x K s) (s_p K s))
                                    (s_p K s)))); auto.
    apply grad_length, F.
Qed.

Lemma proportioning_point s :
  inv s -> exists r, masked (redg (grad (s_x K s)) (s_x K s)) r /\
    (if gradproj K P then vadd K (s_x K s) (opp K alpha) (s_red K s)
     else vadd K (s_x K s) (opp K alpha) (mask K (map negb (s_free K s)) (s_red K s)))
    = comb (s_x K s) (- alpha) r.
Proof.
  intros I. cbn [opp exact]. rewrite !vadd_comb. rewrite (i_red _ I), (i_g _ I).
  destruct (gradproj K P).
  - eexists. split; [apply masked_refl|reflexivity].
  - eexists. split; [|reflexivity]. apply mask_masked.
    rewrite map_length, (i_free _ I), free_length by (apply (i_feas _ I)).
    rewrite red_length; auto using (i_feas _ I). apply grad_length, (i_feas _ I).
Qed.

Lemma inv_proportioning s : inv s -> inv (proportioning_step K P alpha H M g0 s).
Proof.
  intros I. unfold proportioning_step.
  destruct (proportioning_point s I) as (r & Ms & ->).
  rewrite gradient_grad. apply inv_restart.
  apply (reduced_move (grad (s_x K s))); auto using (i_feas _ I).
  apply grad_length, (i_feas _ I).
Qed.

Lemma inv_step tw hf s s' : inv s -> step K P alpha H M tw hf g0 s = Ok s' -> inv s'.
Proof.
  intros I E. unfold step in E. destruct (proportional K P tw s).
  - destruct (quot K (dot K (s_z K s) (s_g K s)) (dot K (s_p K s) (H (s_p K s)))) as [v| |] eqn:Q;
      cbn [obind] in E; try discriminate.
    destruct (alpha_cg_sign s v I Q) as (_ & V & _).
    cbn [leb exact] in E. destruct (Rleb _ _) eqn:L in E.
    + rb. now apply (inv_cg s v s').
    + injection E as <-. now apply inv_mixed.
  - injection E as <-. now apply inv_proportioning.
Qed.

Lemma inv_loop tw hf rest s s' :
  inv s -> loop K P alpha H M stop tw hf g0 rest s = Ok s' -> inv s'.
Proof.
  revert s; induction rest as [|rest IH]; intros s I E; cbn [loop] in E;
    destruct (stop (s_x K s) (s_stop K s)).
  - now injection E as <-.
  - injection E as <-. now apply inv_count.
  - now injection E as <-.
  - destruct (step K P alpha H M tw hf g0 (count K s)) as [s1| |] eqn:S1; cbn [obind] in E;
      try discriminate.
    apply (IH s1); auto. apply (inv_step tw hf (count K s)); auto. now apply inv_count.
Qed.

(** ** no quotient by zero *)
Lemma stop_gradient s : inv s -> sp (s_stop K s) (s_stop K s) <= sp (s_stop K s) (s_g K s).
Proof.
  intros I. rewrite (i_stop _ I).
  destruct (reduced_move (s_g K s) (s_x K s) (redg (s_g K s) (s_x K s))) as (_ & E & _); auto.
  - now apply g_length.
  - apply (i_feas _ I).
  - apply masked_refl.
Qed.

Lemma step_runs tw hf s :
  inv s -> 0 < tw -> 0 < delta K P -> ~ is_zero (s_stop K s) ->
  exists s', step K P alpha H M tw hf g0 s = Ok s'.
Proof.
  intros I Tw De NZ. unfold step. destruct (proportional K P tw s) eqn:Pr; [|eauto].
  assert (D : dot K (s_p K s) (H (s_p K s)) <> 0).
  { rewrite dot_sp. intros Z. pose proof (pd_zero n H _ HL HD (i_p _ I) Z) as Zp.
    pose proof (i_pg _ I) as E. rewrite sp_zero_l in E by auto.
    assert (Zf : is_zero (s_gfree K s)).
    { destruct (is_zero_dec (s_gfree K s)) as [|N]; auto.
      pose proof (MD _ (gfree_length s I) N). lra. }
    unfold proportional in Pr. cbn [leb exact mul zero] in Pr. rb. rewrite !dot_sp in Pr.
    rewrite (sp_comm _ (s_gfree K s)), (sp_zero_l (s_gfree K s)) in Pr by auto.
    assert (M0 : max K 0 0 = 0) by (destruct (mp_max_cases 0 0 h); auto). rewrite M0 in Pr.
    destruct (mp_max_ge 0 (sp (s_stop K s) (s_g K s)) h) as [_ M2].
    pose proof (stop_gradient s I) as SG. pose proof (sp_self (s_stop K s)) as SS.
    apply NZ, sp_self_zero.
    set (m := max K 0 (sp (s_stop K s) (s_g K s))) in *.
    assert (0 < tw * delta K P) by (apply Rmult_lt_0_compat; auto).
    assert (m <= 0); [|lra].
    destruct (Rle_dec m 0); auto. exfalso.
    assert (0 < tw * delta K P * m) by (apply Rmult_lt_0_compat; lra).
    cbn [delta num exact] in *. lra. }
  rewrite quot_def by auto. cbn [obind].
  destruct (leb K _ _); [|eauto]. unfold cg_step. rewrite quot_def by auto. cbn [obind]. eauto.
Qed.

Lemma loop_runs tw hf rest s :
  inv s -> 0 < tw -> 0 < delta K P ->
  (forall x r, length r = n -> is_zero r -> stop x r = true) ->
  exists s', loop K P alpha H M stop tw hf g0 rest s = Ok s'.
Proof.
  intros I Tw De SZ. revert s I; induction rest as [|rest IH]; intros s I; cbn [loop];
    destruct (stop (s_x K s) (s_stop K s)) eqn:St; eauto.
  destruct (step_runs tw hf (count K s)) as [s1 S1]; auto using inv_count.
  { intros Z. rewrite SZ in St; try discriminate; auto.
    rewrite (i_stop _ I). apply red_length; [now apply g_length|apply (i_feas _ I)]. }
  rewrite S1. cbn [obind]. apply IH. apply (inv_step tw hf (count K s)); auto using inv_count.
Qed.

(** ** descent *)
Hypothesis HS : symmetric n H.

Lemma grad_sp (x d : list R) : length x = n -> length d = n ->
  sp (grad x) d = sp (H x) d - sp b d.
Proof.
  intros Ex Ed. unfold grad. rewrite sp_comb_l by (rewrite H_length, g0_length; auto).
  unfold minus. rewrite vscale_comb. cbn [opp one exact].
  assert (E : forall u v, sp (map (fun a => - (1) * a) u) v = - sp u v).
  { induction u as [|a u IH]; intros [|c v]; cbn [map]; rewrite ?sp_nil_l, ?sp_nil_r, ?sp_cons;
      try lra. rewrite IH. ring. }
  rewrite E. ring.
Qed.

Lemma energy_move (x d : list R) t : length x = n -> length d = n ->
  energy H b (comb x t d) = energy H b x + t * sp (grad x) d + / 2 * (t * t) * sp d (H d).
Proof.
  intros Ex Ed. unfold energy. rewrite (proj2 HL) by auto.
  rewrite !sp_comb_l by congruence.
  rewrite !sp_comb_r by (rewrite ?H_length by auto; congruence).
  rewrite grad_sp by auto.
  pose proof (HS x d Ex Ed) as S1. rewrite S1. rewrite (sp_comm d (H x)). field.
Qed.

Lemma cost_energy (x : list R) : length x = n ->
  cost_of K (/ 2) g0 x (grad x) = energy H b x.
Proof.
  intros Ex. unfold cost_of. cbn [mul one exact]. rewrite dot_sp, vadd_comb.
  rewrite sp_comb_r by (rewrite g0_length, grad_length; auto).
  rewrite (sp_comm x (grad x)), grad_sp by auto.
  assert (E : sp x g0 = - sp b x).
  { pose proof (grad_sp x x Ex Ex) as G. unfold grad in G.
    rewrite sp_comb_l in G by (rewrite H_length, g0_length; auto). rewrite (sp_comm x). lra. }
  rewrite E. unfold energy. rewrite (sp_comm x (H x)). cbn [num exact]. field.
Qed.

(** ** optimality of a point with the zero stopping gradient *)
Lemma red_all_zero ls us g x : between ls us x -> length g = length x ->
  is_zero (red_all h alpha ls us g x) ->
  forall y, between ls us y -> 0 <= sp g (comb y (-1) x).
Proof.
  revert us g x; induction ls as [|l ls IH]; intros [|u us] [|c g] [|a x] B E Z [|d y] By;
    try discriminate; try contradiction.
  - rewrite sp_nil_l. lra.
  - cbn [red_all] in Z. inversion Z as [|? ? Z1 Z2]; subst. destruct B as [B1 B2], By as [Y1 Y2].
    rewrite comb_cons, sp_cons.
    pose proof (IH us g x B2 ltac:(cbn in E; lia) Z2 y Y2) as I2.
    destruct (red1_spec h alpha l u c a Ha B1) as (_ & _ & C). rewrite Z1 in C.
    replace (a - alpha * 0) with a in C by ring. symmetry in C.
    destruct (clamp_fixed h l u a (alpha * c) B1 C) as [C1 C2].
    assert (0 <= c * (d + -1 * a)); [|lra].
    destruct (Rtotal_order d a) as [T|[T|T]].
    + assert (alpha * c <= 0) by (apply C2; lra). assert (c <= 0) by nra. nra.
    + subst. replace (a + -1 * a) with 0 by ring. lra.
    + assert (0 <= alpha * c) by (apply C1; lra). assert (0 <= c) by nra. nra.
Qed.

Lemma comb_rebuild (x y : list R) : length x = length y -> comb x 1 (comb y (-1) x) = y.
Proof.
  revert y; induction x as [|a x IH]; intros [|c y] E; try discriminate; auto.
  rewrite !comb_cons, IH by (cbn in E; lia). f_equal. ring.
Qed.

Lemma zero_stop_optimal s y :
  inv s -> is_zero (s_stop K s) -> feas y -> energy H b (s_x K s) <= energy H b y.
Proof.
  intros I Z [Ly By]. destruct (i_feas _ I) as [Lx Bx].
  rewrite (i_stop _ I), reduced_split in Z by (auto; now apply g_length).
  apply Forall_app in Z. destruct Z as [Z1 Z2].
  set (x := s_x K s : list R) in *.
  assert (Ld : length (comb y (-1) x) = n) by (now apply comb_len).
  assert (G : 0 <= sp (s_g K s) (comb y (-1) x)).
  { rewrite sp_split by (auto; now apply g_length). rewrite (sp_zero_l (firstn neq (s_g K s))) by auto.
    rewrite comb_skipn.
    pose proof (red_all_zero lbs ubs (skipn neq (s_g K s)) (skipn neq x) Bx) as R1.
    rewrite !skip_length in R1 by (auto; now apply g_length).
    specialize (R1 eq_refl Z2 (skipn neq y) By).
    cbn [num exact] in *. rewrite Rplus_0_l. exact R1. }
  rewrite <- (comb_rebuild x y) by congruence.
  rewrite energy_move by auto. rewrite (i_g _ I) in G. fold x in G.
  pose proof (pd_nonneg n H (comb y (-1) x) HL HD Ld). lra.
Qed.

(** alpha is at most two over the largest eigenvalue *)
Hypothesis HA : forall v, length v = n -> alpha * sp v (H v) <= 2 * sp v v.

Lemma reduced_descent (x r : list R) :
  feas x -> masked (redg (grad x) x) r -> energy H b (comb x (- alpha) r) <= energy H b x.
Proof.
  intros F Ms. destruct (reduced_move (grad x) x r) as (_ & E & L); auto.
  { apply grad_length, F. }
  rewrite energy_move by (auto; apply F).
  rewrite (sp_comm (grad x)). specialize (HA r L).
  replace (/ 2 * (- alpha * - alpha) * sp r (H r)) with (alpha / 2 * (alpha * sp r (H r))) by field.
  assert (alpha / 2 * (alpha * sp r (H r)) <= alpha / 2 * (2 * sp r r)).
  { apply Rmult_le_compat_l; lra. }
  assert (alpha * sp r r <= alpha * sp r (grad x)) by (apply Rmult_le_compat_l; lra). lra.
Qed.

Lemma step_descent tw s s' :
  inv s -> step K P alpha H M tw (/ 2) g0 s = Ok s' ->
  energy H b (s_x K s') <= energy H b (s_x K s).
Proof.
  intros I E. unfold step in E. destruct (proportional K P tw s).
  - destruct (quot K (dot K (s_z K s) (s_g K s)) (dot K (s_p K s) (H (s_p K s)))) as [v| |] eqn:Q;
      cbn [obind] in E; try discriminate.
    destruct (alpha_cg_sign s v I Q) as (D & V & VD).
    rewrite (i_g _ I) in VD.
    cbn [leb exact] in E. destruct (Rleb _ _) eqn:L in E.
    + rb. destruct (inv_cg s v s' I Q L E) as [_ ->].
      rewrite energy_move by (apply (i_feas _ I) || apply (i_p _ I)).
      rewrite (sp_comm (grad _)), <- VD.
      assert (0 <= v * v * sp (s_p K s) (H (s_p K s))).
      { apply Rmult_le_pos; [nra|lra]. }
      nra.
    + rb. injection E as <-. unfold mixed_step. cbn [opp exact ltb]. rewrite !vadd_comb.
      set (nx := restrict K P (comb (s_x K s) (- v) (s_p K s)) : list R).
      assert (Ln : length nx = n).
      { apply restrict_length, comb_len; [apply (i_feas _ I)|apply (i_p _ I)]. }
      match goal with |- context [Rltb ?a ?c] => destruct (Rltb a c) eqn:B end.
      * rb. change (energy H b nx <= energy H b (s_x K s)).
        rewrite gradient_grad, cost_energy in B by auto.
        rewrite (i_g _ I), cost_energy in B by (apply (i_feas _ I)). lra.
      * clear B. unfold restart. cbn [s_x].
        destruct (feasible_step (s_x K s) (s_p K s)) as [F0 _]; auto using (i_feas _ I), (i_p _ I).
        set (t := feasible_step_length K P (s_x K s) (s_p K s)) in *.
        destruct (half_step_feas s t I) as (r & F & Ms & ->); [unfold t in *; lra|].
        apply Rle_trans with (energy H b (comb (s_x K s) (- t) (s_p K s))).
        { now apply reduced_descent. }
        rewrite energy_move by (apply (i_feas _ I) || apply (i_p _ I)).
        rewrite (sp_comm (grad _)), <- VD.
        set (q := sp (s_p K s) (H (s_p K s))) in *.
        assert (T0 : 0 <= t) by exact F0. assert (TV : t < v) by exact L.
        assert (t * t * q <= t * v * q).
        { apply Rmult_le_compat_r; [lra|]. apply Rmult_le_compat_l; lra. }
        assert (0 <= t * v * q) by (apply Rmult_le_pos; [apply Rmult_le_pos; lra|lra]).
        nra.
  - injection E as <-. unfold proportioning_step, restart. cbn [s_x].
    destruct (proportioning_point s I) as (r & Ms & ->).
    apply reduced_descent; auto. apply (i_feas _ I).
Qed.

Lemma loop_descent tw rest s s' :
  inv s -> loop K P alpha H M stop tw (/ 2) g0 rest s = Ok s' ->
  energy H b (s_x K s') <= energy H b (s_x K s).
Proof.
  revert s; induction rest as [|rest IH]; intros s I E; cbn [loop] in E;
    destruct (stop (s_x K s) (s_stop K s)).
  - injection E as <-. lra.
  - injection E as <-. cbn. lra.
  - injection E as <-. lra.
  - destruct (step K P alpha H M tw (/ 2) g0 (count K s)) as [s1| |] eqn:S1; cbn [obind] in E;
      try discriminate.
    assert (I1 : inv s1) by (apply (inv_step tw (/ 2) (count K s)); auto using inv_count).
    pose proof (step_descent tw (count K s) s1 (inv_count s I) S1) as D.
    pose proof (IH s1 I1 E). cbn [s_x count] in D. lra.
Qed.

End Run.
