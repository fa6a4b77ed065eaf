(** * Runs of the orthogonalized PCPG *)
From Coq Require Import List Reals Bool Lra Lia.
From Verif Require Import Base M_DualVector M_Mprgp M_SolverInfo M_Pcpg S_SolverInfo S_Mprgp S_Pcpg
  L_RVec L_Pcpg L_Pcpg2 L_Pcpg3 P_SolverInfo.
Import ListNotations.
Local Open Scope R_scope.
Local Open Scope out_scope.

Local Notation comb := combination.
Local Notation sp := scalar_product.

Section OrthoLoop.
Variable K : scalar.
Variable isnan : num K -> bool.
Variable infinity : num K.
Variable q : num K -> num K -> outcome (num K).
Variable C : config K.
Variable A : operators K.
Variable ivs : list (nat * nat).
Local Notation step := (ortho_step K isnan infinity q C A ivs).
Local Notation loop := (ortho_loop K isnan infinity q C A ivs).

(** the last pass of a run *)
Lemma oloop_snoc k s0 s' : loop (Datatypes.S k) s0 = Ok s' <->
  exists s, loop k s0 = Ok s /\
    if converged K (status K (base K s)) then s' = s else step s = Ok s'.
Proof.
  revert s0; induction k as [|k IH]; intros s0.
  - cbn [ortho_loop]. destruct (converged K (status K (base K s0))) eqn:E.
    + split; [intros H; injection H as <-; exists s0; now rewrite E|].
      intros (s & H & D). injection H as <-. rewrite E in D. now subst.
    + split.
      * intros H. exists s0. rewrite E. split; auto.
        destruct (step s0) as [s1| |]; cbn [obind] in H; try discriminate.
        now destruct (converged K (status K (base K s1))).
      * intros (s & H & D). injection H as <-. rewrite E in D. rewrite D. cbn [obind].
        now destruct (converged K (status K (base K s'))).
  - remember (Datatypes.S k) as k1 eqn:Ek. cbn [ortho_loop]. subst k1.
    destruct (converged K (status K (base K s0))) eqn:E.
    + cbn [ortho_loop]. rewrite E.
      split; [intros H; injection H as <-; exists s0; now rewrite E|].
      intros (s & H & D). injection H as <-. rewrite E in D. now subst.
    + assert (X : forall s, loop (Datatypes.S k) s0 = Ok s <-> (s1 <- step s0 ;; loop k s1) = Ok s).
      { intros s. cbn [ortho_loop]. rewrite E. tauto. }
      destruct (step s0) as [s1| |] eqn:Es; cbn [obind] in *.
      * rewrite IH. split; intros (s & H & D); exists s; split; auto; now apply X.
      * split; [discriminate|]. intros (s & H & D). apply X in H. discriminate.
      * split; [discriminate|]. intros (s & H & D). apply X in H. discriminate.
Qed.

Lemma oloop_prefix k j s0 s : loop (j + k) s0 = Ok s -> exists t, loop k s0 = Ok t.
Proof.
  revert s; induction j as [|j IH]; intros s E; [eauto|].
  cbn [Nat.add] in E. apply oloop_snoc in E. destruct E as (t & E & _). eauto.
Qed.

(** what the status of a run has seen *)
Lemma oloop_watched k s0 s : status K (base K s0) = set_info K infinity C (yw K (base K s0)) -> loop k s0 = Ok s ->
  exists ws, watched K isnan infinity C (yw K (base K s0)) ws (status K (base K s)) /\
    (length ws <= k)%nat /\ (converged K (status K (base K s)) = false -> length ws = k) /\
    (exists s', loop (length ws) s0 = Ok s' /\ s' = s) /\
    (forall j, (j < length ws)%nat -> exists t, loop j s0 = Ok t /\ nth_error ws j = Some (yw K (base K t)) /\
       converged K (status K (base K t)) = false).
Proof.
  intros E0. revert s; induction k as [|k IH]; intros s E.
  - exists []. assert (s0 = s) as <-.
    { cbn [ortho_loop] in E. destruct (converged K (status K (base K s0))); congruence. }
    rewrite E0. split; [constructor|]. split; auto. split; auto. split; [eauto|]. cbn. intros; lia.
  - apply oloop_snoc in E. destruct E as (t & Et & D).
    destruct (IH t Et) as (ws & W & L & Lc & (t' & Et' & ->) & H).
    destruct (converged K (status K (base K t))) eqn:Ct.
    + subst s. exists ws. split; auto. split; [lia|]. split; [congruence|]. split; eauto.
    + specialize (Lc eq_refl). exists (ws ++ [yw K (base K t)]). rewrite app_length. cbn [length].
      assert (U : update_info K isnan infinity C (yw K (base K t)) (status K (base K t)) = Ok (status K (base K s))).
      { unfold ortho_step in D. cbn zeta in D. destruct (q _ _) as [g| |]; cbn [obind] in D; try discriminate.
        destruct (divide_all _ _ _ _) as [b| |]; cbn [obind] in D; try discriminate.
        destruct (rows_applyT _ _ _ _) as [v| |]; cbn [obind] in D; try discriminate.
        destruct (update_info _ _ _ _ _ _) as [i| |]; cbn [obind] in D; try discriminate.
        injection D as <-. reflexivity. }
      split; [econstructor; eauto|]. split; [lia|]. split; [lia|]. split.
      * exists s. split; auto. replace (length ws + 1)%nat with (Datatypes.S k) by lia.
        apply oloop_snoc. exists t. now rewrite Ct.
      * intros j Lj. destruct (Nat.eq_dec j (length ws)) as [->|Nj].
        -- exists t. rewrite nth_error_app2, Nat.sub_diag by lia. auto.
        -- destruct (H j ltac:(lia)) as (u & Eu & Nu & Cu). exists u.
           rewrite nth_error_app1 by lia. auto.
Qed.

(** a state that was left has not stopped the run *)
Lemma oloop_left k s0 s : loop k s0 = Ok s -> converged K (status K (base K s)) = false ->
  forall j t, (j <= k)%nat -> loop j s0 = Ok t -> converged K (status K (base K t)) = false.
Proof.
  revert s; induction k as [|k IH]; intros s E Cv j t Lj Et.
  - replace j with 0%nat in Et by lia. congruence.
  - destruct (Nat.eq_dec j (Datatypes.S k)) as [->|Nj]; [congruence|].
    apply oloop_snoc in E. destruct E as (u & Eu & D).
    destruct (converged K (status K (base K u))) eqn:Cu; [subst; congruence|].
    apply (IH u Eu Cu j t); auto. lia.
Qed.
End OrthoLoop.


Section Linear.
Variable h : R.
Local Notation K := (exact h).
Variable n m : nat.
Variable A : operators (exact h).
Variable d e : list R.
Local Notation Fo := (F (exact h) A).
Local Notation So := (S (exact h) A).
Local Notation B := (constrained h A).
Local Notation P := (project (exact h) A).
Local Notation PT := (projectT (exact h) A).
Variable isnan : R -> bool.
Variable infinity : R.
Variable C : config (exact h).
Variable q : R -> R -> outcome R.
Variable ivs : list (nat * nat).
Variable kp ky : list R.
Hypothesis LP : linear_problem h n m A d e.
Local Notation inv1 := (inv1 h n A d).
Local Notation kernel v := (length (v : list R) = n /\ is_zero (B v)).

Definition oinv (o : ostate K) : Prop :=
  inv1 (base K o) /\ Forall (fun v : list R => kernel v) (pi K o).

Lemma kernel_comb u c v : kernel u -> kernel v -> kernel (comb u c v).
Proof.
  intros [L1 Z1] [L2 Z2]. destruct (B_linear h n m A d e LP) as [B1 B2].
  split; [apply comb_len; auto|]. rewrite B2 by auto. apply comb_zero_zero; auto. rewrite !B1; auto.
Qed.

Lemma kernel_zero : kernel (repeat 0 n).
Proof.
  split; [apply repeat_length|]. apply (linear_map_zero n m); [apply (B_linear h n m A d e LP)|apply repeat_length|apply zeros_is_zero].
Qed.

(** the combination of the rows *)
Lemma rows_kernel rows cs v : Forall (fun v : list R => kernel v) rows ->
  rows_applyT K n rows cs = Ok v -> kernel v.
Proof.
  revert rows v; induction cs as [|c cs IH]; intros rows v Z E.
  - assert (E' : Ok (vzero K n) = Ok v) by (destruct rows; exact E). clear E. rename E' into E. injection E as <-. apply kernel_zero.
  - destruct rows as [|row rows]; [discriminate|]. cbn [rows_applyT] in E. inversion Z as [|? ? Z1 Z2]; subst.
    destruct (rows_applyT K n rows cs) as [u| |] eqn:Eu; cbn [obind] in E; try discriminate.
    injection E as <-. rewrite vadd_comb. apply kernel_comb; auto. eapply IH; eauto.
Qed.

Lemma rows_lin rows cs v : Forall (fun v : list R => length v = n) rows ->
  rows_applyT K n rows cs = Ok v ->
  length v = n /\ (length cs <= length rows)%nat /\ forall u, sp v u = lin cs rows u.
Proof.
  revert rows v; induction cs as [|c cs IH]; intros rows v Z E.
  - assert (E' : Ok (vzero K n) = Ok v) by (destruct rows; exact E). clear E. rename E' into E. injection E as <-. unfold vzero. cbn [zero exact].
    split; [apply repeat_length|]. split; [cbn; lia|].
    intros u. rewrite sp_zero_l by apply zeros_is_zero. unfold lin. reflexivity.
  - destruct rows as [|row rows]; [discriminate|]. cbn [rows_applyT] in E. pose proof (Forall_inv Z) as Z1. pose proof (Forall_inv_tail Z) as Z2. cbn beta in Z1.
    destruct (rows_applyT K n rows cs) as [v0| |] eqn:Eu; cbn [obind] in E; try discriminate.
    injection E as <-. destruct (IH rows v0 Z2 Eu) as (L & L2 & H). rewrite vadd_comb.
    split; [apply comb_len; auto|]. split; [exact (le_n_S _ _ L2)|].
    intros u. rewrite sp_comb_l by (transitivity n; [exact L|symmetry; exact Z1]). rewrite H, lin_cons. ring.
Qed.

Lemma ostart_inv : let o := ortho_start K infinity C A kp ky d e in
  oinv o /\ B (x K (base K o)) = e /\ p K (base K o) = y K (base K o).
Proof.
  unfold ortho_start. pose proof (lp_d _ _ _ _ _ _ LP) as Ed. pose proof (lp_e _ _ _ _ _ _ LP) as Ee.
  cbn zeta. set (l := apply_GtinvGGt K A (length d) e).
  assert (X : length (l : list R) = n /\ B l = e).
  { subst l. change (@length (num K) d) with (@length R d). rewrite Ed. now apply (start_point h n m A d e LP). }
  destruct X as [X1 X2].
  assert (Lw : length (PT (residual K A d l) : list R) = n).
  { apply (PT_len h n m A d e LP). rewrite (residual_model h n m A d e LP) by auto. now apply (residual_len h n m A d e LP). }
  assert (Ky : kernel (P (So (PT (residual K A d l))))).
  { split; [apply (P_len h n m A d e LP), (S_len h n m A d e LP), Lw|apply (B_P h n m A d e LP), (S_len h n m A d e LP), Lw]. }
  split; [|split; [exact X2|reflexivity]]. split; cbn [base pi].
  - apply inv1_intro; auto; try apply Ky.
    + now apply (residual_model h n m A d e LP).
    + now rewrite dot_sp.
  - constructor; auto.
Qed.

(** what a pass does *)
Lemma ostep_moves o o' : oinv o -> ortho_step K isnan infinity q C A ivs o = Ok o' ->
  exists g v, let s := base K o in let s' := base K o' in
    q (yw K s) (sp (p K s) (Fo (p K s))) = Ok g /\
    Fpi K o' = Fpi K o ++ [Fo (p K s)] /\ pFps K o' = pFps K o ++ [sp (p K s) (Fo (p K s))] /\
    divide_all K q (rows_apply K ivs (Fpi K o') (y K s') (yFps K o ++ [0])) (pFps K o') = Ok (yFps K o') /\
    rows_applyT K n (pi K o) (yFps K o') = Ok v /\
    x K s' = comb (x K s) g (p K s) /\ r K s' = comb (r K s) (- g) (Fo (p K s)) /\
    p K s' = comb v 1 (y K s') /\ pi K o' = pi K o ++ [p K s'] /\
    update_info K isnan infinity C (yw K s) (status K s) = Ok (status K s') /\
    oinv o' /\ B (x K s') = B (x K s).
Proof.
  intros [I Z] E. unfold ortho_step in E. cbn zeta in E. rewrite dot_sp in E.
  destruct (q (yw K (base K o)) (sp (p K (base K o)) (Fo (p K (base K o))))) as [g| |] eqn:Eg; cbn [obind] in E; try discriminate.
  rewrite !vadd_comb, dot_sp in E. cbn [opp zero exact] in E.
  set (r' := comb (r K (base K o)) (- g) (Fo (p K (base K o)))) in *.
  assert (Lr : length r' = n).
  { unfold r'. apply comb_len; [now apply (r_len h n m A d e LP)|]. apply (F_len h n m A d e LP), (i_p _ _ _ _ _ I). }
  assert (Ky : kernel (P (So (PT r')))).
  { split; [apply (P_len h n m A d e LP), (S_len h n m A d e LP), (PT_len h n m A d e LP), Lr
           |apply (B_P h n m A d e LP), (S_len h n m A d e LP), (PT_len h n m A d e LP), Lr]. }
  destruct (divide_all K q _ _) as [cs| |] eqn:Ec; cbn [obind] in E; try discriminate.
  change (@length (num K) (P (So (PT r')))) with (@length R (P (So (PT r')))) in E. rewrite (proj1 Ky) in E.
  destruct (rows_applyT K n (pi K o) cs) as [v| |] eqn:Ev; cbn [obind] in E; try discriminate.
  destruct (update_info K isnan infinity C _ _) as [i| |] eqn:Ei; cbn [obind] in E; try discriminate.
  pose proof (rows_kernel _ _ _ Z Ev) as Kv.
  rewrite vadd_comb in E. cbn [one exact] in E. pose proof (kernel_comb v 1 _ Kv Ky) as Kp.
  injection E as <-. exists g, v. cbn [base pi Fpi pFps yFps x r w y p yw status].
  destruct (move_inv1 h n m A d e LP (base K o) g (comb v 1 (P (So (PT r')))) _ i I (proj1 Kp) (proj2 Kp) eq_refl) as [M1 M2].
  repeat (split; [first [reflexivity|assumption]|]).
  split; [|exact M2]. split; cbn [base pi]; [exact M1|]. apply Forall_app. split; auto.
Qed.

Lemma orun_inv k o : orthopcpg K isnan infinity q C A ivs k kp ky d e = Ok o ->
  oinv o /\ B (x K (base K o)) = e.
Proof.
  unfold orthopcpg. revert o; induction k as [|k IH]; intros o E.
  - destruct ostart_inv as (I & X & _). cbn [ortho_loop] in E.
    destruct (converged K _); injection E as <-; auto.
  - apply oloop_snoc in E. destruct E as (t & Et & D). destruct (IH t Et) as [I X].
    destruct (converged K (status K (base K t))); [subst; auto|].
    destruct (ostep_moves t o I D) as (g & v & _ & _ & _ & _ & _ & _ & _ & _ & _ & _ & I' & X').
    split; auto. now rewrite X'.
Qed.
End Linear.

(** all rows over the one interval *)
Lemma rows_apply_all h n (rows : list (list R)) (v out : list R) :
  Forall (fun u : list R => length u = n) rows -> length v = n -> length out = length rows ->
  rows_apply (exact h) [(0%nat, n)] rows v out = map (fun u => sp u v) rows.
Proof.
  intros Z L E. unfold rows_apply. cbn [fold_left]. unfold overwrite.
  rewrite skipn_all2 by (rewrite map_length; change (num (exact h)) with R; lia). rewrite app_nil_r.
  apply map_ext_in. intros u Hu. unfold segment. cbn [fst snd skipn].
  rewrite Forall_forall in Z. specialize (Z u Hu). cbn beta in Z. change (num (exact h)) with R.
  rewrite !firstn_all2 by lia. apply dot_sp.
Qed.

Lemma divide_all_inv h a b cs : divide_all (exact h) quotient a b = Ok cs ->
  length cs = length a /\ (length a <= length b)%nat /\
  forall j, (j < length a)%nat -> nth j b 0 <> 0 /\ nth j cs 0 = - (nth j a 0 / nth j b 0).
Proof.
  revert b cs; induction a as [|u a IH]; intros b cs E.
  - assert (E' : Ok [] = Ok cs) by (destruct b; exact E). injection E' as <-. cbn. repeat split; try lia.
  - destruct b as [|v b]; [discriminate|]. cbn [divide_all opp exact] in E.
    destruct (quotient u (- v)) as [c| |] eqn:Ec; cbn [obind] in E; try discriminate.
    destruct (divide_all (exact h) quotient a b) as [l| |] eqn:El; cbn [obind] in E; try discriminate.
    injection E as <-. destruct (IH b l El) as (L1 & L2 & H). apply quotient_inv in Ec. destruct Ec as [N ->].
    split; [cbn; f_equal; exact L1|]. split; [cbn; apply le_n_S; exact L2|].
    intros [|j] Lj; cbn [nth].
    + cbn [num exact] in *. assert (v <> 0) by (intros ->; apply N; ring). split; [auto|]. now field.
    + apply H. cbn in Lj. apply Nat.succ_lt_mono. exact Lj.
Qed.

Lemma divide_all_ok h a b : length a = length b -> Forall (fun v => v <> 0) b ->
  exists cs, divide_all (exact h) quotient a b = Ok cs.
Proof.
  revert b; induction a as [|u a IH]; intros [|v b] E Z; try discriminate.
  - exists []. reflexivity.
  - inversion Z as [|? ? Z1 Z2]; subst. cbn [divide_all opp exact]. rewrite quotient_ok by lra. cbn [obind].
    destruct (IH b (eq_add_S _ _ E) Z2) as [cs ->]. cbn [obind]. eauto.
Qed.

Lemma rows_applyT_ok h n (rows : list (list R)) cs : (length cs <= length rows)%nat ->
  exists v, rows_applyT (exact h) n rows cs = Ok v.
Proof.
  revert cs; induction rows as [|row rows IH]; intros [|c cs] L; try (eexists; reflexivity).
  - cbn in L. lia.
  - cbn [rows_applyT]. destruct (IH cs (le_S_n _ _ L)) as [v Ev]. rewrite Ev. cbn [obind]. eauto.
Qed.

Section Exact.
Variable h : R.
Local Notation K := (exact h).
Variable n m : nat.
Variable A : operators (exact h).
Variable d e : list R.
Local Notation Fo := (F (exact h) A).
Local Notation B := (constrained h A).
Variable isnan : R -> bool.
Variable infinity : R.
Variable C : config (exact h).
Hypothesis SP : spd_problem h n m A d e.
Let LP : linear_problem h n m A d e := sp_linear _ _ _ _ _ _ SP.
Local Notation inv1 := (inv1 h n A d).
Local Notation run k := (orthopcpg K isnan infinity quotient C A [(0%nat, n)] k [] [] d e).
Local Notation o0 := (ortho_start K infinity C A [] [] d e).
Local Notation oinv := (oinv h n A d).

Definition nth_ostate (k : nat) : ostate K := match run k with Ok o => o | _ => o0 end.
Local Notation ot := nth_ostate.
Local Notation st := (fun k => base K (nth_ostate k)).

Section Run.
Variable N : nat.
Variable o : ostate K.
Hypothesis HN : run N = Ok o.
Hypothesis HL : forall j t, (j < N)%nat -> run j = Ok t -> converged K (status K (base K t)) = false.

Lemma ot_run k : (k <= N)%nat -> run k = Ok (ot k).
Proof.
  intros L. unfold nth_ostate.
  destruct (oloop_prefix K isnan infinity quotient C A [(0%nat, n)] k (N - k) o0 o) as [t Et].
  - now replace (N - k + k)%nat with N by lia.
  - unfold orthopcpg. now rewrite Et.
Qed.

Lemma ot_zero : ot 0 = o0.
Proof.
  pose proof (ot_run 0%nat ltac:(lia)) as E. unfold orthopcpg in E. cbn [ortho_loop] in E.
  destruct (converged K _); congruence.
Qed.

Lemma ot_step k : (k < N)%nat ->
  ortho_step K isnan infinity quotient C A [(0%nat, n)] (ot k) = Ok (ot (Datatypes.S k)).
Proof.
  intros L. pose proof (ot_run (Datatypes.S k) L) as E. apply oloop_snoc in E.
  destruct E as (t & Et & D). pose proof (ot_run k ltac:(lia)) as Ek. unfold orthopcpg in Ek.
  assert (t = ot k) as -> by congruence.
  rewrite (HL k (ot k) L) in D by (apply ot_run; lia). auto.
Qed.

Lemma ot_inv k : (k <= N)%nat -> oinv (ot k).
Proof. intros L. eapply (orun_inv h n m A d e); [exact LP|]. apply ot_run, L. Qed.

Lemma ost_inv1 k : (k <= N)%nat -> inv1 (st k).
Proof. intros L. apply (ot_inv k L). Qed.

Definition ostep_length (k : nat) : R := yw K (st k) / sp (p K (st k)) (Fo (p K (st k))).

(** the kept arrays *)
Lemma ot_book k : (k <= N)%nat ->
  pi K (ot k) = map (fun j => p K (st j) : list R) (seq 0 (Datatypes.S k)) /\
  Fpi K (ot k) = map (fun j => Fo (p K (st j))) (seq 0 k) /\
  pFps K (ot k) = map (fun j => sp (p K (st j)) (Fo (p K (st j)))) (seq 0 k) /\
  length (yFps K (ot k) : list R) = k.
Proof.
  induction k as [|k IH]; intros L.
  - assert (E : pi K (ot 0) = [p K (st 0%nat)]) by (rewrite ot_zero; reflexivity).
    split; [exact E|]. rewrite ot_zero. repeat split; reflexivity.
  - destruct (IH ltac:(lia)) as (E1 & E2 & E3 & E4).
    destruct (ostep_moves h n m A d e isnan infinity C quotient _ LP _ _ (ot_inv k ltac:(lia)) (ot_step k L))
      as (g & v & Eg & F1 & F2 & F3 & F4 & _ & _ & _ & F5 & _).
    split; [rewrite F5, E1, (seq_S (Datatypes.S k)), map_app; reflexivity|].
    split; [rewrite F1, E2, seq_S, map_app; reflexivity|].
    split; [rewrite F2, E3, seq_S, map_app; reflexivity|].
    rewrite rows_apply_all in F3.
    + apply divide_all_inv in F3. destruct F3 as (F3 & _). rewrite map_length in F3.
      transitivity (length (Fpi K (ot (Datatypes.S k)))); [exact F3|].
      rewrite F1, E2, app_length, map_length, seq_length. cbn. lia.
    + rewrite F1, E2. apply Forall_app. split.
      * apply Forall_map, Forall_forall. intros j Hj. apply in_seq in Hj.
        apply (F_len h n m A d e LP), (i_p _ _ _ _ _ (ost_inv1 j ltac:(lia))).
      * constructor; [|constructor]. apply (F_len h n m A d e LP), (i_p _ _ _ _ _ (ost_inv1 k ltac:(lia))).
    + apply (y_len h n m A d e LP), (ost_inv1 (Datatypes.S k) L).
    + rewrite F1, E2, !app_length, map_length, seq_length. cbn [length]. f_equal. exact E4.
Qed.

Lemma ost_moves k : (k < N)%nat -> exists v,
  let cs := yFps K (ot (Datatypes.S k)) in
  sp (p K (st k)) (Fo (p K (st k))) <> 0 /\
  x K (st (Datatypes.S k)) = comb (x K (st k)) (ostep_length k) (p K (st k)) /\
  r K (st (Datatypes.S k)) = comb (r K (st k)) (- ostep_length k) (Fo (p K (st k))) /\
  length v = n /\ length (cs : list R) = Datatypes.S k /\
  (forall u, sp v u = lin cs (map (fun j => p K (st j) : list R) (seq 0 (Datatypes.S k))) u) /\
  (forall j, (j <= k)%nat -> sp (p K (st j)) (Fo (p K (st j))) <> 0 /\
     nth j cs 0 = - (sp (Fo (p K (st j))) (y K (st (Datatypes.S k))) / sp (p K (st j)) (Fo (p K (st j))))) /\
  p K (st (Datatypes.S k)) = comb v 1 (y K (st (Datatypes.S k))).
Proof.
  intros L. destruct (ot_book k ltac:(lia)) as (E1 & E2 & E3 & E4).
  destruct (ot_book (Datatypes.S k) L) as (B1 & B2 & B3 & B4).
  destruct (ostep_moves h n m A d e isnan infinity C quotient _ LP _ _ (ot_inv k ltac:(lia)) (ot_step k L))
    as (g & v & Eg & F1 & F2 & F3 & F4 & F6 & F7 & F8 & F5 & _).
  apply quotient_inv in Eg. destruct Eg as [N1 ->].
  rewrite E1 in F4.
  assert (Zp : Forall (fun v : list R => length v = n) (map (fun j => p K (st j) : list R) (seq 0 (Datatypes.S k)))).
  { apply Forall_map, Forall_forall. intros j Hj. apply in_seq in Hj.
    apply (i_p _ _ _ _ _ (ost_inv1 j ltac:(lia))). }
  destruct (rows_lin h n _ _ _ Zp F4) as (Lv & _ & Hv).
  exists v. cbn zeta. split; [exact N1|]. split; [exact F6|]. split; [exact F7|]. split; [exact Lv|].
  split; [exact B4|]. split; [exact Hv|]. split; [|exact F8].
  rewrite rows_apply_all in F3.
  - apply divide_all_inv in F3. destruct F3 as (_ & _ & F3). intros j Lj.
    rewrite B2, B3 in F3. rewrite map_length, map_length, seq_length in F3.
    specialize (F3 j ltac:(lia)).
    assert (X : forall (f : nat -> R), nth j (map f (seq 0 (Datatypes.S k))) 0 = f j).
    { intros f. rewrite (nth_indep _ 0 (f 0%nat)) by (rewrite map_length, seq_length; lia).
      rewrite map_nth, seq_nth by lia. reflexivity. }
    rewrite map_map, !X in F3. exact F3.
  - rewrite B2. apply Forall_map, Forall_forall. intros j Hj. apply in_seq in Hj.
    apply (F_len h n m A d e LP), (i_p _ _ _ _ _ (ost_inv1 j ltac:(lia))).
  - apply (y_len h n m A d e LP), (ost_inv1 (Datatypes.S k) L).
  - rewrite B2, app_length, map_length, seq_length. cbn [length]. rewrite Nat.add_1_r. f_equal. exact E4.
Qed.

(** the quotient of the step length is defined, but yw may vanish *)
Hypothesis HY : forall k, (k < N)%nat -> yw K (st k) <> 0.

Lemma ost_facts k : (k < N)%nat ->
  sp (p K (st k)) (Fo (p K (st k))) <> 0 /\ yw K (st k) <> 0 /\
  x K (st (Datatypes.S k)) = comb (x K (st k)) (ostep_length k) (p K (st k)) /\
  r K (st (Datatypes.S k)) = comb (r K (st k)) (- ostep_length k) (Fo (p K (st k))).
Proof. intros L. destruct (ost_moves k L) as (v & M1 & M2 & M3 & _). auto. Qed.

Lemma ost_span k : (k <= N)%nat -> exists v, in_span h n st k v /\ length v = n /\
  p K (st k) = comb (y K (st k)) 1 v.
Proof.
  intros L. destruct k as [|k].
  - exists (repeat 0 n). split; [|split; [apply repeat_length|]].
    + exists (fun _ => 0). intros u _. cbn. apply sp_zero_l, zeros_is_zero.
    + cbn beta. rewrite ot_zero. destruct (ostart_inv h n m A d e infinity C [] [] LP) as (I & _ & Ep). transitivity (y K (base K o0)); [exact Ep|].
      symmetry. apply comb_ext_zero; [apply zeros_is_zero|].
      rewrite repeat_length. apply (y_len h n m A d e LP _ (proj1 I)).
  - destruct (ost_moves k L) as (v & _ & _ & _ & Lv & Lc & Hv & _ & Ep).
    exists v. split; [|split; [auto|]].
    + exists (fun j => nth j (yFps K (ot (Datatypes.S k))) 0). intros u Lu. rewrite Hv.
      pose proof (lin_seq (fun j => p K (st j) : list R) u (yFps K (ot (Datatypes.S k))) 0) as X0.
      replace (@length R (yFps K (ot (Datatypes.S k)))) with (Datatypes.S k) in X0 by (symmetry; exact Lc).
      etransitivity; [exact X0|]. clear X0.
      assert (X : forall l, fold_right (fun j acc => nth (j - 0) (yFps K (ot (Datatypes.S k))) 0 * sp (p K (st j)) u + acc) 0 l
        = fold_right (fun j acc => nth j (yFps K (ot (Datatypes.S k))) 0 * sp (p K (st j)) u + acc) 0 l).
      { induction l as [|j l IH]; [reflexivity|]. cbn [fold_right]. rewrite IH, Nat.sub_0_r. reflexivity. }
      apply X.
    + cbn beta. rewrite Ep. pose proof (y_len h n m A d e LP _ (ost_inv1 (Datatypes.S k) L)) as Ly. cbn beta in Ly.
      revert Ly Lv. generalize (y K (base K (ot (Datatypes.S k)))). cbn [num exact]. clear.
      intros a. revert a v. induction n as [|i IH]; intros [|a1 a] [|b1 v] E1 E2; try discriminate; auto.
      rewrite !comb_cons. f_equal; [ring|]. apply IH; auto.
Qed.

Lemma ost_conj k : (Datatypes.S k <= N)%nat ->
  (forall j, (j <= k)%nat -> sp (y K (st (Datatypes.S k))) (w K (st j)) = 0) ->
  (forall i j, (i < j <= k)%nat -> sp (p K (st i)) (Fo (p K (st j))) = 0) ->
  forall j, (j <= k)%nat -> sp (p K (st j)) (Fo (p K (st (Datatypes.S k)))) = 0.
Proof.
  intros L _ Pc j Lj. destruct (ost_moves k L) as (v & _ & _ & _ & Lv & Lc & Hv & Hc & Ep).
  pose proof (y_len h n m A d e LP _ (ost_inv1 (Datatypes.S k) L)) as Ly. cbn beta in Ly.
  pose proof (fun i (Li : (i <= k)%nat) => i_p _ _ _ _ _ (ost_inv1 i ltac:(lia))) as Lp. cbn beta in Lp.
  assert (PcS : forall i, (i <= k)%nat -> i <> j -> sp (p K (st i)) (Fo (p K (st j))) = 0).
  { intros i Li Ni. destruct (Nat.lt_ge_cases i j); [apply Pc; lia|].
    rewrite (sp_Fsym _ _ _ _ _ _ SP _ _ (Lp i Li) (Lp j Lj)). rewrite sp_comm. apply Pc. lia. }
  destruct (lp_F _ _ _ _ _ _ LP) as [F1 F2]. cbn beta.
  rewrite Ep, F2 by auto. rewrite sp_comb_r by (rewrite !F1; auto).
  rewrite !(sp_Fsym _ _ _ _ _ _ SP (p K (base K (ot j)))) by auto.
  rewrite (sp_comm (Fo (p K (base K (ot j)))) v), Hv.
  pose proof (lin_pick (fun j => p K (st j) : list R) (Fo (p K (st j))) j (yFps K (ot (Datatypes.S k))) 0) as X0.
  replace (@length R (yFps K (ot (Datatypes.S k)))) with (Datatypes.S k) in X0 by (symmetry; exact Lc).
  specialize (X0 ltac:(intros; apply PcS; lia) ltac:(lia)). cbn beta in X0.
  change (num K) with R. change (num K) with R in X0. rewrite X0. clear X0.
  rewrite Nat.sub_0_r. destruct (Hc j Lj) as [N1 N2]. cbn beta in *.
  change (num K) with R in N2. rewrite N2. field. exact N1.
Qed.

Lemma orun_conjugate :
  (forall i j, (i < j <= N)%nat -> sp (p K (st i)) (r K (st j)) = 0) /\
  (forall i j, (i < j <= N)%nat -> sp (p K (st i)) (Fo (p K (st j))) = 0).
Proof.
  apply (conjugate_all h n m A d e SP st N ostep_length ost_inv1); auto using ost_span, ost_conj;
    try (intros; reflexivity); intros; now apply ost_facts.
Qed.

Lemma orun_orthogonal i j : (i < j <= N)%nat -> sp (y K (st j)) (w K (st i)) = 0.
Proof.
  apply (yr_zero h n m A d e SP st N ostep_length ost_inv1); auto using ost_span, ost_conj;
    try (intros; reflexivity); intros; now apply ost_facts.
Qed.

Lemma orun_pr k : (k <= N)%nat -> sp (p K (st k)) (r K (st k)) = yw K (st k).
Proof.
  apply (pr_yw h n m A d e SP st N ostep_length ost_inv1); auto using ost_span, ost_conj;
    try (intros; reflexivity); intros; now apply ost_facts.
Qed.

Lemma orun_short : (N <= n)%nat.
Proof.
  apply (few_directions h n m A d e SP st N ostep_length ost_inv1); auto using ost_span, ost_conj;
    try (intros; reflexivity); intros; now apply ost_facts.
Qed.

Lemma orun_minimal cs : length cs = N ->
  energy Fo d (x K (st N)) <= energy Fo d (walk (x K (st 0%nat)) cs (map (fun j => p K (st j) : list R) (seq 0 N))).
Proof.
  intros Lc. apply (minimal h n m A d e SP st N ostep_length ost_inv1); auto using ost_span, ost_conj;
    try (intros; reflexivity); intros; now apply ost_facts.
Qed.
End Run.


(** a further pass is defined unless the projected residual vanishes *)
Lemma orun_continues N o : (0 < max_stagnation K C)%nat -> (0 < print_iteration K C)%nat ->
  run N = Ok o -> (forall k t, (k <= N)%nat -> run k = Ok t -> converged K (status K (base K t)) = false) ->
  (forall k t, (k <= N)%nat -> run k = Ok t -> ~ is_zero (w K (base K t))) ->
  exists o', run (Datatypes.S N) = Ok o'.
Proof.
  intros M P E HL W.
  assert (HL' : forall j t, (j < N)%nat -> run j = Ok t -> converged K (status K (base K t)) = false).
  { intros j t Lj. apply HL. lia. }
  assert (HY : forall k, (k <= N)%nat -> 0 < yw K (st k)).
  { intros k Lk. apply (yw_pos h n m A d e SP); [apply (ost_inv1 N o E k Lk)|].
    apply (W k); [lia|]. apply (ot_run N o E k Lk). }
  assert (HY' : forall k, (k < N)%nat -> yw K (st k) <> 0).
  { intros k Lk. specialize (HY k ltac:(lia)). cbn beta in *. lra. }
  assert (HF : forall k, (k <= N)%nat -> 0 < sp (p K (st k)) (Fo (p K (st k)))).
  { intros k Lk. pose proof (orun_pr N o E HL' HY' k Lk) as Pr. specialize (HY k Lk). cbn beta in *.
    apply (pFp_pos h n m A d e SP); [apply (ost_inv1 N o E k Lk)|].
    intros Z. rewrite (sp_zero_l _ (r K (base K (ot k)))) in Pr by exact Z. lra. }
  assert (Es : ot N = o) by (unfold nth_ostate; now rewrite E).
  destruct (ot_book N o E HL' N (le_n N)) as (B1 & B2 & B3 & B4). rewrite Es in *.
  destruct (orun_inv h n m A d e isnan infinity C quotient _ _ _ LP N o E) as [[I Zp] _].
  pose proof (HF N (le_n N)) as Q. pose proof (HY N (le_n N)) as Y. cbn beta in Q, Y. rewrite Es in Q, Y.
  assert (X : exists o', ortho_step K isnan infinity quotient C A [(0%nat, n)] o = Ok o').
  { unfold ortho_step. cbn zeta. rewrite dot_sp, quotient_ok by lra. cbn [obind]. rewrite !vadd_comb.
    cbn [opp zero exact].
    set (r' := comb (r K (base K o)) _ _).
    assert (Lr : length r' = n).
    { unfold r'. apply comb_len; [now apply (r_len h n m A d e LP)|]. apply (F_len h n m A d e LP), (i_p _ _ _ _ _ I). }
    set (y' := project K A (S K A (projectT K A r'))).
    assert (Ly : length (y' : list R) = n).
    { apply (P_len h n m A d e LP), (S_len h n m A d e LP), (PT_len h n m A d e LP), Lr. }
    rewrite rows_apply_all.
    2:{ rewrite B2. apply Forall_app. split.
        - apply Forall_map, Forall_forall. intros j Hj. apply in_seq in Hj.
          apply (F_len h n m A d e LP), (i_p _ _ _ _ _ (ost_inv1 N o E j ltac:(lia))).
        - constructor; [|constructor]. apply (F_len h n m A d e LP), (i_p _ _ _ _ _ I). }
    2:{ exact Ly. }
    2:{ rewrite B2, !app_length, map_length, seq_length. cbn [length]. f_equal. exact B4. }
    match goal with |- exists o', obind (divide_all _ _ ?a ?b) _ = _ =>
      destruct (divide_all_ok h a b) as [cs Ecs] end.
    - rewrite map_length, B2, B3, !app_length, !map_length. reflexivity.
    - rewrite B3. apply Forall_app. split; [|constructor; [lra|constructor]].
      apply Forall_map, Forall_forall. intros j Hj. apply in_seq in Hj.
      specialize (HF j ltac:(lia)). cbn beta in HF. lra.
    - rewrite Ecs. cbn [obind]. apply divide_all_inv in Ecs. destruct Ecs as (Lc & _).
      rewrite map_length in Lc.
      assert (Lc' : length cs = Datatypes.S N).
      { rewrite Lc, B2, app_length, map_length, seq_length. cbn. lia. }
      destruct (rows_applyT_ok h (length (y' : list R)) (pi K o) cs) as [v Ev].
      { rewrite B1, map_length, seq_length. rewrite Lc'. lia. }
      change (@length (num K) y') with (@length R y'). rewrite Ev. cbn [obind].
      destruct (oloop_watched K isnan infinity quotient C A _ N o0 o eq_refl E) as (ws & Ww & _).
      destruct (status_defined K isnan infinity C _ ws (status K (base K o)) (yw K (base K o)) M P Ww) as [i Ei].
      rewrite Ei. cbn [obind]. eauto. }
  destruct X as [o' X]. exists o'. apply oloop_snoc. exists o. rewrite (HL N o (le_n N) E). auto.
Qed.

Lemma orun_terminates : (0 < max_stagnation K C)%nat -> (0 < print_iteration K C)%nat ->
  exists k o, (k <= n)%nat /\ run k = Ok o /\
    (is_zero (w K (base K o)) \/ converged K (status K (base K o)) = true).
Proof.
  intros M P.
  assert (X : forall k, (exists j o, (j <= k)%nat /\ run j = Ok o /\
      (is_zero (w K (base K o)) \/ converged K (status K (base K o)) = true))
    \/ ((exists o, run k = Ok o) /\ forall j t, (j <= k)%nat -> run j = Ok t ->
        ~ is_zero (w K (base K t)) /\ converged K (status K (base K t)) = false)).
  { assert (D : forall k o, run k = Ok o ->
      (is_zero (w K (base K o)) \/ converged K (status K (base K o)) = true) \/
      (~ is_zero (w K (base K o)) /\ converged K (status K (base K o)) = false)).
    { intros k o _. destruct (is_zero_dec (w K (base K o))); destruct (converged K (status K (base K o))); auto. }
    induction k as [|k IH].
    - destruct (run 0%nat) as [o| |] eqn:E; [|exfalso|exfalso];
        try (unfold orthopcpg in E; cbn [ortho_loop] in E; destruct (converged K _); discriminate).
      destruct (D 0%nat o E) as [Z|Z]; [left; exists 0%nat, o; auto|right].
      split; [eauto|]. intros j t Lj Et. replace j with 0%nat in Et by lia.
      assert (t = o) by congruence. subst. auto.
    - destruct IH as [(j & s & L & E & Z)|((o & E) & H)]; [left; exists j, s; auto|].
      destruct (orun_continues k o M P E) as [o' E'].
      { intros j t Lj Et. now apply (H j t). }
      { intros j t Lj Et. now apply (H j t). }
      destruct (D _ o' E') as [Z|Z]; [left; exists (Datatypes.S k), o'; auto|right].
      split; [eauto|]. intros j t Lj Et. destruct (Nat.eq_dec j (Datatypes.S k)) as [->|Nj].
      + assert (t = o') by congruence. subst. auto.
      + apply (H j t); auto. lia. }
  destruct (X n) as [(j & s & L & E & D)|((o & E) & H)]; [exists j, s; auto|].
  exfalso. destruct (orun_continues n o M P E) as [o' E'].
  { intros j t Lj Et. now apply (H j t). }
  { intros j t Lj Et. now apply (H j t). }
  pose proof (orun_short (Datatypes.S n) o' E') as Sh.
  assert (Datatypes.S n <= n)%nat; [|lia]. apply Sh.
  - intros j t Lj Et. apply (H j t); auto. lia.
  - intros k Lk. cbn beta. pose proof (ot_run (Datatypes.S n) o' E' k ltac:(lia)) as Ek.
    apply Rgt_not_eq. apply (yw_pos h n m A d e SP).
    + apply (ost_inv1 (Datatypes.S n) o' E' k). lia.
    + apply (H k _ ltac:(lia) Ek).
Qed.
End Exact.
