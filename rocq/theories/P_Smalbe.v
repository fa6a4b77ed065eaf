(** * SMALBE: bounds, constraints, optimality, status (C135) *)
From Coq Require Import List Reals Bool Lra Lia.
From Verif Require Import Base M_DualVector M_Mprgp S_Mprgp S_Smalbe L_RVec L_Mprgp L_Mprgp2 L_Smalbe.
From Verif Require M_Smalbe P_Mprgp.
Import ListNotations.
Local Open Scope R_scope.
Local Open Scope out_scope.

Local Notation comb := combination.
Local Notation sp := scalar_product.

(** ** Bounds *)
Local Lemma feasible_iff eq ls us n (x : list R) : length x = n -> (eq + length ls = n)%nat -> length us = length ls ->
  feasible eq ls us x <-> between ls us (skipn eq x).
Proof.
  intros E E1 E2. split; [now apply P_Mprgp.feasible_between with n|apply P_Mprgp.between_feasible].
Qed.

Local Lemma le_shift ls us s : Forall2 Rle ls us -> Forall2 Rle (comb ls (-1) s) (comb us (-1) s).
Proof.
  intros F. revert s; induction F as [|l u ls us L F IH]; intros [|a s]; try constructor.
  - cbn. lra.
  - apply IH.
Qed.

(** a zero projected gradient: no direction inside the bounds decreases *)
Local Lemma entries_zero al ls us g x : 0 < al -> between ls us x -> length g = length x ->
  is_zero (projected_entries al ls us g x) -> forall y, between ls us y -> 0 <= sp g (comb y (-1) x).
Proof.
  intros A. revert us g x; induction ls as [|l ls IH]; intros [|u us] [|c g] [|a x] B E Z [|t y] By;
    try discriminate; try contradiction.
  - rewrite sp_nil_l. lra.
  - cbn [projected_entries] in Z. inversion Z as [|? ? Z1 Z2]; subst. destruct B as [B1 B2], By as [Y1 Y2].
    rewrite comb_cons, sp_cons. pose proof (IH us g x B2 ltac:(cbn in E; lia) Z2 y Y2) as I2.
    assert (Q : Rmax l (Rmin u (a - al * c)) = a).
    { unfold projected_entry, Rdiv in Z1. apply Rmult_integral in Z1.
      destruct Z1 as [Z1|Z1]; [lra|]. pose proof (Rinv_0_lt_compat _ A). lra. }
    assert (0 <= al * c * (t + -1 * a)).
    { revert Q. unfold Rmax, Rmin. destruct (Rle_dec u (a - al * c)) as [U|U].
      - destruct (Rle_dec l u); intros Q; assert (al * c <= 0) by lra; nra.
      - destruct (Rle_dec l (a - al * c)); intros Q.
        + assert (al * c = 0) by lra. nra.
        + assert (0 <= al * c) by lra. nra. }
    assert (0 <= c * (t + -1 * a)); [|lra].
    apply Rmult_le_reg_l with al; auto. lra.
Qed.

Local Lemma variational n eq al ls us g x : 0 < al -> length x = n -> length g = n -> (eq + length ls = n)%nat ->
  length us = length ls -> feasible eq ls us x -> is_zero (projected_gradient eq al ls us g x) ->
  forall y, length y = n -> feasible eq ls us y -> 0 <= sp g (comb y (-1) x).
Proof.
  intros A Ex Eg E1 E2 Fx Z y Ey Fy. apply Forall_app in Z. destruct Z as [Z1 Z2].
  apply (feasible_iff eq ls us n) in Fx, Fy; auto.
  rewrite <- (firstn_skipn eq g), <- (firstn_skipn eq (comb y (-1) x)).
  rewrite sp_app by (rewrite !firstn_length, comb_length; congruence).
  rewrite sp_zero_l by auto. rewrite comb_skipn.
  pose proof (entries_zero al ls us (skipn eq g) (skipn eq x) A Fx ltac:(rewrite !skipn_length; congruence) Z2 _ Fy). lra.
Qed.

Local Lemma is_zero_repeat k : is_zero (repeat 0 k).
Proof. induction k; constructor; auto. Qed.

Local Lemma norm_zero x : norm x <= 0 -> is_zero x.
Proof.
  intros L. apply sp_self_zero. unfold norm in L. pose proof (sp_self x) as N0.
  pose proof (sqrt_pos (sp x x)). apply sqrt_eq_0; auto. lra.
Qed.
Local Lemma zero_norm x : is_zero x -> norm x = 0.
Proof. intros Z. unfold norm. rewrite (sp_zero_l _ _ Z). apply sqrt_0. Qed.

Local Lemma comb_rebuild_e (x y : list R) : length x = length y -> comb x 1 (comb y (-1) x) = y.
Proof.
  revert y; induction x as [|a x IH]; intros [|c y] E; try discriminate; auto.
  rewrite !comb_cons, IH by (cbn in E; lia). f_equal. ring.
Qed.

(** ** Theorems *)
Section Smalbe.
Variable h : R.
Local Notation K := (exact h).
Variable A : M_Smalbe.operators K.
Variable P : problem K.
Variable C : M_Smalbe.parameters K.
Variables d e : list R.
Variables n m : nat.
Variables G Gt : list R -> list R.
Local Notation F := (M_Smalbe.F K A).
Local Notation project := (M_Smalbe.project K A).
Local Notation invL := (M_Smalbe.invL K A).
Local Notation invU := (M_Smalbe.invU K A).
Local Notation invLG := (M_Smalbe.invLG K A).
Local Notation GtinvU := (M_Smalbe.GtinvU K A).
Local Notation N := (M_Smalbe.max_eig K C).
Local Notation rho := (M_Smalbe.rho K C).
Local Notation alpham := (M_Smalbe.alpham K C).
Local Notation precision := (M_Smalbe.precision K C).
Local Notation eq := (equalities K P).
Local Notation lbs := (lb K P : list R).
Local Notation ubs := (ub K P : list R).

Hypothesis Hh : 0 <= h.
Hypothesis Ha : 0 < alpham.
Hypothesis Hr : 0 < rho.
Hypothesis HN : 0 < N.
Hypothesis CS : coarse_space n m G Gt invL invU invLG GtinvU project.
Hypothesis CO : constrained_operator n G F.
Hypothesis HM : match M_Smalbe.precond K A with Some M => preconditioner n M | None => True end.
Hypothesis Ld : length d = n.
Hypothesis Le : length e = m.
Hypothesis Lb : (eq + length lbs = n)%nat.
Hypothesis Lu : length ubs = length lbs.
Hypothesis Hb : Forall2 Rle lbs ubs.
Hypothesis H0 : feasible eq lbs ubs (repeat 0 n).

(** a small right-hand side of the constraints is replaced by zero *)
Definition treated : list R :=
  if Rlt_dec (M_Smalbe.ten K C * precision) (norm (invL e)) then e else repeat 0 m.

Local Notation x_im := (M_Smalbe.x_im K A C d e).
Local Notation P_im := (M_Smalbe.P_im K A P C d e).
Local Notation hess := (M_Smalbe.hessian K A C).
Local Notation prec := (M_Smalbe.hessian_prec K A C).
Local Notation bb := (M_Smalbe.b K A C d e).
Local Notation al := (M_Smalbe.alpha K C).

Local Lemma norm2_norm x : M_Smalbe.norm2 K x = norm x.
Proof. unfold M_Smalbe.norm2, norm. rewrite dot_sp. reflexivity. Qed.

Local Lemma homog : M_Smalbe.homogenized K A C e = true /\ treated = e \/
  M_Smalbe.homogenized K A C e = false /\ treated = repeat 0 m.
Proof.
  unfold M_Smalbe.homogenized, treated. rewrite norm2_norm. cbn [ltb exact mul]. unfold Rltb.
  destruct (Rlt_dec _ _); auto.
Qed.
Local Lemma treated_len : length treated = m.
Proof. destruct homog as [[_ ->]|[_ ->]]; auto. apply repeat_length. Qed.
Local Lemma invL_len v : length v = m -> length (invL v) = m.
Proof. apply CS. Qed.

(** the preimage is that of the treated right-hand side *)
Local Lemma x_im_eq : x_im = GtinvU (invL treated).
Proof.
  unfold M_Smalbe.x_im. destruct homog as [[-> ->]|[-> ->]]; auto.
  assert (Lz : length (repeat 0 m) = m) by apply repeat_length.
  unfold vzero. cbn [zero exact num]. rewrite Ld. apply is_zero_unique.
  - apply is_zero_repeat.
  - apply (map_zero m n); [apply (ct_lin n m _ _ _ _ _ _ _ CS)|now apply invL_len|].
    apply (map_zero m m); [apply CS|auto|apply is_zero_repeat].
  - rewrite repeat_length. symmetry. apply (ct_len n m _ _ _ _ _ _ _ CS). now apply invL_len.
Qed.
Local Lemma x_im_len : @length R x_im = n.
Proof. rewrite x_im_eq. apply (ct_len n m _ _ _ _ _ _ _ CS), invL_len, treated_len. Qed.
Local Lemma c_x_im : invLG x_im = invL treated.
Proof. rewrite x_im_eq. apply (cct n m _ _ _ _ _ _ _ CS), invL_len, treated_len. Qed.

Local Lemma b_im_eq : M_Smalbe.b_im K A C d e = comb d (-1) (F x_im).
Proof.
  unfold M_Smalbe.b_im. rewrite vadd_comb. cbn [opp one exact].
  destruct (M_Smalbe.homogenized K A C e) eqn:E; [reflexivity|].
  unfold M_Smalbe.x_im. rewrite E. symmetry. unfold vzero. cbn [zero exact num].
  assert (Lz : length (repeat 0 (length d)) = n) by (rewrite repeat_length; auto).
  apply comb_ext_zero.
  - apply (linear_zero n); [apply CO|auto|apply is_zero_repeat].
  - rewrite (proj1 (co_linear _ _ _ CO)); auto.
Qed.

Local Lemma shift_eq (v : list R) : length v = length lbs -> M_Smalbe.shift K A P C d e v = comb v (-1) (skipn eq x_im).
Proof.
  intros E. unfold M_Smalbe.shift. destruct (M_Smalbe.homogenized K A C e) eqn:Q.
  - rewrite zip_combine. unfold comb. apply map_ext. intros [p q]. cbn. ring.
  - symmetry. apply comb_ext_zero.
    + unfold M_Smalbe.x_im. rewrite Q. unfold vzero. cbn [zero exact num].
      apply Forall_forall. intros a I. pose proof (is_zero_repeat (length d)) as Z. unfold is_zero in Z.
      rewrite Forall_forall in Z. apply Z. rewrite <- (firstn_skipn eq (repeat 0 (length d))). apply in_or_app. auto.
    + cbn [num exact]; rewrite skipn_length, x_im_len; lia.
Qed.

Local Lemma x0_eq : length (M_Smalbe.first_x0 K A C d e) = n /\ comb (M_Smalbe.first_x0 K A C d e) 1 x_im = repeat 0 n.
Proof.
  pose proof x_im_len as Lx. unfold M_Smalbe.first_x0. rewrite vadd_comb. unfold vzero. cbn [zero exact opp one num].
  rewrite Ld. assert (Lz : length (repeat 0 n) = n) by apply repeat_length.
  destruct (M_Smalbe.homogenized K A C e) eqn:Q.
  - split; [apply comb_len; auto|]. apply (vec_ext n); auto; [apply comb_len; auto; apply comb_len; auto|].
    intros z Ez. rewrite !sp_comb_l by (rewrite ?(comb_len n _ _ _ Lz Lx); congruence). ring.
  - split; auto. apply comb_ext_zero; [|congruence]. unfold M_Smalbe.x_im. rewrite Q. apply is_zero_repeat.
Qed.

Local Lemma im_len : length (lb K P_im : list R) = length lbs /\ length (ub K P_im : list R) = length lbs.
Proof.
  cbn [M_Smalbe.P_im lb ub]. rewrite !shift_eq by auto.
  rewrite !comb_length; auto; cbn [num exact]; rewrite skipn_length, x_im_len; lia.
Qed.

(** points between the translated bounds *)
Local Lemma feasible_shift x : length x = n ->
  feasible (equalities K P_im) (lb K P_im) (ub K P_im) x <-> feasible eq lbs ubs (comb x 1 x_im).
Proof.
  intros E. destruct im_len as [L1 L2]. pose proof x_im_len as Lx.
  rewrite (feasible_iff (equalities K P_im) _ _ n) by (auto; try congruence; cbn [M_Smalbe.P_im equalities]; congruence).
  rewrite (feasible_iff eq lbs ubs n) by (auto; apply comb_len; auto).
  cbn [M_Smalbe.P_im lb ub equalities]. rewrite !shift_eq by auto. rewrite comb_skipn.
  apply between_shift; cbn [num exact]; rewrite !skipn_length; lia.
Qed.
Local Lemma projected_shift a g x : length x = n ->
  projected_gradient (equalities K P_im) a (lb K P_im) (ub K P_im) g x = projected_gradient eq a lbs ubs g (comb x 1 x_im).
Proof.
  intros E. unfold projected_gradient. cbn [M_Smalbe.P_im lb ub equalities]. f_equal.
  rewrite !shift_eq by auto. rewrite comb_skipn. apply entries_shift. cbn [num exact]. rewrite !skipn_length, x_im_len. congruence.
Qed.

(** the augmented operator *)
Local Lemma rho_eq : M_Smalbe.rho_ K C = rho.
Proof. unfold M_Smalbe.rho_. cbn. ring. Qed.
Local Lemma al_eq : al = alpham.
Proof. unfold M_Smalbe.alpha. cbn. field. Qed.
Local Lemma hess_eq x : hess x = aug project F N rho x.
Proof. unfold M_Smalbe.hessian, aug. rewrite !vadd_comb, rho_eq. reflexivity. Qed.
Local Lemma prec_ok : preconditioner n prec.
Proof.
  unfold M_Smalbe.hessian_prec. destruct (M_Smalbe.precond K A) as [M|].
  - pose proof (aug_prec_ok n m _ _ _ _ _ _ _ CS N rho HN Hr M HM) as [Q1 Q2].
    assert (E : forall x, M_DualVector.vadd K (vadd K (vscale K N (project (M (project x)))) (1 / M_Smalbe.rho_ K C) x)
                  (- (1) / M_Smalbe.rho_ K C) (project x) = aug_prec project N rho M x).
    { intros x. rewrite !vadd_comb, rho_eq. unfold aug_prec. f_equal. }
    split.
    + intros x L. etransitivity; [|exact (Q1 x L)]. f_equal. apply E.
    + intros x L Z. eapply Rlt_le_trans; [apply (Q2 x L Z)|]. right. f_equal. symmetry. apply E.
  - apply copy_ok.
Qed.

Local Lemma b_eq : bb = scaled (1 / N) (project (comb d (-1) (F (GtinvU (invL treated))))).
Proof. unfold M_Smalbe.b. rewrite b_im_eq, x_im_eq. reflexivity. Qed.
Local Lemma r_len x : length x = n -> length (comb d (-1) (F x)) = n.
Proof. intros E. apply comb_len; auto. now apply CO. Qed.
Local Lemma b_len : length bb = n.
Proof.
  unfold M_Smalbe.b. rewrite b_im_eq. rewrite vscale_comb, map_length.
  apply (P_len n m _ _ _ _ _ _ _ CS), r_len, x_im_len.
Qed.
Local Lemma Ctmu_eq mu : M_Smalbe.minus_Ctmu K A C d e mu = comb (scaled (-1) (GtinvU mu)) 1 bb.
Proof. unfold M_Smalbe.minus_Ctmu. rewrite vadd_comb. reflexivity. Qed.
Local Lemma Ctmu_len mu : length mu = m -> length (M_Smalbe.minus_Ctmu K A C d e mu : list R) = n.
Proof.
  intros E. rewrite Ctmu_eq. apply comb_len; [|apply b_len]. rewrite scaled_length.
  now apply (ct_len n m _ _ _ _ _ _ _ CS).
Qed.

Local Lemma program v : length v = n ->
  bounded_program n (equalities K P_im) (lb K P_im) (ub K P_im) hess v.
Proof.
  intros E. destruct im_len as [L1 L2].
  pose proof (aug_lin n m _ _ _ _ _ _ _ F CS CO N rho HN) as [Q1 Q2].
  pose proof (aug_sym n m _ _ _ _ _ _ _ F CS CO N rho HN) as Q3.
  pose proof (aug_pd n m _ _ _ _ _ _ _ F CS CO N rho HN Hr) as Q4.
  split; auto.
  - rewrite L1. exact Lb.
  - congruence.
  - cbn [M_Smalbe.P_im lb ub]. rewrite !shift_eq by auto. now apply le_shift.
  - split.
    + intros x L. rewrite hess_eq. auto.
    + intros x a y Ex Ey. rewrite !hess_eq. auto.
  - intros x y Ex Ey. rewrite !hess_eq. auto.
  - intros x Ex Z. rewrite hess_eq. auto.
Qed.

(** ** the loop *)
Record good (s : M_Smalbe.state K) : Prop := {
  g_x : length (M_Smalbe.x K s : list R) = n;
  g_fx : feasible (equalities K P_im) (lb K P_im) (ub K P_im) (M_Smalbe.x K s);
  g_x0 : length (M_Smalbe.x0 K s : list R) = n;
  g_fx0 : feasible (equalities K P_im) (lb K P_im) (ub K P_im) (M_Smalbe.x0 K s);
  g_mu : length (M_Smalbe.mu K s : list R) = m;
  g_Ctmu : M_Smalbe.Ctmu K s = M_Smalbe.minus_Ctmu K A C d e (M_Smalbe.mu K s)
}.
Definition met (s : M_Smalbe.state K) : Prop :=
  norm (projected_gradient (equalities K P_im) al (lb K P_im) (ub K P_im)
          (comb (hess (M_Smalbe.x K s)) (-1) (M_Smalbe.Ctmu K s)) (M_Smalbe.x K s)) <= precision * norm bb /\
  norm (invLG (M_Smalbe.x K s)) <= precision * norm bb.

Local Lemma start_good : good (M_Smalbe.start K A P C d e).
Proof.
  destruct x0_eq as [L E]. destruct im_len as [L1 L2].
  assert (LM : length (vzero K (length e)) = m) by (unfold vzero; rewrite repeat_length; auto).
  assert (Lz : length (repeat 0 n) = n) by apply repeat_length.
  pose proof (restrict_length h P_im n (repeat 0 n)) as R1.
  pose proof (restrict_feas h P_im n (repeat 0 n)) as R2.
  assert (F0 : feasible (equalities K P_im) (lb K P_im) (ub K P_im) (M_Smalbe.first_x0 K A C d e)).
  { apply feasible_shift; auto. rewrite E. exact H0. }
  assert (B : Forall2 Rle (lb K P_im) (ub K P_im)).
  { cbn [M_Smalbe.P_im lb ub]. rewrite !shift_eq by auto. now apply le_shift. }
  assert (E1 : (equalities K P_im + length (lb K P_im : list R))%nat = n) by (rewrite L1; exact Lb).
  assert (E2 : length (ub K P_im : list R) = length (lb K P_im : list R)) by congruence.
  split; cbn [M_Smalbe.start M_Smalbe.x M_Smalbe.x0 M_Smalbe.mu M_Smalbe.Ctmu]; auto.
  apply P_Mprgp.between_feasible. apply (R2 E1 E2 Lz); auto.
Qed.

Local Lemma loop_good passes s r : good s -> M_Smalbe.loop K A P C d e passes s = Ok r ->
  match r with
  | M_Smalbe.MET _ s' => good s' /\ met s'
  | M_Smalbe.LIMIT _ s' => good s' /\ (max_iterations K P < M_Smalbe.iterations K s')%nat
  | M_Smalbe.RUNNING _ => True
  end.
Proof.
  revert s; induction passes as [|passes IH]; intros s I E; cbn [M_Smalbe.loop] in E;
    destruct (Nat.leb_spec (M_Smalbe.iterations K s) (max_iterations K P)) as [Q|Q];
    try (injection E as <-; auto; fail).
  destruct I as [Lx Fx Lx0 Fx0 Lmu Ec].
  assert (Lc : length (M_Smalbe.Ctmu K s : list R) = n) by (rewrite Ec; now apply Ctmu_len).
  match type of E with context [run K P_im al hess prec ?st ?tw ?hf ?bv ?x0 ?it] =>
    destruct (run K P_im al hess prec st tw hf bv x0 it) as [r1| |] eqn:Rn; cbn [obind] in E; try discriminate;
    assert (A' : 0 < al) by (rewrite al_eq; exact Ha);
    pose proof (P_Mprgp.mprgp_feasible h P_im n al tw hf hess prec st bv x0 it Hh A' (program _ Lc) prec_ok Lx0 Fx0 r1 Rn) as [V1 V2];
    pose proof (P_Mprgp.stop_projected h P_im n al tw hf hess prec st bv x0 it Hh A' (program _ Lc) prec_ok Lx0 Fx0 r1 Rn) as V3;
    pose proof (P_Mprgp.inv_run h P_im n al tw hf hess prec st bv x0 it Hh A' (program _ Lc) prec_ok Lx0 Fx0 r1 Rn) as V4
  end.
  pose proof (proj1 (i_feas _ _ _ _ _ _ _ _ V4)) as Lx1.
  rewrite <- (i_stop _ _ _ _ _ _ _ _ V4) in E.
  rewrite V3 in E. rewrite !norm2_norm in E. cbn [leb exact mul div one] in E.
  match type of E with (if ?t then _ else _) = _ => destruct t eqn:T end.
  - injection E as <-. apply andb_true_iff in T. destruct T as [T1 T2]. apply Rleb_true in T1, T2.
    unfold M_Smalbe.norm_b in T1, T2. rewrite norm2_norm in T1, T2.
    split.
    + split; cbn [M_Smalbe.x M_Smalbe.x0 M_Smalbe.mu M_Smalbe.Ctmu]; auto.
    + split; cbn [M_Smalbe.x M_Smalbe.Ctmu]; [exact T1|].
      eapply Rle_trans; [exact T2|]. right. field.
  - apply (IH _) in E; auto. clear E.
    split; cbn [M_Smalbe.x M_Smalbe.x0 M_Smalbe.mu M_Smalbe.Ctmu]; auto.
    rewrite vadd_comb. apply comb_len; auto. now apply (c_len n m _ _ _ _ _ _ _ CS).
Qed.

(** F x - d + Gt a, the gradient of the Lagrangian *)
Local Notation lagrangian x a := (comb (comb (F x) (-1) d) 1 (Gt a)).

Local Lemma amplitudes_Gt s : good s ->
  length (M_Smalbe.multipliers K A C d e s : list R) = n /\
  length (M_Smalbe.amplitudes K A C d e s : list R) = m /\
  Gt (M_Smalbe.amplitudes K A C d e s) =
    scaled (-1) (GtinvU (comb (invLG (comb (F (M_Smalbe.multipliers K A C d e s)) (-1) d)) (- N) (M_Smalbe.mu K s))).
Proof.
  intros [Lx Fx Lx0 Fx0 Lmu Ec]. pose proof x_im_len as Li.
  assert (Ll : length (M_Smalbe.multipliers K A C d e s : list R) = n).
  { unfold M_Smalbe.multipliers. rewrite vadd_comb. apply comb_len; auto. }
  pose proof (proj1 (co_linear _ _ _ CO) _ Ll) as Lf.
  assert (Lr : length (comb (F (M_Smalbe.multipliers K A C d e s)) (-1) d) = n) by (apply comb_len; auto).
  pose proof (c_len n m _ _ _ _ _ _ _ CS _ Lr) as Lc.
  set (k := comb (invLG (comb (F (M_Smalbe.multipliers K A C d e s)) (-1) d)) (- N) (M_Smalbe.mu K s)).
  assert (Lk : length k = m) by (apply comb_len; auto).
  assert (Ea : M_Smalbe.amplitudes K A C d e s = scaled (-1) (invU k)).
  { unfold M_Smalbe.amplitudes, k. rewrite !vadd_comb. reflexivity. }
  pose proof (proj1 (cs_invU _ _ _ _ _ _ _ _ _ CS) k Lk) as Lv.
  split; [auto|split].
  - rewrite Ea, scaled_length. exact Lv.
  - rewrite Ea, (map_scaled m n) by (auto; apply CS). f_equal.
    symmetry. now apply (cs_GtinvU _ _ _ _ _ _ _ _ _ CS).
Qed.

(** the gradient of the augmented Lagrangian in terms of the returned vectors *)
Local Lemma gradient_of_result s : good s ->
  let l := M_Smalbe.multipliers K A C d e s in
  let a := M_Smalbe.amplitudes K A C d e s in
  let v := GtinvU (invL (comb (G l) (-1) treated)) in
  invLG (M_Smalbe.x K s) = invL (comb (G l) (-1) treated) /\
  comb (hess (M_Smalbe.x K s)) (-1) (M_Smalbe.Ctmu K s) =
    comb (scaled (1 / N) (comb (lagrangian l a) (-1) (project (F v)))) rho v.
Proof.
  intros I l a v. pose proof I as [Lx Fx Lx0 Fx0 Lmu Ec]. pose proof x_im_len as Li.
  destruct (amplitudes_Gt s I) as (Ll & La & Ea). fold l in Ll, Ea. fold a in La, Ea.
  set (w := M_Smalbe.x K s : list R) in *.
  assert (El : l = comb w 1 x_im) by (unfold l, M_Smalbe.multipliers; rewrite vadd_comb; reflexivity).
  assert (LG : length (G l) = m) by (now apply CS).
  assert (Ecw : invLG w = invL (comb (G l) (-1) treated)).
  { rewrite (proj2 (cs_invL _ _ _ _ _ _ _ _ _ CS)) by (auto; apply treated_len).
    rewrite <- (cs_invLG _ _ _ _ _ _ _ _ _ CS) by auto. rewrite <- c_x_im, El.
    rewrite (proj2 (c_lin n m _ _ _ _ _ _ _ CS)) by auto.
    pose proof (c_len n m _ _ _ _ _ _ _ CS w Lx) as L1. pose proof (c_len n m _ _ _ _ _ _ _ CS _ Li) as L2.
    apply (vec_ext m); [auto|apply comb_len; auto; apply comb_len; auto|].
    intros z Ez. rewrite !sp_comb_l by (rewrite ?(comb_len m _ _ _ L1 L2); congruence). ring. }
  split; [exact Ecw|].
  pose proof (c_len n m _ _ _ _ _ _ _ CS w Lx) as Lcw.
  assert (Lv : length v = n) by (unfold v; rewrite <- Ecw; now apply (ct_len n m _ _ _ _ _ _ _ CS)).
  assert (Pw : project w = comb w (-1) v) by (unfold v; rewrite <- Ecw; now apply (P_eq n m _ _ _ _ _ _ _ CS)).
  pose proof (proj1 (co_linear _ _ _ CO)) as FL.
  pose proof (P_len n m _ _ _ _ _ _ _ CS) as PL.
  pose proof (ct_len n m _ _ _ _ _ _ _ CS) as CtL.
  pose proof (c_len n m _ _ _ _ _ _ _ CS) as CL.
  assert (Lr : length (comb (F l) (-1) d) = n) by (apply comb_len; auto).
  assert (Lk : length (comb (invLG (comb (F l) (-1) d)) (- N) (M_Smalbe.mu K s)) = m) by (apply comb_len; auto).
  assert (LGa : length (Gt a) = n) by (now apply CS).
  assert (Lla : length (lagrangian l a) = n) by (apply comb_len; auto).
  assert (Lpv : length (project (F v)) = n) by auto.
  assert (Lc : length (M_Smalbe.Ctmu K s : list R) = n) by (rewrite Ec; now apply Ctmu_len).
  assert (Lh : length (hess w) = n) by (rewrite hess_eq; now apply (aug_len n m _ _ _ _ _ _ _ F CS CO)).
  assert (Lb1 : length (comb d (-1) (F x_im)) = n) by (apply r_len; auto).
  assert (Lm : length (GtinvU (M_Smalbe.mu K s)) = n) by auto.
  apply (vec_ext n); [apply comb_len; auto| |].
  { apply comb_len; auto. rewrite scaled_length. apply comb_len; auto. }
  intros z Ez.
  assert (bL : length (bb : list R) = n) by apply b_len.
  let rec len := first [assumption | apply comb_len; len | rewrite scaled_length; len | apply PL; len | apply FL; len
                       | apply CL; len | apply CtL; len] in
  let ln := first [len | transitivity n; [len|symmetry; len] | transitivity m; [len|symmetry; len]] in
  rewrite (sp_comb_l (hess w)) by ln;
  rewrite hess_eq, (sp_aug n m _ _ _ _ _ _ _ F CS CO N rho HN w z Lx Ez);
  rewrite Ec, Ctmu_eq, sp_comb_l by ln;
  rewrite b_eq, <- x_im_eq, !sp_scaled_l;
  rewrite sp_comb_l by ln;
  rewrite sp_scaled_l, (sp_comb_l (lagrangian l a)) by ln;
  rewrite (sp_comb_l (comb (F l) (-1) d)), Ea, sp_scaled_l by ln;
  rewrite !(sp_comm (GtinvU _) z), <- !(adj n m _ _ _ _ _ _ _ CS) by ln;
  rewrite (sp_comb_r (invLG (comb (F l) (-1) d))) by ln;
  rewrite (sp_P n m _ _ _ _ _ _ _ CS (comb d (-1) (F x_im)) z) by ln;
  rewrite (sp_P n m _ _ _ _ _ _ _ CS (F v) z) by ln;
  rewrite (P_sym n m _ _ _ _ _ _ _ CS (F (project w)) z), (sp_P n m _ _ _ _ _ _ _ CS (F (project w)) z) by ln;
  rewrite Pw, El, !(proj2 (co_linear _ _ _ CO)) by ln;
  rewrite !(proj2 (c_lin n m _ _ _ _ _ _ _ CS)) by ln;
  assert (Xv : sp v z = sp (invLG z) (invLG w)) by
    (unfold v; rewrite <- Ecw, (sp_comm (GtinvU _)); now rewrite <- (adj n m _ _ _ _ _ _ _ CS) by ln);
  rewrite Xv, !sp_comb_l by ln; rewrite !sp_comb_r by ln;
  rewrite ?(sp_comm z), ?(sp_comm (invLG z)).
  field. lra.
Qed.

Local Notation smalbe passes := (M_Smalbe.smalbe K A P C d e passes).

Local Lemma result passes x a rep ok : smalbe passes = Ok (Some (x, a, rep, ok)) ->
  exists s, good s /\ x = M_Smalbe.multipliers K A C d e s /\ a = M_Smalbe.amplitudes K A C d e s /\
    rep = M_Smalbe.smalbe_report K P ok s /\ (ok = true -> met s) /\
    (ok = false -> (max_iterations K P < M_Smalbe.iterations K s)%nat).
Proof.
  unfold M_Smalbe.smalbe. intros E.
  destruct (M_Smalbe.loop K A P C d e passes (M_Smalbe.start K A P C d e)) as [r| |] eqn:L; cbn [obind] in E; try discriminate.
  apply loop_good in L; [|apply start_good]. destruct r as [s|s|]; try discriminate; injection E as <- <- <- <-;
    exists s; destruct L as [L1 L2]; (split; [exact L1|]); repeat (split; [reflexivity|]); split; intros Q; auto; discriminate Q.
Qed.

(** C135: the multipliers are between the bounds, however the loop ends *)
Theorem smalbe_feasible passes x a rep ok :
  smalbe passes = Ok (Some (x, a, rep, ok)) -> length x = n /\ length a = m /\ feasible eq lbs ubs x.
Proof.
  intros E. apply result in E. destruct E as (s & I & -> & -> & _).
  destruct (amplitudes_Gt s I) as (L1 & L2 & _). split; [auto|split; auto].
  unfold M_Smalbe.multipliers. rewrite vadd_comb. apply feasible_shift; apply I.
Qed.

(** C135: what is small when the criterion is met; [v] is the defect of the constraints *)
Theorem smalbe_criterion passes x a rep :
  smalbe passes = Ok (Some (x, a, rep, true)) ->
  let tolerance := precision * norm (scaled (1 / N) (project (comb d (-1) (F (GtinvU (invL treated)))))) in
  let v := GtinvU (invL (comb (G x) (-1) treated)) in
  norm (invL (comb (G x) (-1) treated)) <= tolerance /\
  norm (projected_gradient eq alpham lbs ubs
          (comb (scaled (1 / N) (comb (comb (comb (F x) (-1) d) 1 (Gt a)) (-1) (project (F v)))) rho v) x) <= tolerance.
Proof.
  intros E. apply result in E. destruct E as (s & I & -> & -> & _ & M & _). destruct (M eq_refl) as [M1 M2].
  intros tolerance v. destruct (gradient_of_result s I) as [E1 E2]. fold v in E2.
  rewrite projected_shift in M1 by apply I. rewrite al_eq in M1. rewrite E2 in M1. rewrite E1 in M2.
  unfold tolerance. rewrite <- b_eq. split; [exact M2|].
  assert (Em : comb (M_Smalbe.x K s) 1 x_im = M_Smalbe.multipliers K A C d e s) by (unfold M_Smalbe.multipliers; rewrite vadd_comb; reflexivity).
  rewrite Em in M1. exact M1.
Qed.

(** C135: with the precision zero a met criterion means the exact solution with its Lagrange multipliers *)
Theorem smalbe_solves passes x a rep :
  precision = 0 ->
  smalbe passes = Ok (Some (x, a, rep, true)) ->
  solves_constrained n eq lbs ubs G F d e x /\ lagrange_multipliers n eq lbs ubs Gt F d x a.
Proof.
  intros Z E. pose proof (smalbe_feasible _ _ _ _ _ E) as (Lx & La & Fx).
  pose proof (smalbe_criterion _ _ _ _ E) as [C1 C2]. cbv zeta in C1, C2. rewrite Z, Rmult_0_l in C1, C2.
  apply norm_zero in C1, C2.
  assert (Et : treated = e).
  { unfold treated. destruct (Rlt_dec _ _) as [L|L]; auto. rewrite Z, Rmult_0_r in L.
    apply is_zero_unique; [apply is_zero_repeat| |rewrite repeat_length; auto].
    apply (cs_regular _ _ _ _ _ _ _ _ _ CS); auto. apply norm_zero. lra. }
  rewrite Et in C1, C2.
  assert (LG : length (G x) = m) by (now apply CS).
  assert (Lg : length (comb (G x) (-1) e) = m) by (apply comb_len; auto).
  set (v := GtinvU (invL (comb (G x) (-1) e))) in *.
  assert (Lv : length v = n) by (apply (ct_len n m _ _ _ _ _ _ _ CS); now apply invL_len).
  assert (Zv : is_zero v).
  { apply (map_zero m n); auto. apply (ct_lin n m _ _ _ _ _ _ _ CS). now apply invL_len. }
  assert (EG : G x = e).
  { apply (cs_regular _ _ _ _ _ _ _ _ _ CS) in C1; auto.
    pose proof (comb_rebuild_e e (G x)) as Q. rewrite <- Q by congruence.
    apply comb_ext_zero; auto. congruence. }
  pose proof (proj1 (co_linear _ _ _ CO)) as FL.
  pose proof (P_lin n m _ _ _ _ _ _ _ CS) as PL.
  assert (LL : length (lagrangian x a) = n).
  { apply comb_len; [apply comb_len; auto|]. now apply CS. }
  rewrite (comb_ext_zero (lagrangian x a)) in C2.
  2:{ apply (linear_zero n); auto. apply (linear_zero n); auto. apply CO. }
  2:{ rewrite (proj1 PL); auto. }
  rewrite (comb_ext_zero (scaled _ _)) in C2; [|exact Zv|rewrite scaled_length; transitivity n; [exact LL|symmetry; exact Lv]].
  assert (V : lagrange_multipliers n eq lbs ubs Gt F d x a).
  { intros y Ly Fy.
    pose proof (variational n eq alpham lbs ubs (scaled (1 / N) (lagrangian x a)) x Ha Lx
      ltac:(rewrite scaled_length; auto) Lb Lu Fx C2 y Ly Fy) as W.
    rewrite sp_scaled_l in W. apply Rmult_le_reg_l with (1 / N); [apply Rdiv_lt_0_compat; lra|]. lra. }
  split; [|exact V]. split; [exact Lx|split; [exact Fx|split; [exact EG|]]].
  intros y Ly Fy Ey. specialize (V y Ly Fy).
  set (t := comb y (-1) x) in *. assert (Lt : length t = n) by (apply comb_len; auto).
  assert (Zt : is_zero (G t)).
  { unfold t. rewrite (proj2 (cs_G _ _ _ _ _ _ _ _ _ CS)), Ey, EG by auto. apply comb_minus_self. }
  assert (Ga : length (Gt a) = n) by (now apply CS).
  rewrite sp_comb_l in V by (transitivity n; [apply comb_len; auto|symmetry; exact Ga]).
  rewrite sp_comb_l in V by (transitivity n; auto).
  rewrite (sp_comm (Gt a)), <- (cs_adjoint _ _ _ _ _ _ _ _ _ CS), (sp_zero_l _ _ Zt) in V by auto.
  assert (Ft : 0 <= sp t (F t)) by (apply (F_nonneg n m _ _ _ _ _ _ _ F CS CO); auto; now apply (cG n m _ _ _ _ _ _ _ CS)).
  pose proof (comb_rebuild_e x y ltac:(transitivity n; auto)) as Q. fold t in Q. rewrite <- Q. unfold energy.
  rewrite (proj2 (co_linear _ _ _ CO)) by auto.
  rewrite !sp_comb_l by (transitivity n; auto). rewrite !sp_comb_r by (transitivity n; auto; symmetry; auto).
  pose proof (co_symmetric _ _ _ CO x t Lx Lt) as S1. rewrite S1, (sp_comm t (F x)). lra.
Qed.

(** C135: no quotient by zero is computed *)
Theorem smalbe_runs passes :
  0 < M_Smalbe.two K C -> 0 < delta K P -> 0 <= M_Smalbe.M0 K C -> 0 <= M_Smalbe.beta K C -> 0 <= M_Smalbe.eta K C ->
  exists r, smalbe passes = Ok r.
Proof.
  intros T D M0 Be Et. unfold M_Smalbe.smalbe.
  enough (exists r, M_Smalbe.loop K A P C d e passes (M_Smalbe.start K A P C d e) = Ok r) as [r ->] by (cbn [obind]; eauto).
  assert (Q : 0 <= M_Smalbe.Mc K (M_Smalbe.start K A P C d e)) by exact M0.
  pose proof start_good as I. revert I Q. generalize (M_Smalbe.start K A P C d e) as s.
  induction passes as [|passes IH]; intros s I Q; cbn [M_Smalbe.loop];
    destruct (M_Smalbe.iterations K s <=? max_iterations K P)%nat eqn:Ei; eauto.
  pose proof I as [Lx Fx Lx0 Fx0 Lmu Ec].
  assert (Lc : length (M_Smalbe.Ctmu K s : list R) = n) by (rewrite Ec; now apply Ctmu_len).
  assert (A' : 0 < al) by (rewrite al_eq; exact Ha).
  destruct (P_Mprgp.mprgp_runs h P_im n al (M_Smalbe.two K C) (M_Smalbe.half K C) hess prec
    (M_Smalbe.stop K A C d e (M_Smalbe.Mc K s)) (M_Smalbe.Ctmu K s) (M_Smalbe.x0 K s) (M_Smalbe.iterations K s)
    Hh A' (program _ Lc) prec_ok Lx0 Fx0 T D) as [r1 Rn].
  { intros y r Lr Zr. unfold M_Smalbe.stop. apply orb_true_iff. left. cbn [leb exact]. apply Rleb_true.
    unfold M_Smalbe.norm_b. rewrite !norm2_norm, (zero_norm r Zr). cbn [mul exact].
    pose proof (sqrt_pos (sp (invLG y) (invLG y))) as S1. pose proof (sqrt_pos (sp bb bb)) as S2.
    fold (norm (invLG y)) in S1. fold (norm bb) in S2.
    match goal with |- 0 <= min _ ?p ?q => destruct (mp_min_cases p q h) as [-> | ->] end; now apply Rmult_le_pos. }
  rewrite Rn. cbn [obind].
  match goal with |- exists r, (if ?t then _ else _) = _ => destruct t; eauto end.
  pose proof (P_Mprgp.mprgp_feasible h P_im n al _ _ hess prec _ _ _ _ Hh A' (program _ Lc) prec_ok Lx0 Fx0 r1 Rn) as [V1 V2].
  pose proof (P_Mprgp.inv_run h P_im n al _ _ hess prec _ _ _ _ Hh A' (program _ Lc) prec_ok Lx0 Fx0 r1 Rn) as V4.
  pose proof (proj1 (i_feas _ _ _ _ _ _ _ _ V4)) as Lx1.
  apply IH.
  - split; cbn [M_Smalbe.x M_Smalbe.x0 M_Smalbe.mu M_Smalbe.Ctmu]; auto.
    rewrite vadd_comb. apply comb_len; auto. now apply (c_len n m _ _ _ _ _ _ _ CS).
  - cbn [M_Smalbe.Mc]. match goal with |- 0 <= (if ?t then _ else _) => destruct t; auto end.
    cbn [mul exact]. now apply Rmult_le_pos.
Qed.

(** C135: an error is reported unless the criterion is met within the limit *)
Theorem smalbe_status passes x a rep ok :
  smalbe passes = Ok (Some (x, a, rep, ok)) ->
  (r_error rep = NO_ERROR <-> (r_iterations rep <= max_iterations K P)%nat) /\
  (r_error rep <> NO_ERROR -> r_error rep = MAX_ITERATIONS_REACHED) /\
  (r_error rep = NO_ERROR -> ok = true).
Proof.
  intros E. apply result in E. destruct E as (s & I & _ & _ & -> & _ & L).
  unfold M_Smalbe.smalbe_report. cbn [r_error r_iterations negb]. rewrite andb_true_r.
  destruct (Nat.ltb_spec (max_iterations K P) (M_Smalbe.iterations K s)) as [Q|Q].
  - repeat split; auto; try discriminate. lia.
  - repeat split; auto; try congruence. intros _. destruct ok; auto. specialize (L eq_refl). lia.
Qed.
(** C135: the first pass begins with a good state, and so does each other one; a pass that does not meet the criterion changes the multipliers of the
    constraints so that the gradient of the Lagrangian without the penalty is the gradient of the augmented one that MPRGP has made small *)
Theorem smalbe_ascent :
  good (M_Smalbe.start K A P C d e) /\
  forall passes s r, good s -> (M_Smalbe.iterations K s <= max_iterations K P)%nat ->
  run K P_im al hess prec (M_Smalbe.stop K A C d e (M_Smalbe.Mc K s)) (M_Smalbe.two K C) (M_Smalbe.half K C)
    (M_Smalbe.Ctmu K s) (M_Smalbe.x0 K s) (M_Smalbe.iterations K s) = Ok r ->
  (exists s', M_Smalbe.loop K A P C d e (S passes) s = Ok (M_Smalbe.MET K s') /\
     M_Smalbe.x K s' = s_x K r /\ M_Smalbe.mu K s' = M_Smalbe.mu K s /\ met s') \/
  (exists s', M_Smalbe.loop K A P C d e (S passes) s = M_Smalbe.loop K A P C d e passes s' /\ good s' /\
     M_Smalbe.x K s' = s_x K r /\ M_Smalbe.x0 K s' = s_x K r /\ M_Smalbe.iterations K s' = s_iterations K r /\
     let w := M_Smalbe.x K s' : list R in
     comb (scaled (1 / N) (project (F (project w)))) (-1) (comb bb (-1) (GtinvU (M_Smalbe.mu K s'))) =
     comb (comb (scaled (1 / N) (project (F (project w)))) rho (comb w (-1) (project w))) (-1) (comb bb (-1) (GtinvU (M_Smalbe.mu K s)))).
Proof.
  split; [apply start_good|]. intros passes s r1 I Q Rn. cbn [M_Smalbe.loop]. destruct (Nat.leb_spec (M_Smalbe.iterations K s) (max_iterations K P)); [|lia].
  pose proof (loop_good (S 0) s) as LG. cbn [M_Smalbe.loop] in LG. destruct (Nat.leb_spec (M_Smalbe.iterations K s) (max_iterations K P)); [|lia].
  rewrite Rn in LG |- *. cbn [obind] in LG |- *.
  destruct I as [Lx Fx Lx0 Fx0 Lmu Ec].
  assert (Lc : length (M_Smalbe.Ctmu K s : list R) = n) by (rewrite Ec; now apply Ctmu_len).
  assert (A' : 0 < al) by (rewrite al_eq; exact Ha).
  pose proof (P_Mprgp.mprgp_feasible h P_im n al _ _ hess prec _ _ _ _ Hh A' (program _ Lc) prec_ok Lx0 Fx0 r1 Rn) as [V1 V2].
  pose proof (P_Mprgp.inv_run h P_im n al _ _ hess prec _ _ _ _ Hh A' (program _ Lc) prec_ok Lx0 Fx0 r1 Rn) as V4.
  pose proof (proj1 (i_feas _ _ _ _ _ _ _ _ V4)) as Lx1.
  match type of LG with context [if ?t then Ok (M_Smalbe.MET _ _) else _] => destruct t eqn:T end.
  - left. eexists. split; [reflexivity|]. split; [reflexivity|]. split; [reflexivity|].
    apply (LG _ (Build_good _ Lx Fx Lx0 Fx0 Lmu Ec) eq_refl).
  - right. eexists. split; [reflexivity|]. cbn [M_Smalbe.x M_Smalbe.x0 M_Smalbe.mu M_Smalbe.iterations].
    pose proof (c_len n m _ _ _ _ _ _ _ CS _ Lx1) as L1.
    pose proof (ct_len n m _ _ _ _ _ _ _ CS) as CtL.
    split; [|split; [reflexivity|split; [reflexivity|split; [reflexivity|]]]].
    + split; cbn [M_Smalbe.x M_Smalbe.x0 M_Smalbe.mu M_Smalbe.Ctmu]; auto. rewrite vadd_comb. apply comb_len; auto.
    + cbv zeta. rewrite vadd_comb, rho_eq. set (w := s_x K r1 : list R) in *.
      rewrite (proj2 (ct_lin n m _ _ _ _ _ _ _ CS)) by auto.
      pose proof (P_len n m _ _ _ _ _ _ _ CS) as PL. pose proof (proj1 (co_linear _ _ _ CO)) as FL. pose proof b_len as bL.
      pose proof (P_eq n m _ _ _ _ _ _ _ CS w Lx1) as Pw.
      assert (Lo : length (scaled (1 / N) (project (F (project w)))) = n) by (rewrite scaled_length; auto).
      set (o := scaled (1 / N) (project (F (project w)))) in *. rewrite Pw.
      assert (M1 : length (GtinvU (M_Smalbe.mu K s)) = n) by auto. assert (M2 : length (GtinvU (invLG w)) = n) by auto.
      let rec len := first [assumption | apply comb_len; len] in
      let ln := first [len | transitivity n; [len|symmetry; len]] in
      apply (vec_ext n); [len|len|]; intros z Ez; rewrite !sp_comb_l by ln.
      ring.
Qed.
End Smalbe.

(** C135: convergence is never reported, although the solver sets the flag when the criterion is met *)
Theorem smalbe_converged_refuted K A P C d e passes x a rep ok :
  M_Smalbe.smalbe K A P C d e passes = Ok (Some (x, a, rep, ok)) -> r_converged rep = false.
Proof.
  unfold M_Smalbe.smalbe. destruct (M_Smalbe.loop _ _ _ _ _ _ _ _) as [[s|s|]| |]; cbn [obind]; try discriminate;
    intros E; injection E as <- <- <- <-; reflexivity.
Qed.

(** ** Example: two variables between 0 and 1, 3/5 x - 4/5 y = 0; both lower bounds are active at the solution *)
Local Notation EK := (exact 1000).
Definition sx_F (x : list R) : list R := match x with [a; b] => [2 * a + b; a + 2 * b] | _ => x end.
Definition sx_G (x : list R) : list R := match x with [a; b] => [3 / 5 * a - 4 / 5 * b] | _ => [0] end.
Definition sx_Gt (v : list R) : list R := match v with [t] => [3 / 5 * t; - (4 / 5) * t] | _ => [0; 0] end.
Definition sx_A (M : option (list R -> list R)) : M_Smalbe.operators EK :=
  {| M_Smalbe.F := sx_F : list (num EK) -> list (num EK);
     M_Smalbe.project := (fun x => comb x (-1) (sx_Gt (sx_G x))) : list (num EK) -> list (num EK);
     M_Smalbe.invL := (fun v => v) : list (num EK) -> list (num EK); M_Smalbe.invU := (fun v => v) : list (num EK) -> list (num EK);
     M_Smalbe.invLG := sx_G : list (num EK) -> list (num EK); M_Smalbe.GtinvU := sx_Gt : list (num EK) -> list (num EK);
     M_Smalbe.precond := M : option (list (num EK) -> list (num EK)) |}.
Definition sx_P : problem EK :=
  {| equalities := 0; lb := [0; 0] : list (num EK); ub := [1; 1] : list (num EK); delta := / 4 : num EK;
     precision_set := 0 : num EK; gradproj := true; max_iterations := 50 |}.
Definition sx_C (precision : R) : M_Smalbe.parameters EK :=
  {| M_Smalbe.alpham := 1 : num EK; M_Smalbe.rho := 1 : num EK; M_Smalbe.M0 := 1 : num EK; M_Smalbe.beta := / 2 : num EK;
     M_Smalbe.eta := / 10 : num EK; M_Smalbe.precision := precision : num EK; M_Smalbe.precision_in := precision : num EK;
     M_Smalbe.ten := 10 : num EK; M_Smalbe.two := 2 : num EK; M_Smalbe.half := / 2 : num EK; M_Smalbe.max_eig := 3 : num EK |}.

Local Lemma entries2 (x : list R) : length x = 2%nat -> exists a b, x = [a; b].
Proof. destruct x as [|a [|b [|c x]]]; intros E; try discriminate. now exists a, b. Qed.
Local Lemma entries1 (x : list R) : length x = 1%nat -> exists a, x = [a].
Proof. destruct x as [|a [|b x]]; intros E; try discriminate. now exists a. Qed.

Local Ltac ent := repeat match goal with
  | H : length ?x = 2%nat |- _ => let a := fresh "a" in let b := fresh "b" in destruct (entries2 x H) as (a & b & ->); clear H
  | H : length ?x = 1%nat |- _ => let a := fresh "a" in destruct (entries1 x H) as (a & ->); clear H
  end.

(** any right-hand side of the constraints and any preconditioner of P_Mprgp meet the hypotheses *)
Example smalbe_setting M :
  coarse_space 2 1 sx_G sx_Gt (M_Smalbe.invL EK (sx_A M)) (M_Smalbe.invU EK (sx_A M)) (M_Smalbe.invLG EK (sx_A M))
    (M_Smalbe.GtinvU EK (sx_A M)) (M_Smalbe.project EK (sx_A M)) /\
  constrained_operator 2 sx_G (M_Smalbe.F EK (sx_A M)) /\
  Forall2 Rle (lb EK sx_P) (ub EK sx_P) /\ feasible 0 (lb EK sx_P) (ub EK sx_P) (repeat 0 2) /\
  preconditioner 2 P_Mprgp.ex_M.
Proof.
  split; [|split; [|split; [|split]]].
  - split; try split; cbn [sx_A M_Smalbe.invL M_Smalbe.invU M_Smalbe.invLG M_Smalbe.GtinvU M_Smalbe.project]; intros; auto; ent; cbn; auto;
      try (repeat f_equal; field; fail); try field. all: first [f_equal; field | f_equal; [field|f_equal; field]].
  - destruct P_Mprgp.ex_program as [[_ _ _ _ L S D] _]. split; auto. 
  - repeat constructor; lra.
  - intros [|[|[|j]]] l u a E1 E2 E3; cbn in *; try discriminate; injection E1 as <-; injection E2 as <-; injection E3 as <-; lra.
  - apply P_Mprgp.ex_program.
Qed.

Local Lemma sx_homog : M_Smalbe.homogenized EK (sx_A None) (sx_C 0) [0] = false.
Proof.
  unfold M_Smalbe.homogenized, M_Smalbe.norm2. cbn. apply Rltb_false.
  replace (0 * 0 + 0) with 0 by ring. rewrite sqrt_0. lra.
Qed.

(** the criterion is met at once: the gradient (4/3, 1) points out of the bounds; nothing reports convergence *)
Example smalbe_met : exists x a rep,
  M_Smalbe.smalbe EK (sx_A None) sx_P (sx_C 0) [-4; -3] [0] 1 = Ok (Some (x, a, rep, true)) /\
  r_error rep = NO_ERROR /\ r_converged rep = false.
Proof.
  destruct (smalbe_setting None) as (S1 & S2 & S3 & S4 & _).
  unfold M_Smalbe.smalbe. cbn [M_Smalbe.loop].
  set (s := M_Smalbe.start EK (sx_A None) sx_P (sx_C 0) [-4; -3] [0]).
  replace (M_Smalbe.iterations EK s <=? max_iterations EK sx_P)%nat with true by reflexivity.
  assert (Ex0 : M_Smalbe.x0 EK s = [0; 0]).
  { unfold s, M_Smalbe.start. cbn [M_Smalbe.x0]. unfold M_Smalbe.first_x0. rewrite sx_homog. reflexivity. }
  assert (Ec : M_Smalbe.Ctmu EK s = [-4 / 3; -1]).
  { unfold s, M_Smalbe.start. cbn [M_Smalbe.Ctmu]. unfold M_Smalbe.minus_Ctmu, M_Smalbe.b, M_Smalbe.b_im. rewrite sx_homog.
    cbn. f_equal; [field|f_equal; field]. }
  assert (EP : M_Smalbe.P_im EK (sx_A None) sx_P (sx_C 0) [-4; -3] [0] = sx_P).
  { unfold M_Smalbe.P_im, M_Smalbe.shift. rewrite sx_homog. reflexivity. }
  assert (Eg : gradient EK (M_Smalbe.hessian EK (sx_A None) (sx_C 0)) (minus EK [-4 / 3; -1]) [0; 0] = [4 / 3; 1]).
  { cbn. f_equal; [field|f_equal; field]. }
  assert (Er : is_zero (reduced_gradient EK sx_P [4 / 3; 1] [0; 0] (M_Smalbe.alpha EK (sx_C 0)))).
  { rewrite al_eq. cbn [sx_C M_Smalbe.alpham]. rewrite (reduced_split 1000 sx_P 2 1 [0; 0]) by (auto; lra).
    rewrite (P_Mprgp.red_projected 1000) by (try lra; cbn; lra). cbn. unfold projected_entry.
    repeat constructor; rewrite Rmax_left; try lra; unfold Rmin; destruct (Rle_dec _ _); lra. }
  assert (Est : M_Smalbe.stop EK (sx_A None) (sx_C 0) [-4; -3] [0] (M_Smalbe.Mc EK s) [0; 0]
    (reduced_gradient EK sx_P [4 / 3; 1] [0; 0] (M_Smalbe.alpha EK (sx_C 0))) = true).
  { unfold M_Smalbe.stop. rewrite !norm2_norm, (zero_norm _ Er). apply orb_true_iff. right. cbn. rewrite !Rmult_0_l.
    replace (3 / 5 * 0 - 4 / 5 * 0) with 0 by field. rewrite (zero_norm [0]) by (repeat constructor).
    apply andb_true_iff; split; apply Rleb_true; lra. }
  rewrite EP, Ex0, Ec. unfold run.
  replace (max_iterations EK sx_P - M_Smalbe.iterations EK s)%nat with 49%nat by reflexivity.
  cbn [loop]. unfold init at 1 2. cbn [s_x s_stop]. rewrite Eg, Est. cbn [obind].
  unfold init. cbn [s_x s_g]. rewrite Eg, !norm2_norm, (zero_norm _ Er).
  replace (M_Smalbe.invLG EK (sx_A None) [0; 0]) with [0] by (cbn; f_equal; field).
  rewrite (zero_norm [0]) by (repeat constructor).
  replace (leb EK 0 _ && leb EK 0 _) with true.
  - eexists _, _, _. repeat split; reflexivity.
  - symmetry. apply andb_true_iff. cbn. rewrite !Rmult_0_l. split; apply Rleb_true; lra.
Qed.

Print Assumptions smalbe_feasible.
Print Assumptions smalbe_criterion.
Print Assumptions smalbe_solves.
Print Assumptions smalbe_runs.
Print Assumptions smalbe_status.
Print Assumptions smalbe_ascent.
Print Assumptions smalbe_converged_refuted.
