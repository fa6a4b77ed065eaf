(** * Lemmas about PCPG in exact arithmetic *)
From Coq Require Import List Reals Bool Lra Lia.
From Verif Require Import Base M_DualVector M_Mprgp M_SolverInfo M_Pcpg S_Mprgp S_Pcpg L_RVec.
Import ListNotations.
Local Open Scope R_scope.
Local Open Scope out_scope.

Local Notation comb := combination.
Local Notation sp := scalar_product.

(** ** Vectors *)
Lemma zeros_is_zero k : is_zero (repeat 0 k).
Proof. induction k; constructor; auto. Qed.

Lemma comb_zeros_l k a (y : list R) : length y = k -> comb (repeat 0 k) a y = map (fun v => a * v) y.
Proof.
  revert y; induction k as [|k IH]; intros [|v y] E; try discriminate; auto.
  cbn [repeat map]. rewrite comb_cons, IH by (cbn in E; lia). f_equal. ring.
Qed.

Lemma comb_zeros_one k (y : list R) : length y = k -> comb (repeat 0 k) 1 y = y.
Proof.
  intros E. rewrite comb_zeros_l by auto. rewrite <- (map_id y) at 2. apply map_ext. intros; ring.
Qed.

Lemma linear_map_zero k l H x : linear_map k l H -> length x = k -> is_zero x -> is_zero (H x).
Proof.
  intros [L1 L2] E Z.
  assert (X : x = comb x (-1) x).
  { symmetry. apply comb_ext_zero; auto. }
  rewrite X, L2 by auto. apply comb_minus_self.
Qed.

Lemma comb_zero_zero x a y : length x = length y -> is_zero x -> is_zero y -> is_zero (comb x a y).
Proof. intros E Zx Zy. rewrite comb_ext_zero; auto. Qed.

Lemma minus_zero_eq x y : length x = length y -> is_zero (comb x (-1) y) -> x = y.
Proof.
  revert y; induction x as [|a x IH]; intros [|b y] E Z; try discriminate; auto.
  rewrite comb_cons in Z. inversion Z as [|? ? Z1 Z2]; subst. f_equal; [lra|].
  apply IH; auto.
Qed.

Lemma eq_minus_zero x y : x = y -> is_zero (comb x (-1) y).
Proof. intros ->. apply comb_minus_self. Qed.

Section Lemmas.
Variable h : R.
Local Notation K := (exact h).
Variable n m : nat.
Variable A : operators (exact h).
Variable d e : list R.
Local Notation Fo := (F (exact h) A).
Local Notation So := (S (exact h) A).
Local Notation Go := (G (exact h) A).
Local Notation Gto := (Gt (exact h) A).
Local Notation invo := (inv (exact h) A).
Local Notation B := (constrained h A).
Local Notation P := (project (exact h) A).
Local Notation PT := (projectT (exact h) A).

Hypothesis LP : linear_problem h n m A d e.

Lemma F_len (v : list R) : length v = n -> length (Fo v : list R) = n.
Proof. apply (lp_F _ _ _ _ _ _ LP). Qed.
Lemma G_len (v : list R) : length v = n -> length (Go v : list R) = m.
Proof. apply (lp_G _ _ _ _ _ _ LP). Qed.
Lemma Gt_len (v : list R) : length v = m -> length (Gto v : list R) = n.
Proof. apply (lp_Gt _ _ _ _ _ _ LP). Qed.
Lemma inv_len (v : list R) : length v = m -> length (invo v : list R) = m.
Proof. apply (lp_inv _ _ _ _ _ _ LP). Qed.
Lemma S_len (v : list R) : length v = n -> length (So v : list R) = n.
Proof. apply (lp_S _ _ _ _ _ _ LP). Qed.

Lemma B_linear : linear_map n m B.
Proof.
  pose proof (lp_F _ _ _ _ _ _ LP) as [F1 F2]. pose proof (lp_G _ _ _ _ _ _ LP) as [G1 G2].
  unfold constrained. split; intros *; destruct (conjugate (exact h) A); auto.
  intros E1 E2. rewrite F2, G2 by auto. reflexivity.
Qed.
Lemma B_len (v : list R) : length v = n -> length (B v) = m.
Proof. apply B_linear. Qed.

(** the projectors *)
Lemma P_eq (v : list R) : length v = n -> P v = comb v (-1) (Gto (invo (B v))).
Proof.
  intros E. unfold project, apply_Gt. rewrite vadd_comb. cbn [opp one exact].
  unfold constrained. destruct (conjugate (exact h) A); reflexivity.
Qed.
Lemma PT_eq (v : list R) : length v = n ->
  PT v = if conjugate (exact h) A then comb v (-1) (Fo (Gto (invo (Go v))))
         else comb v (-1) (Gto (invo (Go v))).
Proof.
  intros E. unfold projectT, apply_Gt. rewrite !vadd_comb. cbn [opp one exact].
  destruct (conjugate (exact h) A); auto. unfold vzero. cbn [zero exact].
  pose proof (lp_F _ _ _ _ _ _ LP) as [F1 F2].
  assert (L1 : length (Gto (invo (Go v)) : list R) = n) by auto using Gt_len, inv_len, G_len.
  change (@length (num K) v) with (@length R v). change (num K) with R.
  rewrite E, F2 by (auto; apply repeat_length).
  assert (Z : is_zero (Fo (repeat 0 n))).
  { apply (linear_map_zero n n); [split; auto|apply repeat_length|apply zeros_is_zero]. }
  assert (L2 : length (Fo (repeat 0 n) : list R) = n) by (apply F1, repeat_length).
  assert (L3 : length (Fo (Gto (invo (Go v))) : list R) = n) by auto.
  revert L2 L3 E Z. generalize (Fo (repeat 0 n)) as z. generalize (Fo (Gto (invo (Go v)))) as f.
  clear. revert v. induction n as [|k IH]; intros [|a v] [|c f] [|b z] L2 L3 E Z; try discriminate; auto.
  inversion Z as [|? ? Z1 Z2]; subst. rewrite !comb_cons.
  f_equal; [ring|]. apply IH; auto.
Qed.

Lemma P_len (v : list R) : length v = n -> length (P v : list R) = n.
Proof.
  intros E. rewrite P_eq by auto. apply comb_len; auto. apply Gt_len, inv_len, B_len; auto.
Qed.
Lemma PT_len (v : list R) : length v = n -> length (PT v : list R) = n.
Proof.
  intros E. rewrite PT_eq by auto. destruct (conjugate (exact h) A); apply comb_len; auto;
    [apply F_len|]; apply Gt_len, inv_len, G_len; auto.
Qed.

Lemma B_P (v : list R) : length v = n -> is_zero (B (P v)).
Proof.
  intros E. rewrite P_eq by auto. destruct B_linear as [B1 B2].
  rewrite B2 by (auto; apply Gt_len, inv_len; auto).
  rewrite (lp_coarse _ _ _ _ _ _ LP) by auto. apply comb_minus_self.
Qed.

Lemma G_PT (v : list R) : length v = n -> is_zero (Go (PT v)).
Proof.
  intros E. rewrite PT_eq by auto. destruct (lp_G _ _ _ _ _ _ LP) as [G1 G2].
  pose proof (lp_coarse _ _ _ _ _ _ LP (Go v) (G1 v E)) as C. unfold constrained in C.
  assert (L1 : length (Gto (invo (Go v)) : list R) = n) by auto using Gt_len, inv_len, G_len.
  destruct (conjugate (exact h) A); rewrite G2, C; auto using F_len; apply comb_minus_self.
Qed.

(** ** The invariant of the loops *)
Definition residual_of (x : list R) : list R := comb d (-1) (Fo x).

Record inv1 (s : state K) : Prop := {
  i_x : length (x K s) = n;
  i_r : r K s = residual_of (x K s);
  i_w : w K s = PT (r K s);
  i_y : y K s = P (So (w K s));
  i_p : length (p K s) = n;
  i_Bp : is_zero (B (p K s));
  i_yw : yw K s = sp (y K s) (w K s)
}.

Lemma residual_len (x : list R) : length x = n -> length (residual_of x) = n.
Proof. intros E. apply comb_len; [apply (lp_d _ _ _ _ _ _ LP)|now apply F_len]. Qed.
Lemma r_len s : inv1 s -> length (r K s : list R) = n.
Proof. intros I. rewrite (i_r _ I). apply residual_len, (i_x _ I). Qed.
Lemma w_len s : inv1 s -> length (w K s : list R) = n.
Proof. intros I. rewrite (i_w _ I). apply PT_len, r_len, I. Qed.
Lemma y_len s : inv1 s -> length (y K s : list R) = n.
Proof. intros I. rewrite (i_y _ I). apply P_len, S_len, w_len, I. Qed.
Lemma B_y s : inv1 s -> is_zero (B (y K s)).
Proof. intros I. rewrite (i_y _ I). apply B_P, S_len, w_len, I. Qed.

Lemma residual_model (l : list R) : length l = n -> residual K A d l = residual_of l.
Proof.
  intros E. unfold residual, residual_of. rewrite vadd_comb, vscale_comb. cbn [opp one exact].
  pose proof (lp_d _ _ _ _ _ _ LP) as Ed. pose proof (F_len l E) as EF.
  revert Ed EF. generalize (Fo l) as f. generalize d as c. clear.
  induction n as [|k IH]; intros [|a c] [|b f] E1 E2; try discriminate; auto.
  cbn [map]. rewrite !comb_cons. f_equal; [ring|]. apply IH; auto.
Qed.

Lemma residual_move (x p : list R) g : length x = n -> length p = n ->
  residual_of (comb x g p) = comb (residual_of x) (- g) (Fo p).
Proof.
  intros E1 E2. unfold residual_of. destruct (lp_F _ _ _ _ _ _ LP) as [F1 F2]. rewrite F2 by auto.
  pose proof (lp_d _ _ _ _ _ _ LP) as Ed. pose proof (F1 _ E1) as L1. pose proof (F1 _ E2) as L2.
  revert Ed L1 L2. generalize (Fo x) as f. generalize (Fo p) as q. generalize d as c. clear.
  induction n as [|k IH]; intros [|a c] [|b f] [|t q] E1 E2 E3; try discriminate; auto.
  rewrite !comb_cons. f_equal; [ring|]. apply IH; auto.
Qed.

Lemma inv1_intro (l g v : list R) c i : length l = n -> g = residual_of l ->
  length v = n -> is_zero (B v) -> c = sp (P (So (PT g))) (PT g) ->
  inv1 {| x := l : list (num K); r := g; w := PT g; y := P (So (PT g)); p := v; yw := c;
          status := i |}.
Proof. intros E1 -> E2 E3 ->. constructor; cbn [x r w y p yw]; auto. Qed.

Lemma start_point (u : list R) : length u = m ->
  let l := apply_GtinvGGt K A n u in length (l : list R) = n /\ B l = u.
Proof.
  intros E. cbn zeta. unfold apply_GtinvGGt, apply_Gt. rewrite vadd_comb. unfold vzero.
  cbn [zero one exact]. rewrite comb_zeros_one by (apply Gt_len, inv_len; auto).
  split; [apply Gt_len, inv_len; auto|]. now apply (lp_coarse _ _ _ _ _ _ LP).
Qed.

Lemma start_GtG (u : list R) : length u = n ->
  apply_GtinvGGtG K A u = apply_GtinvGGt K A n (Go u).
Proof. intros E. unfold apply_GtinvGGtG, apply_GtinvGGt. now rewrite <- E. Qed.

Variable isnan : R -> bool.
Variable infinity : R.
Variable C : config (exact h).
Variable q : R -> R -> outcome R.

Lemma start_inv1 : inv1 (pcpg_start K infinity C A d e) /\
  B (x K (pcpg_start K infinity C A d e)) = (if conjugate K A then Go d else e) /\
  p K (pcpg_start K infinity C A d e) = y K (pcpg_start K infinity C A d e).
Proof.
  unfold pcpg_start. pose proof (lp_d _ _ _ _ _ _ LP) as Ed. pose proof (lp_e _ _ _ _ _ _ LP) as Ee.
  set (l := if conjugate K A then apply_GtinvGGtG K A d else apply_GtinvGGt K A (length d) e).
  assert (X : length (l : list R) = n /\ B l = (if conjugate K A then Go d else e)).
  { subst l. destruct (conjugate K A).
    - rewrite start_GtG by auto. apply start_point, G_len; auto.
    - change (@length (num K) d) with (@length R d). rewrite Ed. now apply start_point. }
  destruct X as [X1 X2].
  assert (Lw : length (PT (residual K A d l) : list R) = n).
  { apply PT_len. rewrite residual_model by auto. now apply residual_len. }
  split; [|split; [exact X2|reflexivity]].
  apply inv1_intro; auto.
  - now apply residual_model.
  - apply P_len, S_len, Lw.
  - apply B_P, S_len, Lw.
  - now rewrite dot_sp.
Qed.

Lemma move_inv1 s (g : R) p' yw' i : inv1 s ->
  length p' = n -> is_zero (B p') ->
  let r' := comb (r K s) (- g) (Fo (p K s)) in
  yw' = sp (P (So (PT r'))) (PT r') ->
  let x' := comb (x K s) g (p K s) in
  inv1 {| x := x' : list (num K); r := r'; w := PT r'; y := P (So (PT r')); p := p'; yw := yw';
          status := i |} /\ B x' = B (x K s).
Proof.
  intros I L Z r' Y x'. pose proof (i_x _ I) as Ex. pose proof (i_p _ I) as Ep. split.
  - apply inv1_intro; auto.
    + apply comb_len; auto.
    + unfold r', x'. rewrite (i_r _ I). symmetry. now apply residual_move.
  - unfold x'. destruct B_linear as [B1 B2]. rewrite B2 by auto.
    apply comb_ext_zero; [apply (i_Bp _ I)|]. rewrite !B1; auto.
Qed.

(** what a pass does *)
Lemma step_moves s s' : inv1 s -> pcpg_step K isnan infinity q C A s = Ok s' ->
  exists g beta, q (yw K s) (sp (p K s) (Fo (p K s))) = Ok g /\ q (yw K s') (yw K s) = Ok beta /\
    x K s' = comb (x K s) g (p K s) /\ r K s' = comb (r K s) (- g) (Fo (p K s)) /\
    p K s' = comb (y K s') beta (p K s) /\
    update_info K isnan infinity C (yw K s) (status K s) = Ok (status K s') /\
    inv1 s' /\ B (x K s') = B (x K s).
Proof.
  intros I E. unfold pcpg_step in E. rewrite dot_sp in E.
  destruct (q (yw K s) (sp (p K s) (Fo (p K s)))) as [g| |] eqn:Eg; cbn [obind] in E; try discriminate.
  rewrite !vadd_comb, dot_sp in E. cbn [opp exact] in E.
  set (r' := comb (r K s) (- g) (Fo (p K s))) in *.
  destruct (q (sp (P (So (PT r'))) (PT r')) (yw K s)) as [b| |] eqn:Eb; cbn [obind] in E; try discriminate.
  destruct (update_info K isnan infinity C (yw K s) (status K s)) as [i| |] eqn:Ei;
    cbn [obind] in E; try discriminate.
  injection E as <-. exists g, b. cbn [x r w y p yw status]. rewrite Eb.
  assert (Lr : length r' = n).
  { unfold r'. apply comb_len; [now apply r_len|]. apply F_len, (i_p _ I). }
  assert (Ly : length (P (So (PT r')) : list R) = n) by (apply P_len, S_len, PT_len; auto).
  destruct B_linear as [B1 B2].
  destruct (move_inv1 s g (comb (P (So (PT r'))) b (p K s)) _ i I
              ltac:(apply comb_len; auto; apply (i_p _ I))
              ltac:(rewrite B2 by (auto; apply (i_p _ I)); apply comb_zero_zero;
                    [rewrite !B1; auto; apply (i_p _ I)|apply B_P, S_len, PT_len; auto|apply (i_Bp _ I)])
              eq_refl) as [M1 M2].
  rewrite vadd_comb. repeat (split; [first [reflexivity|assumption|exact M1]|]). exact M2.
Qed.
End Lemmas.
