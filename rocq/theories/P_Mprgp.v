(** * MPRGP: feasible iterates, gradient, descent, optimality, status (C56, C58, C89) *)
From Coq Require Import List Reals Bool Lra Lia.
From Verif Require Import Base M_DualVector M_Mprgp S_Mprgp L_RVec L_Mprgp L_Mprgp2.
Import ListNotations.
Local Open Scope R_scope.
Local Open Scope out_scope.

Local Notation comb := combination.
Local Notation sp := scalar_product.

(** ** Vocabulary *)
Lemma between_feasible eq ls us (x : list R) :
  between ls us (skipn eq x) -> feasible eq ls us x.
Proof.
  intros B j l u a El Eu Ea.
  assert (E : nth_error (skipn eq x) j = Some a).
  { rewrite <- Ea. clear. revert x; induction eq as [|eq IH]; intros [|c x]; cbn; auto.
    now destruct j. }
  clear Ea. revert us j El Eu E B. generalize (skipn eq x) as y.
  induction ls as [|l' ls IH]; intros [|a' y] [|u' us] j El Eu Ea B; try contradiction;
    try (destruct j; discriminate).
  destruct B as [B1 B2]. destruct j as [|j]; cbn in El, Eu, Ea.
  - injection El as <-. injection Eu as <-. injection Ea as <-. exact B1.
  - now apply (IH y us j).
Qed.

Lemma feasible_between eq ls us (x : list R) n :
  length x = n -> (eq + length ls = n)%nat -> length us = length ls ->
  feasible eq ls us x -> between ls us (skipn eq x).
Proof.
  intros En El Eu F.
  assert (F' : forall j l u a, nth_error ls j = Some l -> nth_error us j = Some u ->
            nth_error (skipn eq x) j = Some a -> l <= a <= u).
  { intros j l u a L U A. apply (F j); auto. rewrite <- A. clear.
    revert x; induction eq as [|eq IH]; intros [|c x]; cbn; auto. now destruct j. }
  assert (Ls : length (skipn eq x) = length ls) by (rewrite skipn_length; lia).
  clear F. revert us Eu F' Ls. generalize (skipn eq x) as y. clear.
  induction ls as [|l ls IH]; intros [|a y] [|u us] Eu F Ls; try discriminate; cbn; auto.
  split; [now apply (F 0%nat)|]. apply IH; auto; try (cbn in *; lia).
  intros j l' u' a' L U A. now apply (F (S j)).
Qed.

Lemma minus_comb h (b y : list R) : length b = length y ->
  comb y 1 (minus (exact h) b) = comb y (-1) b.
Proof.
  intros E. unfold minus. rewrite vscale_comb. cbn [opp one exact].
  revert y E; induction b as [|c b IH]; intros [|a y] E; try discriminate; auto.
  cbn [map]. rewrite !comb_cons, IH by (cbn in E; lia). f_equal. ring.
Qed.

Local Lemma clamp_Rmax h l u a : clamp (exact h) l u a = Rmax l (Rmin u a).
Proof.
  unfold clamp, min, max, Rmax, Rmin. cbn. destruct (Rltb a u) eqn:E1; rb;
    destruct (Rle_dec u a); try lra.
  - destruct (Rltb l a) eqn:E2; rb; destruct (Rle_dec l a); lra.
  - destruct (Rltb l u) eqn:E2; rb; destruct (Rle_dec l u); lra.
Qed.

Local Lemma red_projected h al ls us g (x : list R) : 0 < al -> between ls us x ->
  red_all h al ls us g x = projected_entries al ls us g x.
Proof.
  intros A. revert us g x; induction ls as [|l ls IH]; intros [|u us] [|c g] [|a x] B;
    try contradiction; auto.
  destruct B as [B1 B2]. cbn [red_all projected_entries]. rewrite IH by auto. f_equal.
  destruct (red1_spec h al l u c a A B1) as (_ & _ & E). rewrite clamp_Rmax in E.
  unfold projected_entry. rewrite <- E. field. lra.
Qed.

(** ** Theorems *)
Section Theorems.
Variable h : R.
Local Notation K := (exact h).
Variable P : problem (exact h).
Variable n : nat.
Variable alpha two half : R.
Variable H M : list R -> list R.
Variable stop : list R -> list R -> bool.
Variable b x0 : list R.
Variable it : nat.
Hypothesis Hh : 0 <= h.
Hypothesis Ha : 0 < alpha.
Hypothesis HP : bounded_program n (equalities K P) (lb K P) (ub K P) H b.
Hypothesis HM : preconditioner n M.
Hypothesis Hx : length x0 = n.
Hypothesis F0 : feasible (equalities K P) (lb K P) (ub K P) x0.

Local Notation Inv := (inv h P n alpha H M b).

Local Lemma inv0 : Inv (init K P alpha H M b x0 it).
Proof.
  destruct HP as [S1 S2 S3 S4 S5 S6 S7]. destruct HM as [M1 M2].
  apply inv_init; auto. split; auto. now apply feasible_between with n.
Qed.

Local Lemma inv_run s : run K P alpha H M stop two half b x0 it = Ok s -> Inv s.
Proof.
  destruct HP as [S1 S2 S3 S4 S5 S6 S7]. destruct HM as [M1 M2]. intros E.
  unfold run in E. revert E. apply inv_loop; auto. apply inv0.
Qed.

(** C56: whatever the iteration limit, the point is feasible and the gradient is H x - b *)
Theorem mprgp_feasible s :
  run K P alpha H M stop two half b x0 it = Ok s ->
  feasible (equalities K P) (lb K P) (ub K P) (s_x K s) /\
  s_g K s = comb (H (s_x K s)) (-1) b.
Proof.
  intros E. apply inv_run in E. split.
  - apply between_feasible, (i_feas _ _ _ _ _ _ _ _ E).
  - rewrite (i_g _ _ _ _ _ _ _ _ E). unfold grad. apply minus_comb.
    destruct HP as [S1 S2 S3 S4 [S5 S6] S7 S8]. rewrite S5; auto.
    apply (i_feas _ _ _ _ _ _ _ _ E).
Qed.

(** C56: no quotient by zero is computed *)
Theorem mprgp_runs :
  0 < two -> 0 < delta K P ->
  (forall x r, length r = n -> is_zero r -> stop x r = true) ->
  exists s, run K P alpha H M stop two half b x0 it = Ok s.
Proof.
  intros T D S. destruct HP as [S1 S2 S3 S4 S5 S6 S7]. destruct HM as [M1 M2].
  unfold run. apply loop_runs with n; auto. apply inv0.
Qed.

Local Lemma stop_projected s : run K P alpha H M stop two half b x0 it = Ok s ->
  s_stop K s = projected_gradient (equalities K P) alpha (lb K P) (ub K P)
                 (comb (H (s_x K s)) (-1) b) (s_x K s).
Proof.
  intros E. pose proof (proj2 (mprgp_feasible s E)) as G. apply inv_run in E.
  destruct HP as [S1 S2 S3 S4 S5 S6 S7]. destruct HM as [M1 M2].
  assert (Lg : length (s_g K s : list R) = n) by (apply (g_length h P n alpha H M b); auto).
  destruct (i_feas _ _ _ _ _ _ _ _ E) as [Lx Bx].
  rewrite (i_stop _ _ _ _ _ _ _ _ E), (reduced_split h P n alpha b Ha) by auto.
  rewrite (red_projected h) by auto. rewrite G. reflexivity.
Qed.

(** C89: a point whose projected gradient is zero is the minimum over all feasible points *)
Theorem mprgp_optimal s :
  run K P alpha H M stop two half b x0 it = Ok s ->
  is_zero (projected_gradient (equalities K P) alpha (lb K P) (ub K P)
             (comb (H (s_x K s)) (-1) b) (s_x K s)) ->
  forall y, length y = n -> feasible (equalities K P) (lb K P) (ub K P) y ->
    energy H b (s_x K s) <= energy H b y.
Proof.
  intros E Z y Ly Fy. rewrite <- (stop_projected s E) in Z. apply inv_run in E.
  destruct HP as [S1 S2 S3 S4 S5 S6 S7]. destruct HM as [M1 M2].
  apply (zero_stop_optimal h P n alpha H M b); auto.
  split; auto. now apply feasible_between with n.
Qed.

(** another limit of the number of iterations *)
Definition with_max (P : problem K) (m : nat) : problem K :=
  {| equalities := equalities K P; lb := lb K P; ub := ub K P; delta := delta K P;
     precision_set := precision_set K P; gradproj := gradproj K P; max_iterations := m |}.

Hypothesis HA : forall v, length v = n -> alpha * sp v (H v) <= 2 * sp v v.

Local Lemma loop_longer r k s s1 s2 :
  Inv s ->
  loop K P alpha H M stop two (/ 2) (minus K b) r s = Ok s1 ->
  loop K P alpha H M stop two (/ 2) (minus K b) (r + k) s = Ok s2 ->
  energy H b (s_x K s2) <= energy H b (s_x K s1).
Proof.
  destruct HP as [S1 S2 S3 S4 S5 S6 S7]. destruct HM as [M1 M2].
  revert s; induction r as [|r IH]; intros s I E1 E2.
  - cbn [Nat.add] in E2. pose proof (loop_descent h P n alpha H M stop b Hh Ha S1 S2 S3 S5 S7 M1 M2
      S4 S6 HA two k s s2 I E2) as D.
    cbn [loop] in E1. destruct (stop (s_x K s) (s_stop K s)); injection E1 as <-; exact D.
  - cbn [Nat.add loop] in E1, E2. destruct (stop (s_x K s) (s_stop K s)).
    + rewrite E1 in E2. injection E2 as ->. lra.
    + destruct (step K P alpha H M two (/ 2) (minus K b) (count K s)) as [s'| |] eqn:E;
        cbn [obind] in E1, E2; try discriminate.
      apply (IH s'); auto. apply (inv_step h P n alpha H M b) in E; auto.
      apply inv_count; auto.
Qed.

(** C89: more iterations do not increase the minimized function *)
Theorem mprgp_descends m m' s s' :
  (it <= m <= m')%nat ->
  run K (with_max P m) alpha H M stop two (/ 2) b x0 it = Ok s ->
  run K (with_max P m') alpha H M stop two (/ 2) b x0 it = Ok s' ->
  energy H b (s_x K s') <= energy H b (s_x K s) <= energy H b x0.
Proof.
  intros L E E'. unfold run in E, E'. cbn [with_max max_iterations] in E, E'.
  assert (EL : forall r z, loop K (with_max P m) alpha H M stop two (/ 2) (minus K b) r z
                    = loop K P alpha H M stop two (/ 2) (minus K b) r z).
  { induction r as [|r IH]; intros z; [reflexivity|]. cbn [loop].
    destruct (stop (s_x K z) (s_stop K z)); auto. }
  assert (EL' : forall r z, loop K (with_max P m') alpha H M stop two (/ 2) (minus K b) r z
                    = loop K P alpha H M stop two (/ 2) (minus K b) r z).
  { induction r as [|r IH]; intros z; [reflexivity|]. cbn [loop].
    destruct (stop (s_x K z) (s_stop K z)); auto. }
  rewrite EL in E. rewrite EL' in E'.
  change (init K (with_max P m)) with (init K P) in E.
  change (init K (with_max P m')) with (init K P) in E'.
  split.
  - replace (m' - it)%nat with ((m - it) + (m' - m))%nat in E' by lia.
    eapply loop_longer; eauto. apply inv0.
  - destruct HP as [S1 S2 S3 S4 S5 S6 S7]. destruct HM as [M1 M2].
    pose proof (loop_descent h P n alpha H M stop b Hh Ha S1 S2 S3 S5 S7 M1 M2
      S4 S6 HA two (m - it) _ s inv0 E) as D. exact D.
Qed.

End Theorems.

(** ** Status *)

(** any arithmetic: the stopping gradient belongs to the current point, and the steps are counted *)
Section Status.
Variable K : scalar.
Variable P : problem K.
Variable alpha two half : num K.
Variable H M : list (num K) -> list (num K).
Variable stop : list (num K) -> list (num K) -> bool.
Variable b x0 : list (num K).

Local Notation steps s := (s_cg K s + s_mixed K s + s_gproj K s)%nat.

Local Lemma step_counts s s' :
  step K P alpha H M two half (minus K b) s = Ok s' ->
  s_stop K s' = reduced_gradient K P (s_g K s') (s_x K s') alpha /\
  s_iterations K s' = s_iterations K s /\ steps s' = S (steps s).
Proof.
  unfold step. destruct (proportional K P two s).
  - destruct (quot K _ _) as [v| |]; cbn [obind]; try discriminate.
    destruct (leb K _ _).
    + unfold cg_step. destruct (quot K _ _) as [ga| |]; cbn [obind]; try discriminate.
      intros E. injection E as <-. cbn. repeat split; lia.
    + intros E. injection E as <-. unfold mixed_step, restart. cbn. repeat split; lia.
  - intros E. injection E as <-. unfold proportioning_step, restart. cbn. repeat split; lia.
Qed.

Local Lemma loop_counts rest s s' :
  loop K P alpha H M stop two half (minus K b) rest s = Ok s' ->
  s_stop K s = reduced_gradient K P (s_g K s) (s_x K s) alpha ->
  s_stop K s' = reduced_gradient K P (s_g K s') (s_x K s') alpha /\
  (steps s <= steps s' <= steps s + rest)%nat /\
  (stop (s_x K s') (s_stop K s') = true ->
     (s_iterations K s' + steps s = s_iterations K s + steps s')%nat) /\
  (stop (s_x K s') (s_stop K s') = false ->
     s_iterations K s' = S (s_iterations K s + rest) /\ steps s' = (steps s + rest)%nat).
Proof.
  revert s; induction rest as [|rest IH]; intros s E R; cbn [loop] in E;
    destruct (stop (s_x K s) (s_stop K s)) eqn:St.
  - injection E as <-. repeat split; auto; try lia; congruence.
  - injection E as <-. cbn [count s_x s_stop s_g s_iterations s_cg s_mixed s_gproj].
    repeat split; auto; try lia; congruence.
  - injection E as <-. repeat split; auto; try lia; congruence.
  - destruct (step K P alpha H M two half (minus K b) (count K s)) as [s1| |] eqn:S1;
      cbn [obind] in E; try discriminate.
    apply step_counts in S1. destruct S1 as (A1 & A2 & A3).
    cbn [count s_iterations s_cg s_mixed s_gproj] in A2, A3.
    destruct (IH s1 E A1) as (B1 & B2 & B3 & B4).
    split; [auto|split; [lia|split]]; intros C.
    + specialize (B3 C). lia.
    + specialize (B4 C). lia.
Qed.

(** C58: at most [max_iterations] steps; iterations up to the limit mean that the criterion is met
    at the returned point, otherwise the limit was exceeded by one *)
Theorem mprgp_limit s :
  run K P alpha H M stop two half b x0 0 = Ok s ->
  (steps s <= max_iterations K P)%nat /\
  (let met := stop (s_x K s) (reduced_gradient K P (s_g K s) (s_x K s) alpha) in
   (met = true -> s_iterations K s = steps s) /\
   (met = false -> s_iterations K s = S (max_iterations K P))).
Proof.
  intros E. unfold run in E. rewrite Nat.sub_0_r in E.
  apply loop_counts in E; [|reflexivity].
  cbn [init s_iterations s_cg s_mixed s_gproj] in E. destruct E as (A1 & A2 & A3 & A4).
  rewrite <- A1. split; [lia|split]; intros C.
  - specialize (A3 C). lia.
  - specialize (A4 C). lia.
Qed.
End Status.

(** C58: the report of MPRGP::solve in exact arithmetic *)
Section Solve.
Variable h : R.
Local Notation K := (exact h).
Variable P : problem (exact h).
Variable n : nat.
Variable alpham max_eig eps precision : R.
Variable F M : list R -> list R.
Variable d : list R.
Hypothesis Hh : 0 <= h.
Hypothesis Ha : 0 < alpham.
Hypothesis He : 0 < max_eig.
Hypothesis HP : bounded_program n (equalities K P) (lb K P) (ub K P) F d.
Hypothesis HM : preconditioner n M.
Hypothesis F0 : feasible (equalities K P) (lb K P) (ub K P) (repeat 0 n).

Local Notation criterion x :=
  (norm (projected_gradient (equalities K P) (alpham / max_eig) (lb K P) (ub K P)
           (comb (F x) (-1) d) x)
   <= Rmax eps (precision * norm (firstn (equalities K P) d))).

Local Lemma sp_pad (x : list R) k : sp (x ++ repeat 0 k) (x ++ repeat 0 k) = sp x x.
Proof.
  rewrite sp_app by reflexivity.
  assert (Z : sp (repeat 0 k) (repeat 0 k) = 0).
  { apply sp_zero_l. clear. induction k; constructor; auto. }
  rewrite Z. ring.
Qed.

Local Lemma max_Rmax a c : max K a c = Rmax a c.
Proof. unfold max, Rmax. cbn. destruct (Rltb a c) eqn:E; rb; destruct (Rle_dec a c); lra. Qed.

Theorem mprgp_status two half x rep :
  mprgp_solve K P alpham max_eig eps precision two half F M d = Ok (x, rep) ->
  feasible (equalities K P) (lb K P) (ub K P) x /\
  (r_converged rep = true <-> r_error rep = NO_ERROR) /\
  (r_error rep <> NO_ERROR -> r_error rep = MAX_ITERATIONS_REACHED) /\
  (r_error rep = NO_ERROR -> criterion x /\ (r_iterations rep < max_iterations K P)%nat) /\
  (criterion x -> (r_iterations rep <= max_iterations K P)%nat).
Proof.
  intros E. unfold mprgp_solve in E.
  set (al := alpham / max_eig) in *.
  assert (A : 0 < al) by (apply Rdiv_lt_0_compat; auto).
  assert (Ld : length d = n) by apply (bp_b _ _ _ _ _ _ HP).
  match type of E with context [run K P ?a F M ?st two half d ?z 0] =>
    destruct (run K P a F M st two half d z 0) as [s| |] eqn:Rn; cbn [obind] in E;
    try discriminate end.
  injection E as <- <-.
  cbn [div exact] in Rn. fold al in Rn.
  assert (Lz : length (vzero K (length d)) = n) by (unfold vzero; rewrite repeat_length; auto).
  assert (Fz : feasible (equalities K P) (lb K P) (ub K P) (vzero K (length d))).
  { unfold vzero. cbn [zero exact]. rewrite Ld. exact F0. }
  pose proof (mprgp_feasible h P n al two half F M _ d _ 0 Hh A HP HM Lz Fz s Rn) as [Fx Gx].
  pose proof (inv_run h P n al two half F M _ d _ 0 Hh A HP HM Lz Fz s Rn) as I.
  destruct (mprgp_limit K P al two half F M _ d _ s Rn) as [C1 [C2 C3]].
  assert (C : stop_norm K (tolerance K P eps precision d) (s_x K s)
                (reduced_gradient K P (s_g K s) (s_x K s) al) = true <-> criterion (s_x K s)).
  { unfold stop_norm. cbn [leb exact M_DualVector.sqrt]. rewrite Rleb_true, dot_sp.
    unfold tolerance. cbn [M_DualVector.sqrt exact mul]. rewrite max_Rmax, dot_sp.
    unfold vzero. cbn [zero exact]. rewrite sp_pad.
    destruct HP as [S1 S2 S3 S4 S5 S6 S7]. destruct HM as [M1 M2].
    assert (Lg : length (s_g K s : list R) = n) by (apply (g_length h P n al F M d); auto).
    destruct (i_feas _ _ _ _ _ _ _ _ I) as [Lx Bx].
    rewrite (reduced_split h P n al d A) by auto.
    rewrite (red_projected h) by auto.
    rewrite Gx. reflexivity. }
  split; [exact Fx|].
  unfold mprgp_report. cbn [r_converged r_error r_iterations].
  destruct (Nat.ltb_spec (s_iterations K s) (max_iterations K P)) as [L|L].
  - cbn [negb andb]. split; [tauto|split; [congruence|split]].
    + intros _. split; auto. apply C.
      match goal with |- ?t = true => destruct t eqn:St; auto end.
      specialize (C3 eq_refl). lia.
    + lia.
  - rewrite (proj2 (Nat.leb_le _ _)) by lia. cbn [negb andb].
    split; [split; discriminate|split; [auto|split; [discriminate|]]].
    intros Cr. apply C in Cr. specialize (C2 Cr). lia.
Qed.

(** C58: a criterion met after exactly [max_iterations] iterations is reported as an error *)
Theorem mprgp_status_at_limit_refuted two half x rep :
  mprgp_solve K P alpham max_eig eps precision two half F M d = Ok (x, rep) ->
  criterion x -> r_iterations rep = max_iterations K P ->
  r_error rep = MAX_ITERATIONS_REACHED /\ r_converged rep = false.
Proof.
  intros E _ L. unfold mprgp_solve in E.
  match type of E with context [run K P ?a F M ?st two half d ?z 0] =>
    destruct (run K P a F M st two half d z 0) as [s| |] eqn:Rn; cbn [obind] in E;
    try discriminate end.
  injection E as <- <-. unfold mprgp_report in *. cbn [r_converged r_error r_iterations] in *.
  rewrite L, Nat.ltb_irrefl, Nat.leb_refl. auto.
Qed.
End Solve.

(** ** Examples *)

(** two variables, the second one between -1/2 and 1 *)
Definition ex_F (x : list R) : list R :=
  match x with [a; b] => [2 * a + b; a + 2 * b] | _ => x end.
Definition ex_M (x : list R) : list R := map (fun a => / 2 * a) x.

Local Lemma two_entries (x : list R) : length x = 2%nat -> exists a b, x = [a; b].
Proof. destruct x as [|a [|b [|c x]]]; intros E; try discriminate. now exists a, b. Qed.

Example ex_program :
  bounded_program 2 1 [- / 2] [1] ex_F [1; -3] /\ preconditioner 2 ex_M /\
  feasible 1 [- / 2] [1] [0; 0] /\
  (forall v, length v = 2%nat -> / 2 * sp v (ex_F v) <= 2 * sp v v).
Proof.
  split; [|split; [|split]].
  - split; auto.
    + constructor; [lra|constructor].
    + split.
      * intros x E. destruct (two_entries x E) as (a & b & ->). reflexivity.
      * intros x c y Ex Ey. destruct (two_entries x Ex) as (a & b & ->).
        destruct (two_entries y Ey) as (a' & b' & ->). cbn. f_equal; [ring|f_equal; ring].
    + intros x y Ex Ey. destruct (two_entries x Ex) as (a & b & ->).
      destruct (two_entries y Ey) as (a' & b' & ->). cbn. ring.
    + intros x Ex Z. destruct (two_entries x Ex) as (a & b & ->). cbn.
      assert (a <> 0 \/ b <> 0) as [N|N].
      { destruct (Req_dec a 0) as [->|]; [|auto]. right. intros ->. apply Z. now repeat constructor. }
      all: assert (S := Rsqr_pos_lt _ N); unfold Rsqr in S;
        pose proof (Rle_0_sqr a); pose proof (Rle_0_sqr b); pose proof (Rle_0_sqr (a + b));
        unfold Rsqr in *; lra.
  - split.
    + intros x E. unfold ex_M. now rewrite map_length.
    + intros x Ex Z. destruct (two_entries x Ex) as (a & b & ->). cbn.
      assert (a <> 0 \/ b <> 0) as [N|N].
      { destruct (Req_dec a 0) as [->|]; [|auto]. right. intros ->. apply Z. now repeat constructor. }
      all: assert (S := Rsqr_pos_lt _ N); unfold Rsqr in S;
        pose proof (Rle_0_sqr a); pose proof (Rle_0_sqr b); unfold Rsqr in *; lra.
  - intros [|[|j]] l u a E1 E2 E3; cbn in *; try discriminate.
    injection E1 as <-. injection E2 as <-. injection E3 as <-. lra.
  - intros v E. destruct (two_entries v E) as (a & b & ->). cbn.
    pose proof (Rle_0_sqr (a - b)); pose proof (Rle_0_sqr a); pose proof (Rle_0_sqr b).
    unfold Rsqr in *. lra.
Qed.

Definition ex_P : problem (exact 1000) :=
  {| equalities := 1; lb := [- / 2] : list (num (exact 1000)); ub := [1] : list (num (exact 1000));
     delta := / 4 : num (exact 1000); precision_set := 0 : num (exact 1000);
     gradproj := true; max_iterations := 50 |}.

Local Lemma zero_stops P eps precision d x r : 0 <= eps -> length r = 2%nat -> is_zero r ->
  stop_norm (exact 1000) (tolerance (exact 1000) P eps precision d) x r = true.
Proof.
  intros He Lr Z. destruct (two_entries r Lr) as (a & b & ->).
  inversion Z as [|? ? Z1 Z2]; subst. inversion Z2 as [|? ? Z3 Z4]; subst.
  unfold stop_norm. cbn [leb exact]. apply Rleb_true. cbn.
  replace (0 * 0 + (0 * 0 + 0)) with 0 by ring. rewrite sqrt_0.
  unfold tolerance. cbn [M_DualVector.sqrt exact mul]. rewrite max_Rmax.
  eapply Rle_trans; [|apply Rmax_l]. lra.
Qed.

Example ex_run : exists x rep,
  mprgp_solve (exact 1000) ex_P (3 / 2) 3 1 (/ 10) 2 (/ 2) ex_F ex_M [1; -3] = Ok (x, rep).
Proof.
  destruct ex_program as (A & B & C & _). unfold mprgp_solve. cbn [div exact].
  destruct (mprgp_runs 1000 ex_P 2 (3 / 2 / 3) 2 (/ 2) ex_F ex_M
              (stop_norm (exact 1000) (tolerance (exact 1000) ex_P 1 (/ 10) [1; -3]))
              [1; -3] [0; 0] 0) as [s E]; auto; try lra.
  - cbn. lra.
  - intros x r. apply zero_stops. lra.
  - change (vzero (exact 1000) (length [1; -3])) with [0; 0].
    rewrite E. cbn [obind]. eexists _, _. reflexivity.
Qed.

(** a criterion met at once, and a limit of zero iterations, which is the default *)
Example ex_refuted : exists x rep,
  mprgp_solve (exact 1000) (with_max 1000 ex_P 0) (3 / 2) 3 10 0 2 (/ 2) ex_F ex_M [1; -3]
    = Ok (x, rep) /\
  norm (projected_gradient 1 (3 / 2 / 3) [- / 2] [1] (comb (ex_F x) (-1) [1; -3]) x)
    <= Rmax 10 (0 * norm (firstn 1 [1; -3])) /\
  r_iterations rep = 0%nat /\ r_error rep = MAX_ITERATIONS_REACHED.
Proof.
  destruct ex_program as (B1 & B2 & B3 & _).
  destruct (mprgp_runs 1000 (with_max 1000 ex_P 0) 2 (3 / 2 / 3) 2 (/ 2) ex_F ex_M
              (stop_norm (exact 1000) (tolerance (exact 1000) (with_max 1000 ex_P 0) 10 0 [1; -3]))
              [1; -3] [0; 0] 0) as [s E]; auto; try lra.
  { cbn. lra. }
  { intros x r. apply zero_stops. lra. }
  assert (Ex : s_x (exact 1000) s = [0; 0]).
  { unfold run in E. cbn [with_max max_iterations Nat.sub loop] in E.
    match type of E with (if ?c then _ else _) = _ => destruct c end;
      injection E as <-; reflexivity. }
  assert (Es : mprgp_solve (exact 1000) (with_max 1000 ex_P 0) (3 / 2) 3 10 0 2 (/ 2) ex_F ex_M
            [1; -3] = Ok ([0; 0], mprgp_report (exact 1000) (with_max 1000 ex_P 0)
                                     (s_iterations (exact 1000) s))).
  { unfold mprgp_solve. cbn [div exact]. change (vzero (exact 1000) (length [1; -3])) with [0; 0].
    rewrite E. cbn [obind]. now rewrite Ex. }
  assert (Cr : norm (projected_gradient 1 (3 / 2 / 3) [- / 2] [1]
                       (comb (ex_F [0; 0]) (-1) [1; -3]) [0; 0])
               <= Rmax 10 (0 * norm (firstn 1 [1; -3]))).
  { eapply Rle_trans; [|apply Rmax_l].
    replace (projected_gradient 1 (3 / 2 / 3) [- / 2] [1] (comb (ex_F [0; 0]) (-1) [1; -3]) [0; 0])
      with [-1; 1].
    - unfold norm. cbn. replace 10 with (R_sqrt.sqrt (10 * 10)) by (apply sqrt_square; lra).
      apply sqrt_le_1; lra.
    - unfold projected_gradient. cbn. unfold projected_entry. f_equal; [lra|f_equal].
      rewrite Rmin_right, Rmax_left by lra. field. }
  destruct (mprgp_status 1000 (with_max 1000 ex_P 0) 2 (3 / 2) 3 10 0 ex_F ex_M [1; -3])
    with (7 := Es) as (_ & _ & _ & _ & L); auto; try lra.
  specialize (L Cr). cbn [with_max max_iterations] in L. apply Nat.le_0_r in L.
  eexists _, _. split; [exact Es|]. split; [exact Cr|]. split; auto.
Qed.

(** the same program in rational arithmetic, computed *)
From Coq Require Import QArith Qreduction.
Definition rational : scalar :=
  Build_scalar Q 0%Q 1%Q (fun a b => Qred (a + b)) (fun a b => Qred (a - b))
    (fun a b => Qred (a * b)) (fun a b => Qred (a / b)) Qopp (fun a b => negb (Qle_bool b a))
    Qle_bool (fun a => a) 1000%Q.
Definition ex_q (m : nat) : problem rational :=
  Build_problem rational 1 [(-1 # 2)%Q] [1%Q] (1 # 4)%Q 0%Q true m.
Definition ex_Fq (x : list Q) : list Q :=
  match x with [a; b] => [Qred (2 * a + b); Qred (a + 2 * b)]%Q | _ => x end.
Definition ex_Mq (x : list Q) : list Q := map (fun a => Qred ((1 # 2) * a)) x.
Definition ex_solve (m : nat) :=
  mprgp_solve rational (ex_q m) (3 # 2)%Q 3%Q (1 # 1000)%Q 0%Q 2%Q (1 # 2)%Q ex_Fq ex_Mq [1; -3]%Q.

Example ex_computed : ex_solve 10 =
  Ok ([3 # 4; -1 # 2]%Q,
      {| r_error := NO_ERROR; r_iterations := 2; r_converged := true |}).
Proof. vm_compute. reflexivity. Qed.

(** two iterations are enough, but a limit of two is reported as an error *)
Example ex_at_limit : ex_solve 2 =
  Ok ([3 # 4; -1 # 2]%Q,
      {| r_error := MAX_ITERATIONS_REACHED; r_iterations := 2; r_converged := false |}).
Proof. vm_compute. reflexivity. Qed.

(** the three kinds of steps *)
Example ex_steps :
  match run rational (Build_problem rational 1 [(-1 # 2); -1; 0]%Q [1; 1; 2]%Q (1 # 4)%Q 0%Q true 20)
          (1 # 2)%Q
          (fun x => match x with
                    | [a; b; c; d] => [Qred (2*a + b); Qred (a + 2*b + c); Qred (b + 2*c); Qred (2*d)]%Q
                    | _ => x end)
          ex_Mq (fun _ r => forallb (fun a => Qeq_bool a 0) r) 2%Q (1 # 2)%Q [2; 1; -3; 1]%Q [0; 0; 0; 0]%Q 0
  with Ok s => (s_x rational s, s_cg rational s, s_mixed rational s, s_gproj rational s)
     | _ => ([], 0, 0, 0)%nat end = ([2 # 3; 2 # 3; -1; 1 # 2]%Q, 2, 1, 1)%nat.
Proof. vm_compute. reflexivity. Qed.

Print Assumptions mprgp_feasible.
Print Assumptions mprgp_runs.
Print Assumptions mprgp_optimal.
Print Assumptions mprgp_descends.
Print Assumptions mprgp_limit.
Print Assumptions mprgp_status.
Print Assumptions mprgp_status_at_limit_refuted.
