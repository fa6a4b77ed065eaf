(** * Lemmas about MPRGP in exact arithmetic *)
From Coq Require Import List Reals Bool Lra Lia.
From Verif Require Import Base M_DualVector M_Mprgp S_Mprgp L_RVec.
Import ListNotations.
Local Open Scope R_scope.

Local Notation comb := combination.
Local Notation sp := scalar_product.

Ltac rb :=
  repeat match goal with
         | E : Rltb _ _ = true |- _ => apply Rltb_true in E
         | E : Rltb _ _ = false |- _ => apply Rltb_false in E
         | E : Rleb _ _ = true |- _ => apply Rleb_true in E
         | E : Rleb _ _ = false |- _ => apply Rleb_false in E
         end.

Lemma mp_min_le (a b : R) h : min (exact h) a b <= a /\ min (exact h) a b <= b.
Proof.
  unfold min; cbn. destruct (Rltb b a) eqn:E; [apply Rltb_true in E|apply Rltb_false in E]; lra.
Qed.
Lemma mp_min_cases (a b : R) h : min (exact h) a b = a \/ min (exact h) a b = b.
Proof. unfold min; cbn. destruct (Rltb b a); auto. Qed.
Lemma mp_max_ge (a b : R) h : a <= max (exact h) a b /\ b <= max (exact h) a b.
Proof.
  unfold max; cbn. destruct (Rltb a b) eqn:E; [apply Rltb_true in E|apply Rltb_false in E]; lra.
Qed.
Lemma mp_max_cases (a b : R) h : max (exact h) a b = a \/ max (exact h) a b = b.
Proof. unfold max; cbn. destruct (Rltb a b); auto. Qed.

Section Lemmas.
Variable h : R.
Local Notation K := (exact h).

(** ** one entry *)
Lemma clamp_between l u a : l <= u -> l <= clamp K l u a <= u.
Proof.
  intros LU. unfold clamp, min, max; cbn.
  destruct (Rltb a u) eqn:E1; [apply Rltb_true in E1|apply Rltb_false in E1].
  - destruct (Rltb l a) eqn:E2; [apply Rltb_true in E2|apply Rltb_false in E2]; lra.
  - destruct (Rltb l u) eqn:E2; [apply Rltb_true in E2|apply Rltb_false in E2]; lra.
Qed.

(** the step to the projected point is shorter than the step without bounds, in the same direction *)
Lemma clamp_move l u x d :
  l <= x <= u ->
  (0 <= d -> x - d <= clamp K l u (x - d) <= x) /\ (d <= 0 -> x <= clamp K l u (x - d) <= x - d).
Proof.
  intros B. unfold clamp, min, max; cbn.
  destruct (Rltb (x - d) u) eqn:E1; [apply Rltb_true in E1|apply Rltb_false in E1];
  match goal with |- context [Rltb l ?v] =>
    destruct (Rltb l v) eqn:E2; [apply Rltb_true in E2|apply Rltb_false in E2] end; lra.
Qed.

Lemma clamp_fixed l u x d :
  l <= x <= u -> clamp K l u (x - d) = x -> (x < u -> 0 <= d) /\ (l < x -> d <= 0).
Proof.
  intros B. unfold clamp, min, max; cbn.
  destruct (Rltb (x - d) u) eqn:E1; [apply Rltb_true in E1|apply Rltb_false in E1];
  match goal with |- context [Rltb l ?v] =>
    destruct (Rltb l v) eqn:E2; [apply Rltb_true in E2|apply Rltb_false in E2] end; lra.
Qed.

(** an entry of the reduced gradient *)
Definition red1 (alpha l u g x : R) : R :=
  drop_wrong_sign K (1 / alpha * (x + -1 * clamp K l u (x + - alpha * g))) g.

Lemma red1_spec alpha l u g x :
  0 < alpha -> l <= x <= u ->
  let r := red1 alpha l u g x in
  l <= x - alpha * r <= u /\ r * r <= r * g /\
  x - alpha * r = clamp K l u (x - alpha * g).
Proof.
  intros A B r.
  assert (E : r = 1 / alpha * (x + -1 * clamp K l u (x + - alpha * g))).
  { unfold r, red1, drop_wrong_sign. cbn.
    destruct (Rltb _ 0) eqn:E; auto. apply Rltb_true in E. exfalso.
    replace (x + - alpha * g) with (x - alpha * g) in E by ring.
    destruct (clamp_move l u x (alpha * g) B) as [M1 M2].
    set (c := clamp K l u (x - alpha * g)) in *.
    assert (0 < 1 / alpha) by (apply Rdiv_lt_0_compat; lra).
    destruct (Rle_dec 0 g) as [G|G].
    - assert (0 <= alpha * g) by nra. specialize (M1 H0).
      assert (0 <= 1 / alpha * (x + -1 * c)) by (apply Rmult_le_pos; lra). nra.
    - assert (alpha * g <= 0) by nra. specialize (M2 H0).
      assert (0 <= 1 / alpha * (c - x)) by (apply Rmult_le_pos; lra). nra. }
  replace (x + - alpha * g) with (x - alpha * g) in E by ring.
  destruct (clamp_move l u x (alpha * g) B) as [M1 M2].
  set (c := clamp K l u (x - alpha * g)) in *.
  assert (X : x - alpha * r = c) by (rewrite E; field; lra).
  assert (C : l <= c <= u) by (apply clamp_between; lra).
  split; [lra|split; [|auto]].
  assert (AR : alpha * r = x - c) by lra.
  assert (alpha * alpha * (r * r) <= alpha * alpha * (r * g)).
  { replace (alpha * alpha * (r * r)) with ((alpha * r) * (alpha * r)) by ring.
    replace (alpha * alpha * (r * g)) with ((alpha * r) * (alpha * g)) by ring.
    rewrite AR. destruct (Rle_dec 0 g) as [G|G].
    - assert (0 <= alpha * g) by nra. specialize (M1 H). nra.
    - assert (alpha * g <= 0) by nra. specialize (M2 H). nra. }
  apply Rmult_le_reg_l with (alpha * alpha); nra.
Qed.

(** ** entries with bounds *)
Fixpoint between (ls us x : list R) : Prop :=
  match ls, us, x with
  | l :: ls, u :: us, a :: x => l <= a <= u /\ between ls us x
  | [], [], [] => True
  | _, _, _ => False
  end.

Lemma between_length ls us x : between ls us x -> length ls = length x /\ length us = length x.
Proof.
  revert us x; induction ls as [|l ls IH]; intros [|u us] [|a x] B; try contradiction; auto.
  destruct B as [_ B]. destruct (IH us x B). cbn; lia.
Qed.

Lemma clamp_all_between (ls us x : list R) :
  Forall2 Rle ls us -> length ls = length x -> between ls us (clamp_all K ls us x).
Proof.
  intros F. revert x; induction F as [|l u ls us LU F IH]; intros [|a x] E; try discriminate E.
  - exact I.
  - cbn. split; [now apply clamp_between|]. apply IH. cbn in E; lia.
Qed.

Lemma clamp_all_length (ls us x : list R) :
  length ls = length x -> length us = length x -> length (clamp_all K ls us x) = length x.
Proof.
  revert us x; induction ls as [|l ls IH]; intros [|u us] [|a x] E1 E2; try discriminate; auto.
  cbn. f_equal. apply IH; cbn in *; lia.
Qed.

Fixpoint red_all (alpha : R) (ls us g x : list R) : list R :=
  match ls, us, g, x with
  | l :: ls, u :: us, b :: g, a :: x => red1 alpha l u b a :: red_all alpha ls us g x
  | _, _, _, _ => []
  end.

Lemma red_all_model (alpha : R) (ls us g x : list R) :
  length ls = length x -> length us = length x -> length g = length x ->
  zip K (drop_wrong_sign K)
      (vscale K (1 / alpha) (vadd K x (- 1) (clamp_all K ls us (vadd K x (- alpha) g)))) g
  = red_all alpha ls us g x.
Proof.
  revert us g x; induction ls as [|l ls IH]; intros [|u us] [|b g] [|a x] E1 E2 E3; try discriminate;
    auto.
  cbn [red_all vadd zip clamp_all vscale map]. f_equal. apply IH; cbn in *; lia.
Qed.

(** a mask keeps or clears entries *)
Inductive masked : list R -> list R -> Prop :=
| masked_nil : masked [] []
| masked_keep a x y : masked x y -> masked (a :: x) (a :: y)
| masked_drop a x y : masked x y -> masked (a :: x) (0 :: y).

Lemma masked_refl x : masked x x.
Proof. induction x; constructor; auto. Qed.
Lemma mask_masked f (x : list R) : length f = length x -> masked x (mask K f x).
Proof.
  revert x; induction f as [|b f IH]; intros [|a x] E; try discriminate; cbn; [constructor|].
  destruct b; constructor; apply IH; cbn in E; lia.
Qed.
Lemma masked_length x y : masked x y -> length x = length y.
Proof. induction 1; cbn; auto. Qed.

Lemma mask_length f (x : list R) : length f = length x -> length (mask K f x : list R) = length x.
Proof. intros E. symmetry. apply masked_length. now apply mask_masked. Qed.

Lemma masked_app_inv x1 x2 y :
  masked (x1 ++ x2) y -> exists y1 y2, y = y1 ++ y2 /\ masked x1 y1 /\ masked x2 y2.
Proof.
  revert y; induction x1 as [|a x1 IH]; intros y M.
  - exists [], y. repeat split; auto. constructor.
  - cbn in M. inversion M as [|? ? ? M1|? ? ? M1]; subst; destruct (IH _ M1) as (y1 & y2 & -> & A & B).
    + exists (a :: y1), y2. repeat split; auto. now constructor.
    + exists (0 :: y1), y2. repeat split; auto. now constructor.
Qed.

Lemma red_all_move alpha ls us g x r :
  0 < alpha -> between ls us x -> length g = length x -> masked (red_all alpha ls us g x) r ->
  between ls us (comb x (- alpha) r) /\ sp r r <= sp r g /\ length r = length x.
Proof.
  intros A. revert us g x r; induction ls as [|l ls IH]; intros [|u us] [|b g] [|a x] r B E M;
    try discriminate; try contradiction.
  - inversion M; subst. repeat split; auto. rewrite !sp_nil_l; lra.
  - destruct B as [B1 B2]. cbn [red_all] in M.
    destruct (red1_spec alpha l u b a A B1) as (C1 & C2 & _).
    inversion M as [|? ? r' M'|? ? r' M']; subst; destruct (IH us g x r') as (D1 & D2 & D3);
      auto; try (cbn in E; lia).
    + rewrite comb_cons, !sp_cons. cbn [between length]. repeat split; auto; try lra; try lia.
    + rewrite comb_cons, !sp_cons. cbn [between length]. repeat split; auto; try lra; try lia.
Qed.

Lemma between_ext ls us x y : between ls us x -> x = y -> between ls us y.
Proof. now intros ? <-. Qed.

(** ** feasible step length *)
Lemma step_length_all_spec (ls us x p : list R) (a : R) :
  between ls us x -> length p = length x -> 0 <= a ->
  0 <= step_length_all K ls us x p a <= a /\
  (forall t, 0 <= t <= step_length_all K ls us x p a -> between ls us (comb x (- t) p)).
Proof.
  revert us x p a; induction ls as [|l ls IH]; intros [|u us] [|c x] [|q p] a B E A;
    try discriminate; try contradiction.
  - cbn. split; [lra|intros; exact I].
  - destruct B as [B1 B2]. cbn [step_length_all].
    assert (S1 : 0 <= step_length K l u c q a <= a /\
                 (forall t, 0 <= t <= step_length K l u c q a -> l <= c + - t * q <= u)).
    { unfold step_length. cbn [exact ltb zero sub div num].
      destruct (Rltb 0 q) eqn:E1; destruct (Rltb q 0) eqn:E2;
        rb; try lra.
      - destruct (mp_min_le a ((c - l) / q) h) as [m1 m2].
        assert (0 <= (c - l) / q).
        { apply Rmult_le_pos; [lra|]. left. apply Rinv_0_lt_compat; lra. }
        split; [destruct (mp_min_cases a ((c - l) / q) h) as [M|M]; rewrite M in *; lra|].
        intros t T. assert (t <= (c - l) / q) by lra.
        assert (t * q <= c - l).
        { replace (c - l) with ((c - l) / q * q) by (field; lra). apply Rmult_le_compat_r; lra. }
        assert (0 <= t * q) by (apply Rmult_le_pos; lra). lra.
      - destruct (mp_min_le a ((c - u) / q) h) as [m1 m2].
        assert (Q : (c - u) / q = (u - c) / - q) by (field; lra).
        assert (0 <= (c - u) / q).
        { rewrite Q. apply Rmult_le_pos; [lra|]. left. apply Rinv_0_lt_compat; lra. }
        split; [destruct (mp_min_cases a ((c - u) / q) h) as [M|M]; rewrite M in *; lra|].
        intros t T. assert (t <= (u - c) / - q) by lra.
        assert (t * - q <= u - c).
        { replace (u - c) with ((u - c) / - q * - q) by (field; lra).
          apply Rmult_le_compat_r; lra. }
        assert (0 <= t * - q) by (apply Rmult_le_pos; lra). lra.
      - split; [lra|]. intros t T. assert (q = 0) by lra. subst q. lra. }
    destruct S1 as [[S1 S2] S3].
    destruct (IH us x p (step_length K l u c q a)) as [[I1 I2] I3]; auto; try (cbn in E; lia).
    split; [lra|]. intros t T. rewrite comb_cons. cbn [between]. split.
    + apply S3. lra.
    + apply I3. lra.
Qed.

End Lemmas.
