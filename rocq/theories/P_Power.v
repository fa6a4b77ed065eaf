(** * The power method: bounds of the estimate, growth, stopping (C136) *)
From Coq Require Import List Reals Bool Lra Lia.
From Verif Require Import Base M_DualVector M_Mprgp S_Mprgp S_Smalbe S_Power L_RVec L_Mprgp L_Smalbe M_Power.
From Verif Require M_Smalbe P_Smalbe.
Import ListNotations.
Local Open Scope R_scope.
Local Open Scope out_scope.

Local Notation comb := combination.
Local Notation sp := scalar_product.

(** ** Vectors *)
Local Lemma square_le a b : 0 <= b -> a * a <= b * b -> a <= b.
Proof. intros B S. apply Rnot_lt_le. intros L. assert (b * b < a * a) by nra. lra. Qed.

(** for a symmetric, positive semidefinite form *)
Local Lemma schwarz_form (a b c : R) : (forall t, 0 <= a + 2 * t * b + t * t * c) -> 0 <= a -> 0 <= c -> b * b <= a * c.
Proof.
  intros Q A C. destruct (Req_dec c 0) as [->|Nc].
  - assert (B : b = 0).
    { destruct (Req_dec b 0) as [|Nb]; auto. specialize (Q (- (a + 1) / (2 * b))).
      replace (a + 2 * (- (a + 1) / (2 * b)) * b + _) with (-1) in Q by (field; auto). lra. }
    subst. lra.
  - specialize (Q (- b / c)). replace (a + 2 * (- b / c) * b + - b / c * (- b / c) * c) with (a - b * b / c) in Q by (field; auto).
    apply Rmult_le_reg_r with (/ c). apply Rinv_0_lt_compat; lra.
    replace (a * c * / c) with a by (field; auto). unfold Rdiv in Q. lra.
Qed.

Local Lemma schwarz n x y : length x = n -> length y = n -> sp x y * sp x y <= sp x x * sp y y.
Proof.
  intros Ex Ey. apply schwarz_form; auto using sp_self. intros t.
  pose proof (sp_self (comb x t y)) as Q. rewrite sp_comb_l in Q by congruence. rewrite !sp_comb_r in Q by congruence.
  rewrite (sp_comm y x) in Q. lra.
Qed.

Local Lemma norm_sqr x : norm x * norm x = sp x x.
Proof. apply sqrt_sqrt, sp_self. Qed.
Local Lemma norm_pos x : 0 <= norm x.
Proof. apply sqrt_pos. Qed.
Local Lemma schwarz_norm n x y : length x = n -> length y = n -> sp x y <= norm x * norm y.
Proof.
  intros Ex Ey. apply square_le; [apply Rmult_le_pos; apply norm_pos|].
  replace (norm x * norm y * (norm x * norm y)) with ((norm x * norm x) * (norm y * norm y)) by ring.
  rewrite !norm_sqr. now apply schwarz with n.
Qed.
Local Lemma norm_scaled a x : 0 <= a -> norm (scaled a x) = a * norm x.
Proof.
  intros A. unfold norm. rewrite sp_scaled_l, sp_scaled_r. rewrite <- Rmult_assoc, sqrt_mult; auto using sp_self.
  - now rewrite sqrt_square.
  - now apply Rmult_le_pos.
Qed.

Section Operator.
Variable n : nat.
Variable H : list R -> list R.
Hypothesis HL : linear n H.
Hypothesis HS : symmetric n H.
Hypothesis HP : forall v, length v = n -> 0 <= sp v (H v).

(** the norms of H v are at most those of u v *)
Lemma gain_below u v : (forall v, length v = n -> sp v (H v) <= u * sp v v) -> length v = n -> norm (H v) <= u * norm v.
Proof.
  intros U E. pose proof (proj1 HL v E) as L1. pose proof (proj1 HL _ L1) as L2.
  destruct (Req_dec (sp v v) 0) as [Z|Z].
  - apply sp_self_zero in Z. pose proof (linear_zero n H v HL E Z) as Z'.
    unfold norm. rewrite (sp_zero_l _ _ Z), (sp_zero_l _ _ Z'), sqrt_0. lra.
  - assert (U0 : 0 <= u).
    { pose proof (U v E). pose proof (HP v E). pose proof (sp_self v). apply Rnot_lt_le. intros N. nra. }
    assert (S : sp (H v) (H v) * sp (H v) (H v) <= sp v (H v) * sp (H v) (H (H v))).
    { assert (E1 : sp (H v) (H v) = sp v (H (H v))) by (rewrite (HS v (H v)) by auto; reflexivity).
      apply schwarz_form; auto. intros t.
      assert (Lc : length (comb v t (H v)) = n) by (now apply comb_len).
      pose proof (HP _ Lc) as Q. rewrite (proj2 HL) in Q by auto.
      rewrite sp_comb_l in Q by congruence. rewrite !sp_comb_r in Q by congruence.
      rewrite <- E1 in Q. lra. }
    pose proof (U v E) as U1. pose proof (U _ L1) as U2.
    pose proof (sp_self v). pose proof (sp_self (H v)). pose proof (HP v E). pose proof (HP _ L1).
    assert (S2 : sp (H v) (H v) * sp (H v) (H v) <= u * sp v v * (u * sp (H v) (H v))).
    { eapply Rle_trans; [exact S|]. apply Rmult_le_compat; auto. }
    apply square_le; [apply Rmult_le_pos; auto using norm_pos|].
    rewrite norm_sqr. replace (u * norm v * (u * norm v)) with (u * u * (norm v * norm v)) by ring. rewrite norm_sqr.
    destruct (Req_dec (sp (H v) (H v)) 0) as [Z0|Z0].
    + rewrite Z0. apply Rmult_le_pos; auto. now apply Rmult_le_pos.
    + apply Rmult_le_reg_r with (sp (H v) (H v)); [lra|]. lra.
Qed.

Lemma gain_above l v : l * sp v v <= sp v (H v) -> length v = n -> l * norm v <= norm (H v).
Proof.
  intros U E. pose proof (proj1 HL v E) as L1. pose proof (schwarz_norm n v (H v) E L1) as S.
  destruct (Req_dec (norm v) 0) as [Z|Z].
  - rewrite Z, Rmult_0_r. apply norm_pos.
  - pose proof (norm_pos v). apply Rmult_le_reg_l with (norm v); [lra|].
    replace (norm v * (l * norm v)) with (l * (norm v * norm v)) by ring. rewrite norm_sqr. lra.
Qed.

(** a normalized image has no smaller gain *)
Lemma gain_grows v : length v = n -> norm v = 1 -> 0 < norm (H v) -> norm (H v) <= norm (H (scaled (1 / norm (H v)) (H v))).
Proof.
  intros E N1 P. pose proof (proj1 HL v E) as L1. pose proof (proj1 HL _ L1) as L2.
  set (g := norm (H v)) in *.
  assert (LM : linear_map n n H) by exact HL.
  rewrite (map_scaled n n H _ _ LM L1), norm_scaled by (apply Rlt_le, Rdiv_lt_0_compat; lra).
  pose proof (schwarz_norm n v (H (H v)) E L2) as S. rewrite N1, Rmult_1_l in S.
  rewrite (HS v (H v)) in S by auto. rewrite <- norm_sqr in S. fold g in S.
  apply Rmult_le_reg_l with g; auto. replace (g * (1 / g * norm (H (H v)))) with (norm (H (H v))) by (field; lra). exact S.
Qed.
End Operator.

(** ** The loop *)
Section Loop.
Variable h : R.
Local Notation K := (exact h).
Variable n : nat.
Variable H : list R -> list R.
Variable eps : R.
Hypothesis HL : linear n H.
Hypothesis HS : symmetric n H.
Hypothesis HP : forall v, length v = n -> 0 <= sp v (H v).

Local Lemma quot_inv a c v : quot K a c = Ok v -> c <> 0 /\ v = a / c.
Proof.
  unfold quot. cbn. destruct (Rltb c 0) eqn:A, (Rltb 0 c) eqn:B; cbn; try discriminate; intros E; injection E as <-;
    try apply Rltb_true in A; try apply Rltb_true in B; split; auto; lra.
Qed.
Local Lemma quot_def' a c : c <> 0 -> quot K a c = Ok (a / c).
Proof.
  intros N. unfold quot. cbn. destruct (Rltb c 0) eqn:A, (Rltb 0 c) eqn:B; cbn; auto.
  apply Rltb_false in A, B. exfalso. apply N. lra.
Qed.
Local Lemma fabs_Rabs (a : R) : fabs K a = Rabs a.
Proof.
  unfold fabs. cbn. destruct (Rltb a 0) eqn:A; [apply Rltb_true in A; now rewrite Rabs_left|apply Rltb_false in A].
  rewrite Rabs_right; auto. lra.
Qed.

(** [y] with the norm [lam] was computed from the unit vector [v] *)
Definition image (y : list R) (lam : R) : Prop := exists v, length v = n /\ norm v = 1 /\ y = H v /\ lam = norm y.

Local Lemma step_spec (y : list R) (lam : R) y' lam' err : length y = n -> lam = norm y ->
  power_step K H y lam = Ok (y', lam', err) ->
  0 < lam /\ 0 < lam' /\ y' = H (scaled (1 / lam) y) /\ image y' lam' /\ err = Rabs (lam' - lam) / lam'.
Proof.
  intros Ly El E. unfold power_step in E.
  destruct (quot K (one K) lam) as [sc| |] eqn:Q1; cbn [obind] in E; try discriminate.
  apply quot_inv in Q1. destruct Q1 as [N1 ->]. cbn [one exact] in E.
  change (vscale K (1 / lam) y) with (scaled (1 / lam) y) in E.
  rewrite dot_sp in E. cbn [M_DualVector.sqrt exact sub] in E.
  change (R_sqrt.sqrt (sp (H (scaled (1 / lam) y)) (H (scaled (1 / lam) y)))) with (norm (H (scaled (1 / lam) y))) in E.
  match type of E with context [quot K ?a ?c] => destruct (quot K a c) as [er| |] eqn:Q2; cbn [obind] in E; try discriminate end.
  apply quot_inv in Q2. destruct Q2 as [N2 ->]. injection E as <- <- <-. rewrite !fabs_Rabs in *.
  pose proof (norm_pos y). assert (P1 : 0 < lam) by lra.
  pose proof (norm_pos (H (scaled (1 / lam) y))) as P2.
  assert (norm (H (scaled (1 / lam) y)) <> 0) by (intros Z; rewrite Z, Rabs_R0 in N2; auto).
  repeat split; auto; try lra.
  - exists (scaled (1 / lam) y). rewrite scaled_length. repeat split; auto.
    rewrite norm_scaled by (apply Rlt_le, Rdiv_lt_0_compat; lra). rewrite <- El. field. lra.
  - f_equal. rewrite Rabs_right; lra.
Qed.

Local Lemma step_runs y lam : length y = n -> lam = norm y -> 0 < lam -> ~ is_zero (H (scaled (1 / lam) y)) ->
  exists y' lam' err, power_step K H y lam = Ok (y', lam', err).
Proof.
  intros Ly El P Z. unfold power_step. rewrite quot_def' by lra. cbn [obind one exact].
  change (vscale K (1 / lam) y) with (scaled (1 / lam) y).
  rewrite quot_def'; [cbn [obind]; eauto|].
  rewrite fabs_Rabs. cbn [M_DualVector.sqrt exact]. apply Rabs_no_R0. rewrite dot_sp. intros Q. apply Z, sp_self_zero.
  apply sqrt_eq_0; auto using sp_self.
Qed.

Local Lemma image_len y lam : image y lam -> length y = n /\ lam = norm y.
Proof. intros (v & L & _ & -> & E). split; auto. now apply HL. Qed.

(** the estimate is the gain of a unit vector and not less than the current one *)
Local Lemma loop_image rest : forall it y lam err lam' it', image y lam -> power_loop K H eps rest it y lam err = Ok (lam', it') ->
  (exists y', image y' lam') /\ lam <= lam' /\ (it <= it' <= it + rest)%nat.
Proof.
  induction rest as [|rest IH]; intros it y lam err lam' it' I E; cbn [power_loop] in E.
  - injection E as <- <-. split; eauto. split; [lra|lia].
  - destruct (ltb K eps err); [|injection E as <- <-; split; eauto; split; [lra|lia]].
    destruct (power_step K H y lam) as [[[y1 lam1] err1]| |] eqn:S; cbn [obind] in E; try discriminate.
    destruct (image_len _ _ I) as [Ly El].
    apply step_spec in S; auto. destruct S as (P1 & P2 & Ey & I1 & _).
    apply IH in E; auto. destruct E as (A1 & A2 & A3). split; auto. split; [|lia].
    eapply Rle_trans; [|exact A2]. destruct I as (v & Lv & Nv & -> & ->). destruct I1 as (w & _ & _ & _ & ->).
    rewrite Ey. apply (gain_grows n H HL HS); auto.
Qed.

(** more iterations *)
Local Lemma loop_more rest k : forall it y lam err lam1 it1 lam2 it2, image y lam ->
  power_loop K H eps rest it y lam err = Ok (lam1, it1) -> power_loop K H eps (rest + k) it y lam err = Ok (lam2, it2) -> lam1 <= lam2.
Proof.
  induction rest as [|rest IH]; intros it y lam err lam1 it1 lam2 it2 I E1 E2.
  - injection E1 as <- <-. now apply (loop_image k) in E2.
  - cbn [Nat.add power_loop] in E1, E2. destruct (ltb K eps err); [|congruence || (rewrite E1 in E2; injection E2 as -> ->; lra)].
    destruct (power_step K H y lam) as [[[y1 lam1'] err1]| |] eqn:S; cbn [obind] in E1, E2; try discriminate.
    destruct (image_len _ _ I) as [Ly El]. apply step_spec in S; auto. destruct S as (_ & _ & _ & I1 & _).
    eapply IH; eauto.
Qed.

(** the end before the limit *)
Local Lemma loop_stops rest : forall it y lam err lam' it', image y lam -> power_loop K H eps rest it y lam err = Ok (lam', it') ->
  (it' < it + rest)%nat -> (it < it')%nat ->
  exists prev, power_loop K H eps (it' - it - 1) it y lam err = Ok (prev, (it' - 1)%nat) /\ Rabs (lam' - prev) <= eps * lam'.
Proof.
  induction rest as [|rest IH]; intros it y lam err lam' it' I E L1 L2; [lia|]. cbn [power_loop] in E.
  destruct (ltb K eps err) eqn:T; [|injection E as <- <-; lia].
  destruct (power_step K H y lam) as [[[y1 lam1] err1]| |] eqn:Sp; cbn [obind] in E; try discriminate.
  destruct (image_len _ _ I) as [Ly El].
  pose proof Sp as S'. apply step_spec in S'; auto. destruct S' as (P1 & P2 & Ey & I1 & Ee).
  destruct (Nat.eq_dec it' (S it)) as [->|Ne].
  - exists lam. replace (S it - it - 1)%nat with 0%nat by lia. split; [cbn; do 2 f_equal; lia|].
    destruct rest as [|rest]; [lia|]. cbn [power_loop] in E. destruct (ltb K eps err1) eqn:T1.
    + destruct (power_step K H y1 lam1) as [[[y2 lam2] err2]| |] eqn:S2; cbn [obind] in E; try discriminate.
      destruct (image_len _ _ I1) as [Ly1 El1]. apply step_spec in S2; auto. destruct S2 as (_ & _ & _ & I2 & _).
      apply (loop_image rest) in E; auto. lia.
    + injection E as <-. cbn in T1. apply Rltb_false in T1. rewrite Ee in T1.
      apply Rmult_le_reg_r with (/ lam1); [now apply Rinv_0_lt_compat|].
      replace (eps * lam1 * / lam1) with eps by (field; lra). exact T1.
  - assert (L3 : (S it <= it')%nat).
    { apply (loop_image rest) in E; auto; lia. }
    destruct (IH _ _ _ _ _ _ I1 E ltac:(lia) ltac:(lia)) as (prev & A1 & A2). exists prev. split; auto.
    replace (it' - it - 1)%nat with (S (it' - S it - 1)) by lia. cbn [power_loop]. rewrite T, Sp. cbn [obind]. exact A1.
Qed.

Local Lemma loop_runs' rest : (forall y, length y = n -> ~ is_zero (H y) -> ~ is_zero (H (H y))) ->
  forall it y lam err, image y lam -> 0 < lam -> exists r, power_loop K H eps rest it y lam err = Ok r.
Proof.
  intros D. induction rest as [|rest IH]; intros it y lam err I P; cbn [power_loop]; [eauto|].
  destruct (ltb K eps err); [|eauto]. destruct (image_len _ _ I) as [Ly El].
  assert (LM : linear_map n n H) by exact HL.
  destruct (step_runs y lam Ly El P) as (y1 & lam1 & err1 & S).
  { destruct I as (v & Lv & Nv & -> & ->). rewrite (map_scaled n n H _ _ LM Ly). intros Z.
    assert (Zy : ~ is_zero (H v)) by (intros Q; unfold norm in P; rewrite (sp_zero_l _ _ Q), sqrt_0 in P; lra).
    apply (D v Lv Zy). apply sp_self_zero. apply (f_equal (fun x => x)) in El. clear El.
    assert (Q : sp (scaled (1 / norm (H v)) (H (H v))) (H (H v)) = 0) by now apply sp_zero_l.
    rewrite sp_scaled_l in Q. apply Rmult_integral in Q. destruct Q as [Q|Q]; auto.
    assert (0 < 1 / norm (H v)) by (apply Rdiv_lt_0_compat; lra). lra. }
  rewrite S. cbn [obind]. apply step_spec in S; auto. destruct S as (_ & P2 & _ & I1 & _). now apply IH.
Qed.

(** the first vector has the norm one *)
Local Lemma of_nat_INR k : of_nat K k = INR k.
Proof. induction k as [|k IH]; [reflexivity|]. rewrite S_INR. cbn [of_nat]. rewrite IH. cbn. ring. Qed.
Lemma init_unit neg : neg <> [] -> length (init_vector K neg : list R) = length neg /\ norm (init_vector K neg) = 1.
Proof.
  intros N. unfold init_vector. rewrite of_nat_INR. cbn [M_DualVector.sqrt exact div one opp mul].
  rewrite map_length. split; auto.
  assert (P : 0 < INR (length neg)) by (destruct neg; [congruence|apply lt_0_INR; cbn; lia]).
  set (q := 1 / R_sqrt.sqrt (INR (length neg))).
  assert (Eq : q * q = / INR (length neg)).
  { unfold q. assert (R_sqrt.sqrt (INR (length neg)) <> 0) by (pose proof (sqrt_lt_R0 _ P); lra).
    replace (1 / R_sqrt.sqrt (INR (length neg)) * (1 / R_sqrt.sqrt (INR (length neg))))
      with (/ (R_sqrt.sqrt (INR (length neg)) * R_sqrt.sqrt (INR (length neg)))) by (field; auto).
    rewrite sqrt_sqrt; lra. }
  assert (E : forall l, sp (map (fun m1 : bool => (if m1 then - (1) else 1) * q) l) (map (fun m1 : bool => (if m1 then - (1) else 1) * q) l)
                = INR (length l) * (q * q)).
  { induction l as [|m1 l IH]; [cbn; ring|]. cbn [map length]. rewrite sp_cons, IH, S_INR. destruct m1; ring. }
  unfold norm. cbn [num exact]. rewrite E, Eq. replace (INR (length neg) * / INR (length neg)) with 1 by (field; lra). apply sqrt_1.
Qed.

(** the first pass *)
Local Lemma power_first neg rest it r : n = length neg -> neg <> [] -> eps < h ->
  power K H eps neg (S rest) it = Ok r ->
  exists y lam err, power_step K H (init_vector K neg) 1 = Ok (y, lam, err) /\ image y lam /\ 0 < lam /\
    power_loop K H eps rest (S it) y lam err = Ok r.
Proof.
  intros En Nn Eh. destruct (init_unit neg Nn) as [Li Ni]. unfold power. cbn [power_loop].
  assert (Lt : ltb K eps (huge K) = true) by (cbn; now apply Rltb_true). rewrite Lt.
  rewrite dot_sp. cbn [M_DualVector.sqrt exact]. change (R_sqrt.sqrt (sp ?a ?a)) with (norm a).
  change (R_sqrt.sqrt (sp (init_vector K neg) (init_vector K neg))) with (norm (init_vector K neg)). rewrite Ni.
  destruct (power_step K H (init_vector K neg) 1) as [[[y lam] err]| |] eqn:S; cbn [obind]; try discriminate.
  intros E. exists y, lam, err. split; auto. apply step_spec in S; [|congruence|auto]. tauto.
Qed.
End Loop.

(** ** Theorems *)
Section Estimate.
Variable h : R.
Local Notation K := (exact h).
Variable n : nat.
Variable F : list R -> list R.
Variable eps : R.
Variable neg : list bool.
Hypothesis FL : linear n F.
Hypothesis FS : symmetric n F.
Hypothesis FD : positive_definite n F.
Hypothesis En : length neg = n.
Hypothesis Nn : neg <> [].
Hypothesis Eh : eps < h.

Local Lemma F_semi v : length v = n -> 0 <= sp v (F v).
Proof. now apply pd_nonneg. Qed.
Local Lemma En' : n = length neg.
Proof. auto. Qed.

(** C136: the estimate is between the smallest and the largest eigenvalue *)
Theorem estimate_bounds l u max lam it :
  spectrum_between n F l u ->
  estimate K F neg eps max = Ok (lam, it) -> l <= lam <= u /\ 0 < lam /\ (1 <= it <= S max)%nat.
Proof.
  intros B E. unfold estimate in E. apply (power_first h n) in E; auto.
  destruct E as (y & lam0 & err & _ & I & P & E).
  apply (loop_image h n) in E; auto using F_semi. destruct E as ((y' & v & Lv & Nv & -> & ->) & G & C).
  split; [|split; [lra|lia]]. split.
  - pose proof (gain_above n F FL l v (proj1 (B v Lv)) Lv) as Q. rewrite Nv in Q. lra.
  - pose proof (gain_below n F FL FS F_semi u v (fun w Lw => proj2 (B w Lw)) Lv) as Q. rewrite Nv in Q. lra.
Qed.

(** C136: a larger limit of iterations does not make the estimate worse *)
Theorem estimate_grows m m' lam it lam' it' :
  (m <= m')%nat ->
  estimate K F neg eps m = Ok (lam, it) -> estimate K F neg eps m' = Ok (lam', it') -> lam <= lam'.
Proof.
  intros L E1 E2. unfold estimate in *. apply (power_first h n) in E1; auto. apply (power_first h n) in E2; auto.
  destruct E1 as (y & lam0 & err & S1 & I & P & E1). destruct E2 as (y2 & lam2 & err2 & S2 & _ & _ & E2).
  rewrite S1 in S2. injection S2 as <- <- <-. replace m' with (m + (m' - m))%nat in E2 by lia.
  eapply (loop_more h n); eauto using F_semi.
Qed.

(** C136: a method that ends before the limit changed the estimate by at most [eps] in the last iteration *)
Theorem estimate_stops m lam it :
  estimate K F neg eps m = Ok (lam, it) -> (1 < it <= m)%nat ->
  exists prev, estimate K F neg eps (it - 2) = Ok (prev, (it - 1)%nat) /\ Rabs (lam - prev) <= eps * lam.
Proof.
  intros E L. unfold estimate in E. pose proof E as E'. apply (power_first h n) in E; auto.
  destruct E as (y & lam0 & err & S1 & I & P & E).
  destruct (loop_stops h n F eps FL FS m 1 y lam0 err lam it I E ltac:(lia) ltac:(lia)) as (prev & A1 & A2).
  exists prev. split; auto. unfold estimate, power. cbn [power_loop].
  assert (Lt : ltb K eps (huge K) = true) by (cbn; now apply Rltb_true). rewrite Lt.
  destruct (init_unit h neg Nn) as [Li Ni].
  rewrite dot_sp. cbn [M_DualVector.sqrt exact].
  change (R_sqrt.sqrt (sp (init_vector K neg) (init_vector K neg))) with (norm (init_vector K neg)). rewrite Ni, S1. cbn [obind].
  replace (it - 2)%nat with (it - 1 - 1)%nat by lia. exact A1.
Qed.

Local Lemma nonzero_image y : length y = n -> ~ is_zero y -> ~ is_zero (F y).
Proof. intros L Z Q. pose proof (FD y L Z) as D. rewrite sp_comm, (sp_zero_l _ _ Q) in D. lra. Qed.

(** C136: no quotient by zero *)
Theorem estimate_runs m : exists lam it, estimate K F neg eps m = Ok (lam, it).
Proof.
  enough (exists r, estimate K F neg eps m = Ok r) as [[lam it] E] by eauto.
  unfold estimate, power. cbn [power_loop].
  assert (Lt : ltb K eps (huge K) = true) by (cbn; now apply Rltb_true). rewrite Lt.
  destruct (init_unit h neg Nn) as [Li Ni]. rewrite En in Li.
  rewrite dot_sp. cbn [M_DualVector.sqrt exact].
  change (R_sqrt.sqrt (sp (init_vector K neg) (init_vector K neg))) with (norm (init_vector K neg)). rewrite Ni.
  destruct (step_runs h n F (init_vector K neg) 1 Li (eq_sym Ni) Rlt_0_1) as (y & lam & err & S1).
  { apply nonzero_image; [now rewrite scaled_length|]. intros Z.
    apply (Rlt_irrefl 0). rewrite <- sqrt_0 at 1. rewrite <- (sp_zero_l _ (scaled (1 / 1) (init_vector K neg)) Z).
    change (R_sqrt.sqrt _) with (norm (scaled (1 / 1) (init_vector K neg))).
    exfalso. pose proof (norm_scaled (1 / 1) (init_vector K neg) ltac:(lra)) as Q. rewrite Ni in Q.
    unfold norm in Q at 1. rewrite (sp_zero_l _ _ Z), sqrt_0 in Q. lra. }
  rewrite S1. cbn [obind]. apply (step_spec h n) in S1; auto. destruct S1 as (_ & P & _ & I & _).
  apply (loop_runs' h n); auto using F_semi. intros z Lz Zz. apply nonzero_image; auto. now apply FL.
Qed.
End Estimate.

Section Projected.
Variable h : R.
Local Notation K := (exact h).
Variables n m : nat.
Variables G Gt invL invU invLG GtinvU P F : list R -> list R.
Variable eps : R.
Variable neg : list bool.
Hypothesis CS : coarse_space n m G Gt invL invU invLG GtinvU P.
Hypothesis CO : constrained_operator n G F.
Hypothesis En : length neg = n.
Hypothesis Nn : neg <> [].
Hypothesis Eh : eps < h.
Local Notation H := (fun x => P (F (P x))).

Local Lemma H_lin : linear n H.
Proof.
  destruct (P_lin n m _ _ _ _ _ _ _ CS) as [L1 L2]. destruct (co_linear _ _ _ CO) as [F1 F2]. split; auto.
  intros x a y Ex Ey. rewrite (L2 x), F2, L2 by auto. reflexivity.
Qed.
Local Lemma H_sp x y : length x = n -> length y = n -> sp x (P (F (P y))) = sp (P x) (F (P y)).
Proof.
  intros Ex Ey. pose proof (P_len n m _ _ _ _ _ _ _ CS) as PL. apply (P_sym n m _ _ _ _ _ _ _ CS); auto. apply CO; auto.
Qed.
Local Lemma H_sym : symmetric n H.
Proof.
  intros x y Ex Ey. pose proof (P_len n m _ _ _ _ _ _ _ CS) as PL. rewrite H_sp by auto.
  rewrite (co_symmetric _ _ _ CO) by auto. rewrite (sp_comm (P (F (P x)))), H_sp by auto. apply sp_comm.
Qed.
Local Lemma P_G x : length x = n -> is_zero (G (P x)).
Proof.
  intros E. apply (cG n m _ _ _ _ _ _ _ CS); [now apply (P_len n m _ _ _ _ _ _ _ CS)|now apply (cP n m _ _ _ _ _ _ _ CS)].
Qed.
Local Lemma H_semi v : length v = n -> 0 <= sp v (P (F (P v))).
Proof.
  intros E. pose proof (P_len n m _ _ _ _ _ _ _ CS) as PL. rewrite H_sp by auto.
  apply (F_nonneg n m _ _ _ _ _ _ _ F CS CO); auto. now apply (cP n m _ _ _ _ _ _ _ CS).
Qed.
Local Lemma P_norm v : length v = n -> sp (P v) (P v) <= sp v v.
Proof.
  intros E. pose proof (P_len n m _ _ _ _ _ _ _ CS v E) as PL. rewrite (sp_P n m _ _ _ _ _ _ _ CS) by auto.
  rewrite (sp_comm (invLG v)), (sp_zero_l _ (invLG v) (cP n m _ _ _ _ _ _ _ CS v E)).
  rewrite sp_comm, (sp_P n m _ _ _ _ _ _ _ CS) by auto. pose proof (sp_self (invLG v)). lra.
Qed.

(** C136: the estimate for P F P is positive and at most the largest eigenvalue of F among the vectors with G v = 0 *)
Theorem projected_bounds u max lam it : (1 <= max)%nat -> 0 <= u ->
  constrained_spectrum_below n G F u ->
  estimate_projected K F P neg eps max = Ok (lam, it) -> 0 < lam <= u /\ (2 <= it <= S max)%nat.
Proof.
  intros Lm U B E. unfold estimate_projected in E. destruct max as [|max]; [lia|].
  apply (power_first h n) in E; auto. destruct E as (y & lam0 & err & _ & I & Pl & E).
  apply (loop_image h n) in E; auto using H_lin, H_sym, H_semi.
  destruct E as ((y' & v & Lv & Nv & -> & ->) & Gr & C). split; [|lia]. split; [lra|].
  assert (Q : norm (H v) <= u * norm v).
  { apply (gain_below n H H_lin H_sym H_semi); auto. intros w Lw. pose proof (P_len n m _ _ _ _ _ _ _ CS w Lw) as PL.
    rewrite H_sp by auto. eapply Rle_trans; [apply (B _ PL (P_G w Lw))|]. apply Rmult_le_compat_l; auto using P_norm. }
  rewrite Nv in Q. lra.
Qed.

Local Lemma P_nonzero_image y : length y = n -> ~ is_zero (P y) -> ~ is_zero (P (F (P y))).
Proof.
  intros L Z Q. pose proof (P_len n m _ _ _ _ _ _ _ CS y L) as PL.
  pose proof (co_definite _ _ _ CO (P y) PL (P_G y L) Z) as D. rewrite <- H_sp in D by auto.
  rewrite sp_comm, (sp_zero_l _ _ Q) in D. lra.
Qed.

(** C136: no quotient by zero if the projection of the first vector is not zero *)
Theorem projected_runs max : ~ is_zero (P (init_vector K neg)) ->
  exists lam it, estimate_projected K F P neg eps max = Ok (lam, it).
Proof.
  intros Z. enough (exists r, estimate_projected K F P neg eps max = Ok r) as [[lam it] E] by eauto.
  unfold estimate_projected, power. destruct max as [|max]; [cbn; eauto|]. cbn [power_loop].
  assert (Lt : ltb K eps (huge K) = true) by (cbn; now apply Rltb_true). rewrite Lt.
  destruct (init_unit h neg Nn) as [Li Ni]. rewrite En in Li.
  rewrite dot_sp. cbn [M_DualVector.sqrt exact].
  change (R_sqrt.sqrt (sp (init_vector K neg) (init_vector K neg))) with (norm (init_vector K neg)). rewrite Ni.
  assert (E1 : scaled (1 / 1) (init_vector K neg) = init_vector K neg).
  { rewrite scaled_comb. replace (1 / 1 - 1) with 0 by field. apply (vec_ext n); auto; [apply comb_len; auto|].
    intros z Ez. rewrite sp_comb_l by reflexivity. ring. }
  destruct (step_runs h n H (init_vector K neg) 1 Li (eq_sym Ni) Rlt_0_1) as (y & lam & err & S1).
  { rewrite E1. now apply P_nonzero_image. }
  change (power_step K (fun x : list (num K) => P (F (P x)))) with (power_step K (fun x : list R => P (F (P x)))). rewrite S1. cbn [obind]. apply (step_spec h n) in S1; auto. destruct S1 as (_ & Pl & _ & I & _).
  apply (loop_runs' h n); auto using H_lin, H_sym, H_semi.
  intros z Lz Zz. pose proof (P_len n m _ _ _ _ _ _ _ CS) as PL. pose proof (proj1 (co_linear _ _ _ CO)) as FL.
  apply P_nonzero_image; auto. rewrite (P_id n m _ _ _ _ _ _ _ CS (P (F (P z)))); auto.
  apply (cP n m _ _ _ _ _ _ _ CS); auto.
Qed.

(** C136: otherwise the first iteration divides by the zero estimate *)
Theorem projected_runs_refuted max : is_zero (P (init_vector K neg)) ->
  estimate_projected K F P neg eps (S max) = UB.
Proof.
  intros Z. unfold estimate_projected, power. cbn [power_loop].
  assert (Lt : ltb K eps (huge K) = true) by (cbn; now apply Rltb_true). rewrite Lt.
  destruct (init_unit h neg Nn) as [Li Ni]. rewrite En in Li.
  rewrite dot_sp. cbn [M_DualVector.sqrt exact].
  change (R_sqrt.sqrt (sp (init_vector K neg) (init_vector K neg))) with (norm (init_vector K neg)). rewrite Ni.
  unfold power_step. rewrite quot_def' by lra. cbn [obind one exact].
  change (vscale K (1 / 1) (init_vector K neg)) with (scaled (1 / 1) (init_vector K neg)).
  pose proof (P_lin n m _ _ _ _ _ _ _ CS) as PL.
  assert (Z1 : is_zero (P (F (P (scaled (1 / 1) (init_vector K neg)))))).
  { rewrite (map_scaled n n P) by auto. apply (linear_zero n); auto.
    - apply CO. rewrite scaled_length. now apply PL.
    - apply (linear_zero n); [apply CO|rewrite scaled_length; now apply PL|now apply scaled_zero]. }
  cbv zeta. rewrite dot_sp. rewrite (sp_zero_l _ _ Z1). cbn [M_DualVector.sqrt exact]. rewrite sqrt_0, !fabs_Rabs, Rabs_R0.
  unfold quot. cbn. unfold Rltb. destruct (Rlt_dec 0 0); [lra|]. reflexivity.
Qed.
End Projected.

(** ** Examples *)
(** eigenvalues 1 and 3; the first vector (1, -1) / sqrt 2 is an eigenvector for 1 *)
Definition pw_F (x : list R) : list R := match x with [a; b] => [2 * a + b; a + 2 * b] | _ => x end.

Local Lemma pw_two (x : list R) : length x = 2%nat -> exists a b, x = [a; b].
Proof. destruct x as [|a [|b [|c x]]]; intros E; try discriminate. now exists a, b. Qed.

Example pw_operator : linear 2 pw_F /\ symmetric 2 pw_F /\ positive_definite 2 pw_F /\ spectrum_between 2 pw_F 1 3.
Proof.
  split; [|split; [|split]].
  - split.
    + intros x E. destruct (pw_two x E) as (a & b & ->). reflexivity.
    + intros x c y Ex Ey. destruct (pw_two x Ex) as (a & b & ->). destruct (pw_two y Ey) as (a' & b' & ->).
      cbn. f_equal; [ring|f_equal; ring].
  - intros x y Ex Ey. destruct (pw_two x Ex) as (a & b & ->). destruct (pw_two y Ey) as (a' & b' & ->). cbn. ring.
  - intros x Ex Z. destruct (pw_two x Ex) as (a & b & ->). cbn.
    assert (a <> 0 \/ b <> 0) as [N|N].
    { destruct (Req_dec a 0) as [->|]; [|auto]. right. intros ->. apply Z. now repeat constructor. }
    all: assert (S := Rsqr_pos_lt _ N); unfold Rsqr in S;
      pose proof (Rle_0_sqr a); pose proof (Rle_0_sqr b); pose proof (Rle_0_sqr (a + b)); unfold Rsqr in *; lra.
  - intros v E. destruct (pw_two v E) as (a & b & ->). cbn.
    pose proof (Rle_0_sqr (a - b)); pose proof (Rle_0_sqr (a + b)); unfold Rsqr in *. lra.
Qed.

(** C136: the estimate may be any eigenvalue, here the smallest one; with it the step 2 / estimate is three times longer than the descent of MPRGP allows *)
Theorem estimate_largest_refuted h eps m : 0 <= eps < h ->
  estimate (exact h) pw_F [false; true] eps (S m) = Ok (1, 1%nat) /\
  exists v, length v = 2%nat /\ ~ is_zero v /\ pw_F v = scaled 3 v /\ ~ (2 / 1 * sp v (pw_F v) <= 2 * sp v v).
Proof.
  intros [E0 Eh]. split.
  - destruct pw_operator as (L & S0 & D & B).
    destruct (init_unit h [false; true] ltac:(discriminate)) as [Li Ni].
    unfold estimate, power. cbn [power_loop].
    assert (Lt : ltb (exact h) eps (huge (exact h)) = true) by (cbn; now apply Rltb_true). rewrite Lt.
    rewrite dot_sp. cbn [M_DualVector.sqrt exact].
    change (R_sqrt.sqrt (sp ?a ?a)) with (norm a).
    change (R_sqrt.sqrt (sp (init_vector (exact h) [false; true]) (init_vector (exact h) [false; true]))) with (norm (init_vector (exact h) [false; true])).
    rewrite Ni. unfold power_step. rewrite quot_def' by lra. cbn [obind one exact].
    change (vscale (exact h) (1 / 1) (init_vector (exact h) [false; true])) with (scaled (1 / 1) (init_vector (exact h) [false; true])).
    assert (E : pw_F (scaled (1 / 1) (init_vector (exact h) [false; true])) = init_vector (exact h) [false; true]).
    { unfold init_vector. rewrite of_nat_INR. cbn.
      assert (Q : 0 < R_sqrt.sqrt (1 + 1)) by (apply sqrt_lt_R0; lra). revert Q. generalize (R_sqrt.sqrt (1 + 1)). intros q Q.
      f_equal; [field; apply Rgt_not_eq, Q|f_equal; field; apply Rgt_not_eq, Q]. }
    rewrite E. cbv zeta. rewrite dot_sp. cbn [M_DualVector.sqrt exact].
    change (R_sqrt.sqrt (sp (init_vector (exact h) [false; true]) (init_vector (exact h) [false; true]))) with (norm (init_vector (exact h) [false; true])).
    rewrite Ni. rewrite !fabs_Rabs. cbn [sub exact]. replace (1 - 1) with 0 by ring.
    rewrite Rabs_R0, Rabs_R1, quot_def' by lra. cbn [obind].
    assert (Lf : ltb (exact h) eps (0 / 1) = false) by (cbn; apply Rltb_false; lra). now rewrite Lf.
  - exists [1; 1]. cbn. repeat split; auto.
    + intros Z. inversion Z; lra.
    + f_equal; [ring|f_equal; ring].
    + lra.
Qed.

(** the constraint 3/5 x - 4/5 y = 0 of P_Smalbe *)
Local Notation pw_P := (M_Smalbe.project (exact 1000) (P_Smalbe.sx_A None)).
Example pw_projected max : exists lam it,
  estimate_projected (exact 1000) P_Smalbe.sx_F pw_P [false; true] (/ 100) (S max) = Ok (lam, it) /\ 0 < lam <= 3.
Proof.
  destruct (P_Smalbe.smalbe_setting None) as (C1 & C2 & _).
  destruct (projected_runs 1000 2 1 _ _ _ _ _ _ _ _ (/ 100) [false; true] C1 C2 eq_refl ltac:(discriminate) ltac:(lra) (S max)) as (lam & it & E).
  { unfold init_vector. rewrite of_nat_INR. cbn.
    assert (Q : 0 < R_sqrt.sqrt (1 + 1)) by (apply sqrt_lt_R0; lra). revert Q. generalize (R_sqrt.sqrt (1 + 1)). intros q Q0 Z. inversion Z as [|? ? Z1 _]; subst.
    assert (Q : 4 / 25 * (1 / q) = 0) by (rewrite <- Z1; field; lra).
    assert (0 < 1 / q) by (apply Rdiv_lt_0_compat; lra). lra. }
  exists lam, it. split; [exact E|].
  refine (proj1 (projected_bounds 1000 2 1 _ _ _ _ _ _ _ _ (/ 100) [false; true] C1 C2 eq_refl ltac:(discriminate) ltac:(lra) 3 (S max) lam it _ _ _ E));
    [lia|lra|].
  intros v Lv _. destruct pw_operator as (_ & _ & _ & B). apply (B v Lv).
Qed.

Print Assumptions estimate_bounds.
Print Assumptions estimate_grows.
Print Assumptions estimate_stops.
Print Assumptions estimate_runs.
Print Assumptions projected_bounds.
Print Assumptions projected_runs.
Print Assumptions projected_runs_refuted.
Print Assumptions estimate_largest_refuted.
