(** * The status of the PCPG solvers (C58) *)
From Coq Require Import List Bool Arith Lia.
From Verif Require Import Base M_DualVector M_Mprgp M_SolverInfo S_SolverInfo.
Import ListNotations.
Local Open Scope out_scope.

Section Theorems.
Variable K : scalar.
Local Notation T := (num K).
Variable isnan : T -> bool.
Variable infinity : T.
Variable C : config K.
Variable w0 : T.
Local Notation watched := (watched K isnan infinity C w0).
Local Notation measure := (measure K infinity C w0).
Local Notation verdict := (verdict K isnan infinity C w0).
Local Notation ms := (max_stagnation K C).

Local Lemma measure_criteria ww : initial K (set_info K infinity C w0) = sqrt K w0 /\
  criteria_of K infinity C (sqrt K (max K (zero K) ww)) (div K (sqrt K (max K (zero K) ww)) (sqrt K w0))
  = measure ww.
Proof. split; reflexivity. Qed.

(** the ring buffer *)
Local Definition ring (ws : list T) (i : info K) : Prop :=
  initial K i = sqrt K w0 /\ length (buffer K i) = ms /\ position K i = length ws mod ms /\
  (forall j a, nth_error ws j = Some a -> (length ws <= j + ms)%nat ->
     nth_error (buffer K i) (j mod ms) = Some (measure a)).

Local Lemma mod_distinct j l m : (0 < m -> j < l -> l < j + m -> j mod m <> l mod m)%nat.
Proof.
  intros M J L E.
  pose proof (Nat.div_mod j m ltac:(lia)). pose proof (Nat.div_mod l m ltac:(lia)).
  assert (l - j = m * (l / m - j / m))%nat.
  { rewrite Nat.mul_sub_distr_l. lia. }
  destruct (l / m - j / m)%nat eqn:D; nia.
Qed.

Local Lemma step_verdict ws i a i' :
  ring ws i -> error K i = NO_ERROR -> iterations K i = S (length ws) ->
  update_info K isnan infinity C a i = Ok i' ->
  ring (ws ++ [a]) i' /\ (error K i', converged K i') = verdict ws a /\
  iterations K i' = (if converged K i' then S (length ws) else S (S (length ws))).
Proof.
  intros (R1 & R2 & R3 & R4) E0 It E. unfold update_info in E. rewrite R1 in E.
  rewrite (proj2 (measure_criteria a)) in E.
  destruct (wr (buffer K i) (position K i) (measure a)) as [b| |] eqn:W; cbn [obind] in E;
    try discriminate.
  apply wr_inv in W. destruct W as [W1 W2].
  destruct (Nat.eqb_spec ms 0) as [|M]; [discriminate|].
  destruct (rd b (S (position K i) mod ms)) as [o| |] eqn:O; cbn [obind] in E; try discriminate.
  apply rd_inv in O.
  match type of E with (if ?c then _ else _) = _ => destruct c; [discriminate|] end.
  injection E as <-. cbn [error converged iterations initial buffer position].
  assert (Lb : length b = ms) by (subst b; rewrite upd_length; auto).
  assert (Pn : S (position K i) mod ms = S (length ws) mod ms).
  { rewrite R3. rewrite <- Nat.add_1_r, Nat.add_mod_idemp_l by auto. now rewrite Nat.add_1_r. }
  assert (RB : forall j c, nth_error (ws ++ [a]) j = Some c -> (length (ws ++ [a]) <= j + ms)%nat ->
     nth_error b (j mod ms) = Some (measure c)).
  { intros j c Ej Lj. rewrite app_length in Lj. cbn [length] in Lj.
    assert (j < length (ws ++ [a]))%nat by (apply nth_error_Some; congruence).
    rewrite app_length in H. cbn [length] in H.
    destruct (Nat.eq_dec j (length ws)) as [->|N].
    - rewrite nth_error_app2, Nat.sub_diag in Ej by lia. injection Ej as <-.
      subst b. rewrite <- R3. apply nth_error_upd_eq. rewrite R2, R3. now apply Nat.mod_upper_bound.
    - rewrite nth_error_app1 in Ej by lia. subst b. rewrite nth_error_upd_neq.
      + apply R4; auto. lia.
      + rewrite R3. apply not_eq_sym, mod_distinct; lia. }
  split; [|split].
  - repeat split; auto. rewrite app_length. cbn [length]. now rewrite Nat.add_1_r.
  - assert (St : Nat.leb ms (iterations K i) && ltb K o (measure a)
                 = stagnated K infinity C w0 (ws ++ [a])).
    { rewrite It. unfold stagnated. rewrite app_length. cbn [length]. rewrite Nat.add_1_r.
      destruct (Nat.leb_spec ms (S (length ws))) as [L|L]; [|auto]. cbn [andb].
      rewrite rev_unit.
      destruct (nth_error (ws ++ [a]) (S (length ws) - ms)) as [old|] eqn:Eo.
      - specialize (RB _ _ Eo). rewrite app_length in RB. cbn [length] in RB.
        specialize (RB ltac:(lia)).
        assert (Em : (S (length ws) - ms) mod ms = S (length ws) mod ms).
        { rewrite <- (Nat.mod_add (S (length ws) - ms) 1 ms) by auto. f_equal. lia. }
        rewrite Em in RB. rewrite Pn in O. rewrite O in RB. injection RB as ->. reflexivity.
      - apply nth_error_None in Eo. rewrite app_length in Eo. cbn [length] in Eo. lia. }
    rewrite St, E0, It. unfold S_SolverInfo.verdict.
    destruct (isnan (measure a)), (stagnated K infinity C w0 (ws ++ [a])),
      (ltb K (measure a) (precision K C)), (Nat.eqb (S (length ws)) (max_iterations K C)); reflexivity.
  - rewrite It. match goal with |- (if ?c then _ else _) = _ => destruct c; reflexivity end.
Qed.

Local Lemma watched_ring ws i : watched ws i ->
  ring ws i /\
  (converged K i = false -> error K i = NO_ERROR /\ iterations K i = S (length ws)).
Proof.
  intros W. induction W as [|ws i a i' W [R N] Cv U].
  - split; [|auto]. unfold ring. cbn. repeat split; auto.
    + apply repeat_length.
    + destruct ms; auto. symmetry. apply Nat.mod_0_l. lia.
    + intros [|j] a E; discriminate.
  - destruct (N Cv) as [E0 It]. destruct (step_verdict ws i a i' R E0 It U) as (A1 & A2 & A3).
    split; auto. intros Cv'. unfold S_SolverInfo.verdict in A2. rewrite Cv' in A2, A3.
    split.
    + destruct (isnan (measure a)), (stagnated K infinity C w0 (ws ++ [a])),
        (ltb K (measure a) (precision K C)), (Nat.eqb (S (length ws)) (max_iterations K C));
        congruence.
    + rewrite A3, app_length. cbn [length]. lia.
Qed.

(** C58: error and stop after each pass are decided by the sequence of the norms *)
Theorem status_verdict ws a i :
  watched (ws ++ [a]) i -> (error K i, converged K i) = verdict ws a.
Proof.
  intros W. inversion W as [E|ws' i0 a' i' W0 Cv U E]; [destruct ws; discriminate|].
  apply app_inj_tail in E. destruct E as [-> ->]. subst i'.
  destruct (watched_ring _ _ W0) as [R N]. destruct (N Cv) as [E0 It].
  now destruct (step_verdict ws i0 a i R E0 It U) as (_ & A2 & _).
Qed.

(** C58: without an error the criterion was met; the number of passes is limited and reported *)
Theorem status_truthful ws i :
  watched ws i ->
  (converged K i = true -> error K i = NO_ERROR ->
     match rev ws with
     | [] => stopping_criterion K C = ABSOLUTE /\ ltb K (sqrt K w0) (precision K C) = true
     | a :: _ => ltb K (measure a) (precision K C) = true
     end) /\
  (converged K i = false -> error K i = NO_ERROR) /\
  (0 < max_iterations K C ->
     length ws <= max_iterations K C /\ (length ws = max_iterations K C -> converged K i = true) /\
     iterations K i <= max_iterations K C)%nat /\
  (converged K i = true -> ws <> [] -> iterations K i = length ws) /\
  (converged K i = false -> iterations K i = S (length ws)).
Proof.
  intros W. inversion W as [E1 E2|ws' i0 a i' W0 Cv U E].
  - cbn. split; [|split; [auto|split; [|split; [congruence|auto]]]].
    + intros Cv _. unfold set_info in Cv. cbn in Cv. destruct (stopping_criterion K C); auto; discriminate.
    + intros M. repeat split; auto; lia.
  - subst ws i'. destruct (watched_ring _ _ W0) as [R N]. destruct (N Cv) as [E0 It].
    destruct (step_verdict ws' i0 a i R E0 It U) as (_ & A2 & A3).
    rewrite rev_unit, app_length. cbn [length]. rewrite Nat.add_1_r.
    assert (Lim : (0 < max_iterations K C -> length ws' < max_iterations K C)%nat).
    { intros M. clear - W0 Cv M. induction W0 as [|ws i a i' W IH Cv' U]; [cbn; lia|].
      specialize (IH Cv'). rewrite app_length. cbn [length].
      assert (W' : watched (ws ++ [a]) i') by (econstructor; eauto).
      apply status_verdict in W'. rewrite Cv in W'. unfold S_SolverInfo.verdict in W'.
      destruct (isnan (measure a)), (stagnated K infinity C w0 (ws ++ [a])),
        (ltb K (measure a) (precision K C)); try congruence.
      destruct (Nat.eqb_spec (S (length ws)) (max_iterations K C)); [congruence|lia]. }
    unfold S_SolverInfo.verdict in A2.
    destruct (isnan (measure a)), (stagnated K infinity C w0 (ws' ++ [a])),
        (ltb K (measure a) (precision K C)) eqn:Pr,
        (Nat.eqb_spec (S (length ws')) (max_iterations K C));
      injection A2 as A2 A4; rewrite A4 in *; rewrite A2, ?A3;
      repeat split; auto; try discriminate; try (intros M; specialize (Lim M)); try lia.
Qed.

(** C58: the update is defined when the periods are positive *)
Theorem status_defined ws i a :
  (0 < max_stagnation K C)%nat -> (0 < print_iteration K C)%nat -> watched ws i ->
  exists i', update_info K isnan infinity C a i = Ok i'.
Proof.
  intros M Pi W. destruct (watched_ring _ _ W) as [(R1 & R2 & R3 & R4) _].
  unfold update_info. rewrite wr_ok by (rewrite R2, R3; apply Nat.mod_upper_bound; lia).
  cbn [obind]. destruct (Nat.eqb_spec ms 0) as [|_]; [lia|].
  match goal with |- context [rd ?l ?j] => rewrite (rd_ok l j (zero K)) end.
  - cbn [obind]. destruct (Nat.eqb_spec (print_iteration K C) 0) as [|_]; [lia|].
    rewrite andb_false_r. eexists. reflexivity.
  - rewrite upd_length, R2. apply Nat.mod_upper_bound. lia.
Qed.

(** a zero period is undefined behaviour at the first pass *)
Theorem status_zero_period_refuted a :
  max_stagnation K C = 0%nat ->
  update_info K isnan infinity C a (set_info K infinity C w0) = UB.
Proof. intros E. unfold update_info, set_info. cbn. rewrite E. reflexivity. Qed.

(** the criterion of Arioli is never met *)
Theorem status_arioli_refuted ws i :
  stopping_criterion K C = ARIOLI -> (forall a, ltb K infinity a = false) ->
  watched ws i -> converged K i = true -> error K i <> NO_ERROR.
Proof.
  intros A I W Cv E. destruct (status_truthful ws i W) as [S _]. specialize (S Cv E).
  destruct (rev ws) as [|a rs]; [destruct S; congruence|].
  unfold S_SolverInfo.measure in S. rewrite A, I in S. discriminate.
Qed.

Local Lemma earlier_not_met ws i : watched ws i -> converged K i = false ->
  Forall (fun b => ltb K (measure b) (precision K C) = false) ws.
Proof.
  intros W Cv. induction W as [|ws i a i' W IH Cv0 U]; [constructor|].
  apply Forall_app. split; [auto|]. constructor; [|constructor].
  assert (W' : watched (ws ++ [a]) i') by (econstructor; eauto).
  apply status_verdict in W'. rewrite Cv in W'. unfold S_SolverInfo.verdict in W'.
  destruct (isnan (measure a)), (stagnated K infinity C w0 (ws ++ [a])),
    (ltb K (measure a) (precision K C)); congruence.
Qed.

(** C58: a criterion that is met is reported without an error *)
Theorem status_met ws a i :
  (forall u, ltb K u u = false) ->
  (forall u v t, ltb K u v = true -> ltb K v t = true -> ltb K u t = true) ->
  watched (ws ++ [a]) i -> isnan (measure a) = false ->
  ltb K (measure a) (precision K C) = true ->
  converged K i = true /\ error K i = NO_ERROR.
Proof.
  intros Irr Tr W Nn M. pose proof (status_verdict ws a i W) as V.
  unfold S_SolverInfo.verdict in V. rewrite Nn, M in V.
  destruct (stagnated K infinity C w0 (ws ++ [a])) eqn:St; [exfalso|split; congruence].
  unfold stagnated in St. rewrite rev_unit in St.
  apply andb_true_iff in St. destruct St as [_ St].
  destruct (nth_error (ws ++ [a]) _) as [old|] eqn:Eo; [|discriminate].
  apply nth_error_In, in_app_or in Eo. destruct Eo as [Eo|[->|[]]].
  - inversion W as [E|ws' i0 a' i' W0 Cv U E]; [destruct ws; discriminate|].
    apply app_inj_tail in E. destruct E as [-> ->].
    pose proof (earlier_not_met ws i0 W0 Cv) as A. rewrite Forall_forall in A.
    specialize (A old Eo). cbn in A. rewrite (Tr _ _ _ St M) in A. discriminate.
  - rewrite Irr in St. discriminate.
Qed.

(** C58: before the first pass the solver stops exactly if the norm itself is compared with the
    precision and is below it *)
Theorem status_start i :
  watched [] i ->
  error K i = NO_ERROR /\ iterations K i = 1%nat /\
  (converged K i = true <->
     stopping_criterion K C = ABSOLUTE /\ ltb K (sqrt K w0) (precision K C) = true).
Proof.
  intros W. inversion W as [E1 E2|ws' i0 a i' W0 Cv U E]; [|destruct ws'; discriminate].
  cbn. split; [auto|]. split; [auto|]. destruct (stopping_criterion K C); split.
  - discriminate.
  - intros [A _]. discriminate.
  - auto.
  - intros [_ A]. exact A.
  - discriminate.
  - intros [A _]. discriminate.
Qed.

End Theorems.

(** ** Examples: integers *)
From Coq Require Import ZArith.
Definition integers : scalar :=
  Build_scalar Z 0%Z 1%Z Z.add Z.sub Z.mul Z.div Z.opp Z.ltb Z.leb Z.sqrt 1000000%Z.
Definition ex_config (max : nat) : config integers :=
  Build_config integers ABSOLUTE 5%Z 10 max 3.
Local Notation ups l := (foldM (fun i w => update_info integers (fun _ => false) 1000000%Z (ex_config 6) w i)
                         l (set_info integers 1000000%Z (ex_config 6) 10000%Z)).
Local Notation show l := (match ups l with
  | Ok i => Some (error integers i, iterations integers i, converged integers i)
  | _ => None end).

(** met, stagnating and limited sequences *)
Example ex_watched : exists i,
  watched integers (fun _ => false) 1000000%Z (ex_config 6) 10000%Z [10000; 2500; 16]%Z i /\
  (error integers i, iterations integers i, converged integers i) = (NO_ERROR, 3, true).
Proof.
  pose proof (watched_start integers (fun _ => false) 1000000%Z (ex_config 6) 10000%Z) as W0.
  pose proof (watched_pass integers _ _ _ _ [] _ 10000%Z _ W0 eq_refl eq_refl) as W1.
  pose proof (watched_pass integers _ _ _ _ _ _ 2500%Z _ W1 eq_refl eq_refl) as W2.
  pose proof (watched_pass integers _ _ _ _ _ _ 16%Z _ W2 eq_refl eq_refl) as W3.
  eexists. split; [exact W3|reflexivity].
Qed.
Example ex_met : show [10000; 2500; 16]%Z = Some (NO_ERROR, 3, true).
Proof. vm_compute. reflexivity. Qed.
Example ex_stagnation : show [10000; 2500; 8100; 6400]%Z = Some (STAGNATION, 4, true).
Proof. vm_compute. reflexivity. Qed.
Example ex_limit : show [10000; 8100; 6400; 4900; 3600; 2500]%Z = Some (MAX_ITERATIONS_REACHED, 6, true).
Proof. vm_compute. reflexivity. Qed.
Example ex_start : exists i,
  watched integers (fun _ => false) 1000000%Z (ex_config 6) 16%Z [] i /\ converged integers i = true.
Proof. eexists. split; [apply watched_start|reflexivity]. Qed.
Example ex_order : (forall u, M_DualVector.ltb integers u u = false) /\
  (forall u v t, M_DualVector.ltb integers u v = true -> M_DualVector.ltb integers v t = true -> M_DualVector.ltb integers u t = true).
Proof.
  split; cbn; intros *; [apply Z.ltb_irrefl|]. rewrite !Z.ltb_lt. lia.
Qed.

Print Assumptions status_verdict.
Print Assumptions status_truthful.
Print Assumptions status_defined.
Print Assumptions status_zero_period_refuted.
Print Assumptions status_arioli_refuted.
Print Assumptions status_met.
Print Assumptions status_start.
