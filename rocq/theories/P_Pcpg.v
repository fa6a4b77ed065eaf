(** * C57, C58, C90: the PCPG solvers *)
From Coq Require Import List Reals Bool Lra Lia.
From Verif Require Import Base M_DualVector M_Mprgp M_SolverInfo M_Pcpg S_SolverInfo S_Mprgp S_Pcpg
  L_RVec L_Pcpg L_Pcpg2 L_Pcpg3 L_Pcpg4 P_SolverInfo.
Import ListNotations.
Local Open Scope R_scope.
Local Open Scope out_scope.

Local Notation comb := combination.
Local Notation sp := scalar_product.

Local Lemma nth_error_same {T} (a b : list T) : (forall j, nth_error a j = nth_error b j) -> a = b.
Proof.
  revert b; induction a as [|u a IH]; intros [|v b] H; auto; try (specialize (H 0%nat); discriminate).
  f_equal; [specialize (H 0%nat); now injection H|]. apply IH. intros j. apply (H (Datatypes.S j)).
Qed.

Section Theorems.
Variable h : R.
Local Notation K := (exact h).
Variable n m : nat.
Variable A : operators (exact h).
Variable d e : list R.
Variable isnan : R -> bool.
Variable infinity : R.
Variable C : config (exact h).
Local Notation Fo := (F (exact h) A).
Local Notation constrained := (constrained h A).
Local Notation solution := (solution h n A d e).
Local Notation admissible := (admissible h n A d e).
(** the state after at most [k] passes, with any division *)
Local Notation run_with q k := (pcpg K isnan infinity q C A k d e).
Local Notation orun_with q ivs kp ky k := (orthopcpg K isnan infinity q C A ivs k kp ky d e).
Local Notation run k := (run_with quotient k).
Local Notation orun k := (orun_with quotient [(0%nat, n)] [] [] k).

(** C57: the iterate meets the constraints, the residual belongs to the iterate *)
Theorem pcpg_invariant q k s :
  linear_problem h n m A d e -> run_with q k = Ok s ->
  admissible (x K s) /\ r K s = comb d (-1) (Fo (x K s)).
Proof.
  intros LP E. destruct (run_inv1 h n m A d e isnan infinity C q LP k s E) as [I X].
  split; [split; [apply I|exact X]|apply (i_r _ _ _ _ _ I)].
Qed.

(** C57: the same for the orthogonalized solver, for every state left by earlier calls; also with the
    conjugate projector its iterates keep [constrained x = e] *)
Theorem orthopcpg_invariant q ivs kp ky k o :
  linear_problem h n m A d e -> orun_with q ivs kp ky k = Ok o ->
  let x := x K (base K o) in
  length (x : list R) = n /\ constrained x = e /\ r K (base K o) = comb d (-1) (Fo x) /\
  (conjugate K A = false -> admissible x).
Proof.
  intros LP E. destruct (orun_inv h n m A d e isnan infinity C q ivs kp ky LP k o E) as [[I _] X].
  cbn zeta. split; [apply I|]. split; [exact X|]. split; [apply (i_r _ _ _ _ _ I)|].
  intros Cj. split; [apply I|]. now rewrite Cj.
Qed.

Local Lemma solution_iff s : spd_problem h n m A d e -> inv1 h n A d s -> admissible (x K s) ->
  0 <= yw K s /\ (yw K s = 0 <-> solution (x K s)) /\ (is_zero (w K s) <-> solution (x K s)).
Proof.
  intros SP I Ad. pose proof (sp_linear _ _ _ _ _ _ SP) as LP.
  assert (Z1 : is_zero (w K s) -> solution (x K s)).
  { intros Z. split; auto. intros z [Lz Bz].
    apply (w_zero_optimal h n m A d e SP); auto. destruct Ad as [_ Ba]. congruence. }
  assert (Z2 : solution (x K s) -> is_zero (w K s)).
  { intros [_ Op]. destruct (is_zero_dec (w K s)) as [Z|Z]; auto. exfalso.
    pose proof (yw_pos h n m A d e SP s I Z) as Y. rewrite (i_yw _ _ _ _ _ I) in Y.
    pose proof (y_len h n m A d e LP s I) as Ly. pose proof (B_y h n m A d e LP s I) as By.
    rewrite <- (sp_r_w h n m A d e SP s (y K s) I Ly By) in Y.
    set (a := sp (y K s) (r K s)) in *. set (b := sp (y K s) (Fo (y K s))).
    assert (Hb : 0 < b).
    { apply (sp_Fdef _ _ _ _ _ _ SP); auto. intros Zy. unfold a in Y.
      rewrite (sp_zero_l (y K s) (r K s) Zy) in Y. lra. }
    specialize (Op (comb (x K s) (a / b) (y K s))).
    rewrite (energy_line h n m A d e SP) in Op by (auto; apply I).
    rewrite <- (i_r _ _ _ _ _ I) in Op. fold a b in Op.
    assert (Ad' : admissible (comb (x K s) (a / b) (y K s))).
    { destruct Ad as [La Ba]. split; [apply comb_len; auto|]. rewrite <- Ba.
      destruct (B_linear h n m A d e LP) as [B1 B2]. rewrite B2 by auto.
      apply comb_ext_zero; auto. rewrite !B1; auto. }
    specialize (Op Ad').
    assert (D : / 2 * (a / b) * (a / b) * b = a / b * a - / 2 * (a * a / b)) by (field; lra).
    assert (0 < a * a / b) by (apply Rdiv_lt_0_compat; [nra|auto]).
    lra. }
  assert (Yz : yw K s = 0 -> is_zero (w K s)).
  { intros Y. destruct (is_zero_dec (w K s)) as [Z|Z]; auto.
    pose proof (yw_pos h n m A d e SP s I Z). lra. }
  split; [|split; [split; [auto|intros; apply (yw_zero h n m A d e SP); auto]|tauto]].
  destruct (is_zero_dec (w K s)) as [Z|Z].
  - rewrite (yw_zero h n m A d e SP s I Z). lra.
  - apply Rlt_le, (yw_pos h n m A d e SP s I Z).
Qed.

(** C57: the squared norm of the tested residual is zero exactly for the solution *)
Theorem pcpg_solution q k s :
  spd_problem h n m A d e -> run_with q k = Ok s ->
  0 <= yw K s /\ (yw K s = 0 <-> solution (x K s)).
Proof.
  intros SP E. pose proof (sp_linear _ _ _ _ _ _ SP) as LP.
  destruct (run_inv1 h n m A d e isnan infinity C q LP k s E) as [I X].
  destruct (solution_iff s SP I) as (Z1 & Z2 & _); auto.
  split; [apply I|exact X].
Qed.

Local Lemma left_before k s : run k = Ok s -> converged K (status K s) = false ->
  forall j t, (j < Datatypes.S k)%nat -> run j = Ok t -> converged K (status K t) = false.
Proof.
  intros E Cv j t Lj Et. eapply (loop_left K isnan infinity quotient C A k _ s E Cv j); [lia|exact Et].
Qed.

(** C90: every pass decreases the energy *)
Theorem pcpg_descends k s s' :
  spd_problem h n m A d e -> run k = Ok s -> converged K (status K s) = false ->
  run (Datatypes.S k) = Ok s' -> energy Fo d (x K s') < energy Fo d (x K s).
Proof.
  intros SP E Cv E'. pose proof (sp_linear _ _ _ _ _ _ SP) as LP.
  pose proof (left_before k s E Cv) as HL.
  destruct (run_inv1 h n m A d e isnan infinity C quotient LP k s E) as [I _].
  assert (Es : nth_state h A d e isnan infinity C k = s) by (unfold nth_state; now rewrite E).
  assert (Es' : nth_state h A d e isnan infinity C (Datatypes.S k) = s') by (unfold nth_state; now rewrite E').
  destruct (st_moves h n m A d e isnan infinity C SP _ s' E' HL k ltac:(lia)) as (N1 & N2 & Ex & _).
  pose proof (run_pr h n m A d e isnan infinity C SP _ s' E' HL k ltac:(lia)) as Pr.
  unfold step_length in Ex. rewrite Es, Es' in *. rewrite Ex.
  rewrite (energy_line h n m A d e SP) by apply I. rewrite <- (i_r _ _ _ _ _ I), Pr.
  set (b := sp (p K s) (Fo (p K s))) in *.
  assert (Hb : 0 < b).
  { apply (pFp_pos h n m A d e SP s I). intros Z. apply N1. unfold b. now apply sp_zero_l. }
  assert (D : / 2 * (yw K s / b) * (yw K s / b) * b = yw K s / b * yw K s - / 2 * (yw K s * yw K s / b)) by (field; lra).
  assert (0 < yw K s * yw K s / b).
  { apply Rdiv_lt_0_compat; auto. pose proof (Rsqr_pos_lt _ N2). unfold Rsqr in *. auto. }
  cbn [num exact] in *. lra.
Qed.

(** C90: no combination of the used directions reaches less energy than the iterate *)
Theorem pcpg_minimal k s start ps cs :
  spd_problem h n m A d e -> run k = Ok s ->
  (forall j t, (j < k)%nat -> run j = Ok t -> converged K (status K t) = false) ->
  run 0 = Ok start -> length cs = k -> length ps = k ->
  (forall j t, (j < k)%nat -> run j = Ok t -> nth_error ps j = Some (p K t : list R)) ->
  energy Fo d (x K s) <= energy Fo d (walk (x K start) cs ps).
Proof.
  intros SP E HL E0 Lc Lp Hp.
  pose proof (run_minimal h n m A d e isnan infinity C SP k s E HL cs Lc) as M.
  assert (Es : nth_state h A d e isnan infinity C k = s) by (unfold nth_state; now rewrite E).
  assert (Es0 : nth_state h A d e isnan infinity C 0 = start) by (unfold nth_state; now rewrite E0).
  rewrite Es, Es0 in M.
  assert (X : map (fun j => p K (nth_state h A d e isnan infinity C j) : list R) (seq 0 k) = ps).
  { apply nth_error_same. intros j. destruct (Nat.lt_ge_cases j k) as [L|L].
    - pose proof (st_run h A d e isnan infinity C k s E j ltac:(lia)) as Ej.
      rewrite (Hp j _ L Ej). apply map_nth_error with (d := j).
      rewrite (nth_error_nth' _ 0%nat) by (rewrite seq_length; auto). rewrite seq_nth; auto.
    - rewrite !(proj2 (nth_error_None _ _)); auto; rewrite ?map_length, ?seq_length; lia. }
  rewrite <- X. exact M.
Qed.

(** C90: the directions are conjugate, the preconditioned residuals are orthogonal *)
Theorem pcpg_conjugate k s i j si sj :
  spd_problem h n m A d e -> run k = Ok s ->
  (forall l t, (l < k)%nat -> run l = Ok t -> converged K (status K t) = false) ->
  (i < j <= k)%nat -> run i = Ok si -> run j = Ok sj ->
  sp (p K si) (Fo (p K sj)) = 0 /\ sp (w K si) (y K sj) = 0.
Proof.
  intros SP E HL L Ei Ej.
  assert (Esi : nth_state h A d e isnan infinity C i = si) by (unfold nth_state; now rewrite Ei).
  assert (Esj : nth_state h A d e isnan infinity C j = sj) by (unfold nth_state; now rewrite Ej).
  destruct (run_conjugate h n m A d e isnan infinity C SP k s E HL) as [_ Cj].
  specialize (Cj i j L). pose proof (run_orthogonal h n m A d e isnan infinity C SP k s E HL i j L) as Or.
  rewrite Esi, Esj in *. split; auto. now rewrite sp_comm.
Qed.

(** C90: after at most as many passes as there are unknowns the solver has stopped or its iterate is
    the solution *)
Theorem pcpg_terminates :
  spd_problem h n m A d e -> (0 < max_stagnation K C)%nat -> (0 < print_iteration K C)%nat ->
  exists k s, (k <= n)%nat /\ run k = Ok s /\
    (solution (x K s) \/ converged K (status K s) = true).
Proof.
  intros SP M P. pose proof (sp_linear _ _ _ _ _ _ SP) as LP.
  destruct (run_terminates h n m A d e isnan infinity C SP M P) as (k & s & L & E & D).
  exists k, s. split; auto. split; auto. destruct D as [D|D]; auto. left.
  destruct (run_inv1 h n m A d e isnan infinity C quotient LP k s E) as [I X].
  apply (solution_iff s SP I); auto. split; [apply I|exact X].
Qed.

(** as long as the iterate is not the solution, the next pass is defined *)
Theorem pcpg_progress k s :
  spd_problem h n m A d e -> (0 < max_stagnation K C)%nat -> (0 < print_iteration K C)%nat ->
  run k = Ok s -> converged K (status K s) = false -> ~ solution (x K s) ->
  exists s', run (Datatypes.S k) = Ok s'.
Proof.
  intros SP M P E Cv NS. pose proof (sp_linear _ _ _ _ _ _ SP) as LP.
  apply (run_continues h n m A d e isnan infinity C SP k s M P E Cv). intros Z. apply NS.
  destruct (run_inv1 h n m A d e isnan infinity C quotient LP k s E) as [I X].
  apply (solution_iff s SP I); auto. split; [apply I|exact X].
Qed.

(** a run that reaches the solution divides zero by zero, unless it was stopped before *)
Theorem pcpg_exact_refuted k s :
  spd_problem h n m A d e -> run k = Ok s -> converged K (status K s) = false ->
  solution (x K s) -> run (Datatypes.S k) = UB.
Proof.
  intros SP E Cv So. destruct (pcpg_solution quotient k s SP E) as [_ Z]. apply Z in So.
  assert (X : pcpg_step K isnan infinity quotient C A s = UB).
  { unfold pcpg_step. rewrite So.
    assert (Q : forall c, quotient c 0 = UB) by (intros c; unfold quotient; destruct (Req_EM_T 0 0); tauto).
    destruct (quotient 0 _) as [g| |] eqn:Eg; cbn [obind]; auto.
    - now rewrite Q.
    - unfold quotient in Eg. destruct (Req_EM_T _ 0); discriminate. }
  clear So Z. unfold pcpg in *. revert E. generalize (pcpg_start K infinity C A d e) as s0.
  induction k as [|k IH]; intros s0 E.
  - cbn [pcpg_loop] in *. destruct (converged K (status K s0)) eqn:C0; injection E as <-; [congruence|].
    now rewrite X.
  - remember (Datatypes.S k) as k1. cbn [pcpg_loop]. subst k1. cbn [pcpg_loop] in E.
    destruct (converged K (status K s0)) eqn:C0; [injection E as <-; congruence|].
    destruct (pcpg_step K isnan infinity quotient C A s0) as [s1| |]; cbn [obind] in *; try discriminate.
    now apply IH.
Qed.

(** C58: what the status of PCPG is about: pass j + 1 tests the residual of the iterate before it *)
Theorem pcpg_status q k s start :
  run_with q k = Ok s -> run_with q 0 = Ok start ->
  exists ws, watched K isnan infinity C (yw K start) ws (status K s) /\ (length ws <= k)%nat /\
    (converged K (status K s) = false -> length ws = k) /\
    (run_with q (length ws) = Ok s) /\
    (forall j, (j < length ws)%nat -> exists t, run_with q j = Ok t /\ nth_error ws j = Some (yw K t) /\
       converged K (status K t) = false).
Proof.
  intros E E0.
  assert (start = pcpg_start K infinity C A d e) as ->.
  { unfold pcpg in E0. cbn [pcpg_loop] in E0. destruct (converged K _) in E0; congruence. }
  destruct (loop_watched K isnan infinity q C A k (pcpg_start K infinity C A d e) s eq_refl E) as (ws & W & L & Lc & (s' & Es & ->) & H).
  exists ws. repeat (split; [assumption|]). exact H.
Qed.

(** C58: success after a positive number of passes: the iterate before the last pass met the
    criterion *)
Theorem pcpg_success q k s start :
  spd_problem h n m A d e -> run_with q k = Ok s -> run_with q 0 = Ok start ->
  converged K (status K s) = true -> error K (status K s) = NO_ERROR ->
  (stopping_criterion K C = ABSOLUTE /\ s = start /\ R_sqrt.sqrt (yw K s) < precision K C) \/
  exists j t, (j < k)%nat /\ run_with q j = Ok t /\ run_with q (Datatypes.S j) = Ok s /\
    match stopping_criterion K C with
    | ABSOLUTE => R_sqrt.sqrt (yw K t) < precision K C
    | RELATIVE => R_sqrt.sqrt (yw K t) / R_sqrt.sqrt (yw K start) < precision K C
    | ARIOLI => infinity < precision K C
    end.
Proof.
  intros SP E E0 Cv Er. destruct (pcpg_status q k s start E E0) as (ws & W & L & _ & Es & H).
  destruct (status_truthful K isnan infinity C _ ws _ W) as [T _]. specialize (T Cv Er).
  assert (Lt : forall a b, Rltb a b = true -> a < b).
  { intros a b. unfold Rltb. destruct (Rlt_dec a b); auto. discriminate. }
  destruct ws as [|a0 ws0] eqn:Ew.
  - left. cbn [rev] in T. destruct T as [T1 T2]. cbn [length] in Es.
    assert (s = start) by congruence. subst. split; [exact T1|]. split; [reflexivity|]. apply Lt. exact T2.
  - right. destruct (@exists_last _ (a0 :: ws0)) as (l & a & El); [discriminate|].
    rewrite El in *. rewrite rev_unit in T. rewrite app_length in *. cbn [length] in *.
    destruct (H (length l) ltac:(lia)) as (t & Et & Nt & _).
    rewrite nth_error_app2, Nat.sub_diag in Nt by lia. injection Nt as ->.
    exists (length l), t. split; [lia|]. split; auto.
    split; [now replace (Datatypes.S (length l)) with (length l + 1)%nat by lia|].
    destruct (pcpg_solution q _ t SP Et) as [Yt _].
    unfold measure in T. cbn [sqrt max zero ltb div exact] in T.
    assert (M : max K 0 (yw K t) = yw K t).
    { unfold max. cbn [ltb exact]. unfold Rltb. destruct (Rlt_dec 0 (yw K t)); auto. cbn [num exact] in *. lra. }
    rewrite M in T. destruct (stopping_criterion K C); now apply Lt.
Qed.

(** C58: a limit is kept *)
Theorem pcpg_limit q k s :
  run_with q k = Ok s -> (0 < max_iterations K C)%nat ->
  (iterations K (status K s) <= max_iterations K C)%nat /\
  (converged K (status K s) = false -> (k < max_iterations K C)%nat).
Proof.
  intros E M.
  destruct (run_with q 0) as [start| |] eqn:E0;
    try (unfold pcpg in E0; cbn [pcpg_loop] in E0; destruct (converged K _) in E0; discriminate).
  destruct (pcpg_status q k s start E E0) as (ws & W & L & Lc & _).
  destruct (status_truthful K isnan infinity C _ ws _ W) as (_ & _ & T & _). specialize (T M).
  destruct T as (T1 & T2 & T3). split; auto. intros Cv. rewrite <- (Lc Cv).
  destruct (Nat.eq_dec (length ws) (max_iterations K C)) as [Eq|]; [rewrite (T2 Eq) in Cv; discriminate|lia].
Qed.

(** C90: the orthogonalized solver on one process, first call *)
Theorem orthopcpg_terminates :
  spd_problem h n m A d e -> conjugate K A = false ->
  (0 < max_stagnation K C)%nat -> (0 < print_iteration K C)%nat ->
  exists k o, (k <= n)%nat /\ orun k = Ok o /\
    (solution (x K (base K o)) \/ converged K (status K (base K o)) = true).
Proof.
  intros SP Cj M P. pose proof (sp_linear _ _ _ _ _ _ SP) as LP.
  destruct (orun_terminates h n m A d e isnan infinity C SP M P) as (k & o & L & E & D).
  exists k, o. split; auto. split; auto. destruct D as [D|D]; auto. left.
  destruct (orun_inv h n m A d e isnan infinity C quotient _ _ _ LP k o E) as [[I _] X].
  apply (solution_iff (base K o) SP I); auto. split; [apply I|]. now rewrite Cj.
Qed.

Theorem orthopcpg_conjugate k o i j oi oj :
  spd_problem h n m A d e -> orun k = Ok o ->
  (forall l t, (l < k)%nat -> orun l = Ok t ->
     converged K (status K (base K t)) = false /\ yw K (base K t) <> 0) ->
  (i < j <= k)%nat -> orun i = Ok oi -> orun j = Ok oj ->
  sp (p K (base K oi)) (Fo (p K (base K oj))) = 0 /\ sp (w K (base K oi)) (y K (base K oj)) = 0.
Proof.
  intros SP E HL L Ei Ej.
  assert (Esi : nth_ostate h n A d e isnan infinity C i = oi) by (unfold nth_ostate; now rewrite Ei).
  assert (Esj : nth_ostate h n A d e isnan infinity C j = oj) by (unfold nth_ostate; now rewrite Ej).
  assert (HL1 : forall l t, (l < k)%nat -> orun l = Ok t -> converged K (status K (base K t)) = false).
  { intros l t Ll Et. now apply (HL l t). }
  assert (HL2 : forall l, (l < k)%nat -> yw K (base K (nth_ostate h n A d e isnan infinity C l)) <> 0).
  { intros l Ll. apply (HL l _ Ll), (ot_run h n A d e isnan infinity C k o E). lia. }
  destruct (orun_conjugate h n m A d e isnan infinity C SP k o E HL1 HL2) as [_ Cj].
  specialize (Cj i j L). pose proof (orun_orthogonal h n m A d e isnan infinity C SP k o E HL1 HL2 i j L) as Or.
  cbn beta in *. rewrite Esi, Esj in *. split; auto. now rewrite sp_comm.
Qed.

(** C58: the status of the orthogonalized solver *)
Theorem orthopcpg_status q ivs kp ky k o start :
  orun_with q ivs kp ky k = Ok o -> orun_with q ivs kp ky 0 = Ok start ->
  exists ws, watched K isnan infinity C (yw K (base K start)) ws (status K (base K o)) /\ (length ws <= k)%nat /\
    (converged K (status K (base K o)) = false -> length ws = k) /\
    (forall j, (j < length ws)%nat -> exists t, orun_with q ivs kp ky j = Ok t /\
       nth_error ws j = Some (yw K (base K t)) /\ converged K (status K (base K t)) = false).
Proof.
  intros E E0.
  assert (start = ortho_start K infinity C A kp ky d e) as ->.
  { unfold orthopcpg in E0. cbn [ortho_loop] in E0. destruct (converged K _) in E0; congruence. }
  destruct (oloop_watched K isnan infinity q C A ivs k (ortho_start K infinity C A kp ky d e) o eq_refl E) as (ws & W & L & Lc & _ & H).
  exists ws. repeat (split; [assumption|]). exact H.
Qed.
End Theorems.

(** ** Examples *)

(** two unknowns and the constraint x0 + x1 = e *)
Definition ex_operators (conj : bool) : operators (exact 1000) :=
  Build_operators (exact 1000)
    (fun x : list R => match x with [a; b] => [2 * a + b; a + 2 * b] | _ => x end)
    (fun x => x)
    (fun x : list R => match x with [a; b] => [a + b] | _ => [0] end)
    (fun u : list R => match u with [a] => [a; a] | _ => [0; 0] end)
    (map (fun a => if conj then a / 6 else a / 2)) conj.
Definition ex_config : config (exact 1000) := Build_config (exact 1000) RELATIVE (/ 10) 1 10 3.

Local Lemma two_entries (x : list R) : length x = 2%nat -> exists a b, x = [a; b].
Proof. destruct x as [|a [|b [|c x]]]; intros E; try discriminate. now exists a, b. Qed.
Local Lemma one_entry (x : list R) : length x = 1%nat -> exists a, x = [a].
Proof. destruct x as [|a [|b x]]; intros E; try discriminate. now exists a. Qed.

(** both projectors meet the hypotheses of the theorems *)
Example ex_problem conj d0 d1 e0 : spd_problem 1000 2 1 (ex_operators conj) [d0; d1] [e0].
Proof.
  constructor.
  - constructor; auto.
    + split.
      * intros x E. destruct (two_entries x E) as (a & b & ->). reflexivity.
      * intros x c y Ex Ey. destruct (two_entries x Ex) as (a & b & ->).
        destruct (two_entries y Ey) as (a' & b' & ->). cbn. f_equal; [ring|f_equal; ring].
    + split.
      * intros x E. destruct (two_entries x E) as (a & b & ->). reflexivity.
      * intros x c y Ex Ey. destruct (two_entries x Ex) as (a & b & ->).
        destruct (two_entries y Ey) as (a' & b' & ->). cbn. f_equal; ring.
    + split.
      * intros x E. destruct (one_entry x E) as (a & ->). reflexivity.
      * intros x c y Ex Ey. destruct (one_entry x Ex) as (a & ->).
        destruct (one_entry y Ey) as (b & ->). cbn. reflexivity.
    + intros u E. cbn. now rewrite map_length.
    + intros u E. destruct (one_entry u E) as (a & ->). unfold S_Pcpg.constrained.
      destruct conj; cbn; f_equal; lra.
  - intros x y Ex Ey. destruct (two_entries x Ex) as (a & b & ->).
    destruct (two_entries y Ey) as (a' & b' & ->). cbn. ring.
  - intros x Ex _ Z. destruct (two_entries x Ex) as (a & b & ->). cbn.
    assert (a <> 0 \/ b <> 0) as [N|N].
    { destruct (Req_dec a 0) as [->|]; [|auto]. right. intros ->. apply Z. now repeat constructor. }
    all: assert (S := Rsqr_pos_lt _ N); unfold Rsqr in S;
      pose proof (Rle_0_sqr a); pose proof (Rle_0_sqr b); pose proof (Rle_0_sqr (a + b));
      unfold Rsqr in *; lra.
  - intros x y Ex Ey. cbn. reflexivity.
  - intros x Ex _ Z. destruct (two_entries x Ex) as (a & b & ->). cbn.
    assert (a <> 0 \/ b <> 0) as [N|N].
    { destruct (Req_dec a 0) as [->|]; [|auto]. right. intros ->. apply Z. now repeat constructor. }
    all: assert (S := Rsqr_pos_lt _ N); unfold Rsqr in S;
      pose proof (Rle_0_sqr a); pose proof (Rle_0_sqr b); unfold Rsqr in *; lra.
  - intros v u Ev Eu. destruct (two_entries v Ev) as (a & b & ->).
    destruct (one_entry u Eu) as (c & ->). cbn. ring.
  - intros u v Eu Ev. destruct (one_entry u Eu) as (a & ->). destruct (one_entry v Ev) as (b & ->).
    cbn. destruct conj; lra.
Qed.

Local Lemma same_if {T} (b : bool) (a : T) : (if b then a else a) = a.
Proof. now destruct b. Qed.

(** a run of one pass: x goes from (1/2, 1/2) to the solution (1, 0), then zero is divided by zero *)
Example ex_passes :
  exists s s', pcpg (exact 1000) (fun _ => false) 1000 quotient ex_config (ex_operators false) 0 [3; 2] [1] = Ok s /\
    pcpg (exact 1000) (fun _ => false) 1000 quotient ex_config (ex_operators false) 1 [3; 2] [1] = Ok s' /\
    converged (exact 1000) (status (exact 1000) s) = false /\
    x (exact 1000) s = [/ 2; / 2] /\ yw (exact 1000) s = / 2 /\
    x (exact 1000) s' = [1; 0] /\ yw (exact 1000) s' = 0.
Proof.
  eexists. unfold pcpg at 1. cbn [pcpg_loop].
  assert (E0 : pcpg_start (exact 1000) 1000 ex_config (ex_operators false) [3; 2] [1]
    = Build_state (exact 1000) [/ 2; / 2] [3 / 2; / 2] [/ 2; - / 2] [/ 2; - / 2] [/ 2; - / 2] (/ 2)
        (set_info (exact 1000) 1000 ex_config (/ 2))).
  { unfold pcpg_start, residual, projectT, project, apply_GtinvGGt, apply_Gt. cbn -[Rinv Rdiv set_info].
    replace (0 + 1 * (1 / 2)) with (/ 2) by lra.
    replace (-(1) * (2 * / 2 + / 2) + 1 * 3) with (3 / 2) by lra.
    replace (-(1) * (/ 2 + 2 * / 2) + 1 * 2) with (/ 2) by lra.
    replace (3 / 2 + - (1) * ((3 / 2 + / 2) / 2)) with (/ 2) by lra.
    replace (/ 2 + - (1) * ((3 / 2 + / 2) / 2)) with (- / 2) by lra.
    replace (/ 2 + - (1) * ((/ 2 + - / 2) / 2)) with (/ 2) by lra.
    replace (- / 2 + - (1) * ((/ 2 + - / 2) / 2)) with (- / 2) by lra.
    replace (/ 2 * / 2 + (- / 2 * - / 2 + 0)) with (/ 2) by lra. reflexivity. }
  unfold pcpg. cbn [pcpg_loop]. rewrite E0. cbn [status set_info converged ex_config stopping_criterion].
  unfold pcpg_step. cbn [x r w y p yw status].
  cbn -[Rinv Rdiv set_info quotient update_info].
  replace (/ 2 * (2 * / 2 + - / 2) + (- / 2 * (/ 2 + 2 * - / 2) + 0)) with (/ 2) by lra.
  rewrite quotient_ok by lra. cbn -[Rinv Rdiv set_info quotient update_info].
  replace (/ 2 / / 2) with 1 by lra. rewrite quotient_ok by lra.
  cbn -[Rinv Rdiv set_info quotient update_info].
  destruct (status_defined (exact 1000) (fun _ => false) 1000 ex_config (/ 2) []
    (set_info (exact 1000) 1000 ex_config (/ 2)) (/ 2)) as [i Ei]; [cbn; lia|cbn; lia|constructor|].
  match goal with |- context [obind (update_info ?a ?b ?c ?d ?e ?f) _] =>
    change (update_info a b c d e f) with
      (update_info (exact 1000) (fun _ : num (exact 1000) => false) 1000 ex_config (/ 2)
         (set_info (exact 1000) 1000 ex_config (/ 2))); rewrite Ei end.
  cbn [obind]. eexists. split; [reflexivity|]. split; [apply same_if|].
  cbn -[Rinv Rdiv]. repeat split; try lra; repeat f_equal; lra.
Qed.

(** the solution from the beginning: not tested before the first pass *)
Example ex_exact : exists s,
  pcpg (exact 1000) (fun _ => false) 1000 quotient ex_config (ex_operators false) 0 [1; 1] [1] = Ok s /\
  converged (exact 1000) (status (exact 1000) s) = false /\
  solution 1000 2 (ex_operators false) [1; 1] [1] (x (exact 1000) s).
Proof.
  eexists. split; [unfold pcpg; cbn [pcpg_loop]; reflexivity|]. split; [reflexivity|].
  eapply (pcpg_solution 1000 2 1 (ex_operators false) [1; 1] [1] (fun _ => false) 1000 ex_config quotient 0).
  - apply ex_problem.
  - unfold pcpg; cbn [pcpg_loop]; reflexivity.
  - cbn. lra.
Qed.

(** rational arithmetic with a not-a-number; the square root is omitted *)
From Coq Require Import QArith Qreduction.
Definition lift2 (f : Q -> Q -> Q) (a b : option Q) : option Q :=
  match a, b with Some u, Some v => Some (Qred (f u v)) | _, _ => None end.
Definition compare2 (f : Q -> Q -> bool) (a b : option Q) : bool :=
  match a, b with Some u, Some v => f u v | _, _ => false end.
Definition q_div (a b : option Q) : option Q :=
  match b with Some v => if Qeq_bool v 0 then None else lift2 Qdiv a b | None => None end.
Definition float : scalar :=
  Build_scalar (option Q) (Some 0%Q) (Some 1%Q) (lift2 Qplus) (lift2 Qminus) (lift2 Qmult) q_div
    (option_map Qopp) (compare2 (fun a b => negb (Qle_bool b a))) (compare2 Qle_bool)
    (fun a => a) (Some 1000%Q).
Definition not_number (a : option Q) : bool := match a with None => true | _ => false end.
Definition rows_times (M : list (list Q)) (v : list (option Q)) : list (option Q) :=
  map (fun row => dot float (map Some row) v) M.
Definition q_operators (FM GM GtM : list (list Q)) (c : Q) (conj : bool) : operators float :=
  Build_operators float (rows_times FM) (fun v => v) (rows_times GM)
    (rows_times GtM) (vscale float (Some c)) conj.
Definition q_config (c : criterion) (eps : Q) (max : nat) : config float :=
  Build_config float c (Some eps) 1 max 20.
Definition q_run FM c d := pcpg float not_number None (fun a b => Ok (q_div a b)) c
  (q_operators FM [] (map (fun _ => []) d) 1 false) 10 (map Some d) [].
Definition show (r : outcome (state float)) :=
  match r with
  | Ok s => Some (x float s, yw float s, error float (status float s), converged float (status float s))
  | _ => None
  end.

(** the exact solution is reached in the first pass; the second one makes it a not-a-number and
    reports success *)
Example ex_nan : show (q_run [[2; 0]; [0; 2]]%Q (q_config ABSOLUTE (1 # 100) 100) [1; 1]%Q)
  = Some ([None; None], None, NO_ERROR, true).
Proof. vm_compute. reflexivity. Qed.

(** success although the criterion, [yw < 4], is not met by the returned iterate *)
Example ex_previous :
  match q_run [[1; 0; 0]; [0; 5; 0]; [0; 0; 10]]%Q (q_config ABSOLUTE 4 100) [2; 5; 1]%Q with
  | Ok s => match yw float s with
            | Some v => Qle_bool 4 v && converged float (status float s) &&
                        match error float (status float s) with NO_ERROR => true | _ => false end
            | None => false
            end
  | _ => false
  end = true.
Proof. vm_compute. reflexivity. Qed.

(** the orthogonalized solver: one interval, two intervals, arrays kept from an earlier call *)
Definition q_quotient (a b : option Q) : outcome (option Q) :=
  match b with Some v => if Qeq_bool v 0 then UB else Ok (q_div a b) | None => UB end.
Definition q_ortho ivs kp ky FM GM GtM c conj passes d e :=
  orthopcpg float not_number None q_quotient (q_config RELATIVE (1 # 1000) 100)
    (q_operators FM GM GtM c conj) ivs passes kp ky (map Some d) (map Some e).
Definition q_tri : list (list Q) := [[2; 1; 0]; [1; 3; 1]; [0; 1; 4]]%Q.
Definition show_o (r : outcome (ostate float)) :=
  match r with Ok o => Some (x float (base float o), yw float (base float o)) | _ => None end.

Example ex_ortho_one :
  show_o (q_ortho [(0, 3)]%nat [] [] q_tri [] [[]; []; []] 1 false 3 [3; 5; 5]%Q []) =
  Some ([Some 1; Some 1; Some 1]%Q, Some 0%Q).
Proof. vm_compute. reflexivity. Qed.

(** only the last interval is orthogonalized *)
Example ex_ortho_two :
  match show_o (q_ortho [(0, 2); (2, 1)]%nat [] [] q_tri [] [[]; []; []] 1 false 3 [3; 5; 5]%Q []) with
  | Some (_, Some v) => negb (Qeq_bool v 0)
  | _ => false
  end = true.
Proof. vm_compute. reflexivity. Qed.

(** arrays kept from an earlier call *)
Example ex_ortho_second :
  q_ortho [(0, 3)]%nat [Some 1; Some 1]%Q [Some 1; Some 1]%Q q_tri [] [[]; []; []] 1 false 3
    [3; 5; 5]%Q [] = UB.
Proof. vm_compute. reflexivity. Qed.

(** the conjugate projector: PCPG solves G F x = G d, the orthogonalized solver G F x = e *)
Example ex_ortho_conjugate :
  let A := q_operators [[2; 1]; [1; 2]]%Q [[1; 1]]%Q [[1]; [1]]%Q (1 # 6) true in
  let residual_of (v : list (option Q)) := G float A (F float A v) in
  (match pcpg float not_number None q_quotient (q_config RELATIVE (1 # 1000) 100) A 1
           [Some 3; Some 2]%Q [Some 1]%Q with
   | Ok s => Some (residual_of (x float s)) | _ => None end) = Some [Some 5%Q] /\
  (match q_ortho [(0, 2)]%nat [] [] [[2; 1]; [1; 2]]%Q [[1; 1]]%Q [[1]; [1]]%Q (1 # 6) true 1
           [3; 2]%Q [1]%Q with
   | Ok o => Some (residual_of (x float (base float o))) | _ => None end) = Some [Some 1%Q] /\
  G float A [Some 3; Some 2]%Q = [Some 5%Q].
Proof. vm_compute. auto. Qed.

Print Assumptions pcpg_invariant.
Print Assumptions orthopcpg_invariant.
Print Assumptions pcpg_solution.
Print Assumptions pcpg_descends.
Print Assumptions pcpg_minimal.
Print Assumptions pcpg_conjugate.
Print Assumptions pcpg_terminates.
Print Assumptions pcpg_progress.
Print Assumptions pcpg_exact_refuted.
Print Assumptions pcpg_status.
Print Assumptions pcpg_success.
Print Assumptions pcpg_limit.
Print Assumptions orthopcpg_terminates.
Print Assumptions orthopcpg_conjugate.
Print Assumptions orthopcpg_status.
