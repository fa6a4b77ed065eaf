(** * C55, C86: the best specimen and the ranges of proposed values *)
From Coq Require Import ZArith QArith List Bool Lia.
From Verif Require Import Base S_Order M_Evolution S_Evolution L_Evolution.
Import ListNotations.
Local Open Scope Z_scope.

(** any random choice, any reported value *)
Definition pso_gets A im ps c (st : pso A) x st' := exists r1 r2, pso_get A im ps c r1 r2 st = Ok (x, st').
Definition pso_evaluates A d c v (st st' : pso A) := pso_evaluate A d c v st = Ok st'.
Definition de_gets A im ps F CR (st : de A) x st' :=
  exists k1 k2 k3 k r, de_get A im ps F CR k1 k2 k3 k r st = Ok (x, st').
Definition de_evaluates A v (st st' : de A) := de_evaluate A v st = Ok st'.
Definition soma_gets A (st : soma A) x st' := soma_get A st = Ok (x, st').
Definition soma_evaluates A im ps c v (st st' : soma A) := exists r, soma_evaluate A im ps c r v st = Ok st'.

Section Histories.
Variable A : arith.
Variable im : bool.
Variable ps : list dtype.
Variable R : dtype -> num A -> Prop.
Hypothesis HR : forall p x y, In p ps -> check_parameter A im p x = Ok y -> R p y.
Hypothesis SW : strict_weak_order (lt A).
Local Notation d := (length ps).

Lemma pso_history c specimens velocity st pr tr :
  specimens <> [] -> Forall (Forall2 R ps) specimens ->
  length velocity = length specimens -> Forall (fun v => length v = d) velocity ->
  history (pso_gets A im ps c) (pso_evaluates A d c) d (pso_init A specimens velocity) st pr tr ->
  pso_inv A ps R st pr tr.
Proof.
  intros N F L V. induction 1 as [|st pr tr x st' H IH (r1 & r2 & E)|st x tr v st' H IH E].
  - apply pso_start; auto.
  - eapply pso_get_inv; eauto.
  - destruct (pso_evaluate_inv A ps R SW c v st x tr IH) as (st2 & E2 & I2).
    unfold pso_evaluates in E. congruence.
Qed.

Lemma de_history F CR specimens st pr tr :
  specimens <> [] -> Forall (Forall2 R ps) specimens ->
  history (de_gets A im ps F CR) (de_evaluates A) d (de_init A specimens) st pr tr ->
  de_inv A ps R st pr tr.
Proof.
  intros N FS. induction 1 as [|st pr tr x st' H IH (k1 & k2 & k3 & k & r & E)|st x tr v st' H IH E].
  - apply de_start; auto.
  - eapply de_get_inv; eauto.
  - destruct (de_evaluate_inv A ps R SW v st x tr IH) as (st2 & E2 & I2).
    unfold de_evaluates in E. congruence.
Qed.

Lemma soma_history c specimens st pr tr :
  specimens <> [] -> Forall (Forall2 R ps) specimens ->
  (1 <= Z.to_nat (trunc A (div A (s_PATH A c) (s_STEP A c))))%nat ->
  history (soma_gets A) (soma_evaluates A im ps c) d (soma_init A specimens) st pr tr ->
  soma_inv A ps R c st pr tr.
Proof.
  intros N FS J. induction 1 as [|st pr tr x st' H IH E|st x tr v st' H IH (r & E)].
  - apply soma_start; auto.
  - eapply soma_get_inv; eauto.
  - eapply soma_evaluate_inv; eauto.
Qed.

End Histories.

Lemma laws_order {T} (lt : T -> T -> bool) ofZ trunc : number_laws lt ofZ trunc -> strict_weak_order lt.
Proof.
  intros L. constructor; [apply (law_asym _ _ _ L)|]. unfold le_of. intros a b c Hab Hbc.
  eapply (law_trans _ _ _ L); eauto.
Qed.

Lemma any_specimens {A : arith} ps (l : list (list (num A))) :
  Forall (fun s => length s = length ps) l -> Forall (Forall2 (fun (_ : dtype) (_ : num A) => True) ps) l.
Proof.
  intros F. eapply Forall_impl; [|exact F]. intros s. clear. revert s.
  induction ps; destruct s; simpl; intros; try discriminate; constructor; auto.
Qed.

Section C55.
Variable A : arith.
Variable im : bool.
Variable ps : list dtype.
Hypothesis SW : strict_weak_order (lt A).
Local Notation d := (length ps).

(** C55, particle swarm: after any history of reports the global best is an evaluated specimen with
    its value and no reported value is smaller. *)
Theorem pso_best_is_minimum c specimens velocity st pr tr :
  specimens <> [] -> Forall (fun s => length s = d) specimens ->
  length velocity = length specimens -> Forall (fun v => length v = d) velocity ->
  history (pso_gets A im ps c) (pso_evaluates A d c) d (pso_init A specimens velocity) st pr tr ->
  tr <> [] -> is_best (lt A) tr (p_gbest A st).
Proof.
  intros N F L V H NE. apply any_specimens in F.
  eapply (pi_best A ps (fun _ _ => True) st pr tr); auto.
  eapply (pso_history A im ps _ (fun _ _ _ _ _ => I) SW c specimens velocity); eauto.
Qed.

(** C55, differential evolution *)
Theorem de_best_is_minimum F CR specimens st pr tr :
  specimens <> [] -> Forall (fun s => length s = d) specimens ->
  history (de_gets A im ps F CR) (de_evaluates A) d (de_init A specimens) st pr tr ->
  tr <> [] -> is_best (lt A) tr (d_best A st).
Proof.
  intros N FS H NE. apply any_specimens in FS.
  eapply (di_best A ps (fun _ _ => True) st pr tr); auto.
  eapply (de_history A im ps _ (fun _ _ _ _ _ => I) SW F CR specimens); eauto.
Qed.

(** C55, SOMA: the best is the minimum while the first population is evaluated and whenever the
    journeys of an individual are complete; in between the minimum is the best or the best one of
    the current journeys. *)
Theorem soma_best_is_minimum c specimens st pr tr :
  let jumps := trunc A (div A (s_PATH A c) (s_STEP A c)) in
  let population := Z.of_nat (length specimens) in
  specimens <> [] -> Forall (fun s => length s = d) specimens -> 1 <= jumps ->
  history (soma_gets A) (soma_evaluates A im ps c) d (soma_init A specimens) st pr tr ->
  tr <> [] ->
  (Z.of_nat (length tr) <= population \/ (Z.of_nat (length tr) - population) mod jumps = 0 ->
     is_best (lt A) tr (s_best A st)) /\
  exists b, is_best (lt A) tr b /\
    (b = s_best A st \/ nth_error (s_journeys A st) (s_bestj A st) = Some b).
Proof.
  intros jumps population N FS J H NE. apply any_specimens in FS.
  assert (J' : (1 <= Z.to_nat jumps)%nat) by lia.
  assert (LS : length (s_specimens A st) = length specimens).
  { clear - H. induction H as [|st pr tr x st' H IH E|st x tr v st' H IH (r & E)]; auto.
    - unfold soma_gets, soma_get in E. destruct (if s_initializing A st then _ else _); cbn [obind] in E; try discriminate.
      now injection E as _ <-.
    - rewrite <- IH. clear - E. unfold soma_evaluate in E. destruct (s_initializing A st).
      + unfold soma_evaluate_init in E.
        destruct (rd (s_specimens A st) (s_current A st)); cbn [obind] in E; try discriminate. cbv zeta in E.
        destruct (wr _ _ _) as [ss| |] eqn:W; cbn [obind] in E; try discriminate.
        apply wr_inv in W. destruct W as [_ ->].
        destruct (back _ _); cbn [obind] in E; try discriminate.
        destruct (Nat.eqb _ _).
        * destruct (rd _ _); cbn [obind] in E; try discriminate.
          destruct (produce_journeys _ _ _ _ _ _ _); cbn [obind] in E; try discriminate.
          injection E as <-. cbn. apply upd_length.
        * injection E as <-. cbn. apply upd_length.
      + unfold soma_evaluate_next in E. cbv zeta in E.
        destruct (rd (s_journeys A st) (s_journey A st)); cbn [obind] in E; try discriminate.
        destruct (wr _ _ _) as [j| |]; cbn [obind] in E; try discriminate.
        destruct (wr _ _ _) as [js| |]; cbn [obind] in E; try discriminate.
        destruct (rd js (s_bestj A st)) as [bj| |]; cbn [obind] in E; try discriminate.
        destruct (rd bj d) as [bv| |]; cbn [obind] in E; try discriminate.
        destruct (Nat.eqb _ _).
        * destruct (rd js _) as [mj| |]; cbn [obind] in E; try discriminate.
          destruct (rd mj d) as [mv| |]; cbn [obind] in E; try discriminate.
          destruct (rd (s_specimens A st) (s_current A st)) as [cu| |]; cbn [obind] in E; try discriminate.
          destruct (rd cu d) as [cv| |]; cbn [obind] in E; try discriminate.
          destruct (if lt A mv cv then _ else _) as [ss| |] eqn:W; cbn [obind] in E; try discriminate.
          assert (length ss = length (s_specimens A st)) as Lss.
          { destruct (lt A mv cv); [apply wr_inv in W; destruct W as [_ ->]; apply upd_length|congruence]. }
          destruct (rd (s_best A st) d); cbn [obind] in E; try discriminate.
          destruct (rd ss _); cbn [obind] in E; try discriminate.
          destruct (produce_journeys _ _ _ _ _ _ _); cbn [obind] in E; try discriminate.
          injection E as <-. exact Lss.
        * injection E as <-. reflexivity. }
  pose proof (soma_history A im ps _ (fun _ _ _ _ _ => I) SW c specimens st pr tr N FS J' H) as [Ktr Kcur Kpr Kph].
  destruct (s_initializing A st).
  - destruct Kph as (_ & _ & _ & B). specialize (B NE). split; auto. eauto.
  - destruct Kph as (tr0 & round & k & -> & N0 & B0 & G0 & L0 & LJ & FJ & LR & LRJ & KR & Z0 & KB).
    assert (CR : round = [] \/ round <> []) by (destruct round; [left|right]; congruence).
    destruct CR as [->|ER].
    + rewrite app_nil_r in *. eauto.
    + destruct (KB ER) as (mc & mv & Em & Mm). split.
      * intros H1. exfalso. assert (0 < length round)%nat by (destruct round; [congruence|simpl; lia]).
        unfold population in H1. rewrite app_length in H1. fold jumps in L0, LRJ.
        assert (E : Z.of_nat (length tr0 + length round) - Z.of_nat (length specimens)
                    = Z.of_nat (length round) + Z.of_nat k * jumps) by lia.
        destruct H1 as [H1|H1]; [nia|].
        rewrite E, Z.mod_add, Z.mod_small in H1 by lia. lia.
      * destruct B0 as (c0 & g & I0 & Eg & Mg).
        destruct (lt A mv g) eqn:L.
        { exists (mc ++ [mv]). split; [|right; apply KR; auto].
          exists mc, mv. split; [apply in_or_app; right; eapply nth_error_In; eauto|]. split; auto.
          intros c' v' I'. apply in_app_or in I'. destruct I' as [I'|I']; [|eauto].
          apply (swo_le_trans _ SW mv g v'); unfold le_of; eauto. now apply (swo_asym _ SW). }
        { exists (s_best A st). split; [|auto].
          exists c0, g. split; [apply in_or_app; auto|]. split; auto. intros c' v' I'.
          apply in_app_or in I'. destruct I' as [I'|I']; [eauto|].
          apply (swo_le_trans _ SW g mv v'); unfold le_of; eauto. }
Qed.

(** no history leads to undefined behaviour (values are not rounded immediately) *)
Theorem pso_search_defined c specimens velocity st pr tr r1 r2 v :
  im = false ->
  specimens <> [] -> Forall (fun s => length s = d) specimens ->
  length velocity = length specimens -> Forall (fun v => length v = d) velocity ->
  history (pso_gets A im ps c) (pso_evaluates A d c) d (pso_init A specimens velocity) st pr tr ->
  (exists x st', pso_get A im ps c r1 r2 st = Ok (x, st')) /\
  (pr <> None -> exists st', pso_evaluate A d c v st = Ok st').
Proof.
  intros Him N F L V H. apply any_specimens in F.
  pose proof (pso_history A im ps _ (fun _ _ _ _ _ => I) SW c specimens velocity _ _ _ N F L V H) as K.
  split.
  - eapply pso_get_runs; eauto.
  - destruct pr as [x|]; [|congruence]. intros _.
    destruct (pso_evaluate_inv A ps _ SW c v st x tr K) as (st' & E & _). eauto.
Qed.

Theorem de_search_defined F CR specimens st pr tr k1 k2 k3 k r v :
  im = false ->
  specimens <> [] -> Forall (fun s => length s = d) specimens ->
  history (de_gets A im ps F CR) (de_evaluates A) d (de_init A specimens) st pr tr ->
  (k1 < length specimens)%nat -> (k2 < length specimens)%nat -> (k3 < length specimens)%nat -> (k < d)%nat ->
  (exists x st', de_get A im ps F CR k1 k2 k3 k r st = Ok (x, st')) /\
  (pr <> None -> exists st', de_evaluate A v st = Ok st').
Proof.
  intros Him N FS H L1 L2 L3 L. apply any_specimens in FS.
  assert (K : de_inv A ps (fun _ _ => True) st pr tr)
    by (eapply (de_history A im ps _ (fun _ _ _ _ _ => I) SW F CR specimens); eauto).
  assert (LS : length (d_specimens A st) = length specimens).
  { assert (G : forall st pr tr, history (de_gets A im ps F CR) (de_evaluates A) d (de_init A specimens) st pr tr ->
       length (d_specimens A st) = length specimens).
    { clear st pr tr H K. induction 1 as [|st pr tr x st' H IH (j1 & j2 & j3 & j & q & E)|st x tr w st' H IH E]; auto.
      - unfold de_get in E. destruct (rd _ _); cbn [obind] in E; try discriminate.
        destruct (d_initializing A st); [now injection E as _ <-|].
        destruct (rd _ j1); cbn [obind] in E; try discriminate.
        destruct (rd _ j2); cbn [obind] in E; try discriminate.
        destruct (rd _ j3); cbn [obind] in E; try discriminate.
        destruct (foldM _ _ _); cbn [obind] in E; try discriminate.
        destruct (rd _ j); cbn [obind] in E; try discriminate.
        destruct (rd _ j); cbn [obind] in E; try discriminate.
        destruct (wr _ _ _); cbn [obind] in E; try discriminate.
        now injection E as _ <-.
      - pose proof (de_history A im ps _ (fun _ _ _ _ _ => I) SW F CR specimens _ _ _ N FS H) as [_ Kc _ _ _ Kp].
        unfold de_evaluates, de_evaluate in E. destruct (d_initializing A st).
        + unfold de_evaluate_init in E. destruct (rd _ _); cbn [obind] in E; try discriminate. cbv zeta in E.
          destruct (wr _ _ _) as [ss| |] eqn:W; cbn [obind] in E; try discriminate.
          apply wr_inv in W. destruct W as [_ ->].
          destruct (back _ _); cbn [obind] in E; try discriminate.
          injection E as <-. cbn. now rewrite upd_length.
        + unfold de_evaluate_next in E. cbv zeta in E. destruct (rd _ _); cbn [obind] in E; try discriminate.
          destruct (back _ _); cbn [obind] in E; try discriminate.
          destruct (back _ _); cbn [obind] in E; try discriminate.
          destruct (back _ _); cbn [obind] in E; try discriminate.
          destruct (back _ _); cbn [obind] in E; try discriminate.
          destruct (Nat.eqb_spec (S (d_current A st)) (length (d_specimens A st)));
            injection E as <-; cbn [d_specimens]; auto.
          rewrite app_length. simpl. lia. }
    eauto. }
  split.
  - eapply de_get_runs; eauto; lia.
  - destruct pr as [x|]; [|congruence]. intros _.
    destruct (de_evaluate_inv A ps _ SW v st x tr K) as (st' & E & _). eauto.
Qed.

Theorem soma_search_defined c specimens st pr tr r v :
  im = false -> specimens <> [] -> Forall (fun s => length s = d) specimens ->
  1 <= trunc A (div A (s_PATH A c) (s_STEP A c)) <= int_max ->
  history (soma_gets A) (soma_evaluates A im ps c) d (soma_init A specimens) st pr tr ->
  (exists x st', soma_get A st = Ok (x, st')) /\
  (pr <> None -> exists st', soma_evaluate A im ps c r v st = Ok st').
Proof.
  intros Him N FS J H. apply any_specimens in FS.
  assert (J' : (1 <= Z.to_nat (trunc A (div A (s_PATH A c) (s_STEP A c))))%nat) by lia.
  pose proof (soma_history A im ps _ (fun _ _ _ _ _ => I) SW c specimens st pr tr N FS J' H) as K.
  split.
  - eapply soma_get_runs; eauto.
  - destruct pr as [x|]; [|congruence]. intros _. eapply soma_evaluate_runs; eauto. lia.
Qed.

End C55.

(** ** C86 *)

(** the values that setNextConfiguration can use *)
Definition in_range (A : arith) (p : dtype) (x : num A) : Prop :=
  match p with
  | OPTION n | ENUM_FLAGS n => 0 <= trunc A x < n
  | BOOL => 0 <= trunc A x <= 1
  | POSITIVE_INTEGER => lt A x (ofZ A 1) = false
  | NONNEGATIVE_INTEGER => lt A x (ofZ A 0) = false
  | INTEGER | FLOAT => True
  end.

Definition has_options (p : dtype) : Prop :=
  match p with OPTION n | ENUM_FLAGS n => 1 <= n | _ => True end.

Lemma check_in_range A im p x y : number_laws (lt A) (ofZ A) (trunc A) -> has_options p ->
  check_parameter A im p x = Ok y -> in_range A p y.
Proof.
  intros L HO. unfold check_parameter. destruct im.
  - unfold check_immediate. destruct p; cbn [has_options in_range] in *; auto;
      destruct (to_int (trunc A x)) as [v| |]; cbn [obind]; try discriminate;
      intros E; injection E as <-; rewrite ?(law_exact _ _ _ L), ?(law_integers _ _ _ L).
    + destruct (Z.ltb_spec v 1); apply Z.ltb_ge; lia.
    + destruct (Z.ltb_spec v 0); apply Z.ltb_ge; lia.
    + destruct (Z.ltb_spec v 0), (Z.leb_spec n v); lia.
    + destruct (Z.ltb_spec v 0), (Z.leb_spec n v); lia.
    + destruct (Z.ltb_spec v 0), (Z.ltb_spec 1 v); lia.
  - intros E. injection E as <-. unfold check_no_rounding.
    assert (OPT : forall n, 1 <= n ->
      0 <= trunc A (if lt A x (ofZ A 0) then ofZ A 0 else
                    if negb (lt A x (ofZ A n)) then ofZ A (n - 1) else x) < n).
    { intros n Hn. destruct (lt A x (ofZ A 0)) eqn:E0; [rewrite (law_exact _ _ _ L); lia|].
      destruct (lt A x (ofZ A n)) eqn:En; cbn [negb]; [|rewrite (law_exact _ _ _ L); lia].
      apply (law_trunc _ _ _ L); auto. }
    destruct p; cbn [has_options in_range] in *; auto.
    + destruct (lt A x (ofZ A 1)) eqn:E; auto. rewrite (law_integers _ _ _ L). reflexivity.
    + destruct (lt A x (ofZ A 0)) eqn:E; auto. rewrite (law_integers _ _ _ L). reflexivity.
    + destruct (lt A x (ofZ A 0)) eqn:E0; [rewrite (law_exact _ _ _ L); lia|].
      destruct (lt A (ofZ A 1) x) eqn:E1; [rewrite (law_exact _ _ _ L); lia|].
      assert (0 <= trunc A x < 2); [|lia]. apply (law_trunc _ _ _ L); auto.
      destruct (lt A x (ofZ A 2)) eqn:E2; auto. exfalso.
      pose proof (law_trans _ _ _ L _ _ _ E2 E1) as Q. rewrite (law_integers _ _ _ L) in Q. discriminate.
Qed.

Section C86.
Variable A : arith.
Variable im : bool.
Variable ps : list dtype.
Hypothesis LAW : number_laws (lt A) (ofZ A) (trunc A).
Hypothesis OPT : Forall has_options ps.
Local Notation d := (length ps).

Lemma HR86 p x y : In p ps -> check_parameter A im p x = Ok y -> in_range A p y.
Proof. intros I. apply check_in_range; auto. rewrite Forall_forall in OPT. auto. Qed.

(** C86: if the values of the first population are in their ranges then all proposed values are *)
Theorem pso_proposals_in_range c specimens velocity st x tr :
  specimens <> [] -> Forall (Forall2 (in_range A) ps) specimens ->
  length velocity = length specimens -> Forall (fun v => length v = d) velocity ->
  history (pso_gets A im ps c) (pso_evaluates A d c) d (pso_init A specimens velocity) st (Some x) tr ->
  Forall2 (in_range A) ps x.
Proof.
  intros N F L V H.
  pose proof (pso_history A im ps _ HR86 (laws_order _ _ _ LAW) c specimens velocity _ _ _ N F L V H) as K.
  apply (pi_pr _ _ _ _ _ _ K x eq_refl).
Qed.

Theorem de_proposals_in_range F CR specimens st x tr :
  specimens <> [] -> Forall (Forall2 (in_range A) ps) specimens ->
  history (de_gets A im ps F CR) (de_evaluates A) d (de_init A specimens) st (Some x) tr ->
  Forall2 (in_range A) ps x.
Proof.
  intros N FS H.
  pose proof (de_history A im ps _ HR86 (laws_order _ _ _ LAW) F CR specimens _ _ _ N FS H) as K.
  apply (di_pr _ _ _ _ _ _ K x eq_refl).
Qed.

Theorem soma_proposals_in_range c specimens st x tr :
  specimens <> [] -> Forall (Forall2 (in_range A) ps) specimens ->
  1 <= trunc A (div A (s_PATH A c) (s_STEP A c)) ->
  history (soma_gets A) (soma_evaluates A im ps c) d (soma_init A specimens) st (Some x) tr ->
  Forall2 (in_range A) ps x.
Proof.
  intros N FS J H. assert (J' : (1 <= Z.to_nat (trunc A (div A (s_PATH A c) (s_STEP A c))))%nat) by lia.
  pose proof (soma_history A im ps _ HR86 (laws_order _ _ _ LAW) c specimens st (Some x) tr N FS J' H) as K.
  apply (si_pr _ _ _ _ _ _ _ K x eq_refl).
Qed.

End C86.

(** a proposal of options and logical values in their ranges can be set: the option with the number
    of the value, FALSE for zero *)
Theorem proposal_is_set A ps x t : Forall2 (in_range A) ps x ->
  Forall (fun p => match p with OPTION n | ENUM_FLAGS n => n <= int_max | BOOL | FLOAT => True | _ => False end) ps ->
  exists ss, set_values A ps (x ++ t) 0 = Ok ss /\ length ss = length ps /\
    (forall i p v, nth_error ps i = Some p -> nth_error x i = Some v ->
       nth_error ss i = Some (match p with
                              | BOOL => SBool A (negb (trunc A v =? 0))
                              | FLOAT => SFloat A v
                              | _ => SOption A (Z.to_nat (trunc A v)) end)).
Proof.
  intros F B.
  assert (G : forall pre, exists ss, set_values A ps (pre ++ x ++ t) (length pre) = Ok ss /\ length ss = length ps /\
    (forall i p v, nth_error ps i = Some p -> nth_error x i = Some v ->
       nth_error ss i = Some (match p with
                              | BOOL => SBool A (negb (trunc A v =? 0))
                              | FLOAT => SFloat A v
                              | _ => SOption A (Z.to_nat (trunc A v)) end))).
  { induction F as [|p v ps x Rv F IH]; intros pre.
    - exists []. split; [reflexivity|]. split; [reflexivity|]. intros i; destruct i; discriminate.
    - inversion B as [|? ? Bp Bps]; subst. destruct (IH Bps (pre ++ [v])) as (ss & Es & Ls & Ns).
      rewrite <- app_assoc, app_length, Nat.add_1_r in Es. cbn [app] in Es.
      cbn [set_values app]. unfold rd at 1. rewrite nth_error_app2, Nat.sub_diag by lia. cbn [nth_error obind].
      assert (S0 : set_value A p v = Ok (match p with
                              | BOOL => SBool A (negb (trunc A v =? 0))
                              | FLOAT => SFloat A v
                              | _ => SOption A (Z.to_nat (trunc A v)) end)).
      { unfold set_value, to_int. destruct p; cbn [in_range] in *; try contradiction; auto.
        - replace ((int_min <=? trunc A v) && (trunc A v <=? int_max)) with true
            by (symmetry; apply andb_true_intro; split; apply Z.leb_le; unfold int_min; lia).
          cbn [obind]. replace ((0 <=? trunc A v) && (trunc A v <? n)) with true; auto.
          symmetry; apply andb_true_intro; split; [apply Z.leb_le|apply Z.ltb_lt]; lia.
        - replace ((int_min <=? trunc A v) && (trunc A v <=? int_max)) with true
            by (symmetry; apply andb_true_intro; split; apply Z.leb_le; unfold int_min; lia).
          cbn [obind]. replace ((0 <=? trunc A v) && (trunc A v <? n)) with true; auto.
          symmetry; apply andb_true_intro; split; [apply Z.leb_le|apply Z.ltb_lt]; lia.
        - replace ((int_min <=? trunc A v) && (trunc A v <=? int_max)) with true; auto.
          symmetry; apply andb_true_intro; split; apply Z.leb_le; unfold int_min, int_max; lia. }
      rewrite S0. cbn [obind]. rewrite Es. cbn [obind]. eexists. split; [reflexivity|].
      split; [simpl; now rewrite Ls|].
      intros [|i] q w Eq Ew; cbn [nth_error] in *; [injection Eq as <-; injection Ew as <-; reflexivity|eauto]. }
  apply (G []).
Qed.

(** the first population of integer parameters is generated outside of int *)
Theorem generated_integer_refuted A : number_laws (lt A) (ofZ A) (trunc A) ->
  forall g1 g2 r k, 2 ^ 31 <= g1 < 2 ^ 32 ->
  set_value A NONNEGATIVE_INTEGER (generate_value A NONNEGATIVE_INTEGER g1 g2 r k) = UB /\
  (g1 < g2 < 2 ^ 32 -> set_value A INTEGER (generate_value A INTEGER g1 g2 r k) = UB).
Proof.
  intros L g1 g2 r k B. unfold set_value, generate_value. rewrite !(law_exact _ _ _ L). unfold to_int. split.
  - replace (g1 <=? int_max) with false by (symmetry; apply Z.leb_gt; unfold int_max; lia).
    now rewrite andb_false_r.
  - intros B2. unfold wrap.
    replace ((g1 - g2) mod 2 ^ 64) with (g1 - g2 + 2 ^ 64).
    + replace (g1 - g2 + 2 ^ 64 <=? int_max) with false by (symmetry; apply Z.leb_gt; unfold int_max; lia).
      now rewrite andb_false_r.
    + apply (Z.mod_unique _ _ (-1)); lia.
Qed.

(** options and logical values are generated in their ranges *)
Theorem generated_in_range A p g1 g2 r k : number_laws (lt A) (ofZ A) (trunc A) ->
  match p with
  | OPTION n | ENUM_FLAGS n => 0 <= k < n
  | BOOL => 0 <= k <= 1
  | _ => 0 <= g1 < 2 ^ 32
  end -> in_range A p (generate_value A p g1 g2 r k).
Proof.
  intros L B. destruct p; cbn [in_range generate_value]; rewrite ?(law_exact _ _ _ L), ?(law_integers _ _ _ L); auto.
  - apply Z.ltb_ge. pose proof (Z.mod_pos_bound g1 (2 ^ 32 - 1)). lia.
  - apply Z.ltb_ge. lia.
Qed.

(** ** rational numbers satisfy the laws *)
Definition QA : arith :=
  {| num := Q; add := Qplus; sub := Qminus; mul := Qmult; div := Qdiv;
     lt := fun a b => negb (Qle_bool b a); ofZ := inject_Z;
     trunc := fun q => Z.quot (Qnum q) (Zpos (Qden q)) |}.

Lemma QA_lt a b : lt QA a b = false <-> (b <= a)%Q.
Proof. cbn. rewrite negb_false_iff. apply Qle_bool_iff. Qed.

Lemma QA_lt' a b : lt QA a b = true <-> (a < b)%Q.
Proof.
  cbn. rewrite negb_true_iff. split.
  - intros H. apply Qnot_le_lt. intros C. apply Qle_bool_iff in C. congruence.
  - intros H. apply not_true_iff_false. intros C. apply Qle_bool_iff in C. now apply Qlt_not_le in H.
Qed.

Example QA_laws : number_laws (lt QA) (ofZ QA) (trunc QA).
Proof.
  constructor.
  - intros a b H. apply QA_lt' in H. apply QA_lt. now apply Qlt_le_weak.
  - intros a b c H1 H2. apply QA_lt in H1, H2. apply QA_lt. eapply Qle_trans; eauto.
  - intros a b. destruct (Z.ltb_spec a b) as [H|H].
    + apply QA_lt'. rewrite Zlt_Qlt in H. exact H.
    + apply QA_lt. rewrite Zle_Qle in H. exact H.
  - intros z. cbn. apply Z.quot_1_r.
  - intros [n m] k H1 H2. apply QA_lt in H1. apply QA_lt' in H2. cbn in *.
    unfold Qle, Qlt in *. cbn in *. rewrite Z.mul_1_r in *.
    split; [apply Z.quot_pos; lia|]. apply Z.quot_lt_upper_bound; lia.
Qed.

Lemma QA_order : strict_weak_order (lt QA).
Proof. eapply laws_order. apply QA_laws. Qed.

(** SOMA: the first journey is better than everything but the best specimen does not know it yet *)
Definition ex_conf : soma_conf QA := Build_soma_conf QA (1#2)%Q 1%Q 2%Q.
Definition ex_rnd : nat -> nat -> Q := fun _ _ => 0%Q.

Theorem soma_best_refuted : exists st tr,
  history (soma_gets QA) (soma_evaluates QA false [FLOAT] ex_conf) 1
    (soma_init QA [[1%Q]; [2%Q]]) st None tr /\
  map snd tr = [5%Q; 4%Q; 1%Q] /\ s_best QA st = [2%Q; 4%Q] /\ ~ is_best (lt QA) tr (s_best QA st).
Proof.
  eexists. eexists. split; [|split; [|split]].
  - eapply history_evaluate with (v := 1%Q); [eapply history_get;
      [eapply history_evaluate with (v := 4%Q); [eapply history_get;
        [eapply history_evaluate with (v := 5%Q); [eapply history_get; [apply history_start|]|]|]|]|]|].
    + reflexivity.
    + exists ex_rnd. reflexivity.
    + reflexivity.
    + exists ex_rnd. vm_compute. reflexivity.
    + reflexivity.
    + exists ex_rnd. vm_compute. reflexivity.
  - reflexivity.
  - reflexivity.
  - cbn [s_best]. intros (c & v & I & E & M).
    assert (v = 4%Q) as ->.
    { change ([2%Q; 4%Q]) with ([2%Q] ++ [4%Q]) in E. apply app_inj_tail in E. symmetry. apply E. }
    assert (C : lt QA 1%Q 4%Q = false) by (eapply M; apply in_or_app; right; left; reflexivity).
    discriminate.
Qed.

(** histories of the other algorithms: two parameters, two specimens, five evaluations *)
Definition ex_pso_conf : pso_conf QA := Build_pso_conf QA 2%Q 2%Q (9#10)%Q (4#10)%Q 10.
Definition ex_ps : list dtype := [OPTION 3; FLOAT].

Example pso_ex : exists st tr,
  history (pso_gets QA false ex_ps ex_pso_conf) (pso_evaluates QA 2 ex_pso_conf) 2
    (pso_init QA [[1%Q; 5%Q]; [2%Q; 3%Q]] [[1#2; 1#3]; [0; 1#7]]%Q) st None tr /\
  map snd tr = [5; 7; 2]%Q /\ Forall (Forall2 (in_range QA) ex_ps) [[1%Q; 5%Q]; [2%Q; 3%Q]].
Proof.
  eexists. eexists. split; [|split].
  - eapply history_evaluate with (v := 2%Q); [eapply history_get;
      [eapply history_evaluate with (v := 7%Q); [eapply history_get;
        [eapply history_evaluate with (v := 5%Q); [eapply history_get; [apply history_start|]|]|]|]|]|].
    + exists (1#2)%Q, (1#3)%Q. reflexivity.
    + vm_compute. reflexivity.
    + exists (1#2)%Q, (1#3)%Q. vm_compute. reflexivity.
    + vm_compute. reflexivity.
    + exists (1#2)%Q, (1#3)%Q. vm_compute. reflexivity.
    + vm_compute. reflexivity.
  - reflexivity.
  - repeat constructor; cbn; lia.
Qed.

Example de_ex : exists st tr,
  history (de_gets QA false ex_ps (1#2)%Q (1#2)%Q) (de_evaluates QA) 2
    (de_init QA [[1%Q; 5%Q]; [2%Q; 3%Q]]) st None tr /\
  map snd tr = [5; 7; 2]%Q.
Proof.
  eexists. eexists. split.
  - eapply history_evaluate with (v := 2%Q); [eapply history_get;
      [eapply history_evaluate with (v := 7%Q); [eapply history_get;
        [eapply history_evaluate with (v := 5%Q); [eapply history_get; [apply history_start|]|]|]|]|]|].
    + exists 0%nat, 1%nat, 0%nat, 0%nat, (1#3)%Q. reflexivity.
    + vm_compute. reflexivity.
    + exists 0%nat, 1%nat, 0%nat, 0%nat, (1#3)%Q. vm_compute. reflexivity.
    + vm_compute. reflexivity.
    + exists 0%nat, 1%nat, 0%nat, 0%nat, (1#3)%Q. vm_compute. reflexivity.
    + vm_compute. reflexivity.
  - reflexivity.
Qed.

Print Assumptions pso_best_is_minimum.
Print Assumptions de_best_is_minimum.
Print Assumptions soma_best_is_minimum.
Print Assumptions pso_search_defined.
Print Assumptions de_search_defined.
Print Assumptions soma_search_defined.
Print Assumptions pso_proposals_in_range.
Print Assumptions de_proposals_in_range.
Print Assumptions soma_proposals_in_range.
Print Assumptions proposal_is_set.
Print Assumptions generated_integer_refuted.
Print Assumptions generated_in_range.
Print Assumptions soma_best_refuted.
