(** * Invariants of the search algorithms *)
From Coq Require Import ZArith List Bool Lia.
From Verif Require Import Base S_Order M_Evolution S_Evolution.
Import ListNotations.

Lemma firstn_upd_S {B} (l : list B) i x : (i < length l)%nat -> firstn (S i) (upd l i x) = firstn i l ++ [x].
Proof. revert i; induction l; destruct i; simpl; intros; try lia; auto. f_equal. apply IHl. lia. Qed.

Lemma skipn_upd {B} (l : list B) i n x : (i < n)%nat -> skipn n (upd l i x) = skipn n l.
Proof. revert i n; induction l; destruct i, n; simpl; intros; try lia; auto. apply IHl. lia. Qed.

Lemma foldM_keeps {S B} (f : S -> B -> outcome S) (P : S -> Prop) l s s' :
  (forall s a s', P s -> f s a = Ok s' -> P s') -> P s -> foldM f l s = Ok s' -> P s'.
Proof.
  intros H. revert s. induction l as [|a l IH]; cbn [foldM]; intros s HP E.
  - congruence.
  - destruct (f s a) eqn:F; cbn [obind] in E; try discriminate. eauto.
Qed.

Lemma foldM_runs {S B} (f : S -> B -> outcome S) (P : S -> Prop) l s :
  (forall s a, P s -> In a l -> exists s', f s a = Ok s' /\ P s') -> P s ->
  exists s', foldM f l s = Ok s' /\ P s'.
Proof.
  revert s. induction l as [|a l IH]; cbn [foldM]; intros s H HP; [eauto|].
  destruct (H s a HP) as (s' & -> & HP'); [simpl; auto|]. cbn [obind].
  apply IH; auto. intros; apply H; simpl; auto.
Qed.

Lemma upd_Forall {B} (P : B -> Prop) l i x : Forall P l -> P x -> Forall P (upd l i x).
Proof. intros F Px. revert i. induction F; destruct i; simpl; auto. Qed.

Lemma nth_error_Forall {B} (P : B -> Prop) l i x : Forall P l -> nth_error l i = Some x -> P x.
Proof. intros F E. apply nth_error_In in E. rewrite Forall_forall in F. auto. Qed.

Lemma rd_some {B} (l : list B) i x : nth_error l i = Some x -> rd l i = Ok x.
Proof. intros E. unfold rd. now rewrite E. Qed.

Lemma nth_lt {B} (l : list B) i x : nth_error l i = Some x -> (i < length l)%nat.
Proof. intros E. apply nth_error_Some. congruence. Qed.

Lemma upd_snoc_last {B} (c : list B) x y n : length c = n -> upd (c ++ [x]) n y = c ++ [y].
Proof. intros <-. induction c; simpl; auto. now f_equal. Qed.

Lemma nth_error_snoc {B} (c : list B) x n : length c = n -> nth_error (c ++ [x]) n = Some x.
Proof. intros <-. rewrite nth_error_app2, Nat.sub_diag by lia. reflexivity. Qed.

Lemma firstn_exact {B} (c t : list B) n : length c = n -> firstn n (c ++ t) = c.
Proof. intros <-. now rewrite firstn_app, Nat.sub_diag, firstn_all, firstn_O, app_nil_r. Qed.

Lemma in_combine_seq {B} (ps : list B) b n i p : In (i, p) (combine (seq b n) ps) -> (b <= i < b + n)%nat /\ In p ps.
Proof.
  intros I. split; [apply in_combine_l in I; apply in_seq in I; auto|eapply in_combine_r; eauto].
Qed.

Lemma F2length {B C} (Q : B -> C -> Prop) l l' : Forall2 Q l l' -> length l = length l'.
Proof. induction 1; simpl; auto. Qed.

Section Algo.
Variable A : arith.
Variable im : bool.
Variable ps : list dtype.
Variable R : dtype -> num A -> Prop.
Hypothesis HR : forall p x y, In p ps -> check_parameter A im p x = Ok y -> R p y.
Hypothesis SW : strict_weak_order (lt A).
Local Notation T := (num A).
Local Notation d := (length ps).

Lemma fill_loop {S} (f : S -> nat * dtype -> outcome S) (view : S -> list T) qs b s s' :
  incl qs ps ->
  (forall s i p s', In p ps -> f s (i, p) = Ok s' ->
     exists x, R p x /\ (i < length (view s))%nat /\ view s' = upd (view s) i x) ->
  foldM f (combine (seq b (length qs)) qs) s = Ok s' ->
  exists c, Forall2 R qs c /\ view s' = firstn b (view s) ++ c ++ skipn (b + length qs) (view s).
Proof.
  intros I H. revert b s I. induction qs as [|q qs IH]; intros b s I E.
  - cbn [length seq combine foldM] in E. injection E as <-. exists []. split; auto.
    cbn [app length]. rewrite Nat.add_0_r. symmetry. apply firstn_skipn.
  - cbn [length seq combine foldM] in E.
    destruct (f s (b, q)) as [s1| |] eqn:F; cbn [obind] in E; try discriminate.
    destruct (H s b q s1) as (x & Rx & Lx & Vx); auto; [apply I; simpl; auto|].
    apply IH in E; [|intros y Hy; apply I; simpl; auto]. destruct E as (c & Fc & V).
    exists (x :: c). split; auto. rewrite V, Vx, firstn_upd_S by exact Lx. rewrite skipn_upd by lia.
    rewrite <- app_assoc. cbn [app length]. do 3 f_equal. replace (b + Datatypes.S (length qs))%nat with (Datatypes.S b + length qs)%nat by lia. reflexivity.
Qed.

Lemma F2len c : Forall2 R ps c -> length c = d.
Proof. intros F. symmetry. eapply F2length; eauto. Qed.

Lemma back_snoc (c : list T) v : back A (c ++ [v]) = Ok v.
Proof.
  unfold back. rewrite app_length, Nat.add_sub. apply rd_some. now apply nth_error_snoc.
Qed.

(** ** the best specimen *)
Definition good (tr : list (list T * T)) (b : list T) : Prop := exists c v, In (c, v) tr /\ b = c ++ [v].
Definition trok (tr : list (list T * T)) : Prop := Forall (fun e => Forall2 R ps (fst e)) tr.

Lemma lt_irrefl x : lt A x x = false.
Proof. destruct (lt A x x) eqn:E; auto. rewrite (swo_asym _ SW _ _ E) in E. discriminate. Qed.

Lemma best_one c v : is_best (lt A) [(c, v)] (c ++ [v]).
Proof.
  exists c, v. repeat split; simpl; auto. intros c' v' [E|[]]. injection E as <- <-. apply lt_irrefl.
Qed.

Lemma best_value tr b : is_best (lt A) tr b ->
  exists v, back A b = Ok v /\ (forall c' v', In (c', v') tr -> lt A v' v = false).
Proof. intros (c & v & I & -> & M). exists v. split; auto. apply back_snoc. Qed.

Lemma best_new tr b g c v : is_best (lt A) tr b -> back A b = Ok g -> lt A v g = true ->
  is_best (lt A) (tr ++ [(c, v)]) (c ++ [v]).
Proof.
  intros (c0 & v0 & I & -> & M) Eb L. rewrite back_snoc in Eb. injection Eb as ->.
  exists c, v. split; [apply in_or_app; simpl; auto|]. split; auto.
  intros c' v' I'. apply in_app_or in I'. destruct I' as [I'|[E|[]]].
  - specialize (M _ _ I'). apply (swo_le_trans _ SW v g v'); auto.
    unfold le_of. now apply (swo_asym _ SW).
  - injection E as <- <-. apply lt_irrefl.
Qed.

Lemma best_old tr b g c v : is_best (lt A) tr b -> back A b = Ok g -> lt A v g = false ->
  is_best (lt A) (tr ++ [(c, v)]) b.
Proof.
  intros (c0 & v0 & I & -> & M) Eb L. rewrite back_snoc in Eb. injection Eb as ->.
  exists c0, g. split; [apply in_or_app; auto|]. split; auto.
  intros c' v' I'. apply in_app_or in I'. destruct I' as [I'|[E|[]]]; eauto. injection E as <- <-. auto.
Qed.

Lemma best_good tr b : is_best (lt A) tr b -> good tr b.
Proof. intros (c & v & I & E & _). exists c, v. auto. Qed.

Lemma good_more tr e b : good tr b -> good (tr ++ e) b.
Proof. intros (c & v & I & E). exists c, v. split; auto. apply in_or_app; auto. Qed.

Lemma good_last tr c v : good (tr ++ [(c, v)]) (c ++ [v]).
Proof. exists c, v. split; auto. apply in_or_app; simpl; auto. Qed.

Lemma good_more_all tr e l : Forall (good tr) l -> Forall (good (tr ++ e)) l.
Proof. intros F. eapply Forall_impl; [|exact F]. intros; now apply good_more. Qed.

(** the update of the best specimen while the first population is evaluated *)
Lemma best_init tr b c v :
  (tr = [] -> b = []) -> (tr <> [] -> is_best (lt A) tr b) ->
  let b0 := match b with [] => c ++ [v] | n :: l => n :: l end in
  exists g, back A b0 = Ok g /\
    is_best (lt A) (tr ++ [(c, v)]) (if lt A v g then c ++ [v] else b0).
Proof.
  intros E N b0. destruct tr as [|e tr].
  - specialize (E eq_refl). subst b. cbn in b0. subst b0. exists v. split; [apply back_snoc|].
    rewrite lt_irrefl. apply best_one.
  - assert (B : is_best (lt A) (e :: tr) b) by (apply N; discriminate).
    assert (b0 = b) as -> by (destruct B as (c1 & v1 & _ & -> & _); unfold b0; destruct c1; reflexivity).
    destruct (best_value _ _ B) as (g & Eg & _). exists g. split; auto.
    destruct (lt A v g) eqn:L; [eapply best_new; eauto|eapply best_old; eauto].
Qed.

(** a specimen with a value at the end *)
Definition full (s : list T) : Prop := exists c v, s = c ++ [v] /\ Forall2 R ps c.

Lemma good_full tr b : trok tr -> good tr b -> full b.
Proof.
  intros K (c & v & I & ->). exists c, v. split; auto. unfold trok in K. rewrite Forall_forall in K.
  apply (K _ I).
Qed.

Lemma trok_snoc tr c v : trok tr -> Forall2 R ps c -> trok (tr ++ [(c, v)]).
Proof. intros K F. apply Forall_app. split; auto. Qed.

(** ** the first population: [i < current] were evaluated *)
Definition phase1 (ss : list (list T)) (current : nat) (tr : list (list T * T)) : Prop :=
  (forall i, i < current -> exists s, nth_error ss i = Some s /\ good tr s)%nat /\
  (forall i, current <= i < length ss -> exists c, nth_error ss i = Some c /\ Forall2 R ps c)%nat.

Lemma phase1_step ss current tr c v : phase1 ss current tr -> nth_error ss current = Some c ->
  phase1 (upd ss current (c ++ [v])) (S current) (tr ++ [(c, v)]).
Proof.
  intros [P Q] E. split.
  - intros i L. destruct (Nat.eq_dec i current) as [->|N].
    + rewrite nth_error_upd_eq by (eapply nth_lt; eauto). eexists. split; eauto. apply good_last.
    + rewrite nth_error_upd_neq by lia. destruct (P i) as (s & Es & G); [lia|].
      exists s. split; auto. now apply good_more.
  - rewrite upd_length. intros i L. rewrite nth_error_upd_neq by lia. apply Q. lia.
Qed.

Lemma phase1_done ss tr : phase1 ss (length ss) tr -> Forall (good tr) ss.
Proof.
  intros [P _]. apply Forall_forall. intros s I. apply In_nth_error in I. destruct I as [i E].
  destruct (P i) as (s' & E' & G); [eapply nth_lt; eauto|]. congruence.
Qed.

(** ** PSO *)
Record pso_inv (st : pso A) (pr : option (list T)) (tr : list (list T * T)) : Prop := {
  pi_tr : trok tr;
  pi_cur : (p_current A st < length (p_specimens A st))%nat;
  pi_pr : forall c, pr = Some c -> Forall2 R ps c /\
    exists t, nth_error (p_specimens A st) (p_current A st) = Some (c ++ t);
  pi_empty : tr = [] -> p_gbest A st = [];
  pi_best : tr <> [] -> is_best (lt A) tr (p_gbest A st);
  pi_pbest : Forall (good tr) (p_best A st);
  pi_vel : length (p_velocity A st) = length (p_specimens A st) /\
           Forall (fun v => length v = d) (p_velocity A st);
  pi_phase :
    if p_initializing A st
    then length (p_best A st) = p_current A st /\ phase1 (p_specimens A st) (p_current A st) tr
    else tr <> [] /\ length (p_best A st) = length (p_specimens A st) /\
         Forall full (p_specimens A st) }.

Lemma pso_start specimens velocity :
  specimens <> [] -> Forall (Forall2 R ps) specimens ->
  length velocity = length specimens -> Forall (fun v => length v = d) velocity ->
  pso_inv (pso_init A specimens velocity) None [].
Proof.
  intros N F Lv Fv. constructor; cbn; auto; try discriminate; try congruence.
  - constructor.
  - destruct specimens; simpl; [congruence|lia].
  - split; auto. split; [lia|]. intros i L.
    destruct (nth_error specimens i) as [c|] eqn:E; [|apply nth_error_None in E; lia].
    exists c. split; auto. eapply nth_error_Forall; eauto.
Qed.

Lemma pso_move_view c w pb gb r1 r2 sv i p sv' :
  In p ps -> pso_move A im c w pb gb r1 r2 sv (i, p) = Ok sv' ->
  exists x, R p x /\ (i < length (fst sv))%nat /\ fst sv' = upd (fst sv) i x.
Proof.
  intros Ip. destruct sv as [s v]. unfold pso_move.
  destruct (rd v i); cbn [obind]; try discriminate.
  destruct (rd pb i); cbn [obind]; try discriminate.
  destruct (rd gb i); cbn [obind]; try discriminate.
  destruct (rd s i) as [x| |] eqn:Ex; cbn [obind]; try discriminate.
  destruct (wr v i _) as [v'| |]; cbn [obind]; try discriminate.
  destruct (check_parameter _ _ _ _) as [x'| |] eqn:Ec; cbn [obind]; try discriminate.
  destruct (wr s i x') as [s'| |] eqn:Es; cbn [obind]; try discriminate.
  intros E. injection E as <-. apply wr_inv in Es. destruct Es as [L ->].
  exists x'. cbn [fst]. split; [eapply HR; eauto|auto].
Qed.

Lemma pso_move_vel c w pb gb r1 r2 sv a sv' :
  length (snd sv) = d -> pso_move A im c w pb gb r1 r2 sv a = Ok sv' -> length (snd sv') = d.
Proof.
  intros L. destruct sv as [s v], a as [i p]. unfold pso_move.
  destruct (rd v i); cbn [obind]; try discriminate.
  destruct (rd pb i); cbn [obind]; try discriminate.
  destruct (rd gb i); cbn [obind]; try discriminate.
  destruct (rd s i) as [x| |] eqn:Ex; cbn [obind]; try discriminate.
  destruct (wr v i _) as [v'| |] eqn:Ev; cbn [obind]; try discriminate.
  destruct (check_parameter _ _ _ _) as [x'| |] eqn:Ec; cbn [obind]; try discriminate.
  destruct (wr s i x') as [s'| |] eqn:Es; cbn [obind]; try discriminate.
  intros E. injection E as <-. apply wr_inv in Ev. destruct Ev as [_ ->].
  cbn [snd] in *. now rewrite upd_length.
Qed.

Lemma full_nth ss i : Forall full ss -> (i < length ss)%nat -> exists c v, nth_error ss i = Some (c ++ [v]) /\ Forall2 R ps c.
Proof.
  intros F L. destruct (nth_error ss i) as [s|] eqn:E; [|apply nth_error_None in E; lia].
  destruct (nth_error_Forall _ _ _ _ F E) as (c & v & -> & Fc). eauto.
Qed.

Lemma pso_get_inv c r1 r2 st pr tr x st' :
  pso_inv st pr tr -> pso_get A im ps c r1 r2 st = Ok (x, st') ->
  pso_inv st' (Some (firstn d x)) tr.
Proof.
  intros [Ktr Kcur Kpr Ke Kb Kp Kv Kph] E. unfold pso_get in E.
  destruct (p_initializing A st) eqn:I.
  - destruct Kph as [K1 [K2 K3]].
    destruct (K3 (p_current A st)) as (s & Es & Fs); [lia|]. rewrite (rd_some _ _ _ Es) in E. cbn [obind] in E.
    injection E as <- <-.
    assert (firstn d s = s) as Ef by (rewrite <- (F2len _ Fs); apply firstn_all).
    constructor; auto.
    + intros c0 Ec. injection Ec as <-. rewrite Ef. split; auto. exists []. now rewrite app_nil_r.
    + rewrite I. split; auto. split; auto.
  - destruct Kph as [K1 [K2 K3]]. destruct Kv as [Kv1 Kv2].
    destruct (full_nth _ _ K3 Kcur) as (s & v & Es & Fs).
    rewrite (rd_some _ _ _ Es) in E. cbn [obind] in E.
    destruct (rd (p_velocity A st) (p_current A st)) as [ve| |] eqn:Eve; cbn [obind] in E; try discriminate.
    destruct (rd (p_best A st) (p_current A st)) as [pb| |] eqn:Epb; cbn [obind] in E; try discriminate.
    destruct (foldM _ _ _) as [[s' v']| |] eqn:Ef; cbn [obind] in E; try discriminate.
    rewrite wr_ok in E by auto. cbn [obind] in E.
    rewrite wr_ok in E by lia. cbn [obind] in E. injection E as <- <-.
    pose proof Ef as Ef2.
    apply (fill_loop _ fst) in Ef; [|apply incl_refl|intros; eapply pso_move_view; eauto].
    destruct Ef as (c' & Fc & V). cbn [fst firstn app] in V.
    replace (0 + d)%nat with d in V by lia.
    rewrite <- (F2len _ Fs), skipn_app, skipn_all, Nat.sub_diag in V. cbn [app skipn] in V. subst s'.
    apply (foldM_keeps _ (fun sv => length (snd sv) = d)) in Ef2; cbn [snd] in *.
    2: intros; eapply pso_move_vel; eauto.
    2: { apply rd_inv in Eve. apply (nth_error_Forall _ _ _ _ Kv2 Eve). }
    constructor; cbn; auto.
    + now rewrite upd_length.
    + intros c0 Ec. injection Ec as <-. rewrite firstn_exact by (now apply F2len). split; auto.
      exists [v]. now apply nth_error_upd_eq.
    + rewrite !upd_length. split; auto. now apply upd_Forall.
    + split; auto. split; [now rewrite upd_length|]. apply upd_Forall; auto. exists c', v. auto.
Qed.

Lemma pso_get_runs c r1 r2 st pr tr : im = false ->
  pso_inv st pr tr -> exists x st', pso_get A im ps c r1 r2 st = Ok (x, st').
Proof.
  intros Him [Ktr Kcur Kpr Ke Kb Kp Kv Kph]. unfold pso_get.
  destruct (p_initializing A st) eqn:I.
  - destruct Kph as [K1 [K2 K3]].
    destruct (K3 (p_current A st)) as (s & Es & Fs); [lia|]. rewrite (rd_some _ _ _ Es). cbn [obind]. eauto.
  - destruct Kph as [K1 [K2 K3]]. destruct Kv as [Kv1 Kv2].
    destruct (full_nth _ _ K3 Kcur) as (s & v & Es & Fs).
    rewrite (rd_some _ _ _ Es). cbn [obind].
    destruct (nth_error (p_velocity A st) (p_current A st)) as [ve|] eqn:Eve; [|apply nth_error_None in Eve; lia].
    destruct (nth_error (p_best A st) (p_current A st)) as [pb|] eqn:Epb; [|apply nth_error_None in Epb; lia].
    rewrite (rd_some _ _ _ Eve), (rd_some _ _ _ Epb). cbn [obind].
    pose proof (nth_error_Forall _ _ _ _ Kv2 Eve) as Lve. cbn beta in Lve.
    pose proof (good_full _ _ Ktr (nth_error_Forall _ _ _ _ Kp Epb)) as (cb & vb & -> & Fb).
    pose proof (good_full _ _ Ktr (best_good _ _ (Kb K1))) as (cg & vg & Eg & Fg). rewrite Eg.
    destruct (foldM_runs (pso_move A im c (p_w A st) (cb ++ [vb]) (cg ++ [vg]) r1 r2)
       (fun sv => length (fst sv) = S d /\ length (snd sv) = d)
       (combine (seq 0 d) ps) (s ++ [v], ve)) as ([s' v'] & E & Ls & Lv).
    + intros [s1 v1] [i p] [L1 L2] Hi. apply in_combine_seq in Hi. destruct Hi as [Hi _]. cbn [fst snd] in *.
      unfold pso_move. rewrite (rd_ok v1 i (ofZ A 0)) by lia. cbn [obind].
      rewrite (rd_ok (cb ++ [vb]) i (ofZ A 0)) by (rewrite app_length, (F2len _ Fb); lia). cbn [obind].
      rewrite (rd_ok (cg ++ [vg]) i (ofZ A 0)) by (rewrite app_length, (F2len _ Fg); lia). cbn [obind].
      rewrite (rd_ok s1 i (ofZ A 0)) by lia. cbn [obind].
      rewrite wr_ok by lia. cbn [obind]. rewrite Him. unfold check_parameter. cbn [obind].
      rewrite wr_ok by lia. cbn [obind]. eexists. split; [reflexivity|]. cbn [fst snd]. rewrite !upd_length. auto.
    + cbn [fst snd]. rewrite app_length, (F2len _ Fs). simpl. lia.
    + rewrite E. cbn [obind]. rewrite wr_ok by auto. cbn [obind]. rewrite wr_ok by lia. cbn [obind]. eauto.
Qed.

Lemma pso_evaluate_inv c v st x tr :
  pso_inv st (Some x) tr ->
  exists st', pso_evaluate A d c v st = Ok st' /\ pso_inv st' None (tr ++ [(x, v)]).
Proof.
  intros [Ktr Kcur Kpr Ke Kb Kp [Kv1 Kv2] Kph]. destruct (Kpr x eq_refl) as [Fx (t & Et)].
  assert (NE : tr ++ [(x, v)] <> []) by (destruct tr; discriminate).
  unfold pso_evaluate. destruct (p_initializing A st) eqn:I.
  - destruct Kph as [K1 K2]. pose proof K2 as [_ K3].
    destruct (K3 (p_current A st)) as (s & Es & Fs); [lia|].
    assert (s = x) as ->.
    { rewrite Es in Et. injection Et as ->. apply F2len in Fs. rewrite app_length, (F2len _ Fx) in Fs.
      destruct t; [apply app_nil_r|simpl in Fs; lia]. }
    unfold pso_evaluate_init. rewrite (rd_some _ _ _ Es). cbn [obind]. cbv zeta.
    rewrite wr_ok by auto. cbn [obind].
    destruct (best_init tr (p_gbest A st) x v Ke Kb) as (g & Eg & Bg). cbv zeta in Eg, Bg.
    rewrite Eg. cbn [obind]. eexists. split; [reflexivity|]. rewrite upd_length.
    destruct (Nat.eqb_spec (S (p_current A st)) (length (p_specimens A st))) as [D|D];
      (constructor; cbn; [now apply trok_snoc| | |congruence|auto| |auto|]).
    all: try (rewrite upd_length; lia).
    all: try discriminate.
    all: try (apply Forall_app; split; [now apply good_more_all|constructor; [apply good_last|constructor]]).
    all: rewrite ?upd_length; auto.
    + split; [destruct tr; discriminate|]. split; [rewrite app_length; simpl; lia|].
      pose proof (phase1_step _ _ _ _ v K2 Es) as P. rewrite D in P.
      rewrite <- (upd_length (p_specimens A st) (p_current A st) (x ++ [v])) in P.
      apply phase1_done in P. eapply Forall_impl; [|exact P]. intros s G.
      eapply good_full; [|exact G]. now apply trok_snoc.
    + split; [rewrite app_length; simpl; lia|]. now apply phase1_step.
  - destruct Kph as [K1 [K2 K3]].
    destruct (full_nth _ _ K3 Kcur) as (s & v0 & Es & Fs).
    assert (s = x /\ t = [v0]) as [-> ->].
    { rewrite Es in Et. injection Et as Et. apply (f_equal (firstn d)) in Et as Et1.
      rewrite !firstn_exact in Et1 by (now apply F2len). subst. apply app_inv_head in Et. auto. }
    unfold pso_evaluate_next. rewrite (rd_some _ _ _ Es). cbn [obind].
    rewrite wr_ok by (rewrite app_length, (F2len _ Fx); simpl; lia). cbn [obind].
    rewrite upd_snoc_last by (now apply F2len).
    rewrite wr_ok by auto. cbn [obind].
    rewrite (rd_some _ _ _ (nth_error_snoc x v d (F2len _ Fx))). cbn [obind].
    destruct (nth_error (p_best A st) (p_current A st)) as [pb|] eqn:Epb; [|apply nth_error_None in Epb; lia].
    rewrite (rd_some _ _ _ Epb). cbn [obind].
    pose proof (nth_error_Forall _ _ _ _ Kp Epb) as (cb & vb & Ib & Eb). subst pb.
    rewrite back_snoc. cbn [obind].
    pose proof (Kb K1) as B. destruct (best_value _ _ B) as (g & Eg & Mg).
    assert (Q : exists pbs pb b,
        (if lt A v vb then wr (p_best A st) (p_current A st) (x ++ [v]) else Ok (p_best A st)) = Ok pbs /\
        rd pbs (p_current A st) = Ok pb /\ back A pb = Ok b /\
        Forall (good (tr ++ [(x, v)])) pbs /\ length pbs = length (p_best A st) /\
        is_best (lt A) (tr ++ [(x, v)]) (if lt A b g then pb else p_gbest A st)).
    { destruct (lt A v vb) eqn:L.
      - rewrite wr_ok by lia. exists (upd (p_best A st) (p_current A st) (x ++ [v])), (x ++ [v]), v.
        split; [reflexivity|]. split; [apply rd_some, nth_error_upd_eq; lia|].
        split; [apply back_snoc|]. split; [apply upd_Forall; [now apply good_more_all|apply good_last]|].
        split; [apply upd_length|].
        destruct (lt A v g) eqn:L2; [eapply best_new; eauto|eapply best_old; eauto].
      - exists (p_best A st), (cb ++ [vb]), vb. split; [reflexivity|].
        split; [now apply rd_some|]. split; [apply back_snoc|].
        split; [now apply good_more_all|]. split; auto.
        rewrite (Mg _ _ Ib). eapply best_old; eauto.
        apply (swo_le_trans _ SW g vb v); auto. unfold le_of. eauto. }
    destruct Q as (pbs & pb & b & -> & Er & Ebk & Fp & Lp & Bn). cbn [obind].
    rewrite Er. cbn [obind]. rewrite Ebk. cbn [obind]. rewrite Eg. cbn [obind]. cbv zeta.
    eexists. split; [reflexivity|]. rewrite upd_length.
    assert (FS : Forall full (upd (p_specimens A st) (p_current A st) (x ++ [v])))
      by (apply upd_Forall; auto; exists x, v; auto).
    destruct (Nat.eqb_spec (S (p_current A st)) (length (p_specimens A st)));
      (constructor; cbn; [now apply trok_snoc|rewrite upd_length; lia|discriminate|congruence|auto|auto
                         |rewrite upd_length; auto|rewrite upd_length; split; auto; split; auto; lia]).
Qed.

(** ** DE *)
Record de_inv (st : de A) (pr : option (list T)) (tr : list (list T * T)) : Prop := {
  di_tr : trok tr;
  di_cur : (d_current A st < length (d_specimens A st))%nat;
  di_pr : forall c, pr = Some c -> Forall2 R ps c /\
    if d_initializing A st then nth_error (d_specimens A st) (d_current A st) = Some c
    else d_trial A st = c;
  di_empty : tr = [] -> d_best A st = [];
  di_best : tr <> [] -> is_best (lt A) tr (d_best A st);
  di_phase :
    if d_initializing A st
    then d_new A st = [] /\ phase1 (d_specimens A st) (d_current A st) tr
    else tr <> [] /\ length (d_new A st) = d_current A st /\
         Forall (good tr) (d_specimens A st) /\ Forall (good tr) (d_new A st) }.

Lemma de_start specimens :
  specimens <> [] -> Forall (Forall2 R ps) specimens -> de_inv (de_init A specimens) None [].
Proof.
  intros N F. constructor; cbn; auto; try discriminate; try congruence.
  - constructor.
  - destruct specimens; simpl; [congruence|lia].
  - split; auto. split; [lia|]. intros i L.
    destruct (nth_error specimens i) as [c|] eqn:E; [|apply nth_error_None in E; lia].
    exists c. split; auto. eapply nth_error_Forall; eauto.
Qed.

Lemma good_nth tr ss i : trok tr -> Forall (good tr) ss -> (i < length ss)%nat ->
  exists c v, nth_error ss i = Some (c ++ [v]) /\ Forall2 R ps c /\ In (c, v) tr.
Proof.
  intros K F L. destruct (nth_error ss i) as [s|] eqn:E; [|apply nth_error_None in E; lia].
  destruct (nth_error_Forall _ _ _ _ F E) as (c & v & I & ->). exists c, v. split; auto. split; auto.
  unfold trok in K. rewrite Forall_forall in K. apply (K _ I).
Qed.

Lemma de_mutate_view F x y z l i p l' :
  In p ps -> de_mutate A im F x y z l (i, p) = Ok l' ->
  exists v, R p v /\ (i < length l)%nat /\ l' = upd l i v.
Proof.
  intros Ip. unfold de_mutate.
  destruct (rd x i); cbn [obind]; try discriminate.
  destruct (rd y i); cbn [obind]; try discriminate.
  destruct (rd z i); cbn [obind]; try discriminate.
  destruct (check_parameter _ _ _ _) as [v| |] eqn:Ec; cbn [obind]; try discriminate.
  intros E. apply wr_inv in E. destruct E as [L ->]. exists v. split; [eapply HR; eauto|auto].
Qed.

Lemma F2_nth (ts : list dtype) (c : list T) k x : Forall2 R ts c -> nth_error c k = Some x ->
  exists p, nth_error ts k = Some p /\ R p x.
Proof.
  intros F. revert k. induction F; intros [|k] E; simpl in *; try discriminate.
  - injection E as <-. eauto.
  - auto.
Qed.

Lemma F2_upd (ts : list dtype) (c : list T) k p x : Forall2 R ts c -> nth_error ts k = Some p -> R p x -> Forall2 R ts (upd c k x).
Proof.
  intros F. revert k. induction F; intros [|k] E Rx; simpl in *; try discriminate.
  - injection E as ->. auto.
  - constructor; eauto.
Qed.

Lemma de_get_inv F CR k1 k2 k3 k r st pr tr x st' :
  de_inv st pr tr -> de_get A im ps F CR k1 k2 k3 k r st = Ok (x, st') ->
  de_inv st' (Some (firstn d x)) tr.
Proof.
  intros [Ktr Kcur Kpr Ke Kb Kph] E. unfold de_get in E.
  destruct (d_initializing A st) eqn:I.
  - destruct Kph as [K1 [K2 K3]].
    destruct (K3 (d_current A st)) as (s & Es & Fs); [lia|]. rewrite (rd_some _ _ _ Es) in E. cbn [obind] in E.
    injection E as <- <-.
    assert (firstn d s = s) as Ef by (rewrite <- (F2len _ Fs); apply firstn_all).
    constructor; auto.
    + intros c0 Ec. injection Ec as <-. rewrite Ef, I. auto.
    + rewrite I. split; auto. split; auto.
  - destruct Kph as [K1 [K2 [K3 K4]]].
    destruct (good_nth _ _ _ Ktr K3 Kcur) as (s & v & Es & Fs & _).
    rewrite (rd_some _ _ _ Es) in E. cbn [obind] in E.
    destruct (rd (d_specimens A st) k1) as [x1| |]; cbn [obind] in E; try discriminate.
    destruct (rd (d_specimens A st) k2) as [x2| |]; cbn [obind] in E; try discriminate.
    destruct (rd (d_specimens A st) k3) as [x3| |]; cbn [obind] in E; try discriminate.
    destruct (foldM _ _ _) as [noisy| |] eqn:Ef; cbn [obind] in E; try discriminate.
    apply (fill_loop _ (fun l => l)) in Ef; [|apply incl_refl|intros; eapply de_mutate_view; eauto].
    destruct Ef as (c' & Fc & V). cbn [firstn app] in V.
    rewrite skipn_all2, app_nil_r in V by (rewrite repeat_length; lia). subst noisy.
    destruct (rd c' k) as [tk| |] eqn:Etk; cbn [obind] in E; try discriminate.
    destruct (rd (s ++ [v]) k) as [ck| |] eqn:Eck; cbn [obind] in E; try discriminate.
    apply rd_inv in Etk. apply rd_inv in Eck.
    pose proof (nth_lt _ _ _ Etk) as Lk.
    rewrite wr_ok in E by auto. cbn [obind] in E. injection E as <- <-.
    rewrite nth_error_app1 in Eck by (rewrite (F2len _ Fs), <- (F2len _ Fc); auto).
    assert (FT : Forall2 R ps (upd c' k (if lt A r CR then tk else ck))).
    { destruct (F2_nth _ _ _ _ Fc Etk) as (p & Ep & Rt).
      destruct (F2_nth _ _ _ _ Fs Eck) as (p' & Ep' & Rc).
      rewrite Ep in Ep'. injection Ep' as <-. eapply F2_upd; eauto. destruct (lt A r CR); auto. }
    assert (firstn d (upd c' k (if lt A r CR then tk else ck)) = upd c' k (if lt A r CR then tk else ck)) as ->
      by (rewrite <- (F2len _ FT); apply firstn_all).
    constructor; cbn; auto.
    intros c0 Ec. injection Ec as <-. auto.
Qed.

Lemma de_get_runs F CR k1 k2 k3 k r st pr tr : im = false ->
  (k1 < length (d_specimens A st))%nat -> (k2 < length (d_specimens A st))%nat ->
  (k3 < length (d_specimens A st))%nat -> (k < d)%nat ->
  de_inv st pr tr -> exists x st', de_get A im ps F CR k1 k2 k3 k r st = Ok (x, st').
Proof.
  intros Him L1 L2 L3 L [Ktr Kcur Kpr Ke Kb Kph]. unfold de_get.
  destruct (d_initializing A st) eqn:I.
  - destruct Kph as [K1 [K2 K3]].
    destruct (K3 (d_current A st)) as (s & Es & Fs); [lia|]. rewrite (rd_some _ _ _ Es). cbn [obind]. eauto.
  - destruct Kph as [K1 [K2 [K3 K4]]].
    destruct (good_nth _ _ _ Ktr K3 Kcur) as (s & v & Es & Fs & _).
    destruct (good_nth _ _ _ Ktr K3 L1) as (s1 & v1 & Es1 & Fs1 & _).
    destruct (good_nth _ _ _ Ktr K3 L2) as (s2 & v2 & Es2 & Fs2 & _).
    destruct (good_nth _ _ _ Ktr K3 L3) as (s3 & v3 & Es3 & Fs3 & _).
    rewrite (rd_some _ _ _ Es), (rd_some _ _ _ Es1). cbn [obind].
    rewrite (rd_some _ _ _ Es2). cbn [obind]. rewrite (rd_some _ _ _ Es3). cbn [obind].
    destruct (foldM_runs (de_mutate A im F (s1 ++ [v1]) (s2 ++ [v2]) (s3 ++ [v3]))
       (fun l => length l = d) (combine (seq 0 d) ps) (repeat (ofZ A 0) d)) as (noisy & E & Ln).
    + intros l [i p] Ll Hi. apply in_combine_seq in Hi. destruct Hi as [Hi _].
      unfold de_mutate.
      rewrite (rd_ok (s1 ++ [v1]) i (ofZ A 0)) by (rewrite app_length, (F2len _ Fs1); lia). cbn [obind].
      rewrite (rd_ok (s2 ++ [v2]) i (ofZ A 0)) by (rewrite app_length, (F2len _ Fs2); lia). cbn [obind].
      rewrite (rd_ok (s3 ++ [v3]) i (ofZ A 0)) by (rewrite app_length, (F2len _ Fs3); lia). cbn [obind].
      rewrite Him. unfold check_parameter. cbn [obind]. rewrite wr_ok by lia.
      eexists. split; [reflexivity|]. now rewrite upd_length.
    + apply repeat_length.
    + rewrite E. cbn [obind]. rewrite (rd_ok noisy k (ofZ A 0)) by lia. cbn [obind].
      rewrite (rd_ok (s ++ [v]) k (ofZ A 0)) by (rewrite app_length, (F2len _ Fs); lia). cbn [obind].
      rewrite wr_ok by lia. cbn [obind]. eauto.
Qed.

Lemma de_evaluate_inv v st x tr :
  de_inv st (Some x) tr ->
  exists st', de_evaluate A v st = Ok st' /\ de_inv st' None (tr ++ [(x, v)]).
Proof.
  intros [Ktr Kcur Kpr Ke Kb Kph]. destruct (Kpr x eq_refl) as [Fx Et].
  assert (NE : tr ++ [(x, v)] <> []) by (destruct tr; discriminate).
  unfold de_evaluate. destruct (d_initializing A st) eqn:I.
  - destruct Kph as [K1 K2]. pose proof K2 as [_ K3].
    unfold de_evaluate_init. rewrite (rd_some _ _ _ Et). cbn [obind]. cbv zeta.
    rewrite wr_ok by auto. cbn [obind].
    destruct (best_init tr (d_best A st) x v Ke Kb) as (g & Eg & Bg). cbv zeta in Eg, Bg.
    rewrite Eg. cbn [obind]. eexists. split; [reflexivity|]. rewrite upd_length.
    destruct (Nat.eqb_spec (S (d_current A st)) (length (d_specimens A st))) as [D|D];
      (constructor; cbn; [now apply trok_snoc| |discriminate|congruence|auto|]).
    all: try (rewrite upd_length; lia).
    + split; [destruct tr; discriminate|]. split; [now rewrite K1|].
      pose proof (phase1_step _ _ _ _ v K2 Et) as P. rewrite D in P.
      rewrite <- (upd_length (d_specimens A st) (d_current A st) (x ++ [v])) in P.
      apply phase1_done in P. split; auto. rewrite K1. constructor.
    + split; auto. now apply phase1_step.
  - destruct Kph as [K1 [K2 [K3 K4]]].
    destruct (good_nth _ _ _ Ktr K3 Kcur) as (s & v0 & Es & Fs & Is).
    unfold de_evaluate_next. rewrite Et, (rd_some _ _ _ Es). cbn [obind]. cbv zeta.
    rewrite !back_snoc. cbn [obind].
    pose proof (Kb K1) as B. destruct (best_value _ _ B) as (g & Eg & Mg). rewrite Eg. cbn [obind].
    assert (Q : exists b, back A (if lt A v v0 then x ++ [v] else s ++ [v0]) = Ok b /\
      good (tr ++ [(x, v)]) (if lt A v v0 then x ++ [v] else s ++ [v0]) /\
      is_best (lt A) (tr ++ [(x, v)])
        (if lt A b g then (if lt A v v0 then x ++ [v] else s ++ [v0]) else d_best A st)).
    { destruct (lt A v v0) eqn:L.
      - exists v. split; [apply back_snoc|]. split; [apply good_last|].
        destruct (lt A v g) eqn:L2; [eapply best_new; eauto|eapply best_old; eauto].
      - exists v0. split; [apply back_snoc|]. split; [apply good_more; exists s, v0; auto|].
        rewrite (Mg _ _ Is). eapply best_old; eauto.
        apply (swo_le_trans _ SW g v0 v); auto. unfold le_of. eauto. }
    destruct Q as (b & Eb & Gb & Bn). rewrite Eb. cbn [obind].
    eexists. split; [reflexivity|].
    destruct (Nat.eqb_spec (S (d_current A st)) (length (d_specimens A st))) as [D|D].
    + constructor; cbn; auto; try discriminate; try congruence.
      * now apply trok_snoc.
      * rewrite app_length. simpl. lia.
      * split; auto. split; auto. split; auto. apply Forall_app; split; [now apply good_more_all|auto].
    + constructor; cbn; auto; try discriminate; try congruence.
      * now apply trok_snoc.
      * lia.
      * split; auto. split; [rewrite app_length; simpl; lia|]. split; [now apply good_more_all|].
        apply Forall_app; split; [now apply good_more_all|auto].
Qed.

(** ** SOMA *)
Variable conf : soma_conf A.
Local Notation jumps := (Z.to_nat (trunc A (div A (s_PATH A conf) (s_STEP A conf)))).

Record soma_inv (st : soma A) (pr : option (list T)) (tr : list (list T * T)) : Prop := {
  si_tr : trok tr;
  si_cur : (s_current A st < length (s_specimens A st))%nat;
  si_pr : forall c, pr = Some c -> Forall2 R ps c /\
    if s_initializing A st then nth_error (s_specimens A st) (s_current A st) = Some c
    else exists v, nth_error (s_journeys A st) (s_journey A st) = Some (c ++ [v]);
  si_phase :
    if s_initializing A st
    then phase1 (s_specimens A st) (s_current A st) tr /\ length tr = s_current A st /\
         (tr = [] -> s_best A st = []) /\ (tr <> [] -> is_best (lt A) tr (s_best A st))
    else exists tr0 round k,
         tr = tr0 ++ round /\ tr0 <> [] /\ is_best (lt A) tr0 (s_best A st) /\
         Forall (good tr0) (s_specimens A st) /\
         length tr0 = (length (s_specimens A st) + k * jumps)%nat /\
         length (s_journeys A st) = jumps /\ Forall full (s_journeys A st) /\
         length round = s_journey A st /\ (s_journey A st < jumps)%nat /\
         (forall i c v, nth_error round i = Some (c, v) ->
            nth_error (s_journeys A st) i = Some (c ++ [v])) /\
         (round = [] -> s_bestj A st = O) /\
         (round <> [] -> exists c v, nth_error round (s_bestj A st) = Some (c, v) /\
            forall c' v', In (c', v') round -> lt A v' v = false) }.

Lemma soma_start specimens :
  specimens <> [] -> Forall (Forall2 R ps) specimens -> soma_inv (soma_init A specimens) None [].
Proof.
  intros N F. constructor; cbn; auto; try discriminate; try congruence.
  - constructor.
  - destruct specimens; simpl; [congruence|lia].
  - split; [|split; [auto|split; [auto|congruence]]]. split; [lia|]. intros i L.
    destruct (nth_error specimens i) as [c|] eqn:E; [|apply nth_error_None in E; lia].
    exists c. split; auto. eapply nth_error_Forall; eauto.
Qed.

Lemma soma_get_inv st pr tr x st' :
  soma_inv st pr tr -> soma_get A st = Ok (x, st') -> soma_inv st' (Some (firstn d x)) tr.
Proof.
  intros [Ktr Kcur Kpr Kph] E. unfold soma_get in E.
  destruct (s_initializing A st) eqn:I.
  - destruct Kph as [K1 K2]. pose proof K1 as [_ K3].
    destruct (K3 (s_current A st)) as (s & Es & Fs); [lia|]. rewrite (rd_some _ _ _ Es) in E. cbn [obind] in E.
    injection E as <- <-.
    assert (firstn d s = s) as Ef by (rewrite <- (F2len _ Fs); apply firstn_all).
    constructor; auto.
    + intros c0 Ec. injection Ec as <-. rewrite Ef, I. auto.
    + rewrite I. auto.
  - destruct (rd (s_journeys A st) (s_journey A st)) as [j| |] eqn:Ej; cbn [obind] in E; try discriminate.
    injection E as <- <-. constructor; auto.
    + intros c0 Ec. injection Ec as <-. rewrite I.
      destruct Kph as (tr0 & round & k & K). destruct K as (_ & _ & _ & _ & _ & _ & FJ & _).
      apply rd_inv in Ej. destruct (nth_error_Forall _ _ _ _ FJ Ej) as (c & v & -> & Fc).
      rewrite firstn_exact by (now apply F2len). split; auto. exists v. exact Ej.
    + rewrite I. exact Kph.
Qed.

Lemma soma_get_runs st pr tr : soma_inv st pr tr -> exists x st', soma_get A st = Ok (x, st').
Proof.
  intros [Ktr Kcur Kpr Kph]. unfold soma_get. destruct (s_initializing A st) eqn:I.
  - destruct Kph as [[_ K3] _].
    destruct (K3 (s_current A st)) as (s & Es & Fs); [lia|]. rewrite (rd_some _ _ _ Es). cbn [obind]. eauto.
  - destruct Kph as (tr0 & round & k & K). destruct K as (_ & _ & _ & _ & _ & LJ & FJ & _ & L & _).
    destruct (full_nth _ (s_journey A st) FJ) as (c & v & E & _); [lia|].
    rewrite (rd_some _ _ _ E). cbn [obind]. eauto.
Qed.

Lemma soma_jump_view cur best j r l i p l' :
  In p ps -> soma_jump A im conf cur best j r l (i, p) = Ok l' ->
  exists v, R p v /\ (i < length l)%nat /\ l' = upd l i v.
Proof.
  intros Ip. unfold soma_jump. cbv zeta.
  destruct (rd cur i); cbn [obind]; try discriminate.
  destruct (rd best i); cbn [obind]; try discriminate.
  destruct (check_parameter _ _ _ _) as [v| |] eqn:Ec; cbn [obind]; try discriminate.
  intros E. apply wr_inv in E. destruct E as [L ->]. exists v. split; [eapply HR; eauto|auto].
Qed.

Lemma produce_full cur best r js : produce_journeys A im ps conf cur best r = Ok js ->
  length js = jumps /\ Forall full js.
Proof.
  unfold produce_journeys. destruct (to_int _) as [J| |] eqn:EJ; cbn [obind]; try discriminate.
  unfold to_int in EJ. destruct (_ && _)%bool; [|discriminate]. injection EJ as <-.
  generalize jumps as n. intros n E.
  assert (G : forall n b js0 js, foldM (soma_journey A im ps conf cur best r) (seq b n) js0 = Ok js ->
            Forall full js0 -> length js = (length js0 + n)%nat /\ Forall full js).
  { clear E js n. induction n as [|n IH]; cbn [seq foldM]; intros b js0 js E F.
    - injection E as <-. split; [lia|auto].
    - destruct (soma_journey A im ps conf cur best r js0 b) as [js1| |] eqn:E1; cbn [obind] in E; try discriminate.
      unfold soma_journey in E1. destruct (foldM _ _ _) as [j| |] eqn:Ef; cbn [obind] in E1; try discriminate.
      injection E1 as <-.
      apply (fill_loop _ (fun l => l)) in Ef; [|apply incl_refl|intros; eapply soma_jump_view; eauto].
      destruct Ef as (c' & Fc & V). cbn [firstn app] in V.
      replace (repeat (ofZ A 0%Z) (d + 1)) with (repeat (ofZ A 0%Z) d ++ [ofZ A 0%Z]) in V by (now rewrite repeat_app).
      rewrite skipn_app, skipn_all2, repeat_length in V by (rewrite repeat_length; lia).
      replace (0 + d - d)%nat with 0%nat in V by lia. cbn [app skipn] in V.
      apply IH in E.
      + destruct E as [L Fj]. split; auto. rewrite L, app_length. simpl. lia.
      + apply Forall_app. split; auto. constructor; auto. exists c', (ofZ A 0%Z). auto. }
  apply G in E; auto.
Qed.

Lemma soma_evaluate_inv r v st x tr st' : (1 <= jumps)%nat ->
  soma_inv st (Some x) tr -> soma_evaluate A im ps conf r v st = Ok st' ->
  soma_inv st' None (tr ++ [(x, v)]).
Proof.
  intros J1 [Ktr Kcur Kpr Kph]. destruct (Kpr x eq_refl) as [Fx Et].
  pose proof (trok_snoc tr x v Ktr Fx) as Ktr'.
  assert (NE : tr ++ [(x, v)] <> []) by (destruct tr; discriminate).
  unfold soma_evaluate. destruct (s_initializing A st) eqn:I.
  - destruct Kph as (K1 & KL & Ke & Kb).
    unfold soma_evaluate_init. rewrite (rd_some _ _ _ Et). cbn [obind]. cbv zeta.
    rewrite wr_ok by auto. cbn [obind].
    destruct (best_init tr (s_best A st) x v Ke Kb) as (g & Eg & Bg). cbv zeta in Eg, Bg.
    rewrite Eg. cbn [obind]. rewrite upd_length.
    pose proof (phase1_step _ _ _ _ v K1 Et) as P.
    destruct (Nat.eqb_spec (S (s_current A st)) (length (s_specimens A st))) as [D|D].
    + rewrite D in P. rewrite <- (upd_length (s_specimens A st) (s_current A st) (x ++ [v])) in P.
      apply phase1_done in P.
      destruct (rd _ 0) as [cur| |]; cbn [obind]; try discriminate.
      destruct (produce_journeys _ _ _ _ _ _ _) as [js| |] eqn:Ej; cbn [obind]; try discriminate.
      intros E. injection E as <-. apply produce_full in Ej. destruct Ej as [Lj Fj].
      constructor; cbn; auto; try discriminate.
      * rewrite upd_length. lia.
      * exists (tr ++ [(x, v)]), [], 0%nat. rewrite app_nil_r.
        repeat (split; [solve [auto]|]). split; [rewrite app_length, upd_length; simpl; lia|].
        repeat (split; [solve [auto|lia]|]).
        split; [intros i; destruct i; discriminate|]. split; [auto|congruence].
    + intros E. injection E as <-. constructor; cbn; auto; try discriminate.
      * rewrite upd_length. lia.
      * split; auto. split; [rewrite app_length; simpl; lia|]. split; [congruence|auto].
  - destruct Kph as (tr0 & round & k & -> & N0 & B0 & G0 & L0 & LJ & FJ & LR & LRJ & KR & Z0 & KB).
    destruct Et as (v0 & Et).
    unfold soma_evaluate_next. cbv zeta. rewrite (rd_some _ _ _ Et). cbn [obind].
    rewrite wr_ok by (rewrite app_length, (F2len _ Fx); simpl; lia). cbn [obind].
    rewrite upd_snoc_last by (now apply F2len).
    rewrite wr_ok by lia. cbn [obind].
    set (js := upd (s_journeys A st) (s_journey A st) (x ++ [v])).
    set (round' := round ++ [(x, v)]).
    assert (KR' : forall i c v, nth_error round' i = Some (c, v) -> nth_error js i = Some (c ++ [v])).
    { intros i c w Ei. unfold round', js in *. destruct (Nat.eq_dec i (s_journey A st)) as [->|Ni].
      - rewrite nth_error_snoc in Ei by auto. injection Ei as <- <-. apply nth_error_upd_eq. lia.
      - rewrite nth_error_upd_neq by auto. apply KR.
        pose proof (nth_lt _ _ _ Ei) as Li. rewrite app_length in Li. simpl in Li.
        rewrite nth_error_app1 in Ei by lia. auto. }
    assert (FJ' : Forall full js) by (apply upd_Forall; auto; exists x, v; auto).
    (* the best of the evaluated journeys *)
    assert (Q : exists bc bv, rd js (s_bestj A st) = Ok (bc ++ [bv]) /\ length bc = d /\
      exists mc mv, nth_error round' (if lt A v bv then s_journey A st else s_bestj A st) = Some (mc, mv) /\
        forall c' v', In (c', v') round' -> lt A v' mv = false).
    { assert (CR : round = [] \/ round <> []) by (destruct round; [left|right]; congruence).
      destruct CR as [ER|ER].
      - subst round. rewrite (Z0 eq_refl). cbn in LR. exists x, v. unfold js. rewrite <- LR.
        split; [apply rd_some, nth_error_upd_eq; lia|]. split; [now apply F2len|].
        rewrite lt_irrefl. exists x, v. split; [reflexivity|].
        intros c' v' [E|[]]. injection E as <- <-. apply lt_irrefl.
      - destruct (KB ER) as (bc & bv & Eb & Mb).
        pose proof (nth_lt _ _ _ Eb) as Lb.
        exists bc, bv. split.
        { apply rd_some. unfold js. rewrite nth_error_upd_neq by lia. apply KR; auto. }
        split.
        { destruct (full_nth _ (s_bestj A st) FJ) as (c1 & v1 & E1 & F1); [lia|].
          rewrite (KR _ _ _ Eb) in E1. injection E1 as E1. apply app_inj_tail in E1. destruct E1 as [-> _].
          now apply F2len. }
        unfold round'. destruct (lt A v bv) eqn:L.
        + exists x, v. split; [now apply nth_error_snoc|].
          intros c' v' I'. apply in_app_or in I'. destruct I' as [I'|[E|[]]].
          * apply (swo_le_trans _ SW v bv v'); unfold le_of; eauto. now apply (swo_asym _ SW).
          * injection E as <- <-. apply lt_irrefl.
        + exists bc, bv. split; [rewrite nth_error_app1; auto|].
          intros c' v' I'. apply in_app_or in I'. destruct I' as [I'|[E|[]]]; eauto. injection E as <- <-. auto. }
    destruct Q as (bc & bv & Erb & Lbc & mc & mv & Em & Mm).
    rewrite Erb. cbn [obind]. rewrite (rd_some _ _ _ (nth_error_snoc bc bv d Lbc)). cbn [obind].
    set (bestj := if lt A v bv then s_journey A st else s_bestj A st) in *.
    pose proof (KR' _ _ _ Em) as Ejm.
    assert (Lmc : length mc = d).
    { destruct (nth_error_Forall _ _ _ _ FJ' Ejm) as (c1 & v1 & E1 & F1). apply app_inj_tail in E1. destruct E1 as [-> _].
      now apply F2len. }
    assert (LJ' : length js = jumps) by (unfold js; rewrite upd_length; auto).
    rewrite LJ'. assert (LR' : length round' = S (s_journey A st)) by (unfold round'; rewrite app_length; simpl; lia).
    rewrite <- app_assoc in *. fold round' in Ktr', NE |- *.
    destruct (Nat.eqb_spec (S (s_journey A st)) jumps) as [D|D].
    + rewrite (rd_some _ _ _ Ejm). cbn [obind]. rewrite (rd_some _ _ _ (nth_error_snoc mc mv d Lmc)). cbn [obind].
      assert (K0 : trok tr0) by (unfold trok in Ktr; apply Forall_app in Ktr; apply Ktr).
      destruct (good_nth tr0 _ (s_current A st) K0 G0 Kcur) as (cs & cv & Ecs & Fcs & Ics).
      rewrite (rd_some _ _ _ Ecs). cbn [obind].
      rewrite (rd_some _ _ _ (nth_error_snoc cs cv d (F2len _ Fcs))). cbn [obind].
      destruct B0 as (c0 & g & I0 & Eg & Mg).
      assert (Ktr0 : Forall2 R ps c0).
      { unfold trok in Ktr. rewrite Forall_forall in Ktr. apply (Ktr (c0, g)). apply in_or_app; auto. }
      assert (Rg : rd (s_best A st) d = Ok g) by (rewrite Eg; apply rd_some, nth_error_snoc; now apply F2len).
      set (ss := if lt A mv cv then upd (s_specimens A st) (s_current A st) (mc ++ [mv]) else s_specimens A st).
      assert (Ess : (if lt A mv cv then wr (s_specimens A st) (s_current A st) (mc ++ [mv]) else Ok (s_specimens A st)) = Ok ss).
      { unfold ss. destruct (lt A mv cv); auto. now apply wr_ok. }
      rewrite Ess. cbn [obind]. rewrite Rg. cbn [obind].
      assert (Lss : length ss = length (s_specimens A st)) by (unfold ss; destruct (lt A mv cv); rewrite ?upd_length; auto).
      assert (Im : In (mc, mv) round') by (eapply nth_error_In; eauto).
      assert (Gss : Forall (good (tr0 ++ round')) ss).
      { unfold ss. destruct (lt A mv cv); [apply upd_Forall|]; try now apply good_more_all.
        exists mc, mv. split; auto. apply in_or_app; auto. }
      assert (Bn : is_best (lt A) (tr0 ++ round') (if lt A mv g then mc ++ [mv] else s_best A st)).
      { destruct (lt A mv g) eqn:L.
        - exists mc, mv. split; [apply in_or_app; auto|]. split; auto. intros c' v' I'.
          apply in_app_or in I'. destruct I' as [I'|I']; [|eauto].
          apply (swo_le_trans _ SW mv g v'); unfold le_of; eauto. now apply (swo_asym _ SW).
        - exists c0, g. split; [apply in_or_app; auto|]. split; auto. intros c' v' I'.
          apply in_app_or in I'. destruct I' as [I'|I']; [eauto|].
          apply (swo_le_trans _ SW g mv v'); unfold le_of; eauto. }
      set (cur' := if Nat.eqb (S (s_current A st)) (length ss) then O else S (s_current A st)).
      assert (Lcur : (cur' < length ss)%nat).
      { unfold cur'. destruct (Nat.eqb_spec (S (s_current A st)) (length ss)); lia. }
      destruct (rd ss cur') as [cur| |]; cbn [obind]; try discriminate.
      destruct (produce_journeys _ _ _ _ _ _ _) as [js'| |] eqn:Ej; cbn [obind]; try discriminate.
      intros E. injection E as <-. apply produce_full in Ej. destruct Ej as [Lj Fj].
      constructor; cbn; auto; try discriminate.
      exists (tr0 ++ round'), [], (S k). rewrite app_nil_r.
      repeat (split; [solve [auto]|]).
      split; [rewrite app_length, Lss, LR'; simpl; lia|].
      repeat (split; [solve [auto|lia]|]).
      split; [intros i; destruct i; discriminate|]. split; [auto|congruence].
    + intros E. injection E as <-. constructor; cbn; auto; try discriminate.
      exists tr0, round', k. repeat (split; [solve [auto|lia]|]).
      split; [intros E; rewrite E in LR'; discriminate|]. intros _. exists mc, mv. auto.
Qed.

Lemma soma_evaluate_runs r v st x tr : im = false -> (1 <= jumps)%nat ->
  (trunc A (div A (s_PATH A conf) (s_STEP A conf)) <= int_max)%Z ->
  soma_inv st (Some x) tr -> exists st', soma_evaluate A im ps conf r v st = Ok st'.
Proof.
  intros Him J1 J2 [Ktr Kcur Kpr Kph]. destruct (Kpr x eq_refl) as [Fx Et].
  assert (PR : forall cur best, length cur = S d -> length best = S d ->
            exists js, produce_journeys A im ps conf cur best r = Ok js).
  { intros cur best L1 L2. unfold produce_journeys, to_int.
    replace ((int_min <=? trunc A (div A (s_PATH A conf) (s_STEP A conf)))
             && (trunc A (div A (s_PATH A conf) (s_STEP A conf)) <=? int_max))%Z with true
      by (symmetry; apply andb_true_intro; split; apply Z.leb_le; [unfold int_min; lia|auto]).
    cbn [obind].
    destruct (foldM_runs (soma_journey A im ps conf cur best r) (fun _ => True) (seq 1 jumps) []) as (js & E & _); eauto.
    intros js0 j _ _. unfold soma_journey.
    destruct (foldM_runs (soma_jump A im conf cur best j r) (fun l => length l = S d)
       (combine (seq 0 d) ps) (repeat (ofZ A 0%Z) (d + 1))) as (l & E & Ll).
    - intros l [i p] Ll Hi. apply in_combine_seq in Hi. destruct Hi as [Hi _].
      unfold soma_jump. cbv zeta. rewrite (rd_ok cur i (ofZ A 0%Z)) by lia. cbn [obind].
      rewrite (rd_ok best i (ofZ A 0%Z)) by lia. cbn [obind].
      rewrite Him. unfold check_parameter. cbn [obind]. rewrite wr_ok by lia.
      eexists. split; [reflexivity|]. now rewrite upd_length.
    - rewrite repeat_length. lia.
    - rewrite E. cbn [obind]. eauto. }
  assert (FL : forall tr b, trok tr -> is_best (lt A) tr b -> length b = S d).
  { intros tr' b K B. destruct (good_full _ _ K (best_good _ _ B)) as (c & w & -> & F).
    rewrite app_length, (F2len _ F). simpl. lia. }
  unfold soma_evaluate. destruct (s_initializing A st) eqn:I.
  - destruct Kph as (K1 & KL & Ke & Kb).
    unfold soma_evaluate_init. rewrite (rd_some _ _ _ Et). cbn [obind]. cbv zeta.
    rewrite wr_ok by auto. cbn [obind].
    destruct (best_init tr (s_best A st) x v Ke Kb) as (g & Eg & Bg). cbv zeta in Eg, Bg.
    rewrite Eg. cbn [obind]. rewrite upd_length.
    pose proof (phase1_step _ _ _ _ v K1 Et) as P.
    destruct (Nat.eqb_spec (S (s_current A st)) (length (s_specimens A st))) as [D|D]; [|eauto].
    rewrite D in P. rewrite <- (upd_length (s_specimens A st) (s_current A st) (x ++ [v])) in P.
    apply phase1_done in P.
    destruct (good_nth _ _ 0 (trok_snoc tr x v Ktr Fx) P) as (c & w & E0 & Fc & _); [rewrite upd_length; lia|].
    rewrite (rd_some _ _ _ E0). cbn [obind].
    destruct (PR (c ++ [w]) (if lt A v g then x ++ [v] else match s_best A st with [] => x ++ [v] | n :: l => n :: l end)) as (js & Ej).
    + rewrite app_length, (F2len _ Fc). simpl. lia.
    + eapply FL; [|exact Bg]. now apply trok_snoc.
    + rewrite Ej. cbn [obind]. eauto.
  - destruct Kph as (tr0 & round & k & -> & N0 & B0 & G0 & L0 & LJ & FJ & LR & LRJ & KR & Z0 & KB).
    assert (K0 : trok tr0) by (unfold trok in Ktr; apply Forall_app in Ktr; apply Ktr).
    destruct Et as (v0 & Et).
    unfold soma_evaluate_next. cbv zeta. rewrite (rd_some _ _ _ Et). cbn [obind].
    rewrite wr_ok by (rewrite app_length, (F2len _ Fx); simpl; lia). cbn [obind].
    rewrite upd_snoc_last by (now apply F2len).
    rewrite wr_ok by lia. cbn [obind].
    set (js := upd (s_journeys A st) (s_journey A st) (x ++ [v])).
    assert (FJ' : Forall full js) by (apply upd_Forall; auto; exists x, v; auto).
    assert (LJ' : length js = jumps) by (unfold js; rewrite upd_length; auto).
    assert (Lb : (s_bestj A st < jumps)%nat).
    { assert (CR : round = [] \/ round <> []) by (destruct round; [left|right]; congruence).
      destruct CR as [ER|ER]; [rewrite (Z0 ER); lia|].
      destruct (KB ER) as (c & w & E & _). apply nth_lt in E. lia. }
    destruct (full_nth _ (s_bestj A st) FJ') as (bc & bv & Eb & Fb); [lia|].
    rewrite (rd_some _ _ _ Eb). cbn [obind]. rewrite (rd_some _ _ _ (nth_error_snoc bc bv d (F2len _ Fb))). cbn [obind].
    rewrite LJ'. destruct (Nat.eqb_spec (S (s_journey A st)) jumps) as [D|D]; [|eauto].
    set (bestj := if lt A v bv then s_journey A st else s_bestj A st).
    destruct (full_nth _ (bestj) FJ') as (mc & mv & Em & Fm); [unfold bestj; destruct (lt A v bv); lia|].
    rewrite (rd_some _ _ _ Em). cbn [obind]. rewrite (rd_some _ _ _ (nth_error_snoc mc mv d (F2len _ Fm))). cbn [obind].
    destruct (good_nth tr0 _ (s_current A st) K0 G0 Kcur) as (cs & cv & Ecs & Fcs & Ics).
    rewrite (rd_some _ _ _ Ecs). cbn [obind].
    rewrite (rd_some _ _ _ (nth_error_snoc cs cv d (F2len _ Fcs))). cbn [obind].
    set (ss := if lt A mv cv then upd (s_specimens A st) (s_current A st) (mc ++ [mv]) else s_specimens A st).
    assert (Ess : (if lt A mv cv then wr (s_specimens A st) (s_current A st) (mc ++ [mv]) else Ok (s_specimens A st)) = Ok ss).
    { unfold ss. destruct (lt A mv cv); auto. now apply wr_ok. }
    rewrite Ess. cbn [obind].
    pose proof (FL _ _ K0 B0) as Lbest. rewrite (rd_ok (s_best A st) d (ofZ A 0%Z)) by lia. cbn [obind].
    assert (Fss : Forall full ss).
    { assert (F0 : Forall full (s_specimens A st)).
      { eapply Forall_impl; [|exact G0]. intros s G. eapply good_full; eauto. }
      unfold ss. destruct (lt A mv cv); auto. apply upd_Forall; auto. exists mc, mv. auto. }
    assert (Lss : length ss = length (s_specimens A st)) by (unfold ss; destruct (lt A mv cv); rewrite ?upd_length; auto).
    set (cur' := if Nat.eqb (S (s_current A st)) (length ss) then O else S (s_current A st)).
    assert (Lcur : (cur' < length ss)%nat).
    { unfold cur'. destruct (Nat.eqb_spec (S (s_current A st)) (length ss)); lia. }
    destruct (full_nth _ _ Fss Lcur) as (c & w & Ec & Fc). rewrite (rd_some _ _ _ Ec). cbn [obind].
    destruct (PR (c ++ [w]) (if lt A mv (nth d (s_best A st) (ofZ A 0%Z)) then mc ++ [mv] else s_best A st)) as (js' & Ej).
    + rewrite app_length, (F2len _ Fc). simpl. lia.
    + destruct (lt A mv (nth d (s_best A st) (ofZ A 0%Z))); [|auto]. rewrite app_length, (F2len _ Fm). simpl. lia.
    + rewrite Ej. cbn [obind]. eauto.
Qed.

End Algo.
