(** * Rounds of the individual collectives *)
From Coq Require Import List Arith Bool Lia Permutation ZArith.
From Verif Require Import Base M_Mpi S_Mpi L_Mpi M_Comm L_Comm S_Comm S_Order.
Import ListNotations.

(** ** Sums over an interval of ranks *)
Section Big.
  Context {T : Type}.
  Variable op : T -> T -> T.
  Hypothesis Ass : associative op.
  Hypothesis Com : commutative op.

  Definition oop (a b : option T) : option T :=
    match a, b with Some a, Some b => Some (op a b) | Some a, None => Some a | None, b => b end.
  Lemma oop_assoc a b c : oop a (oop b c) = oop (oop a b) c.
  Proof. destruct a, b, c; cbn; auto. f_equal. apply Ass. Qed.
  Lemma oop_comm a b : oop a b = oop b a.
  Proof. destruct a, b; cbn; auto. f_equal. apply Com. Qed.
  Lemma oop_swap a b c : oop (oop a b) c = oop (oop a c) b.
  Proof. rewrite <- !oop_assoc. f_equal. apply oop_comm. Qed.

  Definition ored (l : list T) : option T := fold_right (fun x => oop (Some x)) None l.
  Lemma ored_app a b : ored (a ++ b) = oop (ored a) (ored b).
  Proof. induction a as [|x a IH]; cbn [app ored fold_right]; auto. fold (ored (a ++ b)). rewrite IH. apply oop_assoc. Qed.
  Lemma ored_reduce d l : l <> [] -> ored l = Some (reduce op d l).
  Proof.
    destruct l as [|x l]; [congruence|]. intros _. unfold reduce. revert x. induction l as [|y l IH]; intros x; [reflexivity|].
    cbn [fold_left]. rewrite <- IH. cbn [ored fold_right]. rewrite oop_assoc. reflexivity.
  Qed.

  Definition big (f : nat -> T) (s c : nat) : option T := ored (map f (seq s c)).
  Lemma big_split f s a b : big f s (a + b) = oop (big f s a) (big f (s + a) b).
  Proof. unfold big. rewrite seq_app, map_app, ored_app. auto. Qed.
  Lemma big_one f s : big f s 1 = Some (f s).
  Proof. reflexivity. Qed.
  Lemma big_ext f g s c : (forall i, s <= i < s + c -> f i = g i) -> big f s c = big g s c.
  Proof. intros H. unfold big. f_equal. apply map_ext_in. intros i Hi. apply in_seq in Hi. apply H. lia. Qed.
  Lemma big_shift f s h c : big (fun i => f (i + h)) s c = big f (s + h) c.
  Proof.
    unfold big. f_equal. revert s. induction c as [|c IH]; intros s; cbn; auto. f_equal. exact (IH (S s)).
  Qed.
  Lemma big_op f g s c : big (fun i => op (f i) (g i)) s c = oop (big f s c) (big g s c).
  Proof.
    revert s. induction c as [|c IH]; intros s; [reflexivity|].
    replace (S c) with (1 + c) by lia. rewrite !big_split, !big_one, IH.
    change (Some (op (f s) (g s))) with (oop (Some (f s)) (Some (g s))).
    rewrite !oop_assoc. f_equal. apply oop_swap.
  Qed.
End Big.

Lemma odd_spec i l r : rh_odd i l r = true <-> (r - l) mod 2 = 1 /\ i + 1 = rh_mid l r.
Proof.
  unfold rh_odd. rewrite andb_true_iff, negb_true_iff, Nat.eqb_neq, Nat.eqb_eq. pose proof (Nat.mod_upper_bound (r - l) 2). lia.
Qed.
Lemma treat_spec i l r : rh_treatodd i l r = true <-> (r - l) mod 2 = 1 /\ i = rh_mid l r.
Proof.
  unfold rh_treatodd. rewrite andb_true_iff, negb_true_iff, Nat.eqb_neq, Nat.eqb_eq. pose proof (Nat.mod_upper_bound (r - l) 2). lia.
Qed.
Lemma lower_true i l r : i < rh_mid l r -> rh_lower i l r = true.
Proof. intros H. unfold rh_lower. apply Nat.ltb_lt. auto. Qed.
Lemma lower_false i l r : rh_mid l r <= i -> rh_lower i l r = false.
Proof. intros H. unfold rh_lower. apply Nat.ltb_ge. auto. Qed.
Lemma twin_lower i l r : i < rh_mid l r -> rh_twin i l r = i + (rh_mid l r - l).
Proof. intros H. unfold rh_twin. rewrite lower_true; auto. Qed.
Lemma twin_upper i l r : rh_mid l r <= i -> rh_twin i l r = i - (rh_mid l r - l).
Proof. intros H. unfold rh_twin. rewrite lower_false; auto. Qed.

Lemma into_same {M A T} (buf m : list T) (k : list T -> prog M A) : length m = length buf -> into buf m k = k m.
Proof.
  intros H. unfold into. rewrite H, Nat.leb_refl. f_equal. rewrite skipn_all2 by lia. apply app_nil_r.
Qed.

(** ** allReduce *)
Section AllReduce.
  Context {T A : Type}.
  Variable op : T -> T -> T.
  Hypothesis Ass : associative op.
  Hypothesis Com : commutative op.
  Variables (dflt : T) (len n : nat).

  Lemma merge_len a b : length a = len -> length b = len -> length (ar_merge op a b) = len.
  Proof. intros. unfold ar_merge. rewrite map_length, combine_length. lia. Qed.
  Lemma merge_nth a b j : length a = len -> length b = len -> j < len -> nth j (ar_merge op a b) dflt = op (nth j a dflt) (nth j b dflt).
  Proof.
    intros La Lb Hj. unfold ar_merge.
    rewrite (nth_indep _ dflt (op (fst (dflt, dflt)) (snd (dflt, dflt)))) by (rewrite map_length, combine_length; lia).
    rewrite (map_nth (fun x => op (fst x) (snd x))). rewrite combine_nth by lia. auto.
  Qed.

  Definition ar_len (l r : nat) (g : nat -> list T * list T) : Prop :=
    forall i, l <= i < r -> length (fst (g i)) = len /\ length (snd (g i)) = len.
  Definition ar_post (l r : nat) (g gF : nat -> list T * list T) : Prop :=
    forall i, l <= i < r -> fst (gF i) = reduced op dflt len (fun q => fst (g q)) l r.

  Definition ar_next (l r : nat) (g : nat -> list T * list T) (i : nat) : list T * list T :=
    let h := rh_mid l r - l in
    let d := fun q => fst (g q) in
    if i <? rh_mid l r then
      if rh_odd i l r then g i else (ar_merge op (d i) (d (i + h)), d (i + h))
    else if rh_treatodd i l r then (ar_merge op (ar_merge op (d i) (d (i - h))) (d (rh_mid l r - 1)), d (rh_mid l r - 1))
    else (ar_merge op (d i) (d (i - h)), d (i - h)).

  Lemma ar_round_run l r g : l + 1 < r -> r <= n -> ar_len l r g ->
    body_run n l r (fun i => ar_round op (A := A) i l r (g i)) (ar_next l r g).
  Proof.
    intros H Hn HL. destruct (rh_mid_spec l r H) as (X & E & Y).
    apply round_up with (a := fun i => fst (g i)) (b := fun i => fst (g i)); auto.
    - intros i k Hi Ho. unfold ar_round. rewrite lower_true, twin_lower, Ho by lia. cbn [negb].
      eexists. split; [reflexivity|]. cbn beta.
      rewrite into_same.
      + unfold ar_next. destruct (Nat.ltb_spec i (rh_mid l r)); [|lia]. rewrite Ho. auto.
      + destruct (rh_odd i l r) eqn:EO; [discriminate|].
        assert (i + (rh_mid l r - l) < r).
        { destruct (Nat.eq_dec ((r - l) mod 2) 1) as [e|e]; [|lia].
          assert (i + 1 <> rh_mid l r); [|lia]. intros Z. pose proof (proj2 (odd_spec i l r) (conj e Z)). congruence. }
        rewrite (proj1 (HL _ (conj (Nat.le_trans _ _ _ (proj1 Hi) (Nat.le_add_r _ _)) H0))). symmetry. apply HL. lia.
    - intros i k Hi Ho. unfold ar_round. rewrite lower_true, Ho by lia. cbn [negb].
      unfold ar_next. destruct (Nat.ltb_spec i (rh_mid l r)); [|lia]. rewrite Ho. destruct (g i). auto.
    - intros i k Hi. unfold ar_round. rewrite lower_false, twin_upper by lia.
      eexists. eexists. split; [reflexivity|]. cbn beta.
      rewrite into_same by (rewrite (proj1 (HL (i - (rh_mid l r - l)) ltac:(lia))); symmetry; apply HL; lia).
      split; [reflexivity|]. unfold ar_next. destruct (Nat.ltb_spec i (rh_mid l r)); [lia|].
      destruct (rh_treatodd i l r) eqn:ET; auto.
      eexists. split; [reflexivity|]. cbn beta. rewrite into_same; auto.
      rewrite (proj1 (HL (rh_mid l r - 1) ltac:(lia))). symmetry. apply HL. lia.
  Qed.

  Lemma ar_next_len l r g : l + 1 < r -> ar_len l r g -> ar_len l r (ar_next l r g).
  Proof.
    intros H HL i Hi. destruct (rh_mid_spec l r H) as (X & E & Y). unfold ar_next.
    destruct (Nat.ltb_spec i (rh_mid l r)).
    - destruct (rh_odd i l r) eqn:EO; [apply HL; auto|].
      assert (i + (rh_mid l r - l) < r).
      { destruct (Nat.eq_dec ((r - l) mod 2) 1) as [e|e]; [|lia].
        assert (i + 1 <> rh_mid l r); [|lia]. intros Z. pose proof (proj2 (odd_spec i l r) (conj e Z)). congruence. }
      cbn [fst snd]. split; [apply merge_len|]; apply HL; lia.
    - destruct (rh_treatodd i l r); cbn [fst snd]; split; try (apply merge_len); try (apply merge_len); apply HL; lia.
  Qed.

  Lemma ar_next_sum l r g : l + 1 < r -> ar_len l r g -> forall j, j < len ->
    let f := fun q => nth j (fst (g q)) dflt in
    let f1 := fun q => nth j (fst (ar_next l r g q)) dflt in
    big op f1 l (rh_mid l r - l) = big op f l (r - l) /\ big op f1 (rh_mid l r) (r - rh_mid l r) = big op f l (r - l).
  Proof.
    intros H HL j Hj. cbn zeta. destruct (rh_mid_spec l r H) as (X & E & Y).
    set (mid := rh_mid l r) in *. set (f := fun q => nth j (fst (g q)) dflt). set (f1 := fun q => nth j (fst (ar_next l r g q)) dflt).
    set (h := mid - l) in *. set (c := r - mid) in *.
    assert (Fl : forall i, l <= i < l + c -> f1 i = op (f i) (f (i + h))).
    { intros i Hi. subst f1 f. cbn beta. unfold ar_next. fold mid. fold h. destruct (Nat.ltb_spec i mid); [|lia].
      assert (rh_odd i l r = false) as -> by (destruct (rh_odd i l r) eqn:EO; auto; apply odd_spec in EO; fold mid in EO; lia).
      cbn [fst]. apply merge_nth; auto; apply HL; lia. }
    assert (Fu : forall i, mid <= i < r -> rh_treatodd i l r = false -> f1 i = op (f i) (f (i - h))).
    { intros i Hi Ht. subst f1 f. cbn beta. unfold ar_next. fold mid. fold h. destruct (Nat.ltb_spec i mid); [lia|]. rewrite Ht.
      cbn [fst]. apply merge_nth; auto; apply HL; lia. }
    assert (SL : big op f1 l c = oop op (big op f l c) (big op f mid c)).
    { rewrite (big_ext op f1 (fun i => op (f i) (f (i + h)))) by (intros; apply Fl; lia).
      rewrite big_op by auto. f_equal. rewrite big_shift. f_equal. lia. }
    assert (SU : forall s k, mid <= s -> s + k <= r -> big op (fun i => op (f i) (f (i - h))) s k = oop op (big op f (s - h) k) (big op f s k)).
    { intros s k Hs Hk. rewrite big_op by auto. rewrite oop_comm by auto. f_equal.
      replace (big op (fun i => f (i - h)) s k) with (big op (fun i => f (i - h)) (s - h + h) k) by (f_equal; lia).
      rewrite <- (big_shift op (fun i => f (i - h)) (s - h) h k). apply big_ext. intros i Hi. f_equal. lia. }
    destruct (Nat.eq_dec ((r - l) mod 2) 1) as [Od|Od].
    - (* odd *)
      assert (Hh : h = c + 1) by lia.
      assert (Fo : f1 (l + c) = f (l + c)).
      { subst f1 f. cbn beta. unfold ar_next. fold mid. destruct (Nat.ltb_spec (l + c) mid); [|lia].
        rewrite (proj2 (odd_spec (l + c) l r)); auto. split; auto. fold mid. lia. }
      assert (Ft : f1 mid = op (op (f mid) (f l)) (f (l + c))).
      { subst f1 f. cbn beta. unfold ar_next. fold mid. destruct (Nat.ltb_spec mid mid); [lia|].
        rewrite (proj2 (treat_spec mid l r)) by (split; auto). cbn [fst].
        rewrite merge_nth; auto; [|apply merge_len; apply HL; lia|apply HL; lia].
        rewrite merge_nth; auto; try (apply HL; lia). fold h.
        replace (mid - h) with l by lia. replace (mid - 1) with (l + c) by lia. auto. }
      assert (Tot : big op f l (r - l) = oop op (oop op (big op f l c) (Some (f (l + c)))) (big op f mid c)).
      { replace (r - l) with (c + 1 + c) by lia. rewrite !big_split, big_one by auto. f_equal. f_equal. lia. }
      rewrite Tot. split.
      + rewrite Hh. rewrite big_split, SL, big_one, Fo by auto. apply oop_swap; auto.
      + replace c with (1 + (c - 1)) at 1 by lia. rewrite big_split, big_one, Ft by auto.
        rewrite (big_ext op f1 (fun i => op (f i) (f (i - h))) (mid + 1) (c - 1)).
        2:{ intros i Hi. apply Fu; [lia|]. destruct (rh_treatodd i l r) eqn:ET; auto. apply treat_spec in ET. fold mid in ET. lia. }
        rewrite SU by lia. replace (mid + 1 - h) with (l + 1) by lia.
        change (Some (op (op (f mid) (f l)) (f (l + c)))) with (oop op (oop op (Some (f mid)) (Some (f l))) (Some (f (l + c)))).
        replace (big op f l c) with (oop op (Some (f l)) (big op f (l + 1) (c - 1))).
        2:{ rewrite <- (big_one op f l). rewrite <- big_split by auto. f_equal. lia. }
        replace (big op f mid c) with (oop op (Some (f mid)) (big op f (mid + 1) (c - 1))).
        2:{ rewrite <- (big_one op f mid). rewrite <- big_split by auto. f_equal. lia. }
        generalize (Some (f mid)) (Some (f l)) (Some (f (l + c))) (big op f (l + 1) (c - 1)) (big op f (mid + 1) (c - 1)).
        intros m a o x y. rewrite !oop_assoc by auto.
        rewrite (oop_comm op Com m a). rewrite (oop_swap op Ass Com (oop op a m) o x).
        rewrite (oop_swap op Ass Com a m x). rewrite (oop_swap op Ass Com (oop op a x) m o). auto.
    - assert (Hh : h = c) by lia.
      assert (Tot : big op f l (r - l) = oop op (big op f l c) (big op f mid c)).
      { replace (r - l) with (c + c) by lia. rewrite big_split by auto. f_equal. f_equal. lia. }
      rewrite Tot. split.
      + rewrite Hh. auto.
      + rewrite (big_ext op f1 (fun i => op (f i) (f (i - h))) mid c).
        2:{ intros i Hi. apply Fu; [lia|]. destruct (rh_treatodd i l r) eqn:ET; auto. apply treat_spec in ET. fold mid in ET. lia. }
        rewrite SU by lia. replace (mid - h) with l by lia. auto.
  Qed.

  Lemma reduced_eq (d d' : nat -> list T) l r l' r' : l < r -> l' < r' ->
    (forall j, j < len -> big op (fun q => nth j (d q) dflt) l (r - l) = big op (fun q => nth j (d' q) dflt) l' (r' - l')) ->
    reduced op dflt len d l r = reduced op dflt len d' l' r'.
  Proof.
    intros H H' E. unfold reduced. apply map_ext_in. intros j Hj. apply in_seq in Hj. specialize (E j ltac:(lia)).
    unfold big in E. rewrite !(ored_reduce op Ass dflt) in E.
    - injection E as E. auto.
    - destruct (r' - l') eqn:Z; [lia|]. cbn. congruence.
    - destruct (r - l) eqn:Z; [lia|]. cbn. congruence.
  Qed.

  Lemma ar_td l r g : r <= n -> ar_len l r g ->
    exists gF, td_run n (ar_round op (A := A)) l r g gF /\ ar_post l r g gF.
  Proof.
    intros Hn HL. apply (td_ok n (ar_round op (A := A)) _ (fun _ x => x) ar_len ar_post); auto.
    - clear. intros l r g Hl HL i Hi. assert (l = i /\ r = i + 1) as [-> ->] by lia. unfold reduced.
      replace (i + 1 - i) with 1 by lia. cbn. destruct (HL i Hi) as [L1 _].
      rewrite <- L1. clear. induction (fst (g i)) as [|x t IH]; cbn; auto. f_equal.
      rewrite <- seq_shift, map_map. rewrite IH at 1. apply map_ext. auto.
    - clear l r g Hn HL. intros l r g H Hn HL. exists (ar_next l r g). destruct (rh_mid_spec l r H) as (X & _ & _).
      pose proof (ar_next_len l r g H HL) as HL1.
      split; [apply ar_round_run; auto|]. split; [intros i Hi; apply HL1; lia|]. split; [intros i Hi; apply HL1; lia|].
      intros gl gu Ql Qu i Hi. destruct (Nat.ltb_spec i (rh_mid l r)).
      + rewrite (Ql i) by lia. apply reduced_eq; try lia. intros j Hj. apply (ar_next_sum l r g H HL j Hj).
      + rewrite (Qu i) by lia. apply reduced_eq; try lia. intros j Hj. apply (ar_next_sum l r g H HL j Hj).
  Qed.
End AllReduce.

Lemma paired_twin i l r : l + 1 < r -> l <= i < rh_mid l r -> rh_odd i l r = false -> rh_mid l r <= i + (rh_mid l r - l) < r.
Proof.
  intros H Hi EO. destruct (rh_mid_spec l r H) as (X & E & Y). destruct (Nat.eq_dec ((r - l) mod 2) 1) as [e|e]; [|lia].
  assert (i + 1 <> rh_mid l r); [|lia]. intros Z. pose proof (proj2 (odd_spec i l r) (conj e Z)). congruence.
Qed.

Lemma gathered_split {T} (d : nat -> list T) l m r : l <= m <= r -> gathered d l r = gathered d l m ++ gathered d m r.
Proof.
  intros H. unfold gathered. replace (r - l) with ((m - l) + (r - m)) by lia. rewrite seq_app, map_app, concat_app.
  replace (l + (m - l)) with m by lia. auto.
Qed.
Lemma gathered_one {T} (d : nat -> list T) i : gathered d i (i + 1) = d i.
Proof. unfold gathered. replace (i + 1 - i) with 1 by lia. cbn. apply app_nil_r. Qed.

(** ** allGatherUnknownSize and uniqueAllGatherUnknownSize *)
Section AllGather.
  Context {T : Type}.
  Variable n : nat.
  Variable merge : bool -> list T -> list T -> list T.
  (** [G l r x]: [x] are the data of the ranks [l, r) *)
  Variable G : nat -> nat -> list T -> Prop.
  Hypothesis Gm : forall l m r a b, l < m < r -> G l m a -> G m r b -> G l r (merge true a b) /\ G l r (merge false b a).

  Lemma ag_round_ok {A} : round_ok n (ag_round (A := A) merge) (fun l r _ x => G l r x).
  Proof.
    intros l r st H Hn HL HU. destruct (rh_mid_spec l r H) as (X & E & Y).
    exists (fun i => if i <? rh_mid l r then merge true (st i) (if rh_odd i l r then st (rh_mid l r) else st (i + (rh_mid l r - l)))
                     else merge false (st i) (st (i - (rh_mid l r - l)))). split.
    - apply round_down with (a := st) (b := st); auto.
      + intros i k Hi Ho. unfold ag_round. rewrite lower_true, twin_lower, Ho by lia. cbn [negb].
        eexists. split; [reflexivity|]. cbn beta. destruct (Nat.ltb_spec i (rh_mid l r)); [auto|lia].
      + intros i k Hi Ho. unfold ag_round. rewrite lower_true, Ho by lia. cbn [negb].
        eexists. split; [reflexivity|]. cbn beta. destruct (Nat.ltb_spec i (rh_mid l r)); [auto|lia].
      + intros i k Hi. unfold ag_round. rewrite lower_false, twin_upper by lia.
        eexists. eexists. split; [reflexivity|]. cbn beta. split; [reflexivity|].
        destruct (Nat.ltb_spec i (rh_mid l r)); [lia|]. destruct (rh_treatodd i l r); auto.
    - intros i Hi. cbn beta. destruct (Nat.ltb_spec i (rh_mid l r)).
      + apply (Gm l (rh_mid l r) r); auto. { apply HL. lia. }
        destruct (rh_odd i l r) eqn:EO; apply HU; [lia|]. apply paired_twin; auto; lia.
      + apply (Gm l (rh_mid l r) r); auto; [apply HL|apply HU]; lia.
  Qed.

  Lemma all_gather_ok limit (d : nat -> list T) : 0 < n -> (forall i, i < n -> length (d i) <= limit) -> (forall i, i < n -> G i (i + 1) (d i)) ->
    exists res, completes n (map (fun i => all_gather (A := option (list T)) merge limit n i (d i) (fun x => Ret x)) (seq 0 n))
                            (map (fun i => Some (res i)) (seq 0 n)) /\ forall i, i < n -> G 0 n (res i).
  Proof.
    intros Hn0 HL H0.
    destruct (levels_run (A := option (list T)) n (ag_round merge) (fun l r _ x => G l r x) ag_round_ok (rh_depth n) 0 n d) as (st1 & R & I1); try lia.
    { intros i Hi. rewrite depth_leaf by lia. cbn [fst snd]. apply H0. lia. }
    exists st1. split; [|intros i Hi; apply I1; lia].
    pose proof (body_completes_all n _ st1 (fun _ x => Some x) R) as C. cbn beta in C.
    replace (map (fun i => all_gather merge limit n i (d i) (fun x => Ret x)) (seq 0 n)) with
      (map (fun i => rh_levels (ag_round merge) (rh_depth n) i 0 n (d i) (fun st : list T => Ret (M := list T) (Some st))) (seq 0 n)); auto.
    apply map_ext_in. intros i Hi. apply in_seq in Hi. unfold all_gather. specialize (HL i ltac:(lia)).
    destruct (Nat.ltb_spec limit (length (d i))); [lia|auto].
  Qed.
End AllGather.

(** sorted union *)
Section Union.
  Context {T : Type}.
  Variables ltb eqb : T -> T -> bool.
  Hypothesis STO : strict_total_order ltb eqb.

  Lemma ltb_trans a b c : ltb a b = true -> ltb b c = true -> ltb a c = true.
  Proof.
    intros H1 H2. destruct (ltb a c) eqn:E; auto. destruct STO as [[As Tr] _ _].
    assert (ltb b c = false); [|congruence]. apply (Tr c a b); unfold le_of; auto.
  Qed.

  Lemma union_spec : forall a b, strictly_sorted ltb a -> strictly_sorted ltb b ->
    strictly_sorted ltb (set_union ltb a b) /\ forall x, In x (set_union ltb a b) <-> In x a \/ In x b.
  Proof.
    induction a as [|x a IHa]; intros b Ha.
    - intros Hb. destruct b; cbn; split; auto; intros; tauto.
    - induction b as [|y b IHb]; intros Hb.
      + cbn. split; auto. intros; tauto.
      + inversion Ha as [|? ? Ha1 Ha2]; subst. inversion Hb as [|? ? Hb1 Hb2]; subst.
        rewrite Forall_forall in Ha2, Hb2.
        destruct (ltb x y) eqn:E1; [|destruct (ltb y x) eqn:E2].
        * replace (set_union ltb (x :: a) (y :: b)) with (x :: set_union ltb a (y :: b)) by (cbn; rewrite E1; auto).
          destruct (IHa (y :: b) Ha1 Hb) as (S1 & I1). split.
          -- constructor; auto. apply Forall_forall. intros z Hz. apply I1 in Hz. destruct Hz as [Hz|[<-|Hz]]; auto.
             apply (ltb_trans x y z); auto.
          -- intros z. cbn [In]. rewrite I1. cbn [In]. tauto.
        * replace (set_union ltb (x :: a) (y :: b)) with (y :: set_union ltb (x :: a) b) by (cbn; rewrite E1, E2; auto).
          destruct (IHb Hb1) as (S1 & I1). split.
          -- constructor; auto. apply Forall_forall. intros z Hz. apply I1 in Hz. destruct Hz as [[<-|Hz]|Hz]; auto.
             apply (ltb_trans y x z); auto.
          -- intros z. cbn [In]. rewrite I1. cbn [In]. tauto.
        * replace (set_union ltb (x :: a) (y :: b)) with (x :: set_union ltb a b) by (cbn; rewrite E1, E2; auto).
          assert (x = y) as <-. { destruct STO as [_ An _]. apply An; unfold le_of; auto. }
          destruct (IHa b Ha1 Hb1) as (S1 & I1). split.
          -- constructor; auto. apply Forall_forall. intros z Hz. apply I1 in Hz. destruct Hz as [Hz|Hz]; auto.
          -- intros z. cbn [In]. rewrite I1. tauto.
  Qed.

  (** a strictly sorted list is determined by its elements *)
  Lemma ssorted_unique : forall a b, strictly_sorted ltb a -> strictly_sorted ltb b -> (forall x, In x a <-> In x b) -> a = b.
  Proof.
    assert (Irr : forall x, ltb x x = false). { intros x. destruct (ltb x x) eqn:E; auto. destruct STO as [[As _] _ _]. rewrite (As x x E) in E. auto. }
    induction a as [|x a IH]; intros [|y b] Ha Hb H; auto.
    - exfalso. apply (H y). left; auto.
    - exfalso. apply (H x). left; auto.
    - inversion Ha as [|? ? Ha1 Ha2]; subst. inversion Hb as [|? ? Hb1 Hb2]; subst. rewrite Forall_forall in Ha2, Hb2.
      assert (x = y) as <-.
      { destruct (proj1 (H x) (or_introl eq_refl)) as [|X]; auto. destruct (proj2 (H y) (or_introl eq_refl)) as [|Y]; auto.
        specialize (Ha2 y Y). specialize (Hb2 x X). destruct STO as [[As _] _ _]. rewrite (As _ _ Ha2) in Hb2. discriminate. }
      f_equal. apply IH; auto. intros z. split; intros Hz.
      + destruct (proj1 (H z) (or_intror Hz)) as [<-|]; auto. specialize (Ha2 x Hz). rewrite Irr in Ha2. discriminate.
      + destruct (proj2 (H z) (or_intror Hz)) as [<-|]; auto. specialize (Hb2 x Hz). rewrite Irr in Hb2. discriminate.
  Qed.
End Union.

(** ** gatherUnknownSize *)
Section Gather.
  Context {T A : Type}.
  Variable n : nat.
  Variable d : nat -> list T.

  Definition ga_inv (l r i : nat) (st : option (list T)) : Prop := st = if i =? l then Some (gathered d l r) else None.

  Lemma ga_round_ok : round_ok n (ga_round (A := A)) ga_inv.
  Proof.
    intros l r st H Hn HL HU. destruct (rh_mid_spec l r H) as (X & E & Y).
    exists (fun i => if i =? l then Some (gathered d l r) else None). split; [|intros i Hi; red; auto].
    pose proof (HL l ltac:(lia)) as Sl. pose proof (HU (rh_mid l r) ltac:(lia)) as Sm. red in Sl, Sm. rewrite Nat.eqb_refl in Sl, Sm.
    apply (round_one n l r (rh_mid l r) l _ (gathered d (rh_mid l r) r)); auto; try lia.
    - intros k. rewrite Sm. unfold ga_round. destruct (Nat.eqb_spec l (rh_mid l r)); [lia|]. rewrite Nat.eqb_refl.
      destruct (Nat.eqb_spec (rh_mid l r) l); [lia|]. auto.
    - intros k. rewrite Sl. unfold ga_round. rewrite Nat.eqb_refl. eexists. split; [reflexivity|]. cbn beta.
      destruct (Nat.eqb_spec (rh_mid l r) l); [lia|]. rewrite <- gathered_split by lia. auto.
    - intros x k Hx N1 N2.
      assert (st x = None) as ->.
      { destruct (Nat.lt_ge_cases x (rh_mid l r)) as [L|L].
        - rewrite (HL x) by lia. destruct (Nat.eqb_spec x l); [lia|auto].
        - rewrite (HU x) by lia. destruct (Nat.eqb_spec x (rh_mid l r)); [lia|auto]. }
      cbn. destruct (Nat.eqb_spec x l); [lia|auto].
  Qed.
End Gather.

Lemma ex_offsets_spec {T} (d : nat -> list T) : forall c s,
  ex_offsets (map (fun i => length (d i)) (seq s c) ++ [0]) (offset d s) = map (offset d) (seq s (S c)).
Proof.
  induction c as [|c IH]; intros s; [reflexivity|].
  specialize (IH (S s)). cbn [seq map app ex_offsets] in *. f_equal. etransitivity; [|exact IH]. f_equal. unfold offset. rewrite (gathered_split d 0 s (S s)) by lia. rewrite app_length. f_equal. f_equal.
  replace (S s) with (s + 1) by lia. rewrite gathered_one. auto.
Qed.

(** ** allGatherInplace *)
Section Inplace.
  Context {T A : Type}.
  Variable n : nat.
  Variable d : nat -> list T.
  (** the data begin at [base] *)
  Variable base : nat.
  Local Notation off l := (base + offset d l).
  Variable N : nat.
  Variables head tail : nat -> list T.

  Lemma off_split l m : l <= m -> off m = off l + length (gathered d l m).
  Proof. intros H. unfold offset. rewrite (gathered_split d 0 l m), app_length by lia. lia. Qed.

  Definition agi_inv (l r i : nat) (st : list T * nat * nat) : Prop :=
    let '(data, o, s) := st in
    o = off l /\ s = length (gathered d l r) /\ length data = N /\ slice (off l) (off r) data = gathered d l r /\
    slice (off n) N data = tail i /\ firstn base data = head i.

  Hypothesis HN : off n <= N.

  Lemma agi_part_ok l r i st : l <= r -> agi_inv l r i st -> agi_part st = gathered d l r.
  Proof.
    intros H. destruct st as ((data, o), s). intros (-> & -> & _ & E & _ & _). unfold agi_part. rewrite <- off_split by auto. auto.
  Qed.

  Definition agi_low (st : list T * nat * nat) (m : list T) : list T * nat * nat :=
    let '(data, o, s) := st in (put (o + s) (o + s + length m) data m, o, s + length m).
  Definition agi_up (st : list T * nat * nat) (m : list T) : list T * nat * nat :=
    let '(data, o, s) := st in (put (o - length m) (o - length m + length m) data m, o - length m, s + length m).

  Lemma agi_low_run rank source l m r i st (k : list T * nat * nat -> prog (list T) A) : rank < source -> l <= m <= r -> r <= n -> agi_inv l m i st ->
    agi_receive rank source st (gathered d m r) k = k (agi_low st (gathered d m r)) /\ agi_inv l r i (agi_low st (gathered d m r)).
  Proof.
    intros Hs H Hn. destruct st as ((data, o), s). intros (-> & -> & L & E & ET & EH). unfold agi_receive, agi_low, recv_at.
    destruct (Nat.ltb_spec source rank); [lia|]. rewrite <- (off_split l m) by lia.
    pose proof (off_split m r ltac:(lia)) as Em. pose proof (off_split r n ltac:(lia)) as Er. pose proof (off_split l m ltac:(lia)) as El.
    split.
    - destruct (Nat.leb_spec (off m + length (gathered d m r)) (length data)); [auto|lia].
    - split; [auto|]. split. { rewrite (gathered_split d l m r), app_length by lia. auto. }
      rewrite <- Em. split; [|split; [|split]].
      + unfold put. rewrite !app_length, firstn_length, skipn_length. lia.
      + rewrite (slice_app (off l) (off m) (off r)) by lia. rewrite slice_put_before by lia. rewrite E.
        rewrite slice_put_same by lia. symmetry. apply gathered_split. lia.
      + rewrite slice_put_after by lia. auto.
      + unfold put. rewrite firstn_app, firstn_firstn, firstn_length. replace (base - _) with 0 by lia. cbn [firstn]. rewrite app_nil_r, Nat.min_l by lia. exact EH.
  Qed.

  Lemma agi_up_run rank source l m r i st (k : list T * nat * nat -> prog (list T) A) : source < rank -> l <= m <= r -> r <= n -> agi_inv m r i st ->
    agi_receive rank source st (gathered d l m) k = k (agi_up st (gathered d l m)) /\
    agi_inv l r i (agi_up st (gathered d l m)) /\
    agi_part (let '(data, _, _) := agi_up st (gathered d l m) in let '(_, o, s) := st in (data, o, s)) = gathered d m r.
  Proof.
    intros Hs H Hn. destruct st as ((data, o), s). intros (-> & -> & L & E & ET & EH). unfold agi_receive, agi_up, recv_at.
    destruct (Nat.ltb_spec source rank); [|lia].
    pose proof (off_split m r ltac:(lia)) as Em. pose proof (off_split r n ltac:(lia)) as Er. pose proof (off_split l m ltac:(lia)) as El.
    replace (off m - length (gathered d l m)) with (off l) by lia. rewrite <- El.
    split; [|split].
    - destruct (Nat.leb_spec (length (gathered d l m)) (off m)); [|lia].
      destruct (Nat.leb_spec (off m) (length data)); [auto|lia].
    - split; [auto|]. split. { rewrite (gathered_split d l m r), app_length by lia. lia. }
      split; [|split; [|split]].
      + unfold put. rewrite !app_length, firstn_length, skipn_length. lia.
      + rewrite (slice_app (off l) (off m) (off r)) by lia. rewrite slice_put_same by lia.
        rewrite slice_put_after by lia. rewrite E. symmetry. apply gathered_split. lia.
      + rewrite slice_put_after by lia. auto.
      + unfold put. rewrite firstn_app, firstn_firstn, firstn_length. replace (base - _) with 0 by lia. cbn [firstn]. rewrite app_nil_r, Nat.min_l by lia. exact EH.
    - unfold agi_part. rewrite <- Em. rewrite slice_put_after by lia. auto.
  Qed.

  Lemma agi_round_ok : round_ok n (agi_round (A := A)) agi_inv.
  Proof.
    intros l r st H Hn HL HU. destruct (rh_mid_spec l r H) as (X & E & Y).
    set (gl := gathered d l (rh_mid l r)). set (gu := gathered d (rh_mid l r) r).
    exists (fun i => if i <? rh_mid l r then agi_low (st i) gu else agi_up (st i) gl). split.
    - apply round_down with (a := fun _ => gl) (b := fun _ => gu); auto.
      + intros i k Hi Ho. unfold agi_round. rewrite lower_true, twin_lower, Ho by lia. cbn [negb].
        rewrite (agi_part_ok l (rh_mid l r) i) by (auto; lia). eexists. split; [reflexivity|]. cbn beta.
        destruct (Nat.ltb_spec i (rh_mid l r)); [|lia]. apply (agi_low_run _ _ l (rh_mid l r) r i); auto; lia.
      + intros i k Hi Ho. unfold agi_round. rewrite lower_true, Ho by lia. cbn [negb].
        eexists. split; [reflexivity|]. cbn beta.
        destruct (Nat.ltb_spec i (rh_mid l r)); [|lia]. apply (agi_low_run _ _ l (rh_mid l r) r i); auto; lia.
      + intros i k Hi. unfold agi_round. rewrite lower_false, twin_upper by lia.
        destruct (agi_up_run i (i - (rh_mid l r - l)) l (rh_mid l r) r i (st i)
          (fun st' => let '(data, _, _) := st' in let '(_, o, s) := st i in
             Snd (i - (rh_mid l r - l)) (agi_part (data, o, s)) (if rh_treatodd i l r then Snd (rh_mid l r - 1) (agi_part (data, o, s)) (k st') else k st')))
          as (R1 & R2 & R3); auto; try lia.
        eexists. exists (if rh_treatodd i l r then Snd (rh_mid l r - 1) gu (k (agi_up (st i) gl)) else k (agi_up (st i) gl)).
        split; [reflexivity|]. cbn beta. destruct (Nat.ltb_spec i (rh_mid l r)); [lia|].
        change gl with (gathered d l (rh_mid l r)). rewrite R1. split; [|destruct (rh_treatodd i l r); auto].
        unfold agi_up in *. destruct (st i) as ((data, o), s). rewrite R3. auto.
    - intros i Hi. cbn beta. destruct (Nat.ltb_spec i (rh_mid l r)).
      + refine (proj2 (agi_low_run 0 1 l (rh_mid l r) r i (st i) (fun _ => Crash) _ _ _ _)); auto; try lia. apply HL. lia.
      + refine (proj1 (proj2 (agi_up_run 1 0 l (rh_mid l r) r i (st i) (fun _ => Crash) _ _ _ _))); auto; try lia. apply HU. lia.
  Qed.
End Inplace.
