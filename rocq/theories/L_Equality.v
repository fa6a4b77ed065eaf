(** Lemmas about the gluing constraints: orders and the collection of the multipliers. *)
From Coq Require Import List Arith Bool Permutation Sorted Lia.
From Verif Require Import Base S_Order S_Dual M_Dual S_Equality M_Equality.
Import ListNotations.
Local Open Scope out_scope.

(* ---- the lexicographical order ------------------------------------------ *)

Lemma lex_irrefl a : lex_lt a a = false.
Proof. induction a as [|x a IH]; cbn [lex_lt]; [reflexivity|]. now rewrite Nat.ltb_irrefl, IH, andb_false_r. Qed.
Lemma lex_step x y a b : lex_lt (x :: a) (y :: b) = true <-> x < y \/ (x = y /\ lex_lt a b = true).
Proof. cbn [lex_lt]. rewrite orb_true_iff, andb_true_iff, Nat.ltb_lt, Nat.eqb_eq. tauto. Qed.
Lemma lex_trans a : forall b c, lex_lt a b = true -> lex_lt b c = true -> lex_lt a c = true.
Proof.
  induction a as [|x a IH]; intros [|y b] [|z c]; try (cbn; congruence).
  rewrite !lex_step. intros [H|[-> H]] [G|[-> G]]; [left; lia|left; lia|left; lia|right]. split; [reflexivity|eauto].
Qed.
Lemma lex_tri a : forall b, lex_lt a b = true \/ a = b \/ lex_lt b a = true.
Proof.
  induction a as [|x a IH]; intros [|y b]; try (cbn; tauto). rewrite !lex_step.
  destruct (Nat.lt_trichotomy x y) as [H|[->|H]]; [tauto| |tauto]. destruct (IH b) as [H|[->|H]]; tauto.
Qed.
Lemma lex_asym a b : lex_lt a b = true -> lex_lt b a = false.
Proof. intros H. destruct (lex_lt b a) eqn:E; [|reflexivity]. rewrite <- (lex_irrefl a). symmetry. eapply lex_trans; eauto. Qed.

(** the order of (domains, DOF) *)
Definition lex2 (x y : list nat * nat) : bool := lex_lt (fst x) (fst y) || (negb (lex_lt (fst y) (fst x)) && (snd x <? snd y)).
Lemma lex2_lt x y : lex2 x y = true <-> lex_lt (fst x) (fst y) = true \/ (fst x = fst y /\ snd x < snd y).
Proof.
  unfold lex2. rewrite orb_true_iff, andb_true_iff, negb_true_iff, Nat.ltb_lt. split.
  - intros [H|[H G]]; [tauto|]. destruct (lex_tri (fst x) (fst y)) as [K|[K|K]]; [tauto|tauto|congruence].
  - intros [H|[H G]]; [tauto|]. right. rewrite H. split; [apply lex_irrefl|easy].
Qed.
Lemma lex2_ge x y : lex2 x y = false <-> lex_lt (fst y) (fst x) = true \/ (fst x = fst y /\ snd y <= snd x).
Proof.
  rewrite <- not_true_iff_false, lex2_lt. split.
  - intros H. destruct (lex_tri (fst x) (fst y)) as [K|[K|K]]; [tauto| |tauto]. right. split; [easy|].
    destruct (Nat.le_gt_cases (snd y) (snd x)); [easy|]. tauto.
  - intros [H|[H G]] [K|[K I]].
    + apply lex_asym in H. congruence.
    + rewrite K, lex_irrefl in H. discriminate.
    + rewrite H, lex_irrefl in K. discriminate.
    + lia.
Qed.
Lemma lex2_asym x y : lex2 x y = true -> lex2 y x = false.
Proof. rewrite lex2_lt, lex2_ge. intros [H|[H G]]; [now left|right]. split; [easy|lia]. Qed.
Lemma lex2_le_trans x y z : lex2 y x = false -> lex2 z y = false -> lex2 z x = false.
Proof.
  rewrite !lex2_ge. intros [H|[H G]] [K|[K I]].
  - left. eapply lex_trans; eauto.
  - left. now rewrite K.
  - left. now rewrite <- H.
  - right. split; [congruence|lia].
Qed.
Lemma lex2_antisym x y : lex2 x y = false -> lex2 y x = false -> x = y.
Proof.
  rewrite !lex2_ge. intros [H|[H G]] [K|[K I]].
  - apply lex_asym in H. congruence.
  - rewrite K, lex_irrefl in H. discriminate.
  - rewrite H, lex_irrefl in K. discriminate.
  - destruct x, y; cbn in *. f_equal; [easy|lia].
Qed.

(* ---- the comparator ------------------------------------------------------ *)

Definition prefix (k : nat) (A : list (nat * nat)) : list nat := map (fun j => fst (nth j A (0, 0))) (seq 0 k).
Lemma prefix_S k A : prefix (S k) A = fst (hd (0, 0) A) :: prefix k (tl A).
Proof.
  unfold prefix. cbn [seq map]. f_equal; [now destruct A|]. rewrite <- seq_shift, map_map. apply map_ext. intros j. destruct A; [destruct j|]; reflexivity.
Qed.
Lemma prefix_length k A : length (prefix k A) = k.
Proof. unfold prefix. now rewrite map_length, seq_length. Qed.
Lemma prefix_firstn k A : k <= length A -> prefix k A = firstn k (map fst A).
Proof.
  revert A. induction k as [|k IH]; intros A H; [reflexivity|]. rewrite prefix_S. destruct A as [|x A]; [cbn in H; lia|]. cbn [hd tl map firstn].
  f_equal. apply IH. cbn in H. lia.
Qed.
Definition lkey (dmap : list (list (nat * nat))) (p : nat * nat) : list nat * nat := (prefix (snd p) (nth (fst p) dmap []), fst p).
Lemma less_domains_lex x y k : forall k' A B,
  less_domains (Nat.min k k') A B (if negb (k =? k') then k <? k' else x <? y) = lex2 (prefix k A, x) (prefix k' B, y).
Proof.
  induction k as [|k IH]; intros k' A B.
  - cbn [Nat.min less_domains]. destruct k' as [|k']; [reflexivity|]. rewrite (prefix_S k' B). reflexivity.
  - destruct k' as [|k']; [rewrite (prefix_S k A); reflexivity|]. cbn [Nat.min less_domains]. rewrite !prefix_S.
    unfold lex2. cbn [fst snd lex_lt]. change (S k =? S k') with (k =? k'). change (S k <? S k') with (k <? k').
    destruct (Nat.eqb_spec (fst (hd (0, 0) A)) (fst (hd (0, 0) B))) as [E|E]; cbn [negb].
    + rewrite E, Nat.ltb_irrefl, Nat.eqb_refl. cbn [orb andb]. apply IH.
    + destruct (Nat.ltb_spec (fst (hd (0, 0) A)) (fst (hd (0, 0) B))) as [H|H]; [reflexivity|].
      replace (fst (hd (0, 0) B) <? fst (hd (0, 0) A)) with true by (symmetry; apply Nat.ltb_lt; lia).
      reflexivity.
Qed.
Lemma less_lex dmap p q : less dmap p q = lex2 (lkey dmap p) (lkey dmap q).
Proof. apply less_domains_lex. Qed.
Lemma less_order dmap : strict_weak_order (less dmap).
Proof.
  split.
  - intros p q. rewrite !less_lex. apply lex2_asym.
  - intros p q r. unfold le_of. rewrite !less_lex. apply lex2_le_trans.
Qed.
Lemma less_antisym dmap p q : less dmap p q = false -> less dmap q p = false -> p = q.
Proof.
  rewrite !less_lex. intros H G. pose proof (lex2_antisym _ _ H G) as E.
  pose proof (f_equal (fun x => length (fst x)) E) as E1. pose proof (f_equal snd E) as E2. cbn [lkey fst snd] in E1, E2. rewrite !prefix_length in E1.
  destruct p, q. cbn [fst snd] in *. congruence.
Qed.

(** strictly sorted lists of the same elements are equal *)
Lemma strict_unique {A} (lt : A -> A -> Prop) : (forall x y, lt x y -> lt y x -> False) -> forall l1 l2,
  StronglySorted lt l1 -> StronglySorted lt l2 -> (forall x, In x l1 <-> In x l2) -> l1 = l2.
Proof.
  intros AS. induction l1 as [|x l1 IH]; intros [|y l2] S1 S2 E; [reflexivity| | |].
  - destruct (E y) as [_ H]. destruct H; now left.
  - destruct (E x) as [H _]. destruct H; now left.
  - apply StronglySorted_inv in S1 as [S1 F1]. apply StronglySorted_inv in S2 as [S2 F2]. rewrite Forall_forall in F1, F2.
    assert (I1 : ~ In x l1) by (intros I; exact (AS x x (F1 x I) (F1 x I))).
    assert (I2 : ~ In y l2) by (intros I; exact (AS y y (F2 y I) (F2 y I))).
    assert (Exy : x = y).
    { destruct (proj1 (E x) (or_introl eq_refl)) as [H|H]; [easy|]. destruct (proj2 (E y) (or_introl eq_refl)) as [G|G]; [easy|].
      destruct (AS x y); auto. }
    subst y. f_equal. apply IH; auto. intros z. split; intros I.
    + destruct (proj1 (E z) (or_intror I)) as [<-|]; [contradiction|easy].
    + destruct (proj2 (E z) (or_intror I)) as [<-|]; [contradiction|easy].
Qed.
Lemma ss_filter {A} (lt : A -> A -> Prop) f l : StronglySorted lt l -> StronglySorted lt (filter f l).
Proof.
  induction 1 as [|x l S IH F]; cbn; [constructor|]. destruct (f x); [|exact IH]. constructor; [exact IH|].
  apply Forall_forall. intros y I. apply filter_In in I as [I _]. rewrite Forall_forall in F. auto.
Qed.
Lemma ss_map {A B} (lt : A -> A -> Prop) (lt' : B -> B -> Prop) (f : A -> B) l :
  (forall x y, In x l -> In y l -> lt x y -> lt' (f x) (f y)) -> StronglySorted lt l -> StronglySorted lt' (map f l).
Proof.
  intros H S. induction S as [|x l S IH F]; cbn; [constructor|]. constructor.
  - apply IH. intros y z Iy Iz. apply H; now right.
  - apply Forall_forall. intros y I. apply in_map_iff in I as (z & <- & I). rewrite Forall_forall in F. apply H; [now left|now right|auto].
Qed.
Lemma ss_impl {A} (lt lt' : A -> A -> Prop) l : NoDup l -> (forall x y, In x l -> In y l -> x <> y -> lt x y -> lt' x y) -> StronglySorted lt l -> StronglySorted lt' l.
Proof.
  intros N H S. induction S as [|x l S IH F]; [constructor|]. apply NoDup_cons_iff in N as [Nx N]. constructor.
  - apply IH; [easy|]. intros y z Iy Iz. apply H; now right.
  - rewrite Forall_forall in *. intros y I. apply H; [now left|now right|congruence|auto].
Qed.
Lemma ss_seq b k : StronglySorted lt (seq b k).
Proof.
  revert b. induction k as [|k IH]; intros b; cbn; [constructor|]. constructor; [apply IH|]. apply Forall_forall. intros x I. apply in_seq in I. lia.
Qed.
Lemma ss_nodup l : StronglySorted lt l -> NoDup l.
Proof.
  induction 1 as [|x l S IH F]; constructor; [|exact IH]. intros I. rewrite Forall_forall in F. specialize (F x I). lia.
Qed.

(** [sort] with its contract gives the only strictly sorted list *)
Lemma sort_strict dmap sort l : sort_contract (less dmap) (sort (less dmap)) -> NoDup l ->
  Permutation l (sort (less dmap) l) /\ strictly_sorted (less dmap) (sort (less dmap) l).
Proof.
  intros C N. destruct (C l) as [P S]. split; [exact P|]. unfold strictly_sorted. eapply ss_impl; [|  |exact S].
  - eapply Permutation_NoDup; eauto.
  - intros x y _ _ D. unfold le_of. intros H. destruct (less dmap x y) eqn:E; [reflexivity|]. destruct D. now apply (less_antisym dmap).
Qed.

(* ---- vectors indexed by the own domains ----------------------------------- *)

Lemma rd_map_seq {A} (F : nat -> A) b m i : i < m -> rd (map F (seq b m)) i = Ok (F (b + i)).
Proof.
  intros H. rewrite (rd_ok _ _ (F 0)) by now rewrite map_length, seq_length. rewrite map_nth, seq_nth by easy. reflexivity.
Qed.
Lemma upd_map_seq {A} (F : nat -> A) b m i x : i < m -> upd (map F (seq b m)) i x = map (fun d => if d =? b + i then x else F d) (seq b m).
Proof.
  revert b i. induction m as [|m IH]; intros b i H; [lia|]. cbn [seq map]. destruct i as [|i]; cbn [upd].
  - rewrite Nat.add_0_r, Nat.eqb_refl. f_equal. apply map_ext_in. intros d I. apply in_seq in I.
    replace (d =? b) with false by (symmetry; apply Nat.eqb_neq; lia). reflexivity.
  - replace (b =? b + S i) with false by (symmetry; apply Nat.eqb_neq; lia). f_equal. rewrite IH by lia. now replace (S b + i) with (b + S i) by lia.
Qed.
Lemma push_at_map {A} (F : nat -> list A) b m d x : b <= d < b + m ->
  push_at (map F (seq b m)) (d - b) x = Ok (map (fun d' => F d' ++ if d' =? d then [x] else []) (seq b m)).
Proof.
  intros H. unfold push_at. rewrite rd_map_seq by lia. cbn [obind]. rewrite wr_ok by (rewrite map_length, seq_length; lia).
  rewrite upd_map_seq by lia. replace (b + (d - b)) with d by lia. f_equal. apply map_ext. intros d'.
  destruct (Nat.eqb_spec d' d) as [->|]; [reflexivity|]. now rewrite app_nil_r.
Qed.

(* ---- Dirichlet positions --------------------------------------------------- *)

Section Positions.
  Variables (fx : nat -> bool) (len : nat).
  Local Notation indices := (filter fx (seq 0 len)).
  Definition below (k : nat) : nat := length (filter fx (seq 0 k)).
  Lemma below_S k : below (S k) = below k + (if fx k then 1 else 0).
  Proof. unfold below. rewrite seq_S, filter_app, app_length. cbn. destruct (fx k); reflexivity. Qed.
  Lemma indices_split k : k <= len -> indices = filter fx (seq 0 k) ++ filter fx (seq k (len - k)).
  Proof. intros H. rewrite <- filter_app, <- seq_app. now replace (k + (len - k)) with len by lia. Qed.
  Lemma below_le k : k <= len -> below k <= length indices.
  Proof. intros H. rewrite (indices_split k H), app_length. unfold below. lia. Qed.
  Lemma nth_below k j : k <= len -> j < below k -> nth j indices 0 < k.
  Proof.
    intros H J. rewrite (indices_split k H), app_nth1 by easy. assert (I : In (nth j (filter fx (seq 0 k)) 0) (filter fx (seq 0 k))) by now apply nth_In.
    apply filter_In in I as [I _]. apply in_seq in I. lia.
  Qed.
  Lemma nth_above k j : k <= len -> below k <= j < length indices -> k <= nth j indices 0.
  Proof.
    intros H [J J']. rewrite (indices_split k H) in J' |- *. rewrite app_nth2 by easy. rewrite app_length in J'. unfold below in J.
    assert (I : In (nth (j - length (filter fx (seq 0 k))) (filter fx (seq k (len - k))) 0) (filter fx (seq k (len - k)))) by (apply nth_In; lia).
    apply filter_In in I as [I _]. apply in_seq in I. lia.
  Qed.
  Lemma advance_below k : k <= len -> forall fuel j, j <= below k -> below k - j <= fuel -> advance fuel indices k j = below k.
  Proof.
    intros H. pose proof (below_le k H) as HL. induction fuel as [|fuel IH]; intros j J F; cbn [advance]; [lia|].
    destruct (Nat.eq_dec j (below k)) as [->|N].
    - destruct (Nat.ltb_spec (below k) (length indices)) as [G|G]; [|reflexivity]. cbn [andb].
      pose proof (nth_above k (below k) H) as A. destruct (Nat.ltb_spec (nth (below k) indices 0) k); [lia|reflexivity].
    - pose proof (nth_below k j H). replace (j <? length indices) with true by (symmetry; apply Nat.ltb_lt; lia).
      replace (nth j indices 0 <? k) with true by (symmetry; apply Nat.ltb_lt; lia). cbn [andb]. apply IH; lia.
  Qed.
  Lemma is_fixed k : k < len -> (below k <? length indices) && (nth (below k) indices 0 =? k) = fx k.
  Proof.
    intros H. pose proof (below_S k) as BS. pose proof (below_le (S k) H) as L. destruct (fx k) eqn:E.
    - replace (below k <? length indices) with true by (symmetry; apply Nat.ltb_lt; lia). cbn [andb]. apply Nat.eqb_eq.
      pose proof (nth_below (S k) (below k) H). pose proof (nth_above k (below k)). lia.
    - destruct (Nat.ltb_spec (below k) (length indices)) as [G|G]; [|reflexivity]. cbn [andb]. apply Nat.eqb_neq.
      pose proof (nth_above (S k) (below k) H). lia.
  Qed.
End Positions.
