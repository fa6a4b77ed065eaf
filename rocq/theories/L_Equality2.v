(** Lemmas about the gluing constraints: the multipliers of a rank. *)
From Coq Require Import List Arith Bool Permutation Sorted Lia.
From Verif Require Import Base S_Order S_Dual M_Dual S_Equality M_Equality L_Equality.
Import ListNotations.
Local Open Scope out_scope.

Lemma foldM_map {S A B} (f : S -> B -> outcome S) (h : A -> B) l : forall s, foldM f (map h l) s = foldM (fun s a => f s (h a)) l s.
Proof. induction l as [|a l IH]; intros s; cbn [map foldM]; [reflexivity|]. destruct (f s (h a)); cbn [obind]; auto. Qed.
Lemma combine_seq_map {A} (l : list A) d : combine (seq 0 (length l)) l = map (fun p => (p, nth p l d)) (seq 0 (length l)).
Proof.
  assert (G : forall b, combine (seq b (length l)) l = map (fun p => (p, nth (p - b) l d)) (seq b (length l))).
  { induction l as [|x l IH]; intros b; cbn [length seq combine map]; [reflexivity|]. rewrite Nat.sub_diag. cbn [nth]. f_equal. rewrite IH.
    apply map_ext_in. intros p I. apply in_seq in I. replace (p - b) with (S (p - S b)) by lia. reflexivity. }
  rewrite G. apply map_ext. intros p. now rewrite Nat.sub_0_r.
Qed.
Lemma firstn_S {A} (l : list A) k d : k < length l -> firstn (S k) l = firstn k l ++ [nth k l d].
Proof.
  revert l. induction k as [|k IH]; intros [|x l] H; cbn in H; try lia; [reflexivity|]. cbn [firstn nth app]. f_equal. apply IH. lia.
Qed.
Lemma filter_ltb_seq a m : forall b, filter (fun k => a <? k) (seq b m) = seq (Nat.max b (S a)) (b + m - Nat.max b (S a)).
Proof.
  induction m as [|m IH]; intros b; cbn [seq filter].
  - replace (b + 0 - Nat.max b (S a)) with 0 by lia. reflexivity.
  - rewrite IH. destruct (Nat.ltb_spec a b).
    + replace (Nat.max (S b) (S a)) with (S b) by lia. replace (Nat.max b (S a)) with b by lia.
      replace (b + S m - b) with (S m) by lia. replace (S b + m - S b) with m by lia. reflexivity.
    + replace (Nat.max (S b) (S a)) with (Nat.max b (S a)) by lia. f_equal. lia.
Qed.
Lemma filter_flat_map {A B} (f : B -> bool) (g : A -> list B) l : filter f (flat_map g l) = flat_map (fun a => filter f (g a)) l.
Proof. induction l as [|a l IH]; cbn; [reflexivity|]. now rewrite filter_app, IH. Qed.
Lemma filter_map_comm {A B} (f : B -> bool) (g : A -> B) l : filter f (map g l) = map g (filter (fun a => f (g a)) l).
Proof. induction l as [|a l IH]; cbn; [reflexivity|]. rewrite IH. destruct (f (g a)); reflexivity. Qed.
Lemma map_flat_map {A B C} (f : B -> C) (g : A -> list B) l : map f (flat_map g l) = flat_map (fun a => map f (g a)) l.
Proof. induction l as [|a l IH]; cbn; [reflexivity|]. now rewrite map_app, IH. Qed.
Lemma flat_map_filter {A B} (f : A -> bool) (g : A -> list B) l : flat_map g (filter f l) = flat_map (fun a => if f a then g a else []) l.
Proof. induction l as [|a l IH]; cbn; [reflexivity|]. destruct (f a); cbn; now rewrite IH. Qed.
Lemma flat_map_ext_in {A B} (f g : A -> list B) l : (forall a, In a l -> f a = g a) -> flat_map f l = flat_map g l.
Proof. induction l as [|a l IH]; intros H; cbn; [reflexivity|]. rewrite H by now left. f_equal. apply IH. intros. apply H. now right. Qed.
Lemma flat_map_map {A B C} (f : B -> list C) (g : A -> B) l : flat_map f (map g l) = flat_map (fun a => f (g a)) l.
Proof. induction l as [|a l IH]; cbn; [reflexivity|]. now rewrite IH. Qed.
Lemma map_nth_seq {A B} (f : A -> B) l d : map (fun p => f (nth p l d)) (seq 0 (length l)) = map f l.
Proof.
  induction l as [|x l IH]; cbn [length seq map]; [reflexivity|]. f_equal. rewrite <- seq_shift, map_map. exact IH.
Qed.
Lemma flat_map_nth_seq {A B} (f : A -> list B) l d : flat_map (fun p => f (nth p l d)) (seq 0 (length l)) = flat_map f l.
Proof. rewrite !flat_map_concat_map. f_equal. apply map_nth_seq. Qed.
Lemma filter_eqb_nodup d l : NoDup l -> filter (Nat.eqb d) l = if existsb (Nat.eqb d) l then [d] else [].
Proof.
  induction 1 as [|x l N Nd IH]; [reflexivity|]. cbn [filter existsb]. destruct (Nat.eqb_spec d x) as [->|].
  - cbn [orb]. f_equal. rewrite IH. destruct (existsb (Nat.eqb x) l) eqn:E; [|reflexivity]. destruct N. apply existsb_exists in E as (y & I & E).
    apply Nat.eqb_eq in E. now subst y.
  - exact IH.
Qed.

Lemma repeat_map_seq {A} (x : A) k : forall c, repeat x k = map (fun _ => x) (seq c k).
Proof. induction k as [|k IH]; intros c; cbn; [reflexivity|]. f_equal. apply IH. Qed.

Section Rank.
  Variables (n : nat) (first : nat -> nat) (N : nat) (copies : nat -> list nat) (fixed : nat -> bool) (index : nat -> nat -> nat -> nat).
  Hypothesis M : mesh n first N copies.
  Variables (nb : nat -> list nat) (r : nat).
  Hypothesis Hr : r < n.

  Local Notation D := (decomposed first nb r).
  Local Notation b := (first r).
  Local Notation m := (first (r + 1) - first r).
  Local Notation loc := (local first N copies r).
  Local Notation touch := (touches first r).
  Local Notation dmap := (dmap_of first N copies index r).

  Lemma own_ismy d : ismy D d = (b <=? d) && (d <? first (r + 1)).
  Proof. reflexivity. Qed.
  Lemma ismy_range d : ismy D d = true <-> b <= d < b + m.
  Proof. rewrite own_ismy, andb_true_iff, Nat.leb_le, Nat.ltb_lt. pose proof (mesh_first _ _ _ _ M r Hr). lia. Qed.
  Lemma touch_existsb ds : touch ds = existsb (ismy D) ds.
  Proof. reflexivity. Qed.

  (* ---- one DOF --------------------------------------------------------- *)
  Lemma first_my_touch (ix : nat -> nat) k : forall ds, k <= length ds -> touch (firstn k ds) = (first_my D (map (fun d => (d, ix d)) ds) <? k).
  Proof.
    clear Hr M. induction k as [|k IH]; intros ds H; [reflexivity|]. destruct ds as [|d ds]; [cbn in H; lia|]. cbn [firstn map first_my fst].
    rewrite touch_existsb. cbn [existsb]. destruct (ismy D d); [reflexivity|]. cbn [orb]. rewrite <- touch_existsb, IH by (cbn in H; lia). reflexivity.
  Qed.
  Lemma glue_sizes (ix : nat -> nat) ds :
    map (fun i => i + 1) (seq (Nat.max (first_my D (map (fun d => (d, ix d)) ds)) 1) (length ds - Nat.max (first_my D (map (fun d => (d, ix d)) ds)) 1))
    = filter (fun k => touch (firstn k ds)) (seq 2 (length ds - 1)).
  Proof.
    clear M Hr. set (fm := first_my _ _). transitivity (filter (fun k => fm <? k) (seq 2 (length ds - 1))).
    - rewrite filter_ltb_seq. replace (Nat.max 2 (S fm)) with (S (Nat.max fm 1)) by lia.
      rewrite (map_ext (fun i => i + 1) S) by (intros; lia). rewrite seq_shift. f_equal. lia.
    - apply filter_ext_in. intros k I. apply in_seq in I. symmetry. apply first_my_touch. lia.
  Qed.
  Lemma push_fixed_all (ix : nat -> nat) ds : forall F : nat -> list nat,
    foldM (push_fixed D) (map (fun d => (d, ix d)) ds) (map F (seq b m)) = Ok (map (fun d => F d ++ map ix (filter (Nat.eqb d) ds)) (seq b m)).
  Proof.
    induction ds as [|d ds IH]; intros F; cbn [map foldM filter].
    - f_equal. apply map_ext. intros. now rewrite app_nil_r.
    - unfold push_fixed at 1. cbn [fst snd]. destruct (ismy D d) eqn:E.
      + apply ismy_range in E. change (dbegin D) with b. rewrite push_at_map by easy. cbn [obind]. rewrite IH. f_equal. apply map_ext. intros d'.
        rewrite <- app_assoc. destruct (Nat.eqb_spec d' d) as [->|]; reflexivity.
      + cbn [obind]. rewrite IH. f_equal. apply map_ext_in. intros d' I. destruct (Nat.eqb_spec d' d) as [->|]; [|reflexivity].
        apply in_seq in I. apply ismy_range in I. congruence.
  Qed.

  (* ---- all DOFs ---------------------------------------------------------- *)
  Definition has (d g : nat) : bool := fixed g && existsb (Nat.eqb d) (copies g).
  Definition perm_of (p : nat) : list (nat * nat) :=
    if fixed (nth p loc 0) then [] else map (fun k => (p, k)) (filter (fun k => touch (firstn k (copies (nth p loc 0)))) (seq 2 (length (copies (nth p loc 0)) - 1))).
  Lemma loc_in g : In g loc <-> g < N /\ touch (copies g) = true.
  Proof. unfold local. rewrite filter_In, in_seq. intuition lia. Qed.
  Lemma collect_ok : exists dindex maxm, collect D (fixed_of first N copies fixed r) m dmap
    = Ok (dindex, maxm, map (fun d => map (fun g => index r d g) (filter (has d) loc)) (seq b m), flat_map perm_of (seq 0 (length loc)))
    /\ 2 <= maxm /\ forall g, In g loc -> fixed g = false -> length (copies g) <= maxm.
  Proof.
    unfold collect. rewrite (combine_seq_map _ []). assert (Ld : length dmap = length loc) by (unfold dmap_of; apply map_length). rewrite Ld, foldM_map.
    set (fx := fun p => fixed (nth p loc 0)).
    destruct (foldM_seq_inv
      (fun s a => collect_dof D (fixed_of first N copies fixed r) s (a, nth a dmap []))
      (fun k st => let '(dindex, maxm, FIXED, permutation) := st in dindex <= below fx k
         /\ FIXED = map (fun d => map (fun g => index r d g) (filter (has d) (firstn k loc))) (seq b m)
         /\ permutation = flat_map perm_of (seq 0 k)
         /\ 2 <= maxm /\ forall p, p < k -> fx p = false -> length (copies (nth p loc 0)) <= maxm)
      0 (length loc) (0, 2, repeat [] m, [])) as (st & E & I).
    - repeat split; try lia. cbn [firstn filter map]. apply repeat_map_seq.
    - intros k (((dindex, maxm), FIXED), permutation) Hk (I1 & I2 & I3 & I4 & I5). rewrite Nat.add_0_l in Hk. destruct Hk as [_ Hk].
      unfold collect_dof. set (g := nth k loc 0).
      assert (Eg : nth k dmap [] = map (fun d => (d, index r d g)) (copies g)).
      { unfold dmap_of. rewrite (nth_indep _ [] (map (fun d => (d, index r d 0)) (copies 0))) by (rewrite map_length; exact Hk). exact (map_nth _ _ _ _). }
      assert (Ig : In g loc) by now apply nth_In. apply loc_in in Ig as Hg. destruct Hg as [Hg Tg].
      rewrite Eg. unfold fixed_of. fold fx. rewrite (advance_below fx (length loc) k) by (try lia; pose proof (below_le fx (length loc) k); lia).
      rewrite (is_fixed fx (length loc) k Hk). rewrite (firstn_S loc k 0 Hk). fold g.
      assert (Sg : StronglySorted lt (copies g)) by now apply (mesh_copies _ _ _ _ M).
      rewrite seq_S, Nat.add_0_l. rewrite flat_map_app. cbn [flat_map]. rewrite app_nil_r. unfold perm_of at 2. fold g. change (fx k) with (fixed g).
      assert (BS : below fx k <= below fx (S k)) by (rewrite below_S; apply Nat.le_add_r).
      destruct (fixed g) eqn:F.
      + rewrite I2, push_fixed_all. cbn [obind]. eexists. split; [reflexivity|]. split; [lia|]. split; [|split; [|split]].
        * apply map_ext. intros d. rewrite filter_app, map_app. f_equal. cbn [filter]. unfold has. rewrite F. cbn [andb].
          rewrite filter_eqb_nodup by now apply ss_nodup. destruct (existsb (Nat.eqb d) (copies g)); reflexivity.
        * now rewrite app_nil_r.
        * easy.
        * intros p Hp Fp. destruct (Nat.eq_dec p k) as [->|]; [unfold fx in Fp; fold g in Fp; congruence|]. apply I5; [lia|easy].
      + eexists. split; [reflexivity|]. split; [lia|]. split; [|split; [|split]].
        * rewrite I2. apply map_ext. intros d. rewrite filter_app. cbn [filter]. unfold has at 3. rewrite F. cbn [andb]. now rewrite app_nil_r.
        * rewrite I3. f_equal. rewrite map_length.
          rewrite <- (glue_sizes (fun d => index r d g) (copies g)), map_map. apply map_ext. reflexivity.
        * lia.
        * intros p Hp Fp. rewrite map_length. destruct (Nat.eq_dec p k) as [->|]; [fold g; lia|]. specialize (I5 p). fold g in I5. specialize (I5 ltac:(lia) Fp). lia.
    - destruct st as (((dindex, maxm), FIXED), permutation). destruct I as (_ & -> & -> & I4 & I5). exists dindex, maxm. rewrite E, Nat.add_0_l, firstn_all. split; [reflexivity|].
      split; [easy|]. intros g Ig Fg. destruct (In_nth _ _ 0 Ig) as (p & Hp & <-). apply I5; easy.
  Qed.

  (* ---- the order ----------------------------------------------------------- *)
  Definition to_global (p : nat * nat) : nat * nat := (nth (fst p) loc 0, snd p).
  Local Notation permutation := (flat_map perm_of (seq 0 (length loc))).
  Definition valid (p : nat * nat) : Prop :=
    fst p < length loc /\ fixed (nth (fst p) loc 0) = false /\ 2 <= snd p <= length (copies (nth (fst p) loc 0)).
  Lemma perm_valid p : In p permutation -> valid p.
  Proof.
    intros I. apply in_flat_map in I as (q & Iq & I). apply in_seq in Iq. unfold perm_of in I. destruct (fixed (nth q loc 0)) eqn:F; [contradiction|].
    apply in_map_iff in I as (k & <- & I). apply filter_In in I as [I _]. apply in_seq in I. unfold valid. cbn [fst snd]. repeat split; try lia; easy.
  Qed.
  Lemma perm_nodup : NoDup permutation.
  Proof.
    clear M Hr. generalize (seq_NoDup (length loc) 0). generalize (seq 0 (length loc)) as l. induction l as [|p l IH]; intros Nd; [constructor|].
    apply NoDup_cons_iff in Nd as [Np Nd]. cbn [flat_map]. specialize (IH Nd).
    assert (H1 : NoDup (perm_of p)).
    { unfold perm_of. destruct (fixed _); [constructor|]. apply FinFun.Injective_map_NoDup; [intros x y E; congruence|]. apply NoDup_filter, seq_NoDup. }
    revert H1 IH. assert (H2 : forall x, In x (perm_of p) -> fst x = p).
    { intros x. unfold perm_of. destruct (fixed _); [easy|]. intros I. apply in_map_iff in I as (? & <- & _). reflexivity. }
    assert (H3 : forall x, In x (flat_map perm_of l) -> In (fst x) l).
    { intros x I. apply in_flat_map in I as (q & Iq & I). revert I. unfold perm_of. destruct (fixed _); [easy|]. intros I. apply in_map_iff in I as (? & <- & _). exact Iq. }
    revert H2. induction (perm_of p) as [|x l' IH']; intros H2 H1 IH; [exact IH|]. cbn. apply NoDup_cons_iff in H1 as [H1 H1']. constructor.
    - intros I. apply in_app_or in I as [I|I]; [contradiction|]. apply H3 in I. rewrite H2 in I by now left. contradiction.
    - apply IH'; auto. intros. apply H2. now right.
  Qed.
  Lemma loc_sorted : StronglySorted lt loc.
  Proof. apply ss_filter, ss_seq. Qed.
  Lemma ss_nth l i j : StronglySorted lt l -> i < j < length l -> nth i l 0 < nth j l 0.
  Proof.
    intros S. revert i j. induction S as [|x l S IH F]; intros i j H; [cbn in H; lia|]. destruct j as [|j]; [lia|]. cbn in H. destruct i as [|i]; cbn [nth].
    - rewrite Forall_forall in F. apply F. apply nth_In. lia.
    - apply IH. lia.
  Qed.
  Lemma loc_mono i j : i < length loc -> j < length loc -> (i <? j) = (nth i loc 0 <? nth j loc 0).
  Proof.
    intros Hi Hj. pose proof (ss_nth loc i j loc_sorted). pose proof (ss_nth loc j i loc_sorted).
    destruct (Nat.ltb_spec i j); destruct (Nat.ltb_spec (nth i loc 0) (nth j loc 0)); try reflexivity; try lia.
    assert (i = j \/ j < i) as [->|] by lia; lia.
  Qed.
  Lemma dmap_nth p : p < length loc -> nth p dmap [] = map (fun d => (d, index r d (nth p loc 0))) (copies (nth p loc 0)).
  Proof.
    intros H. unfold dmap_of. rewrite (nth_indep _ [] (map (fun d => (d, index r d 0)) (copies 0))) by now rewrite map_length.
    exact (map_nth (fun g => map (fun d => (d, index r d g)) (copies g)) loc 0 p).
  Qed.
  Lemma dmap_domains p : p < length loc -> map fst (nth p dmap []) = copies (nth p loc 0).
  Proof. intros H. rewrite dmap_nth by easy. rewrite map_map. apply map_id. Qed.
  Lemma less_before p q : valid p -> valid q -> less dmap p q = before copies (to_global p) (to_global q).
  Proof.
    intros (P1 & _ & P2) (Q1 & _ & Q2). rewrite less_lex. unfold lkey, before, to_global. cbn [fst snd]. unfold lex2. cbn [fst snd].
    assert (L : forall i, i < length loc -> length (nth i dmap []) = length (copies (nth i loc 0))) by (intros; rewrite dmap_nth by easy; apply map_length).
    rewrite !prefix_firstn, !dmap_domains by (try rewrite L; lia). now rewrite (loc_mono (fst p) (fst q)).
  Qed.
  Lemma perm_global : map to_global permutation = filter (fun p => touch (firstn (snd p) (copies (fst p)))) (all_glue N copies fixed).
  Proof.
    unfold all_glue. rewrite filter_flat_map, map_flat_map.
    transitivity (flat_map (fun g => filter (fun p => touch (firstn (snd p) (copies (fst p)))) (if fixed g then [] else map (fun size => (g, size)) (seq 2 (length (copies g) - 1)))) loc).
    - rewrite <- (flat_map_nth_seq _ loc 0). apply flat_map_ext_in. intros p _. unfold perm_of. destruct (fixed (nth p loc 0)); [reflexivity|].
      rewrite map_map, filter_map_comm. apply map_ext. reflexivity.
    - unfold local. rewrite flat_map_filter. apply flat_map_ext_in. intros g _. destruct (touch (copies g)) eqn:Tg; [reflexivity|]. symmetry.
      destruct (fixed g); [reflexivity|]. rewrite filter_map_comm. cbn [fst snd]. replace (filter _ (seq 2 _)) with (@nil nat); [reflexivity|]. symmetry.
      assert (K : forall k, touch (firstn k (copies g)) = false).
      { intros k. destruct (touch (firstn k (copies g))) eqn:E; [|reflexivity]. rewrite <- Tg. symmetry. rewrite touch_existsb, existsb_exists in *. destruct E as (d & I & E). exists d. split; [|easy].
        rewrite <- (firstn_skipn k). apply in_or_app. now left. }
      clear -K. induction (seq 2 (length (copies g) - 1)) as [|x l IH]; [reflexivity|]. cbn. now rewrite K.
  Qed.

  Variable glued : list (nat * nat).
  Hypothesis Hg : ordered N copies fixed glued.
  Variable sort : (nat * nat -> nat * nat -> bool) -> list (nat * nat) -> list (nat * nat).
  Hypothesis Hsort : forall lt, strict_weak_order lt -> sort_contract lt (sort lt).

  Lemma before_asym p q : before copies p q = true -> before copies q p = true -> False.
  Proof.
    intros H G. pose proof (lex2_asym (firstn (snd p) (copies (fst p)), fst p) (firstn (snd q) (copies (fst q)), fst q)) as A.
    unfold lex2 in A. cbn [fst snd] in A. unfold before in *. rewrite A in G by exact H. discriminate.
  Qed.
  Lemma permutation_filter {A} (f : A -> bool) l l' : Permutation l l' -> Permutation (filter f l) (filter f l').
  Proof.
    induction 1 as [|x l l' P IH|x y l|l l' l'' P IH P' IH']; cbn; [constructor| | |econstructor; eauto].
    - destruct (f x); [now constructor|exact IH].
    - destruct (f x), (f y); try reflexivity. apply perm_swap.
  Qed.
  (** the multipliers of the rank are the global ones, in the global order *)
  Lemma sorted_global : map to_global (sort (less dmap) permutation) = filter (fun p => touch (firstn (snd p) (copies (fst p)))) glued.
  Proof.
    destruct (sort_strict dmap sort permutation (Hsort _ (less_order dmap)) perm_nodup) as [P S]. destruct Hg as [Pg Sg].
    apply (strict_unique (fun p q => before copies p q = true)).
    - exact before_asym.
    - apply ss_map with (lt := fun p q => less dmap p q = true); [|exact S]. intros p q Ip Iq H. rewrite <- less_before; [exact H| |];
        apply perm_valid; eapply Permutation_in; try eassumption; now symmetry.
    - apply ss_filter. exact Sg.
    - assert (PP : Permutation (map to_global (sort (less dmap) permutation)) (filter (fun p => touch (firstn (snd p) (copies (fst p)))) glued)).
      { transitivity (map to_global permutation); [apply Permutation_map; now symmetry|]. rewrite perm_global. apply permutation_filter. now symmetry. }
      intros x. split; apply Permutation_in; [exact PP|now symmetry].
  Qed.
  Lemma sorted_valid p : In p (sort (less dmap) permutation) -> valid p.
  Proof.
    destruct (sort_strict dmap sort permutation (Hsort _ (less_order dmap)) perm_nodup) as [P S]. intros I. apply perm_valid. eapply Permutation_in; [|exact I]. now symmetry.
  Qed.
End Rank.
