(** * Lemmas about the matrix helpers of the kernel computation: permutations *)
From Coq Require Import List Bool Arith Permutation Sorted Lia.
From Verif Require Import Base S_Order M_Csx M_Dnx M_Math S_Csx S_Dnx S_Math L_Utils L_Csx L_Csx2 L_Dnx2.
Import ListNotations.
Local Open Scope out_scope.

Section Store.
Context {T : Type}.
Definition below (l : list (nat * nat * T)) (k : nat) : nat := length (filter (fun x => fst (fst x) <? k) l).

Lemma below_snoc l x k : below (l ++ [x]) k = below l k + (if fst (fst x) <? k then 1 else 0).
Proof. unfold below. rewrite filter_app, app_length. cbn [filter]. destruct (_ <? _); auto. Qed.

Lemma below_S l k : below l (S k) = below l k + cnt l k.
Proof.
  unfold below, cnt. induction l as [|x l IH]; auto. cbn [filter].
  destruct (Nat.ltb_spec (fst (fst x)) (S k)), (Nat.ltb_spec (fst (fst x)) k), (Nat.eqb_spec (fst (fst x)) k); cbn [length]; lia.
Qed.

Lemma below_0 l : below l 0 = 0.
Proof. unfold below. induction l; auto. Qed.

Lemma below_all l k : (forall x, In x l -> fst (fst x) < k) -> below l k = length l.
Proof.
  unfold below. induction l as [|x l IH]; auto. intros H. cbn [filter].
  destruct (Nat.ltb_spec (fst (fst x)) k) as [_|K]; [|specialize (H x (or_introl eq_refl)); lia].
  cbn [length]. rewrite IH; auto. intros; apply H; right; auto.
Qed.

Lemma offs_below l n k : k <= n -> offs (buckets l n) k = below l k.
Proof.
  induction k; intros H. { now rewrite offs_0, below_0. }
  rewrite offs_buckets by lia. rewrite IHk by lia. now rewrite below_S.
Qed.

Lemma ijv_le (a b : nat * nat * T) : le_of ijv_ltb a b -> fst (fst a) <= fst (fst b).
Proof.
  unfold le_of, ijv_ltb. destruct (Nat.eqb_spec (fst (fst b)) (fst (fst a))) as [E|E]; [lia|].
  intros H. apply Nat.ltb_ge in H. lia.
Qed.

Lemma sorted_nth (S : list (nat * nat * T)) : sorted ijv_ltb S ->
  forall i j a b, i <= j -> nth_error S i = Some a -> nth_error S j = Some b -> fst (fst a) <= fst (fst b).
Proof.
  unfold sorted. induction 1 as [|x S HS IH HF]; intros i j a b L Ea Eb. { destruct i; discriminate. }
  destruct i, j; cbn [nth_error] in *; try lia.
  - assert (a = b) by congruence. subst. lia.
  - inversion Ea; subst. apply nth_error_In in Eb. rewrite Forall_forall in HF. apply ijv_le. auto.
  - apply (IH i j); auto. lia.
Qed.

(** a list sorted by rows is the concatenation of its rows *)
Lemma concat_buckets_sorted (S : list (nat * nat * T)) n : sorted ijv_ltb S -> (forall x, In x S -> fst (fst x) < n) ->
  concat (buckets S n) = S.
Proof.
  intros HS HK. unfold buckets, bucket. rewrite <- flat_map_concat_map.
  induction HS as [|x S HS IH HF].
  - induction (seq 0 n); auto.
  - assert (K : fst (fst x) < n) by (apply HK; left; auto).
    transitivity (x :: flat_map (fun c => filter (fun y => fst (fst y) =? c) S) (seq 0 n)); [|f_equal; apply IH; intros; apply HK; right; auto].
    assert (G : forall y, In y S -> fst (fst x) <= fst (fst y)).
    { intros y Hy. rewrite Forall_forall in HF. apply ijv_le. auto. }
    replace n with (fst (fst x) + Datatypes.S (n - fst (fst x) - 1)) by lia. rewrite seq_app, !flat_map_app. cbn [seq flat_map].
    rewrite Nat.add_0_l.
    assert (Z : forall l, (forall r, In r l -> r < fst (fst x)) -> flat_map (fun r => filter (fun y => fst (fst y) =? r) S) l = []).
    { induction l as [|r l IHl]; auto. intros H. cbn [flat_map]. rewrite IHl by (intros; apply H; right; auto). rewrite app_nil_r.
      assert (F : forall y, In y S -> (fst (fst y) =? r) = false).
      { intros y Hy. apply Nat.eqb_neq. specialize (G y Hy). specialize (H r (or_introl eq_refl)). lia. }
      clear - F. induction S as [|y S IH]; auto. cbn [filter]. rewrite F by (left; auto). apply IH. intros; apply F; right; auto. }
    assert (Z' : flat_map (fun r => filter (fun y => fst (fst y) =? r) (x :: S)) (seq 0 (fst (fst x))) = []).
    { rewrite <- (Z (seq 0 (fst (fst x)))) by (intros r Hr; apply in_seq in Hr; lia).
      rewrite !flat_map_concat_map. f_equal. apply map_ext_in. intros r Hr. apply in_seq in Hr. cbn [filter].
      destruct (Nat.eqb_spec (fst (fst x)) r); auto. lia. }
    rewrite Z', Z by (intros r Hr; apply in_seq in Hr; lia). cbn [app filter]. rewrite Nat.eqb_refl. cbn [app]. f_equal. f_equal.
    rewrite !flat_map_concat_map. f_equal. apply map_ext_in. intros r Hr. apply in_seq in Hr.
    destruct (Nat.eqb_spec (fst (fst x)) r); auto. lia.
Qed.

Definition stored (S : list (nat * nat * T)) (n i : nat) (s : list nat * list nat * list T * nat) : Prop :=
  let '(p, ix, vs, r) := s in
  length p = n + 1 /\ length ix = length S /\ length vs = length S /\
  firstn i ix = map (fun x => snd (fst x)) (firstn i S) /\ firstn i vs = map snd (firstn i S) /\
  (i = 0 -> r = n /\ nth 0 p 0 = 0) /\
  (forall j y, i = j + 1 -> nth_error S j = Some y ->
     r = fst (fst y) /\ forall k, k <= fst (fst y) + 1 -> nth k p 0 = below (firstn i S) k).

Lemma firstn_in_nth {A} i (l : list A) x : In x (firstn i l) -> exists j, j < i /\ nth_error l j = Some x.
Proof.
  revert l. induction i; intros [|a l]; cbn [firstn]; try contradiction. intros [->|H].
  - exists 0. split; [lia|auto].
  - destruct (IHi l H) as (j & J & E). exists (S j). split; [lia|auto].
Qed.

Lemma store_step (S : list (nat * nat * T)) n i s : sorted ijv_ltb S -> (forall x, In x S -> fst (fst x) < n) ->
  (forall r, r < n -> exists x, In x S /\ fst (fst x) = r) -> i < length S -> stored S n i s ->
  exists s', store_entry S s i = Ok s' /\ stored S n (Datatypes.S i) s'.
Proof.
  intros HS HK HE Hi. destruct s as [[[p ix] vs] r]. intros (L1 & L2 & L3 & F1 & F2 & I0 & IS).
  destruct (nth_error S i) as [x|] eqn:Ex; [|apply nth_error_None in Ex; lia].
  assert (Kx : fst (fst x) < n) by (apply HK; eapply nth_error_In; eauto).
  assert (P : exists p1, (if r =? fst (fst x) then Ok p else k <- rd p (fst (fst x)) ;; wr p (fst (fst x) + 1) k) = Ok p1 /\
     length p1 = n + 1 /\ (forall k, k <= fst (fst x) + 1 -> nth k p1 0 = below (firstn i S) k)).
  { destruct i as [|j].
    - destruct (I0 eq_refl) as [-> N0].
      assert (X0 : fst (fst x) = 0).
      { destruct (HE 0) as (y & Hy & Ey); [lia|]. apply In_nth_error in Hy. destruct Hy as (q & Hq).
        pose proof (sorted_nth S HS 0 q x y ltac:(lia) Ex Hq). lia. }
      rewrite X0. destruct (Nat.eqb_spec n 0) as [|_]; [lia|].
      rewrite (rd_ok p 0 0) by lia. cbn [obind]. rewrite wr_ok by lia. eexists. split; [reflexivity|]. rewrite upd_length. split; auto.
      intros k Hk. rewrite nth_upd by lia. rewrite N0. cbn [firstn]. unfold below. cbn [filter length].
      destruct (Nat.eqb_spec (0 + 1) k); auto. replace k with 0 by lia. auto.
    - destruct (nth_error S j) as [y|] eqn:Ey; [|apply nth_error_None in Ey; lia].
      destruct (IS j y ltac:(lia) Ey) as [-> NP].
      pose proof (sorted_nth S HS j (Datatypes.S j) y x ltac:(lia) Ey Ex) as LE.
      destruct (Nat.eqb_spec (fst (fst y)) (fst (fst x))) as [E|E].
      + exists p. split; auto. split; auto. intros. apply NP. lia.
      + assert (N : fst (fst x) = fst (fst y) + 1).
        { destruct (Nat.eq_dec (fst (fst x)) (fst (fst y) + 1)); auto. exfalso.
          destruct (HE (fst (fst y) + 1)) as (z & Hz & Ez); [lia|]. apply In_nth_error in Hz. destruct Hz as (q & Hq).
          destruct (le_lt_dec q j) as [Q|Q].
          - pose proof (sorted_nth S HS q j z y Q Hq Ey). lia.
          - pose proof (sorted_nth S HS (Datatypes.S j) q x z Q Ex Hq). lia. }
        rewrite (rd_ok p _ 0) by lia. cbn [obind]. rewrite wr_ok by lia. eexists. split; [reflexivity|]. rewrite upd_length. split; auto.
        assert (A : forall k, fst (fst y) + 1 <= k -> below (firstn (Datatypes.S j) S) k = length (firstn (Datatypes.S j) S)).
        { intros k Hk. apply below_all. intros z Hz. apply firstn_in_nth in Hz. destruct Hz as (q & Q & Hq).
          pose proof (sorted_nth S HS q j z y ltac:(lia) Hq Ey). lia. }
        intros k Hk. rewrite nth_upd by lia. destruct (Nat.eqb_spec (fst (fst x) + 1) k) as [<-|K].
        * rewrite NP by lia. rewrite !A by lia. auto.
        * apply NP. lia. }
  destruct P as (p1 & Ep & Lp & Np).
  unfold store_entry. cbv beta iota. rewrite (rd_some S i x Ex). cbn [obind]. rewrite Ep. cbn [obind]. unfold incr.
  rewrite (rd_ok p1 _ 0) by lia. cbn [obind]. rewrite wr_ok by lia. cbn [obind]. rewrite !wr_ok by lia. cbn [obind].
  eexists. split; [reflexivity|]. unfold stored. rewrite !upd_length.
  split; [auto|]. split; [auto|]. split; [auto|].
  rewrite (firstn_S_error _ _ _ Ex), !map_app, <- F1, <- F2. cbn [map]. rewrite <- (Nat.add_1_r i), !firstn_upd_snoc by lia.
  split; [auto|]. split; [auto|]. split; [intros; lia|].
  intros j y Ej Ey. assert (j = i) by lia. subst j. assert (y = x) by congruence. subst y. split; auto.
  intros k Hk. rewrite nth_upd by lia. rewrite below_snoc.
  destruct (Nat.eqb_spec (fst (fst x) + 1) k) as [<-|K].
  - rewrite Np by lia. destruct (Nat.ltb_spec (fst (fst x)) (fst (fst x) + 1)); lia.
  - rewrite Np by lia. destruct (Nat.ltb_spec (fst (fst x)) k); lia.
Qed.

Lemma store_ok (m : csx T) (S : list (nat * nat * T)) p ix vs n : sorted ijv_ltb S -> (forall x, In x S -> fst (fst x) < n) ->
  (forall r, r < n -> exists x, In x S /\ fst (fst x) = r) ->
  length p = n + 1 -> length ix = length S -> length vs = length S -> nth 0 p 0 = 0 ->
  exists r', foldM (store_entry S) (seq 0 (length S)) (p, ix, vs, n) =
    Ok (map (offs (buckets S n)) (seq 0 (Datatypes.S n)), map (fun x => snd (fst x)) S, map snd S, r').
Proof.
  intros HS HK HE L1 L2 L3 N0.
  destruct (foldM_seq_inv (store_entry S) (stored S n) 0 (length S) (p, ix, vs, n)) as (s & Es & Is).
  - cbn [stored firstn map]. split; [auto|]. split; [auto|]. split; [auto|]. split; [auto|]. split; [auto|]. split; [auto|]. intros; lia.
  - intros i s Hi Hs. apply (store_step S n); auto. lia.
  - destruct s as [[[p' ix'] vs'] r']. rewrite Nat.add_0_l in Is. destruct Is as (I1 & I2 & I3 & I4 & I5 & I6 & I7).
    exists r'. rewrite Es. rewrite firstn_all in I4, I5. rewrite <- I2, firstn_all in I4. rewrite <- I3, firstn_all in I5. subst ix' vs'.
    f_equal. f_equal. f_equal. f_equal. apply (nth_ext _ _ 0 0). { rewrite map_length, seq_length. lia. }
    intros k Hk. rewrite nth_map_offs by lia. rewrite offs_below by lia.
    destruct (Nat.eq_dec n 0) as [->|Hn].
    + replace k with 0 in * by lia. rewrite below_0. destruct S as [|x S]; [apply I6; reflexivity|]. specialize (HK x (or_introl eq_refl)). lia.
    + destruct (HE (n - 1)) as (x & Hx & Ex); [lia|]. apply In_nth_error in Hx. destruct Hx as (q & Hq).
      assert (q < length S) by (apply nth_error_Some; congruence).
      destruct (nth_error S (length S - 1)) as [y|] eqn:Ey; [|apply nth_error_None in Ey; lia].
      pose proof (sorted_nth S HS q (length S - 1) x y ltac:(lia) Hq Ey).
      rewrite firstn_all in I7. apply (I7 (length S - 1) y); auto; try lia.
Qed.
End Store.

(** ** permutations given as lists *)
Lemma perm_length p n : is_perm p n -> length p = n.
Proof. intros H. apply Permutation_length in H. rewrite H. apply seq_length. Qed.
Lemma perm_lt p n i : is_perm p n -> i < n -> nth i p 0 < n.
Proof.
  intros H Hi. assert (In (nth i p 0) (seq 0 n)).
  { apply (Permutation_in _ H). apply nth_In. rewrite (perm_length _ _ H). auto. }
  apply in_seq in H0. lia.
Qed.
Lemma perm_inj p n i j : is_perm p n -> i < n -> j < n -> nth i p 0 = nth j p 0 -> i = j.
Proof.
  intros H Hi Hj. assert (ND : NoDup p) by (apply (Permutation_NoDup (Permutation_sym H)); apply seq_NoDup).
  rewrite (NoDup_nth p 0) in ND. apply ND; rewrite (perm_length _ _ H); auto.
Qed.
Lemma perm_surj p n k : is_perm p n -> k < n -> exists i, i < n /\ nth i p 0 = k.
Proof.
  intros H Hk. assert (Hi : In k p) by (apply (Permutation_in _ (Permutation_sym H)); apply in_seq; lia).
  apply (In_nth _ _ 0) in Hi. destruct Hi as (i & Hi & E). rewrite (perm_length _ _ H) in Hi. eauto.
Qed.

(** ** a sequence of assignments; those to the same place agree *)
Lemma assign_ok {X T} (p : X -> nat) (g : X -> T) (L : list X) (v : list T) : (forall x, In x L -> p x < length v) ->
  exists v', foldM (fun v x => wr v (p x) (g x)) L v = Ok v' /\ length v' = length v /\
    (forall k, (forall x, In x L -> p x <> k) -> nth_error v' k = nth_error v k) /\
    (forall x, In x L -> (forall y, In y L -> p y = p x -> g y = g x) -> nth_error v' (p x) = Some (g x)).
Proof.
  intros H. induction L as [|a L IH] using rev_ind.
  - exists v. split; [auto|]. split; [auto|]. split; [auto|]. intros x [].
  - destruct IH as (v1 & E & Lv & N1 & N2). { intros; apply H; apply in_or_app; auto. }
    assert (Ha : p a < length v1) by (rewrite Lv; apply H; apply in_or_app; right; left; auto).
    rewrite foldM_app, E. cbn [obind foldM]. rewrite wr_ok by auto. cbn [obind]. eexists. split; [reflexivity|].
    rewrite upd_length. split; [auto|]. split.
    + intros k Hk. rewrite nth_error_upd_neq by (apply Hk; apply in_or_app; right; left; auto). apply N1. intros; apply Hk; apply in_or_app; auto.
    + intros x Hx Hu. destruct (Nat.eq_dec (p a) (p x)) as [Ep|Ep].
      * rewrite <- Ep, nth_error_upd_eq by auto. f_equal. apply Hu; auto. apply in_or_app; right; left; auto.
      * rewrite nth_error_upd_neq by auto. apply in_app_or in Hx. destruct Hx as [Hx|[->|[]]]; [|congruence].
        apply N2; auto. intros; apply Hu; auto. apply in_or_app; auto.
Qed.
