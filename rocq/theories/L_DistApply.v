(** * Lemmas on the product with a distributed matrix: data of one rank *)
From Coq Require Import List Arith Bool Lia Sorted.
From Verif Require Import Base M_Indexing M_Utils S_Order M_Distributed M_DistMatrix M_DistApply S_Assembly L_Equality L_Equality5 L_TotalFeti L_Csx2 L_Fill2 L_Utils P_Utils L_Numbering L_Pattern L_Distributed L_Distributed2 L_DistMatrixSync.
Import ListNotations.
Local Open Scope out_scope.

(** ** sets *)
Lemma set_insert_in x l y : In y (set_insert x l) <-> y = x \/ In y l.
Proof.
  induction l as [|z l IH]; cbn [set_insert]; [simpl; intuition|]. destruct (Nat.ltb_spec x z); [simpl; intuition|]. destruct (Nat.eqb_spec x z) as [->|N]; [simpl; intuition|]. cbn [In]. rewrite IH. intuition.
Qed.
Lemma set_insert_sorted x l : StronglySorted lt l -> StronglySorted lt (set_insert x l).
Proof.
  induction 1 as [|z l Sl IH F]; cbn [set_insert]; [repeat constructor|]. destruct (Nat.ltb_spec x z).
  - constructor; [constructor; auto|]. constructor; auto. rewrite Forall_forall in *. intros y Hy. specialize (F y Hy). lia.
  - destruct (Nat.eqb_spec x z) as [->|N]; [constructor; auto|]. constructor; auto. rewrite Forall_forall in *. intros y Hy. apply set_insert_in in Hy. destruct Hy as [->|Hy]; [lia|auto].
Qed.

(** ** bounds *)
Lemma lower_bound_at l x : forall k, k <= length l -> (forall i, i < k -> nth i l 0 < x) -> (k < length l -> x <= nth k l 0) -> lower_bound l x = k.
Proof.
  induction l as [|y l IH]; intros k Hk H1 H2; cbn [lower_bound length] in *; [lia|]. destruct k as [|k].
  - specialize (H2 ltac:(lia)). cbn in H2. destruct (Nat.ltb_spec y x); auto; lia.
  - specialize (H1 0 ltac:(lia)) as H0. cbn in H0. destruct (Nat.ltb_spec y x); [|lia]. f_equal. apply IH; [lia| |].
    + intros i Hi. apply (H1 (S i)). lia.
    + intros Hl. apply H2. lia.
Qed.
Lemma lower_bound_sorted l c : StronglySorted lt l -> In c l -> lower_bound l c = index_of c l.
Proof.
  intros S H. pose proof (index_of_lt _ _ H) as L. pose proof (index_of_in _ _ H) as E. apply nth_error_nth with (d := 0) in E. apply lower_bound_at; [lia| |].
  - intros i Hi. rewrite <- E. apply ss_nth; auto.
  - intros _. lia.
Qed.
Lemma index_of_app_l c l l' : In c l -> index_of c (l ++ l') = index_of c l.
Proof. induction l as [|x l IH]; intros H; [destruct H|]. cbn [app index_of]. destruct (c =? x) eqn:E; auto. f_equal. apply IH. destruct H as [->|H]; auto. rewrite Nat.eqb_refl in E; discriminate. Qed.
Lemma index_of_app_r c l l' : ~ In c l -> index_of c (l ++ l') = length l + index_of c l'.
Proof. induction l as [|x l IH]; intros H; auto. cbn [app index_of length]. destruct (Nat.eqb_spec c x) as [->|]; [exfalso; apply H; left; auto|]. rewrite IH; auto. intros C; apply H; right; auto. Qed.
Lemma index_of_seq b n c : b <= c < b + n -> index_of c (seq b n) = c - b.
Proof. intros H. apply index_of_nth; [apply seq_NoDup|]. rewrite (nth_error_nth' _ 0) by (rewrite seq_length; lia). rewrite seq_nth by lia. f_equal. lia. Qed.
Lemma nth_index {T} c l (d : T) (f : nat -> T) : In c l -> nth (index_of c l) (map f l) d = f c.
Proof. intros H. pose proof (index_of_lt _ _ H). rewrite (L_Distributed.nth_map f _ _ d 0) by auto. f_equal. apply index_of_in in H. apply nth_error_nth with (d := 0) in H. auto. Qed.

(** ** pairs *)
Lemma pair_sto : strict_total_order pair_ltb pair_eqb.
Proof.
  assert (LE : forall a b, le_of pair_ltb a b <-> fst a < fst b \/ fst a = fst b /\ snd a <= snd b).
  { intros [a1 a2] [b1 b2]. unfold le_of, pair_ltb. cbn [fst snd]. rewrite orb_false_iff, andb_false_iff, !Nat.ltb_ge, Nat.eqb_neq. lia. }
  constructor; [constructor| |].
  - intros a b. change (pair_ltb b a = false) with (le_of pair_ltb a b). rewrite LE. destruct a as [a1 a2], b as [b1 b2]. unfold pair_ltb. cbn [fst snd]. rewrite orb_true_iff, andb_true_iff, !Nat.ltb_lt, Nat.eqb_eq. lia.
  - intros a b c. rewrite !LE. lia.
  - intros [a1 a2] [b1 b2]. rewrite !LE. cbn [fst snd]. intros H1 H2. f_equal; lia.
  - intros [a1 a2] [b1 b2]. unfold pair_eqb. cbn [fst snd]. rewrite andb_true_iff, !Nat.eqb_eq. split; [intros [-> ->]; auto|intros E; inversion E; auto].
Qed.
Lemma sorted_pairs (f : nat -> nat) l ks : strictly_sorted pair_ltb l -> StronglySorted lt ks -> (forall x, In x l <-> exists j, In j ks /\ x = (j, f j)) -> l = map (fun j => (j, f j)) ks.
Proof.
  intros S K H. assert (E : l = map (fun j => (j, f j)) (map fst l)). { rewrite map_map. rewrite <- (map_id l) at 1. apply map_ext_in. intros x Hx. apply H in Hx. destruct Hx as (j & _ & ->). auto. }
  rewrite E. f_equal. apply ss_ext; auto.
  - assert (G : forall x, In x l -> snd x = f (fst x)) by (intros x Hx; apply H in Hx; destruct Hx as (j & _ & ->); auto). clear E H. induction S as [|x l Sl IH F]; cbn [map]; [constructor|]. constructor; [apply IH; intros; apply G; right; auto|]. rewrite Forall_forall in *. intros y Hy. apply in_map_iff in Hy. destruct Hy as (z & <- & Hz). specialize (F z Hz).
    unfold pair_ltb in F. apply orb_true_iff in F. destruct F as [F|F]; [apply Nat.ltb_lt; auto|]. apply andb_true_iff in F. rewrite Nat.eqb_eq, Nat.ltb_lt in F. rewrite (G x), (G z) in F by (simpl; auto). destruct F as [F1 F2]. rewrite F1 in F2. lia.
  - intros j. rewrite in_map_iff. split.
    + intros (x & <- & Hx). apply H in Hx. destruct Hx as (k & Hk & ->). auto.
    + intros Hj. exists (j, f j). split; auto. apply H. eauto.
Qed.
Lemma fold_app {A} (rs : list (list A)) : forall l, fold_left (fun nn x => nn ++ x) rs l = l ++ concat rs.
Proof. induction rs as [|x rs IH]; intros l; cbn [fold_left concat]; [rewrite app_nil_r; auto|]. rewrite IH, app_assoc. auto. Qed.

(** ** writing to positions *)
Lemma write_all {T} (d : T) (off : list nat) (buf : list T) : forall v, length buf = length off -> (forall o, In o off -> o < length v) ->
  exists v', foldM (fun v i => o <- rd off i ;; b <- rd buf i ;; wr v o b) (seq 0 (length off)) v = Ok v' /\ length v' = length v /\
    (forall p, ~ In p off -> nth p v' d = nth p v d) /\ (NoDup off -> forall i, i < length off -> nth (nth i off 0) v' d = nth i buf d).
Proof.
  intros v L H. assert (G : forall n, n <= length off -> exists v', foldM (fun v i => o <- rd off i ;; b <- rd buf i ;; wr v o b) (seq 0 n) v = Ok v' /\ length v' = length v /\
    (forall p, ~ In p (firstn n off) -> nth p v' d = nth p v d) /\ (NoDup off -> forall i, i < n -> nth (nth i off 0) v' d = nth i buf d)).
  { induction n as [|n IH]; intros Hn.
    - exists v. repeat split; auto. intros; lia.
    - destruct IH as (w & E & Lw & K & W); [lia|]. rewrite seq_S, foldM_app, E. cbn [obind foldM plus]. rewrite (rd_ok off n 0) by lia. rewrite (rd_ok buf n d) by lia. cbn [obind].
      assert (Ho : nth n off 0 < length w) by (rewrite Lw; apply H; apply nth_In; lia). rewrite wr_ok by auto. cbn [obind]. eexists. split; [reflexivity|]. split; [rewrite upd_length; auto|]. split.
      + intros p Hp. rewrite L_Distributed.firstn_snoc in Hp by lia. rewrite in_app_iff in Hp. rewrite nth_upd_neq by (intros E0; apply Hp; right; left; auto). apply K. tauto.
      + intros ND i Hi. destruct (Nat.eq_dec i n) as [->|Ne]; [rewrite nth_upd_eq by auto; auto|]. rewrite nth_upd_neq; [apply W; auto; lia|]. intros E'. apply Ne. symmetry. apply (proj1 (NoDup_nth off 0) ND); auto; lia. }
  destruct (G (length off) (Nat.le_refl _)) as (v' & E & L' & K & W). exists v'. repeat split; auto. intros p Hp. apply K. rewrite firstn_all. auto.
Qed.
Lemma read_all {T} (d : T) (off : list nat) (x : list T) : forall buf, length buf = length off -> (forall o, In o off -> o < length x) ->
  foldM (fun buf i => o <- rd off i ;; v <- rd x o ;; wr buf i v) (seq 0 (length off)) buf = Ok (map (fun o => nth o x d) off).
Proof.
  intros buf L H. assert (G : forall n, n <= length off -> foldM (fun buf i => o <- rd off i ;; v <- rd x o ;; wr buf i v) (seq 0 n) buf = Ok (map (fun o => nth o x d) (firstn n off) ++ skipn n buf)).
  { induction n as [|n IH]; intros Hn; [auto|]. rewrite seq_S, foldM_app, IH by lia. cbn [obind foldM plus]. rewrite (rd_ok off n 0) by lia. cbn [obind]. rewrite (rd_ok x _ d) by (apply H, nth_In; lia). cbn [obind].
    rewrite wr_ok by (rewrite app_length, map_length, firstn_length, skipn_length; lia). cbn [obind]. f_equal. rewrite L_Distributed.firstn_snoc by lia. rewrite map_app. cbn [map].
    replace n with (length (map (fun o => nth o x d) (firstn n off)) + 0) at 3 by (rewrite map_length, firstn_length; lia). rewrite L_Equality5.upd_app_r. rewrite <- app_assoc. f_equal.
    destruct (skipn n buf) as [|b t] eqn:E; [apply (f_equal (@length T)) in E; rewrite skipn_length in E; simpl in E; lia|]. cbn [upd app]. f_equal. change t with (skipn 1 (b :: t)). rewrite <- E, skipn_skipn. f_equal; lia. }
  rewrite G by lia. rewrite firstn_all, skipn_all2 by lia. rewrite app_nil_r. auto.
Qed.
