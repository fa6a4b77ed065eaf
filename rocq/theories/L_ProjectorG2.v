(** * Lemmas: the graph of domains and the rows of G and Gt *)
From Coq Require Import List Arith Lia Bool Reals Lra.
From Verif Require Import Base M_Nb S_Nb M_Exchange M_Dual S_Dual L_Dual2 L_Dual4 M_DualGraph S_DualGraph L_DualGraph3 L_DualGraph4 S_Equality L_Equality6 M_TotalFeti S_Feti L_TotalFeti L_TotalFeti2
  M_Projector S_Projector L_Projector2 L_Projector3 M_ProjectorG S_ProjectorG L_ProjectorG.
Import ListNotations.
Local Open Scope out_scope.

Lemma map_split {A B} (f : A -> B) l a b : map f l = a ++ b -> exists la lb, l = la ++ lb /\ map f la = a /\ map f lb = b.
Proof.
  revert a. induction l as [|x l IH]; intros a H; cbn [map] in H.
  - symmetry in H. apply app_eq_nil in H. destruct H. subst. exists [], []. auto.
  - destruct a as [|y a]; cbn [app] in H.
    + exists [], (x :: l). auto.
    + injection H as E H. destruct (IH a H) as (la & lb & -> & <- & <-). exists (x :: la), lb. cbn [map]. rewrite E. auto.
Qed.
Lemma flat_map_filter_nil {A B} (f : A -> list B) p l : (forall x, In x l -> p x = false -> f x = []) -> flat_map f (filter p l) = flat_map f l.
Proof.
  induction l as [|x l IH]; intros H; cbn [filter flat_map]; auto. destruct (p x) eqn:E; cbn [flat_map]; rewrite IH by (intros; apply H; auto; right; auto); auto.
  rewrite (H x) by (auto; left; auto). reflexivity.
Qed.

Lemma filter_all {A} (f : A -> bool) l : (forall x, In x l -> f x = true) -> filter f l = l.
Proof. induction l as [|x l IH]; intros H; cbn; auto. rewrite (H x) by (left; auto). f_equal. apply IH. intros; apply H; right; auto. Qed.
Lemma filter_none {A} (f : A -> bool) l : (forall x, In x l -> f x = false) -> filter f l = [].
Proof. induction l as [|x l IH]; intros H; cbn; auto. rewrite (H x) by (left; auto). apply IH. intros; apply H; right; auto. Qed.
Lemma flat_map_nil {A B} (f : A -> list B) l : (forall a, In a l -> f a = []) -> flat_map f l = [].
Proof. induction l as [|x l IH]; intros H; cbn; auto. rewrite (H x) by (left; auto). apply IH. intros; apply H; right; auto. Qed.

Lemma incr_nth l : incr l <-> forall i j, i < j < length l -> nth i l 0 < nth j l 0.
Proof.
  induction l as [|x l IH]; cbn [incr length]; [split; auto; intros; lia|]. rewrite IH. split.
  - intros (H1 & H2) [|i] [|j] H; try lia; cbn [nth]; [apply H1, nth_In; lia|]. apply H2. lia.
  - intros H. split.
    + intros y Hy. apply (In_nth _ _ 0) in Hy. destruct Hy as (j & Hj & <-). apply (H 0 (S j)). lia.
    + intros i j Hij. apply (H (S i) (S j)). lia.
Qed.

(** ** The vertices of the rows *)
Lemma from_key_app {V} k (a b : smap V) : (forall d, In d (map fst a) -> d <> k) -> from_key k (a ++ b) = from_key k b.
Proof. induction a as [|(d, v) a IH]; intros H; cbn [app from_key]; auto. destruct (Nat.eqb_spec d k) as [E|E]; [exfalso; apply (H d); [left|]; auto|]. apply IH. intros; apply H; right; auto. Qed.
Lemma below_app {V} k (a b : smap V) : (forall d, In d (map fst a) -> d < k) -> (forall d, In d (map fst b) -> k <= d) -> below k (a ++ b) = a.
Proof.
  intros Ha Hb. induction a as [|(d, v) a IH]; cbn [app below].
  - destruct b as [|(d, v) b]; auto. cbn [below]. destruct (Nat.ltb_spec d k); auto. specialize (Hb d (or_introl eq_refl)). lia.
  - destruct (Nat.ltb_spec d k) as [_|C]; [|specialize (Ha d (or_introl eq_refl)); lia]. f_equal. apply IH. intros; apply Ha; right; auto.
Qed.
Lemma set_loffsets_app k e (a b : smap vertex) : (forall d, In d (map fst a) -> d <> k) -> set_loffsets k e (a ++ b) = let '(b, c) := set_loffsets k e b in (a ++ b, c).
Proof.
  intros H. induction a as [|(d, v) a IH]; cbn [app].
  - destruct (set_loffsets k e b). reflexivity.
  - cbn [set_loffsets]. destruct (Nat.eqb_spec d k) as [E|E]; [exfalso; apply (H d); [left|]; auto|]. rewrite IH by (intros; apply H; right; auto). destruct (set_loffsets k e b). reflexivity.
Qed.
Lemma loffsets_app a b s : loffsets s (a ++ b) = loffsets s a ++ loffsets (s + length (kernels_of a)) b.
Proof.
  revert s; induction a as [|(d, v) a IH]; intros s; cbn [app loffsets]; [cbn; now rewrite Nat.add_0_r|]. rewrite IH. f_equal. f_equal. f_equal. unfold kernels_of. cbn [flat_map snd]. rewrite app_length, map_length, seq_length. lia.
Qed.
Lemma loffsets_in vs : forall s d w, In (d, w) (loffsets s vs) -> exists v a b, vs = a ++ (d, v) :: b /\ w = with_loffset (s + length (kernels_of a)) v.
Proof.
  induction vs as [|(x, v) vs IH]; intros s d w H; [destruct H|]. destruct H as [E|H].
  - injection E as <- <-. exists v, [], vs. cbn. rewrite Nat.add_0_r. auto.
  - destruct (IH _ _ _ H) as (v' & a & b & -> & ->). exists v', ((x, v) :: a), b. split; auto. f_equal. unfold kernels_of. cbn [flat_map snd]. rewrite app_length, map_length, seq_length. lia.
Qed.

Section Rows.
  Variables (n : nat) (first : nat -> nat) (L : list (list nat)) (nb cmap : nat -> list nat) (ksize : nat -> nat).
  Hypothesis HC : consistent n first L nb cmap.
  Local Notation own := (S_Feti.own first).
  Local Notation kidx := (kidx ksize).
  Local Notation multipliers_of := (multipliers_of first L).
  Local Notation mults r d := (map snd (multipliers_of r d)).

  Definition above (r : nat) : list nat := filter (visible first L r) (seq (first (r + 1)) (first n - first (r + 1))).
  Lemma ranks_le r : r < n -> first 0 <= first r /\ first r <= first (r + 1) /\ first (r + 1) <= first n.
  Proof. intros Hr. repeat split; apply (first_le n first L nb cmap HC); lia. Qed.
  Lemma own_visible r d : In d (own r) -> visible first L r d = true.
  Proof. intros H. apply (own_iff first) in H. unfold visible. rewrite H. reflexivity. Qed.
  Lemma keys_split r : r < n -> filter (visible first L r) (all_of n first) = filter (visible first L r) (seq (first 0) (first r - first 0)) ++ own r ++ above r.
  Proof.
    intros Hr. destruct (ranks_le r Hr) as (A & B & C). unfold all_of. replace (first n - first 0) with ((first r - first 0) + ((first (r + 1) - first r) + (first n - first (r + 1)))) by lia.
    rewrite !seq_app, !filter_app. replace (first 0 + (first r - first 0)) with (first r) by lia. replace (first r + (first (r + 1) - first r)) with (first (r + 1)) by lia. f_equal. f_equal.
    apply filter_all. intros d Hd. now apply own_visible.
  Qed.
  Lemma in_Gt_split r : r < n -> in_Gt n first L r = own r ++ above r.
  Proof.
    intros Hr. unfold in_Gt. rewrite keys_split by auto. rewrite filter_app. destruct (ranks_le r Hr) as (A & B & C).
    match goal with |- ?a ++ ?b = _ => assert (E1 : a = []) end.
    { apply filter_none. intros d Hd. apply filter_In in Hd. destruct Hd as (Hd & _). apply in_seq in Hd. apply Nat.leb_gt. lia. }
    rewrite E1. cbn [app]. apply filter_all. intros d Hd. apply in_app_iff in Hd. apply Nat.leb_le. destruct Hd as [Hd|Hd]; [apply in_seq in Hd; lia|]. apply filter_In in Hd. destruct Hd as (Hd & _). apply in_seq in Hd. lia.
  Qed.
  Lemma above_empty r : r < n -> own r = [] -> above r = [].
  Proof.
    intros Hr E. unfold above. apply filter_none. intros d Hd. apply in_seq in Hd. unfold visible. change (seq (first r) (first (r + 1) - first r)) with (own r). rewrite E. cbn [existsb]. rewrite orb_false_r.
    apply not_true_is_false. intros M. apply (mine_iff first) in M. lia.
  Qed.

  Section Vertices.
    Variables (r : nat) (g : smap vertex * smap (list nat)).
    Hypothesis Hr : r < n.
    Hypothesis HG : graph_ok n first L nb ksize r g.

    Lemma vertices_split : exists lo go up, fst g = lo ++ go ++ up /\ (forall d, In d (map fst lo) -> d < first r) /\ map fst go = own r /\ map fst up = above r.
    Proof.
      pose proof (g_keys _ _ _ _ _ _ _ HG) as K. rewrite keys_split in K by auto. apply map_split in K. destruct K as (lo & x & E & K1 & K2). apply map_split in K2. destruct K2 as (go & up & -> & K3 & K4).
      exists lo, go, up. repeat split; auto. rewrite K1. intros d Hd. apply filter_In in Hd. destruct Hd as (Hd & _). apply in_seq in Hd. lia.
    Qed.
    Lemma from_own (go up : smap vertex) : map fst go = own r -> map fst up = above r -> from_key (first r) (go ++ up) = go ++ up.
    Proof.
      intros G U. destruct go as [|(d, v) go].
      - cbn [map] in G. symmetry in G. rewrite (above_empty r Hr G) in U. apply map_eq_nil in U. subst. reflexivity.
      - cbn [map fst app from_key] in *. assert (d = first r). { unfold S_Feti.own, own_domains in G. destruct (first (r + 1) - first r); [discriminate|]. cbn in G. congruence. }
        subst. now rewrite Nat.eqb_refl.
    Qed.
    Lemma above_ge d : In d (above r) -> first (r + 1) <= d.
    Proof. intros H. apply filter_In in H. destruct H as (H & _). apply in_seq in H. lia. Qed.
    Lemma go_up_incr : incr (own r ++ above r).
    Proof.
      assert (E : own r ++ above r = filter (fun d => first r <=? d) (filter (visible first L r) (all_of n first))) by (symmetry; apply (in_Gt_split r Hr)). rewrite E. apply incr_filter, incr_filter, incr_seq.
    Qed.
    Lemma set_loffsets_own (go up : smap vertex) : map fst go = own r -> map fst up = above r ->
      set_loffsets (first r) (first (r + 1)) (go ++ up) = (loffsets 0 (go ++ up),
        {| Gtrows := length (kernels_of (go ++ up)); Gtnnz := list_sum (map (fun p => v_total (fst p)) (kernels_of (go ++ up)));
           Grows := length (kernels_of go); Gnnz := list_sum (map (fun p => v_total (fst p)) (kernels_of go)) |}).
    Proof.
      intros G U. assert (B : below (first (r + 1)) (go ++ up) = go).
      { apply below_app. - rewrite G. intros d Hd. apply in_seq in Hd. lia. - rewrite U. apply above_ge. }
      assert (E : set_loffsets (first r) (first (r + 1)) (go ++ up) = count_rows (first (r + 1)) (go ++ up) {| Gtrows := 0; Gtnnz := 0; Grows := 0; Gnnz := 0 |}).
      { destruct go as [|(d, v) go].
        - cbn [map] in G. symmetry in G. rewrite (above_empty r Hr G) in U. apply map_eq_nil in U. subst. reflexivity.
        - cbn [map fst app set_loffsets] in *. assert (d = first r). { unfold S_Feti.own, own_domains in G. destruct (first (r + 1) - first r); [discriminate|]. cbn in G. congruence. }
          subst. now rewrite Nat.eqb_refl. }
      rewrite E, count_rows_ok; cbn [Gtrows Gtnnz Grows Gnnz Nat.add]; [now rewrite B|].
      intros i j Hij. pose proof go_up_incr as I. rewrite <- G, <- U, <- map_app in I. rewrite <- !(map_nth fst). cbn [fst]. apply incr_nth; auto. now rewrite map_length.
    Qed.
  End Vertices.

  (** kernels of vertices and kernels of domains *)
  Lemma kernels_idx {A} (F : vertex * nat -> A) (H : nat * nat -> A) vs : (forall d v, In (d, v) vs -> v_ksize v = ksize d) ->
    (forall d v k, In (d, v) vs -> k < ksize d -> F (v, k) = H (d, k)) -> map F (kernels_of vs) = map H (kidx (map fst vs)).
  Proof.
    unfold kernels_of, L_Projector2.kidx. induction vs as [|(d, v) vs IH]; intros K E; cbn [flat_map map fst snd]; auto. rewrite !map_app. f_equal; [|apply IH; intros; [eapply K|eapply E]; eauto; right; eauto].
    rewrite (K d v) by (left; auto). rewrite !map_map. apply map_ext_in. intros k Hk. apply in_seq in Hk. apply E; [left; auto|lia].
  Qed.

  (** the multipliers of a domain *)
  Lemma combine_snd {A B} (a : list A) (b : list B) : length a = length b -> map snd (combine a b) = b.
  Proof. revert b; induction a as [|x a IH]; intros [|y b] H; try discriminate; cbn; auto. f_equal. apply IH. cbn in H. lia. Qed.
  Lemma map_filter_comm {A B} (f : A -> B) (p : B -> bool) l : map f (filter (fun x => p (f x)) l) = filter p (map f l).
  Proof. induction l as [|x l IH]; cbn; auto. destruct (p (f x)); cbn; rewrite IH; auto. Qed.
  Lemma mults_held r d : mults r d = filter (fun m => member d (domains L m)) (held first L r).
  Proof. unfold S_DualGraph.multipliers_of. rewrite (map_filter_comm snd (fun m => member d (domains L m))). rewrite combine_snd; auto. apply seq_length. Qed.
  Lemma mults_common r q d : In d (own q) -> filter (fun m => touches first r (domains L m)) (mults q d) = mults r d.
  Proof.
    intros Hd. rewrite !mults_held. unfold held. induction (seq 0 (length L)) as [|m l IH]; auto. cbn [filter].
    destruct (member d (domains L m)) eqn:E.
    - assert (T : touches first q (domains L m) = true). { apply touches_iff. exists d. split; [now apply member_in|]. apply on_iff. apply in_seq in Hd. lia. }
      rewrite T. cbn [filter]. rewrite E. cbn [filter]. destruct (touches first r (domains L m)); cbn [filter]; rewrite ?E, IH; reflexivity.
    - destruct (touches first q (domains L m)); cbn [filter]; rewrite ?E; destruct (touches first r (domains L m)); cbn [filter]; rewrite ?E; apply IH.
  Qed.
  Lemma mults_in r d m : In m (mults r d) <-> m < length L /\ In d (domains L m) /\ touches first r (domains L m) = true.
  Proof. clear - first L. rewrite mults_held, filter_In, member_in, (held_in first L r). tauto. Qed.
  Lemma mults_invisible r d : visible first L r d = false -> multipliers_of r d = [].
  Proof.
    intros V. assert (E : mults r d = []).
    { destruct (mults r d) as [|m l] eqn:E; auto. exfalso. assert (I : In m (mults r d)) by (rewrite E; left; auto). apply mults_in in I. destruct I as (Hm & Hd & T). apply touches_iff in T. destruct T as (d' & Hd' & O).
      apply not_true_iff_false in V. apply V. unfold visible. apply orb_true_iff. right. apply existsb_exists. exists d'. split.
      - apply in_seq. apply (on_iff first) in O. lia.
      - apply (glued_iff L). eauto. }
    apply map_eq_nil in E. exact E.
  Qed.
  Lemma mults_stranger r q d : r < n -> q < n -> r <> q -> ~ In q (nb r) -> In d (own q) -> multipliers_of r d = [].
  Proof.
    intros Hr Hq NE NN Hd. destruct (multipliers_of r d) as [|x l] eqn:E; auto. exfalso. assert (I : In (snd x) (mults r d)) by (rewrite E; left; auto). apply mults_in in I. destruct I as (Hm & Hdm & T). apply NN.
    apply (c_sharing _ _ _ _ _ HC r q (snd x)); auto. apply touches_iff. exists d. split; auto. apply on_iff. apply in_seq in Hd. lia.
  Qed.

  (** the ranks above *)
  Lemma own_above r : r < n -> seq (first (r + 1)) (first n - first (r + 1)) = flat_map own (seq (r + 1) (n - (r + 1))).
  Proof.
    intros Hr. assert (G : forall k, r + 1 + k <= n -> seq (first (r + 1)) (first (r + 1 + k) - first (r + 1)) = flat_map own (seq (r + 1) k)).
    { induction k as [|k IH]; intros Hk; [now rewrite Nat.add_0_r, Nat.sub_diag|]. rewrite (seq_S k), flat_map_app, <- IH by lia. cbn [flat_map]. rewrite app_nil_r.
      pose proof (first_le n first L nb cmap HC (r + 1) (r + 1 + k) ltac:(lia)). pose proof (first_le n first L nb cmap HC (r + 1 + k) (r + 1 + k + 1) ltac:(lia)).
      replace (r + 1 + S k) with (r + 1 + k + 1) by lia. replace (first (r + 1 + k + 1) - first (r + 1)) with ((first (r + 1 + k) - first (r + 1)) + (first (r + 1 + k + 1) - first (r + 1 + k))) by lia.
      rewrite seq_app. f_equal. unfold S_Feti.own, own_domains. f_equal; lia. }
    specialize (G (n - (r + 1)) ltac:(lia)). replace (r + 1 + (n - (r + 1))) with n in G by lia. exact G.
  Qed.
  Lemma higher_neighbours r : r < n -> filter (fun q => r <? q) (nb r) = filter (fun q => existsb (Nat.eqb q) (nb r)) (seq (r + 1) (n - (r + 1))).
  Proof.
    intros Hr. apply incr_unique.
    - apply incr_filter, incr_nth. intros i j H. apply (nb_sorted _ _ (c_neighbours _ _ _ _ _ HC)); auto.
    - apply incr_filter, incr_seq.
    - intros q. rewrite !filter_In, in_seq, Nat.ltb_lt, existsb_exists. split.
      + intros (H1 & H2). pose proof (nb_ranks _ _ (c_neighbours _ _ _ _ _ HC) r q Hr H1). split; [lia|]. exists q. split; auto. apply Nat.eqb_refl.
      + intros (H1 & q' & H2 & E). apply Nat.eqb_eq in E. subst. split; auto. lia.
  Qed.
  Lemma flat_map_flat {A B C} (f : B -> list C) (h : A -> list B) l : flat_map f (flat_map h l) = flat_map (fun a => flat_map f (h a)) l.
  Proof. induction l as [|a l IH]; cbn; auto. now rewrite flat_map_app, IH. Qed.
  (** what comes from the higher neighbours is what the rows of their domains need *)
  Lemma rows_above {A} (f : nat -> nat -> nat -> A) r : r < n ->
    flat_map (fun dk => map (f (fst dk) (snd dk)) (mults r (fst dk))) (kidx (above r)) =
    flat_map (fun q => if r <? q then flat_map (fun dk => map (f (fst dk) (snd dk)) (mults r (fst dk))) (kidx (own q)) else []) (nb r).
  Proof.
    intros Hr. unfold L_Projector2.kidx. rewrite flat_map_flat. unfold above. rewrite flat_map_filter_nil.
    2: { intros d _ V. apply flat_map_nil. intros (d', k) I. apply in_map_iff in I. destruct I as (k' & E' & _). injection E' as <- <-. cbn [fst]. now rewrite (mults_invisible r d V). }
    rewrite own_above, flat_map_flat by auto.
    transitivity (flat_map (fun q => flat_map (fun dk => map (f (fst dk) (snd dk)) (mults r (fst dk))) (flat_map (fun d => map (pair d) (seq 0 (ksize d))) (own q))) (filter (fun q => r <? q) (nb r))).
    - rewrite higher_neighbours by auto. rewrite flat_map_filter_nil.
      + apply flat_map_ext. intros q. now rewrite flat_map_flat.
      + intros q Hq E. apply in_seq in Hq. assert (NN : ~ In q (nb r)). { intros I. apply not_true_iff_false in E. apply E. apply existsb_exists. exists q. split; auto. apply Nat.eqb_refl. }
        rewrite flat_map_flat. apply flat_map_nil. intros d Hd. apply flat_map_nil. intros (d', k) I. apply in_map_iff in I. destruct I as (k' & E' & _). injection E' as <- <-. cbn [fst]. now rewrite (mults_stranger r q d) by (auto; lia).
    - induction (nb r) as [|q l IH]; auto. cbn [filter flat_map]. destruct (r <? q); cbn [flat_map]; rewrite IH; auto.
  Qed.
End Rows.
