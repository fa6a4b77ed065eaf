(** * Lemmas: synchronization of the whole group of ranks *)
From Coq Require Import List Arith Lia Bool Permutation.
From Verif Require Import Base M_Nb S_Nb S_Comm M_Exchange P_Exchange M_Dual S_Dual L_Dual L_Dual2 L_Dual3.
Import ListNotations.
Local Open Scope out_scope.

Lemma nondec_nth l : (forall i j, i < j < length l -> nth i l 0 <= nth j l 0) -> nondec l.
Proof.
  induction l as [|x l IH]; intros H; cbn; auto. split.
  - intros y Hy. destruct (In_nth _ _ 0 Hy) as (k & Hk & <-). apply (H 0 (S k)). cbn. lia.
  - apply IH. intros i j Hij. apply (H (S i) (S j)). cbn. lia.
Qed.

Lemma map_filter_S {B} (p : nat -> bool) (f : nat -> B) s : map f (filter p (map S s)) = map (fun k => f (S k)) (filter (fun k => p (S k)) s).
Proof. induction s as [|k s IH]; cbn [map filter]; auto. destruct (p (S k)); cbn [map]; rewrite IH; auto. Qed.
Lemma filter_nth {B} (p : nat -> bool) (f : nat -> B) (l : list nat) :
  map (fun k => f (nth k l 0)) (filter (fun k => p (nth k l 0)) (seq 0 (length l))) = map f (filter p l).
Proof.
  induction l as [|x l IH]; auto. cbn [length seq filter]. rewrite <- seq_shift.
  assert (E : map (fun k => f (nth k (x :: l) 0)) (filter (fun k => p (nth k (x :: l) 0)) (map S (seq 0 (length l)))) = map f (filter p l)).
  { rewrite map_filter_S. exact IH. }
  change (nth 0 (x :: l) 0) with x. destruct (p x); cbn [map]; rewrite E; reflexivity.
Qed.

Section Fold.
  Context {T : Type}.
  Variable op : T -> T -> T.
  Hypothesis HA : associative op.
  Hypothesis HC : commutative op.
  Lemma fold_swap l x y : fold_left op l (op x y) = op (fold_left op l x) y.
  Proof.
    revert x; induction l as [|z l IH]; intros x; cbn [fold_left]; auto. rewrite <- IH. f_equal. rewrite <- HA, (HC y z), HA. reflexivity.
  Qed.
  Lemma fold_perm l l' : Permutation l l' -> forall x, fold_left op l x = fold_left op l' x.
  Proof.
    induction 1 as [|y l l' P IH|y z l|l l' l'' P1 IH1 P2 IH2]; intros x; cbn [fold_left]; auto.
    - f_equal. rewrite <- !HA. f_equal. apply HC.
    - congruence.
  Qed.
  Lemma reduce_perm d l l' : Permutation l l' -> reduce op d l = reduce op d l'.
  Proof.
    induction 1 as [|y l l' P IH|y z l|l l' l'' P1 IH1 P2 IH2]; cbn [reduce fold_left]; auto.
    - now apply fold_perm.
    - f_equal. apply HC.
    - congruence.
  Qed.
End Fold.

Section Group.
  Variables (n : nat) (first : nat -> nat) (L : list (list nat)) (nb : nat -> list nat) (cmap : nat -> list nat).
  Hypothesis HC : consistent n first L nb cmap.
  Local Notation domains := (domains L).
  Local Notation held := (held first L).
  Local Notation touches := (touches first).
  Local Notation decomposed := (decomposed first nb).
  Local Notation common := (common first L).

  Lemma first_le a b : a <= b <= n -> first a <= first b.
  Proof.
    intros (H1 & H2). induction H1 as [|b H1 IH]; auto. pose proof (first_mono _ _ _ (c_gluing _ _ _ _ _ HC) b ltac:(lia)) as F.
    replace (b + 1) with (S b) in F by lia. specialize (IH ltac:(lia)). lia.
  Qed.
  Lemma on_iff q d : on first q d = true <-> first q <= d < first (q + 1).
  Proof. unfold on. rewrite andb_true_iff, Nat.leb_le, Nat.ltb_lt. tauto. Qed.
  Lemma on_rank q q' d : q < n -> q' < n -> on first q d = true -> on first q' d = true -> q = q'.
  Proof.
    rewrite !on_iff. intros H H' O O'. destruct (Nat.lt_trichotomy q q') as [C|[C|C]]; auto.
    - pose proof (first_le (q + 1) q' ltac:(lia)). lia.
    - pose proof (first_le (q' + 1) q ltac:(lia)). lia.
  Qed.
  Lemma some_rank d : first 0 <= d < first n -> exists q, q < n /\ on first q d = true.
  Proof.
    intros (H0 & Hn). assert (G : forall k, k <= n -> d < first k -> exists q, q < k /\ on first q d = true).
    { induction k as [|k IH]; intros Hk Hd; [lia|]. destruct (Nat.lt_ge_cases d (first k)) as [C|C].
      - destruct (IH ltac:(lia) C) as (q & Hq & Oq). exists q. auto.
      - exists k. split; auto. apply on_iff. rewrite Nat.add_1_r. auto. }
    apply (G n); auto.
  Qed.
  Lemma touches_iff q ds : touches q ds = true <-> exists d, In d ds /\ on first q d = true.
  Proof. unfold S_Dual.touches. rewrite existsb_exists. reflexivity. Qed.

  Section Rank.
    Variable r : nat.
    Hypothesis Hr : r < n.
    Local Notation D := (decomposed r).
    Local Notation N := (length (nb r)).

    Lemma d_nd : exists x, neighDomain D = map first (neighbors D) ++ [x].
    Proof. exists (first r). reflexivity. Qed.
    Lemma nb_nth k : k < N -> In (nth k (nb r) 0) (nb r) /\ nth k (nb r) 0 < n /\ nth k (nb r) 0 <> r.
    Proof.
      intros Hk. pose proof (nth_In (nb r) 0 Hk) as I. repeat split; auto.
      - apply (nb_ranks _ _ (c_neighbours _ _ _ _ _ HC) r); auto.
      - intros E. rewrite E in I. exact (c_not_me _ _ _ _ _ HC r Hr I).
    Qed.
    Lemma d_sep i j : i < j < length (neighbors D) -> first (nth i (neighbors D) 0) <= first (nth i (neighbors D) 0 + 1) <= first (nth j (neighbors D) 0).
    Proof.
      cbn [neighbors S_Dual.decomposed]. intros Hij. pose proof (nb_sorted _ _ (c_neighbours _ _ _ _ _ HC) r i j Hr Hij). destruct (nb_nth j ltac:(lia)) as (_ & B & _).
      split; apply first_le; lia.
    Qed.
    Lemma d_mine k d : k < length (neighbors D) -> on first (nth k (neighbors D) 0) d = true -> ismy D d = false.
    Proof.
      cbn [neighbors S_Dual.decomposed]. intros Hk O. destruct (nb_nth k Hk) as (_ & B & NE). apply not_true_is_false. intros M. apply NE. apply (on_rank _ _ d); auto.
    Qed.

    Lemma held_in m : In m (held r) <-> m < length L /\ touches r (domains m) = true.
    Proof. clear Hr. unfold S_Dual.held. rewrite filter_In, in_seq. intuition lia. Qed.

    Lemma held_ordered m : In m (held r) -> ordered first D (domains m).
    Proof.
      intros H. apply held_in in H. destruct H as (Hm & Tm). pose proof (c_gluing _ _ _ _ _ HC) as G. split.
      - apply nondec_nth. intros i j Hij. apply (domains_sorted _ _ _ G m i j); auto.
      - intros d Hd. destruct (some_rank d) as (q & Hq & Oq). { apply (domains_ranks _ _ _ G m d); auto. }
        destruct (Nat.eq_dec q r) as [->|NE]; [left; exact Oq|]. right.
        assert (I : In q (nb r)). { apply (c_sharing _ _ _ _ _ HC r q m); auto. apply touches_iff. eauto. }
        destruct (In_nth _ _ 0 I) as (k & Hk & E). exists k. split; auto. cbn [neighbors S_Dual.decomposed]. now rewrite E.
    Qed.

    (** groups of multipliers with the same domains *)
    Definition grouped (gs : list (list nat * list nat)) : Prop := ids gs = held r /\ forall g m, In g gs -> In m (fst g) -> domains m = snd g.

    Lemma groups_exist : exists gs, grouped gs /\ cmap r = enc (map block_of gs) /\ forall b, In b (map block_of gs) -> ordered first D (snd b).
    Proof.
      destruct (c_cmap _ _ _ _ _ HC r Hr) as (blocks & E1 & E2 & E3).
      assert (G : forall bs h, expand bs = map domains h -> exists gs, map block_of gs = bs /\ ids gs = h /\ forall g m, In g gs -> In m (fst g) -> domains m = snd g).
      { induction bs as [|(c, ds) bs IH]; intros h E; cbn [expand flat_map fst snd] in E.
        - exists []. destruct h; [|discriminate]. repeat split; auto. intros g m [].
        - fold (expand bs) in E.
          assert (S1 : map domains (firstn c h) = repeat ds c). { rewrite <- firstn_map, <- E, firstn_app, repeat_length, Nat.sub_diag, firstn_all2 by (rewrite repeat_length; auto). cbn. apply app_nil_r. }
          assert (S2 : map domains (skipn c h) = expand bs). { rewrite <- skipn_map, <- E, skipn_app, repeat_length, Nat.sub_diag, skipn_all2 by (rewrite repeat_length; auto). reflexivity. }
          destruct (IH _ (eq_sym S2)) as (gs & G1 & G2 & G3). exists ((firstn c h, ds) :: gs). repeat split.
          + cbn [map]. rewrite G1. unfold block_of. cbn [fst snd]. f_equal. f_equal. rewrite <- (map_length domains), S1. apply repeat_length.
          + unfold ids in *. cbn [flat_map fst]. rewrite G2. apply firstn_skipn.
          + intros g m [<-|Hg] Hm; [|eapply G3; eauto]. cbn [fst snd] in *. apply (in_map domains) in Hm. rewrite S1 in Hm. apply repeat_spec in Hm. auto. }
      destruct (G blocks (held r) E2) as (gs & G1 & G2 & G3). exists gs. split; [split; auto|]. rewrite G1. split; [exact E1|].
      intros b Hb. rewrite <- G1 in Hb. apply in_map_iff in Hb. destruct Hb as (g & <- & Hg).
      assert (B : 0 < length (fst g)). { rewrite Forall_forall in E3. apply (E3 (block_of g)). rewrite <- G1. now apply in_map. }
      destruct (fst g) as [|m ms] eqn:Eg; [cbn in B; lia|]. unfold block_of. cbn [snd]. rewrite <- (G3 g m Hg) by (rewrite Eg; left; auto).
      apply held_ordered. rewrite <- G2. unfold ids. apply in_flat_map. exists g. split; auto. rewrite Eg. left; auto.
    Qed.

    Lemma sel_common gs k : grouped gs -> sel first D k gs = common r (nth k (nb r) 0).
    Proof.
      intros (G1 & G2). unfold S_Dual.common. rewrite <- G1. clear G1. unfold sel, ids. induction gs as [|g gs IH]; cbn [filter flat_map]; auto.
      rewrite filter_app, <- IH by (intros; eapply G2; eauto; right; auto).
      assert (E : filter (fun m => touches (nth k (nb r) 0) (domains m)) (fst g) = if touch first D k (snd g) then fst g else []).
      { assert (Ext : forall m, In m (fst g) -> touches (nth k (nb r) 0) (domains m) = touch first D k (snd g)).
        { intros m Hm. rewrite (G2 g m (or_introl eq_refl) Hm). reflexivity. }
        revert Ext. generalize (touch first D k (snd g)). induction (fst g) as [|m ms IHm]; intros t Ext; cbn [filter]; [destruct t; auto|].
        rewrite (Ext m) by (left; auto). rewrite (IHm t) by (intros; apply Ext; right; auto). destruct t; auto. }
      rewrite E. destruct (touch first D k (snd g)); reflexivity.
    Qed.
    Lemma count_common gs k : grouped gs -> count first D k (map block_of gs) = length (common r (nth k (nb r) 0)).
    Proof.
      intros G. rewrite <- (sel_common gs k G). clear G. unfold count, sel, ids. induction gs as [|g gs IH]; cbn [map filter]; auto.
      cbn [block_of snd]. destruct (touch first D k (snd g)); auto. cbn [map flat_map fst]. rewrite app_length, <- IH. reflexivity.
    Qed.

    Lemma map_nth_seq {B} (f : nat -> B) : map (fun k => f (nth k (nb r) 0)) (seq 0 N) = map f (nb r).
    Proof. pose proof (filter_nth (fun _ => true) f (nb r)) as E. cbn beta in E. rewrite !filter_all in E. exact E. Qed.

    (** Dual_Map::set *)
    Lemma set_ok sz itv gs : grouped gs -> cmap r = enc (map block_of gs) -> (forall b, In b (map block_of gs) -> ordered first D (snd b)) ->
      dual_map_set D sz itv (cmap r) =
      Ok {| size := sz; local_intervals := set_intervals 0 itv; nmap := nm_of first D 0 (map block_of gs); nsize := map (fun q => length (common r q)) (nb r) |}.
    Proof.
      intros G E O. unfold dual_map_set. rewrite (set_blocks_ok first D d_nd d_sep d_mine (cmap r) _ O (length (cmap r)) [] 0 []); auto.
      - cbn [obind app]. f_equal. f_equal. rewrite <- (map_nth_seq (fun q => length (common r q))). apply map_ext_in. intros k Hk. apply in_seq in Hk. cbn [neighbors S_Dual.decomposed] in *.
        rewrite nth_repeat, (count_common gs k G). reflexivity.
      - rewrite E. generalize (map block_of gs). intros bs. unfold enc. induction bs as [|b bs IH]; cbn [flat_map length app]; [lia|]. rewrite app_length. lia.
      - apply repeat_length.
    Qed.

    Section Data.
      Context {T : Type}.
      Variables (add : T -> T -> T) (v : nat -> nat -> T).
      Variables (M : dual_map) (sz : nat) (itv : list (nat * nat)).
      Hypothesis HM : dual_map_set D sz itv (cmap r) = Ok M.

      Definition synced (r m : nat) : T := fold_left add (map (fun q => v q m) (filter (fun q => touches q (domains m)) (nb r))) (v r m).

      Lemma lengths_map_seq (b : list (list T)) : length b = N -> b = map (fun k => nth k b []) (seq 0 N).
      Proof.
        intros E. rewrite <- E. clear. induction b as [|x b IH]; cbn [length seq map nth]; auto. f_equal. rewrite IH at 1. rewrite <- seq_shift, map_map. reflexivity.
      Qed.

      Lemma pack_ok send : buffers M send -> pack M (vector first L v r) send = Ok (map (fun q => map (v r) (common r q)) (nb r)).
      Proof.
        destruct groups_exist as (gs & G & E & O). rewrite (set_ok sz itv gs G E O) in HM. injection HM as <-. unfold buffers. cbn [nsize]. intros B.
        assert (Ls : length send = N). { rewrite <- (map_length (@length T) send), B. apply map_length. }
        unfold pack. cbn [nmap]. rewrite nmap_loop_all. unfold vector. destruct G as (G1 & G2). rewrite <- G1.
        destruct (pack_run first D (v r) gs [] (fun _ => []) (fun k => nth k send [])) as (offs & F).
        { cbn [neighbors S_Dual.decomposed]. intros k Hk. rewrite (sel_common gs k (conj G1 G2)). apply (f_equal (fun l => nth k l 0)) in B.
          change 0 with (@length T []) in B at 1. rewrite map_nth in B. rewrite B. rewrite (nth_indep _ 0 (length (common r 0))) by (rewrite map_length; auto).
          apply (map_nth (fun q => length (common r q))). }
        cbn [length app] in F. cbn [neighbors S_Dual.decomposed] in F. rewrite <- (lengths_map_seq send Ls) in F.
        assert (R0 : forall k, map (fun _ : nat => 0) (seq k N) = repeat 0 N). { generalize N. intros k. induction k as [|k IH]; intros b; cbn; auto. now rewrite IH. }
        rewrite R0 in F. rewrite Ls. rewrite F. cbn [obind]. f_equal.
        rewrite <- (map_nth_seq (fun q => map (v r) (common r q))). apply map_ext. intros k. now rewrite (sel_common gs k (conj G1 G2)).
      Qed.

      Lemma unpack_ok : unpack add M (map (fun q => map (v q) (common r q)) (nb r)) (vector first L v r) = Ok (vector first L synced r).
      Proof.
        destruct groups_exist as (gs & G & E & O). rewrite (set_ok sz itv gs G E O) in HM. injection HM as <-.
        unfold unpack. cbn [nmap]. rewrite nmap_loop_all. rewrite map_length. unfold vector. pose proof G as (G1 & G2). rewrite <- G1.
        destruct (unpack_run add first D (v r) (fun k => v (nth k (nb r) 0)) gs [] (fun _ => [])) as (offs & F).
        cbn [length app] in F. cbn [neighbors S_Dual.decomposed] in F.
        assert (R0 : forall k, map (fun _ : nat => 0) (seq k N) = repeat 0 N). { generalize N. intros k. induction k as [|k IH]; intros b; cbn; auto. now rewrite IH. }
        rewrite R0 in F. rewrite <- (map_nth_seq (fun q => map (v q) (common r q))).
        rewrite (map_ext _ (fun k => map (v (nth k (nb r) 0)) (sel first D k gs))) by (intros k; now rewrite (sel_common gs k G)).
        rewrite F. cbn [obind]. f_equal. unfold ids. rewrite flat_map_concat_map, flat_map_concat_map, concat_map, map_map. f_equal. apply map_ext_in. intros g Hg.
        apply map_ext_in. intros m Hm. unfold collected, synced. rewrite (G2 g m Hg Hm). f_equal. unfold targets, touch. cbn [neighbors S_Dual.decomposed].
        apply (filter_nth (fun q => touches q (snd g)) (fun q => v q m)).
      Qed.
    End Data.
  End Rank.

  Lemma common_sym r q : common r q = common q r.
  Proof.
    unfold S_Dual.common, S_Dual.held. induction (seq 0 (length L)) as [|m s IH]; cbn [filter]; auto.
    destruct (touches r (domains m)) eqn:E1, (touches q (domains m)) eqn:E2; cbn [filter]; rewrite ?E1, ?E2, ?IH; auto.
  Qed.
  Lemma sharing_perm r m : In m (held r) -> r < n -> Permutation (r :: filter (fun q => touches q (domains m)) (nb r)) (sharing n first L m).
  Proof.
    intros Hm Hr. apply held_in in Hm. destruct Hm as (Hm & Tm). apply NoDup_Permutation.
    - constructor; [intros I; apply filter_In in I; destruct I as (I & _); exact (c_not_me _ _ _ _ _ HC r Hr I)|]. apply NoDup_filter.
      assert (S : forall l, (forall i j, i < j < length l -> nth i l 0 < nth j l 0) -> NoDup l).
      { clear. intros l H. apply (NoDup_nth l 0). intros i j Hi Hj E. destruct (Nat.lt_trichotomy i j) as [C|[C|C]]; auto; [specialize (H i j)|specialize (H j i)]; lia. }
      apply S. intros i j Hij. apply (nb_sorted _ _ (c_neighbours _ _ _ _ _ HC)); auto.
    - apply NoDup_filter, seq_NoDup.
    - intros q. unfold sharing. cbn [In]. rewrite !filter_In, in_seq. split.
      + intros [<-|(I & Tq)]; [split; auto; lia|]. split; auto. split; [lia|]. apply (nb_ranks _ _ (c_neighbours _ _ _ _ _ HC) r q); auto.
      + intros (Hq & Tq). destruct (Nat.eq_dec r q) as [|NE]; auto. right. split; auto. apply (c_sharing _ _ _ _ _ HC r q m); auto; lia.
  Qed.
End Group.
