(** * Lemmas: the graph of domains of every rank *)
From Coq Require Import List Arith Lia Bool.
From Verif Require Import Base S_Order M_Utils P_Utils M_Nb S_Nb M_Exchange P_Exchange M_Dual S_Dual L_Dual L_Dual2 L_Dual3 L_Dual4 M_DualGraph S_DualGraph L_DualGraph L_DualGraph2.
Import ListNotations.
Local Open Scope out_scope.

Lemma nondec_firstn l : nondec l -> forall k, nondec (firstn k l).
Proof. induction l as [|x l IH]; intros H k; destruct k; cbn; auto. split; [|apply IH, H]. intros y Hy. apply (proj1 H). rewrite <- (firstn_skipn k l). apply in_or_app; auto. Qed.
Lemma nondec_map_mono (f : nat -> nat) l : nondec l -> (forall x y, In x l -> In y l -> x <= y -> f x <= f y) -> nondec (map f l).
Proof.
  induction l as [|x l IH]; cbn; auto. intros (H1 & H2) H. split.
  - intros y Hy. apply in_map_iff in Hy. destruct Hy as (z & <- & Hz). apply H; auto.
  - apply IH; auto.
Qed.
Lemma nondec_filter p l : nondec l -> nondec (filter p l).
Proof. induction l as [|x l IH]; cbn; auto. intros (H1 & H2). destruct (p x); cbn; auto. split; auto. intros y Hy. apply filter_In in Hy. apply H1, Hy. Qed.
(** in an ordered list the smaller elements are in front *)
Lemma nondec_front l : nondec l -> forall d x, d < length l -> In x l -> x < nth d l 0 -> In x (firstn d l).
Proof.
  induction l as [|y l IH]; cbn [length nondec]; intros H d x Hd Hx C; [lia|]. destruct H as (H1 & H2). destruct d as [|d]; cbn [nth firstn] in *.
  - destruct Hx as [<-|Hx]; [lia|]. apply H1 in Hx. lia.
  - destruct Hx as [<-|Hx]; [left; auto|right; apply IH; auto; lia].
Qed.

Lemma member_in d ds : member d ds = true <-> In d ds.
Proof. unfold member. rewrite existsb_exists. split; [intros (x & H & E); apply Nat.eqb_eq in E; congruence|intros H; exists d; split; auto; apply Nat.eqb_refl]. Qed.
Lemma member_not d ds : member d ds = false <-> ~ In d ds.
Proof. rewrite <- member_in. destruct (member d ds); split; congruence. Qed.

(** an operation on every element of a list without repetition *)
Lemma on_key_map {V} (f : nat -> V -> V) k ds : NoDup ds -> on_key k (map (fun d => (d, f d)) ds) = if member k ds then [f k] else [].
Proof.
  intros H. unfold on_key. induction H as [|d ds Hd ND IH]; [reflexivity|]. cbn [map filter fst member existsb]. fold (member k ds). rewrite (Nat.eqb_sym k d).
  destruct (Nat.eqb_spec d k) as [->|N]; cbn [orb map snd]; [|exact IH]. rewrite IH. apply member_not in Hd. now rewrite Hd.
Qed.
Lemma on_key_flat {V A} k (ops : A -> list (nat * (V -> V))) l : on_key k (flat_map ops l) = flat_map (fun a => on_key k (ops a)) l.
Proof. unfold on_key. induction l as [|a l IH]; cbn [flat_map]; auto. now rewrite filter_app, map_app, IH. Qed.

Section Lambdas.
  Variables (n : nat) (first : nat -> nat) (L : list (list nat)) (nb : nat -> list nat) (cmap : nat -> list nat).
  Hypothesis HC : consistent n first L nb cmap.
  Hypothesis HN : forall m, m < length L -> NoDup (domains L m).
  Local Notation domains := (domains L).
  Local Notation held := (held first L).
  Local Notation mine := (mine first).

  Lemma mine_iff q d : mine q d = true <-> first q <= d < first (q + 1).
  Proof. apply (on_iff first). Qed.
  Lemma mine_rank q q' d : q < n -> q' < n -> mine q d = true -> mine q' d = true -> q = q'.
  Proof. intros Hq Hq'. apply (on_rank n first L nb cmap HC); auto. Qed.
  Lemma domain_rank m d : m < length L -> In d (domains m) -> exists q, q < n /\ mine q d = true.
  Proof. intros Hm Hd. apply (some_rank n first). apply (domains_ranks _ _ _ (c_gluing _ _ _ _ _ HC) m d); auto. Qed.

  Section Rank.
    Variable r : nat.
    Hypothesis Hr : r < n.
    Local Notation D := (decomposed first nb r).
    Local Notation N := (length (nb r)).
    Local Notation HND := (d_nd first nb r).
    Local Notation Hsep := (d_sep n first L nb cmap HC r Hr).
    Local Notation Hmine := (d_mine n first L nb cmap HC r Hr).

    Lemma ismy_mine d : ismy D d = mine r d.
    Proof. reflexivity. Qed.

    (** groups of the multipliers of the rank *)
    Lemma groups_of : exists gs, grouped first L r gs /\ cmap r = encode (map block_of gs) /\
      forall g, In g gs -> fst g <> [] /\ (forall m, In m (fst g) -> In m (held r) /\ domains m = snd g) /\ ordered first D (snd g) /\ NoDup (snd g).
    Proof.
      destruct (c_cmap _ _ _ _ _ HC r Hr) as (blocks & E1 & E2 & E3).
      destruct (groups_exist n first L nb cmap HC r Hr) as (gs0 & _ & _ & _). clear gs0.
      assert (G : forall bs h, expand bs = map domains h -> exists gs, map block_of gs = bs /\ ids gs = h /\ forall g m, In g gs -> In m (fst g) -> domains m = snd g).
      { induction bs as [|(c, ds) bs IH]; intros h E; cbn [expand flat_map fst snd] in E.
        - exists []. destruct h; [|discriminate]. repeat split; auto. intros g m [].
        - fold (expand bs) in E.
          assert (S1 : map domains (firstn c h) = repeat ds c). { rewrite <- firstn_map, <- E, firstn_app, repeat_length, Nat.sub_diag, firstn_all2 by (rewrite repeat_length; auto). cbn. apply app_nil_r. }
          assert (S2 : map domains (skipn c h) = expand bs). { rewrite <- skipn_map, <- E, skipn_app, repeat_length, Nat.sub_diag, skipn_all2 by (rewrite repeat_length; auto). reflexivity. }
          destruct (IH _ (eq_sym S2)) as (gs & G1 & G2 & G3). exists ((firstn c h, ds) :: gs). repeat split.
          + cbn [map]. rewrite G1. unfold block_of. cbn [fst snd]. f_equal. f_equal. rewrite <- (map_length domains), S1. apply repeat_length.
          + unfold ids in *. cbn [flat_map fst]. rewrite G2. apply firstn_skipn.
          + intros g m [<-|Hg] Hm; [|eapply G3; eauto]. cbn [fst snd] in *. apply (in_map domains) in Hm. rewrite S1 in Hm. apply repeat_spec in Hm. auto. }
      destruct (G blocks (held r) E2) as (gs & G1 & G2 & G3). exists gs. split; [split; auto|]. rewrite G1. split; [exact E1|]. intros g Hg.
      assert (B : 0 < length (fst g)). { rewrite Forall_forall in E3. apply (E3 (block_of g)). rewrite <- G1. now apply in_map. }
      assert (I : forall m, In m (fst g) -> In m (held r)) by (intros m Hm; rewrite <- G2; unfold ids; apply in_flat_map; eauto).
      split; [intros E; rewrite E in B; cbn in B; lia|]. split; [auto|].
      destruct (fst g) as [|m ms] eqn:Eg; [cbn in B; lia|]. rewrite <- (G3 g m Hg) by (rewrite Eg; left; auto).
      split; [apply (held_ordered n first L nb cmap HC r Hr)|apply HN; apply (held_in first L r)]; apply I; left; auto.
    Qed.

    (** the lower neighbours that hold some of the domains *)
    Definition lowers (ds : list nat) : list nat := filter (fun k => (nth k (nb r) 0 <? r) && touches first (nth k (nb r) 0) ds) (seq 0 N).
    Definition low (k : nat) (ds : list nat) : list nat := if mine r k then lowers ds else [].

    Lemma lower_dedup ds d : ordered first D ds -> d < length ds -> mine r (nth d ds 0) = true ->
      dedup None (map (pos first D) (filter (fun x => x <? first r) (firstn d ds))) = lowers ds.
    Proof.
      intros (O1 & O2) Hd Md. apply mine_iff in Md.
      assert (F : forall x, In x (firstn d ds) -> In x ds) by (intros x Hx; rewrite <- (firstn_skipn d ds); apply in_or_app; auto).
      assert (M : forall x, x < first r -> ismy D x = false) by (intros x Hx; unfold ismy; cbn; destruct (Nat.leb_spec (first r) x); [lia|auto]).
      assert (ND : nondec (map (pos first D) (filter (fun x => x <? first r) (firstn d ds)))).
      { apply nondec_map_mono; [apply nondec_filter, nondec_firstn, O1|]. intros x y Hx Hy Le. apply filter_In in Hx, Hy. destruct Hx as (Hx & Cx), Hy as (Hy & Cy). apply Nat.ltb_lt in Cx, Cy.
        apply (pos_mono first D HND Hsep); auto. }
      apply incr_unique; [apply dedup_incr, ND|apply incr_filter, incr_seq|]. intros k. rewrite dedup_in by exact ND. unfold lowers. rewrite in_map_iff, filter_In, in_seq, andb_true_iff, Nat.ltb_lt. split.
      - intros ((x & <- & Hx) & _). apply filter_In in Hx. destruct Hx as (Hx & Cx). apply Nat.ltb_lt in Cx. destruct (pos_ok first D HND Hsep x (M x Cx) (O2 x (F x Hx))) as (P1 & P2 & _).
        cbn [neighbors decomposed] in P1, P2. destruct (nb_nth n first L nb cmap HC r Hr _ P1) as (_ & Q1 & Q2). split; [lia|]. split.
        + apply (on_iff first) in P2. destruct (Nat.lt_ge_cases (nth (pos first D x) (nb r) 0) r); auto. pose proof (first_le n first L nb cmap HC r (nth (pos first D x) (nb r) 0) ltac:(lia)). lia.
        + apply touches_iff. exists x. auto.
      - intros (Hk & Ck & Tk). apply touches_iff in Tk. destruct Tk as (x & Hx & Ox). pose proof Ox as Ox'. apply (on_iff first) in Ox'.
        pose proof (first_le n first L nb cmap HC (nth k (nb r) 0 + 1) r ltac:(lia)) as Le. assert (Cx : x < first r) by lia.
        split; [|reflexivity]. exists x. split.
        + destruct (pos_ok first D HND Hsep x (M x Cx) (O2 x Hx)) as (P1 & P2 & _). apply (on_unique first D HND Hsep x); auto. cbn. lia.
        + apply filter_In. split; [|apply Nat.ltb_lt; auto]. apply nondec_front; auto. lia.
    Qed.

    Definition lam_ops (o c : nat) (ds : list nat) : list (nat * (vertex -> vertex)) := map (fun k => (k, with_lambdas o c (low k ds))) ds.
    Lemma lambdas_block_ok lMap i c o pre ds post vs : lMap = pre ++ ds ++ post -> length pre = i + 2 -> ordered first D ds ->
      lambdas_block D lMap i c (length ds) o vs = Ok (updates vertex0 (lam_ops o c ds) vs).
    Proof.
      intros E Ep O. unfold lambdas_block. rewrite (foldM_updates vertex0 _ (fun d => [(nth d ds 0, with_lambdas o c (low (nth d ds 0) ds))])).
      - f_equal. f_equal. unfold lam_ops.
        assert (F : forall l, flat_map (fun d => [(nth d ds 0, with_lambdas o c (low (nth d ds 0) ds))]) l = map (fun d => (nth d ds 0, with_lambdas o c (low (nth d ds 0) ds))) l) by (intros l; induction l; cbn; congruence). rewrite F.
        rewrite <- (map_map (fun d => nth d ds 0) (fun k => (k, with_lambdas o c (low k ds)))). f_equal. clear. induction ds as [|x l IH]; cbn [length seq map nth]; auto. f_equal. rewrite <- seq_shift, map_map. exact IH.
      - intros d m Hd. apply in_seq in Hd. unfold lambdas_domain.
        assert (R : rd lMap (i + 2 + d) = Ok (nth d ds 0)).
        { subst lMap. rewrite (rd_ok _ _ 0) by (rewrite !app_length; lia). rewrite app_nth2 by lia. rewrite app_nth1 by lia. f_equal. f_equal. lia. }
        rewrite R. cbn [obind]. rewrite ismy_mine. unfold low. destruct (mine r (nth d ds 0)) eqn:Md; [|reflexivity].
        assert (Ed : d = length (firstn d ds)) by (rewrite firstn_length; lia). rewrite Ed at 1.
        assert (Run : foldM (lower_step D lMap i) (seq 0 (length (firstn d ds))) [] = foldM (lower_pushed D) (firstn d ds) []).
        { rewrite <- (foldM_rd (lower_pushed D) lMap (i + 2) pre (firstn d ds) (skipn d ds ++ post)); auto. rewrite (app_assoc (firstn d ds)), firstn_skipn. exact E. }
        rewrite Run. rewrite (lower_run first D HND Hsep).
        + cbn [last_of app obind]. change (dbegin D) with (first r). rewrite lower_dedup; auto. lia.
        + destruct O as (O1 & O2). split; [apply nondec_firstn, O1|]. intros x Hx. apply O2. rewrite <- (firstn_skipn d ds). apply in_or_app; auto.
        + intros k Hk. discriminate Hk.
    Qed.
    Fixpoint gann (o : nat) (gs : list (list nat * list nat)) : list (nat * (list nat * list nat)) :=
      match gs with [] => [] | g :: gs => (o, g) :: gann (o + length (fst g)) gs end.
    Lemma gann_in o gs og : In og (gann o gs) -> In (snd og) gs.
    Proof. revert o; induction gs as [|g gs IH]; intros o; cbn; auto. intros [<-|H]; eauto. Qed.
    Lemma in_gann gs g : In g gs -> forall o, exists o', In (o', g) (gann o gs).
    Proof. induction gs as [|h gs IH]; intros H o; [destruct H|]. destruct H as [->|H]; [exists o; left; auto|]. destruct (IH H (o + length (fst h))) as (o' & Ho). exists o'. right. auto. Qed.
    Lemma set_lambdas_ok gs vs : cmap r = encode (map block_of gs) -> (forall g, In g gs -> ordered first D (snd g)) ->
      set_lambdas D (cmap r) vs = Ok (updates vertex0 (flat_map (fun og => lam_ops (fst og) (length (fst (snd og))) (snd (snd og))) (gann 0 gs)) vs).
    Proof.
      intros E O. unfold set_lambdas. rewrite (lmap_ok _ (map block_of gs) _ [] (cmap r)) by (rewrite ?E; auto).
      rewrite (foldM_updates vertex0 _ (fun x => lam_ops (snd (fst x)) (fst (snd x)) (snd (snd x)))).
      - f_equal. f_equal. cbn [length]. generalize 0 at 2 3. generalize 0. clear. induction gs as [|g gs IH]; intros i o; cbn [map annot flat_map gann block_of fst snd]; auto. f_equal. apply IH.
      - intros x m Hx. pose proof (in_map snd _ _ Hx) as Hs. rewrite annot_blocks in Hs. apply in_map_iff in Hs. destruct Hs as (g & Eg & Hg).
        destruct (annot_in (map block_of gs) [] 0 x Hx) as (post & pre' & E1 & E2). cbn [app] in E1. apply (lambdas_block_ok _ _ _ _ pre' _ post); auto; [congruence|].
        rewrite <- Eg. apply O, Hg.
    Qed.
  End Rank.
End Lambdas.
