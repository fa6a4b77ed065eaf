(** * Properties of the gluing and Dirichlet constraints: C91, C92 *)
From Coq Require Import List Arith Bool Permutation Sorted Reals Lia Lra.
From Verif Require Import Base S_Order M_Nb S_Nb S_Comm M_Exchange M_Dual S_Dual P_Dual S_Equality M_Equality L_Equality L_Equality2 L_Equality3 L_Equality4 L_Equality5 L_Equality6 L_Equality7 L_Sort.
Import ListNotations.
Local Open Scope out_scope.

Lemma nth_firstn_lt {A} k (l : list A) i d : i < k -> nth i (firstn k l) d = nth i l d.
Proof. revert l i. induction k as [|k IH]; intros [|a l] [|i] H; cbn; try reflexivity; try lia. apply IH. lia. Qed.
Lemma ss_nth (l : list nat) : StronglySorted lt l -> forall i j, i < j < length l -> nth i l 0 < nth j l 0.
Proof.
  induction 1 as [|a l S IH F]; intros i j H; cbn [length] in H; [lia|]. destruct j as [|j]; [lia|]. destruct i as [|i]; cbn [nth].
  - rewrite Forall_forall in F. apply F, nth_In. lia.
  - apply IH. lia.
Qed.

(** C91: there is exactly one order of the gluing constraints by domains and DOF; [ordered] is not an assumption about the mesh *)
Theorem constraints_order N copies fixed : exists glued, ordered N copies fixed glued /\ forall glued', ordered N copies fixed glued' -> glued' = glued.
Proof.
  set (key := fun p : nat * nat => (firstn (snd p) (copies (fst p)), fst p)).
  assert (K : forall p q, before copies p q = lex2 (key p) (key q)) by reflexivity.
  assert (W : strict_weak_order (before copies)).
  { constructor; unfold le_of; intros a b; [rewrite !K; apply lex2_asym|]. intros c. rewrite !K. apply lex2_le_trans. }
  destruct (isort_contract (before copies) W (all_glue N copies fixed)) as [P S].
  assert (ND : NoDup (all_glue N copies fixed)).
  { unfold all_glue. assert (G : forall l, NoDup l -> NoDup (flat_map (fun g => if fixed g then [] else map (fun size => (g, size)) (seq 2 (length (copies g) - 1))) l)); [|apply G, seq_NoDup].
    induction 1 as [|g l Ng Nl IH]; [constructor|]. cbn [flat_map]. apply NoDup_app_intro; [|exact IH|].
    - destruct (fixed g); [constructor|]. apply FinFun.Injective_map_NoDup; [intros x y E; now injection E|apply seq_NoDup].
    - intros (x, k) I1 I2. destruct (fixed g); [destruct I1|]. apply in_map_iff in I1 as (? & E & _). injection E as <- <-. apply in_flat_map in I2 as (g' & Ig & I2). destruct (fixed g'); [destruct I2|].
      apply in_map_iff in I2 as (? & E & _). injection E as -> _. contradiction. }
  assert (V : forall p, In p (all_glue N copies fixed) -> 2 <= snd p <= length (copies (fst p))).
  { intros p I. unfold all_glue in I. apply in_flat_map in I as (g & _ & I). destruct (fixed g); [destruct I|]. apply in_map_iff in I as (k & <- & I). apply in_seq in I. cbn [fst snd]. lia. }
  exists (isort (before copies) (all_glue N copies fixed)). split.
  - split; [now apply Permutation_sym|]. unfold strictly_sorted. apply (ss_impl (le_of (before copies))); [apply (Permutation_NoDup P ND)| |exact S].
    intros x y Ix Iy Nxy Lxy. unfold le_of in Lxy. apply (Permutation_in _ (Permutation_sym P)), V in Ix. apply (Permutation_in _ (Permutation_sym P)), V in Iy.
    destruct (before copies x y) eqn:B; [reflexivity|]. rewrite K in *. pose proof (lex2_antisym _ _ B Lxy) as Ek. unfold key in Ek. injection Ek as E1 E2. destruct Nxy.
    destruct x as [g k], y as [g' k']; cbn [fst snd] in *. subst g'. f_equal. apply (f_equal (@length nat)) in E1. rewrite !firstn_length in E1. lia.
  - intros glued' [P' S']. assert (St : StronglySorted (fun p q => before copies p q = true) (isort (before copies) (all_glue N copies fixed))).
    { apply (ss_impl (le_of (before copies))); [apply (Permutation_NoDup P ND)| |exact S].
      intros x y Ix Iy Nxy Lxy. unfold le_of in Lxy. apply (Permutation_in _ (Permutation_sym P)), V in Ix. apply (Permutation_in _ (Permutation_sym P)), V in Iy.
      destruct (before copies x y) eqn:B; [reflexivity|]. rewrite K in *. pose proof (lex2_antisym _ _ B Lxy) as Ek. unfold key in Ek. injection Ek as E1 E2. destruct Nxy.
      destruct x as [g k], y as [g' k']; cbn [fst snd] in *. subst g'. f_equal. apply (f_equal (@length nat)) in E1. rewrite !firstn_length in E1. lia. }
    apply (strict_unique (fun p q => before copies p q = true)); [|exact S'|exact St|].
    + intros x y X Y. apply (swo_asym _ W) in X. congruence.
    + intros x. split; intros I; [apply (Permutation_in _ P), (Permutation_in _ P'), I|apply (Permutation_in _ (Permutation_sym P')), (Permutation_in _ (Permutation_sym P)), I].
Qed.

Section Constraints.
  Context {T : Type}.
  Variables (zero one : T) (low diag : nat -> T).
  Variables (n : nat) (first : nat -> nat) (N : nat) (copies : nat -> list nat) (fixed : nat -> bool) (index : nat -> nat -> nat -> nat).
  Hypothesis M : mesh n first N copies.
  Variable nb : nat -> list nat.
  Variable glued : list (nat * nat).
  Hypothesis Hg : ordered N copies fixed glued.
  Variable sort : (nat * nat -> nat * nat -> bool) -> list (nat * nat) -> list (nat * nat).
  Hypothesis Hsort : forall lt, strict_weak_order lt -> sort_contract lt (sort lt).
  Local Notation all := (multipliers n first N copies fixed glued).
  Local Notation L := (map (domains_of copies) all).
  Local Notation set r := (equality_set zero one low diag sort (decomposed first nb r) (dmap_of first N copies index r) (fixed_of first N copies fixed r)).

  (** C91: every rank sets its constraints without undefined behaviour: it gets those of [all] that touch its domains, in this order, their
      domains ([cmap]), the ones owned by others in front, and for every own domain their entries *)
  Theorem constraints_set r : r < n ->
    exists E, set r = Ok E /\ e_size E = length (held_multipliers first copies r all) /\ describes first L (e_cmap E) r /\
      intervals_ok first L [length L] r [e_interval E] /\
      (forall d, In d (own_domains first r) -> domain_rows E (d - first r) = Ok (rows_of copies index one low diag r d (held_multipliers first copies r all))).
  Proof.
    intros Hr. destruct (equality_set_ok zero one low diag n first N copies fixed index M nb r Hr glued Hg sort Hsort) as (E & E1 & E2 & E3 & E4 & E5 & _). exists E. repeat split; auto.
    - apply E4.
    - apply E4.
    - intros d I. apply E5. apply in_seq in I. exact I.
  Qed.

  Variable E : nat -> constraints T.
  Hypothesis HE : forall r, r < n -> set r = Ok (E r).
  Lemma set_facts r : r < n -> e_size (E r) = length (held_multipliers first copies r all) /\ describes first L (e_cmap (E r)) r /\
      intervals_ok first L [length L] r [e_interval (E r)] /\
      (forall d, In d (own_domains first r) -> domain_rows (E r) (d - first r) = Ok (rows_of copies index one low diag r d (held_multipliers first copies r all))).
  Proof. intros Hr. destruct (constraints_set r Hr) as (E' & E1 & F). rewrite HE in E1 by easy. injection E1 as <-. exact F. Qed.

  (** C91: what the ranks store fits together: vectors of these multipliers can be synchronized (C59) and multiplied (C60) *)
  Theorem constraints_consistent : neighbourhood n nb -> (forall r, r < n -> ~ In r (nb r)) -> knows_sharing n first L nb ->
    consistent n first L nb (fun r => e_cmap (E r)).
  Proof.
    intros Hn Hme Hs. assert (V : forall i, i < length L -> exists m, valid_multiplier N copies fixed m /\ domains L i = domains_of copies m).
    { intros i Hi. rewrite map_length in Hi. exists (nth i all (Fix 0 0)). split; [apply (multiplier_valid n first N copies fixed M glued Hg), nth_In; easy|].
      unfold domains. rewrite (nth_indep _ [] (domains_of copies (Fix 0 0))) by (now rewrite map_length). apply map_nth. }
    constructor; auto.
    2: { intros r Hr. apply set_facts, Hr. }
    constructor.
    - apply (mesh_first _ _ _ _ M).
    - intros i j k Hi Hj. destruct (V i Hi) as (m & Vm & Em). rewrite Em in *. clear Em. destruct m as [g size|d g]; cbn [domains_of length] in *; [|lia].
      destruct Vm as (Lg & _ & _). pose proof (mesh_copies _ _ _ _ M g Lg) as S. rewrite firstn_length in Hj.
      rewrite !(nth_firstn_lt size) by lia. apply Nat.lt_le_incl. apply ss_nth; [easy|lia].
    - intros i d Hi. destruct (V i Hi) as (m & Vm & ->). intros I. destruct m as [g size|d' g]; cbn [domains_of valid_multiplier] in *.
      + apply (mesh_domains _ _ _ _ M g); [easy|]. rewrite <- (firstn_skipn size (copies g)). apply in_or_app. now left.
      + destruct I as [<-|[]]. now apply (mesh_domains _ _ _ _ M g).
    - intros i Hi. destruct (V i Hi) as (m & Vm & ->). destruct m as [g size|d' g]; cbn [domains_of valid_multiplier] in *; [|discriminate].
      destruct Vm as (_ & _ & S1 & S2). intros X. apply (f_equal (@length nat)) in X. rewrite firstn_length in X. cbn [length] in X. lia.
  Qed.

  (** C91: the right-hand side: 0 of a gluing constraint, the Dirichlet value of a fixed copy *)
  Theorem constraints_update value r : r < n ->
    equality_update zero (decomposed first nb r) (E r) (dmap_of first N copies index r) (dirichlet_of first N copies fixed value r) =
    Ok (map (rhs zero value) (held_multipliers first copies r all)).
  Proof.
    intros Hr. destruct (equality_set_ok zero one low diag n first N copies fixed index M nb r Hr glued Hg sort Hsort) as (E' & E1 & E2 & _ & _ & _ & E6). rewrite HE in E1 by easy. injection E1 as <-.
    unfold equality_update. rewrite E2, E6. pose proof (held_split n first N copies fixed index M nb r Hr glued Hg sort Hsort) as HS. rewrite HS, app_length, !map_length.
    match goal with |- context [length (sort ?c ?p)] => set (ps := sort c p) in * end.
    destruct (update_ok zero n first N copies fixed index M nb r Hr value (length ps)) as (di & U). rewrite U. cbn [obind]. f_equal. rewrite map_app. f_equal.
    clear. induction ps as [|p ps IH]; [reflexivity|]. cbn [length repeat map]. now rewrite IH.
  Qed.

  (** C91: the enforced values: every own copy of a fixed DOF gets its Dirichlet value, nothing else is changed *)
  Theorem constraints_enforce value (ix : nat -> nat -> nat) (len : nat -> nat) r (X : nat -> list T) : r < n -> numbered N copies ix len ->
    (forall d g, In d (own_domains first r) -> g < N -> In d (copies g) -> index r d g = ix d g) ->
    (forall d, In d (own_domains first r) -> length (X d) = len d) ->
    exists Y, equality_enforce (decomposed first nb r) (dmap_of first N copies index r) (dirichlet_of first N copies fixed value r) (map X (own_domains first r)) = Ok (map Y (own_domains first r)) /\
      forall d, In d (own_domains first r) -> length (Y d) = len d /\
        (forall g, g < N -> fixed g = true -> In d (copies g) -> nth (ix d g) (Y d) zero = value g) /\
        (forall j, (forall g, g < N -> fixed g = true -> In d (copies g) -> ix d g <> j) -> nth j (Y d) zero = nth j (X d) zero).
  Proof.
    intros Hr HN Hix HX. set (loc := local first N copies r).
    assert (LL : forall g, In g loc -> g < N). { intros g I. unfold loc, local in I. apply filter_In in I as [I _]. apply in_seq in I. lia. }
    exists (fun d => enforced copies fixed index r value X d (filter fixed loc)). split.
    - apply (enforce_ok n first N copies fixed index M nb r Hr value len).
      + intros d g Hd I Ic. rewrite Hix; [now apply (proj1 HN); [apply LL|]|apply in_seq; easy|now apply LL|easy].
      + intros d Hd. apply HX. apply in_seq. exact Hd.
    - intros d Id. set (F := filter fixed loc).
      assert (HF : forall g, In g F <-> g < N /\ fixed g = true /\ touches first r (copies g) = true).
      { intros g. unfold F, loc, local. rewrite !filter_In, in_seq. intuition lia. }
      assert (T1 : forall g, In d (copies g) -> touches first r (copies g) = true).
      { intros g I. unfold touches. apply existsb_exists. exists d. split; [easy|]. unfold own_domains in Id. apply in_seq in Id. rewrite andb_true_iff, Nat.leb_le, Nat.ltb_lt. lia. }
      assert (Hh : forall g, has copies fixed d g = true <-> fixed g = true /\ In d (copies g)).
      { intros g. unfold has. rewrite andb_true_iff, existsb_exists. split; intros [A B]; (split; [easy|]).
        - destruct B as (y & I & Ey). apply Nat.eqb_eq in Ey. now subst y.
        - exists d. split; [easy|apply Nat.eqb_refl]. }
      assert (G : forall done x, incl done F -> length x = len d ->
        let y := fold_left (fun x g => if has copies fixed d g then upd x (index r d g) (value g) else x) done x in
        length y = len d /\ (forall g, In g done -> In d (copies g) -> nth (ix d g) y zero = value g) /\
        (forall j, (forall g, In g done -> In d (copies g) -> ix d g <> j) -> nth j y zero = nth j x zero)).
      { induction done as [|g0 done IH]; intros x I Lx; cbn [fold_left]; [repeat split; [easy|intros ? []]|].
        assert (I0 : In g0 F) by (apply I; now left). pose proof (proj1 (HF g0) I0) as (L0 & F0 & _).
        set (x' := if has copies fixed d g0 then upd x (index r d g0) (value g0) else x).
        assert (Lx' : length x' = len d) by (unfold x'; destruct (has _ _ _ _); [rewrite upd_length|]; easy).
        destruct (IH x' (fun a Ia => I a (or_intror Ia)) Lx') as (A1 & A2 & A3).
        assert (N0 : In d (copies g0) -> forall j, nth j x' zero = if ix d g0 =? j then value g0 else nth j x zero).
        { intros Id0 j. unfold x'. replace (has copies fixed d g0) with true by (symmetry; apply Hh; easy). rewrite Hix by easy. apply nth_upd. rewrite Lx. now apply (proj1 HN). }
        split; [exact A1|split].
        - intros g [<-|Ig] Ic; [|now apply A2]. destruct (in_dec Nat.eq_dec g0 done) as [Ig|Ng]; [now apply A2|].
          rewrite A3; [rewrite N0 by easy; now rewrite Nat.eqb_refl|]. intros g Ig Icg Eq. apply (proj2 HN) in Eq; auto; [congruence|]. apply HF, I. now right.
        - intros j Hj. rewrite A3 by (intros; apply Hj; [now right|easy]). destruct (in_dec Nat.eq_dec d (copies g0)) as [Id0|Nd].
          + rewrite N0 by easy. destruct (Nat.eqb_spec (ix d g0) j) as [Eq|]; [|reflexivity]. destruct (Hj g0 (or_introl eq_refl) Id0 Eq).
          + unfold x'. destruct (has copies fixed d g0) eqn:X0; [|reflexivity]. apply Hh in X0. easy. }
      destruct (G F (X d) (incl_refl F) (HX d Id)) as (A1 & A2 & A3). split; [exact A1|split].
      + intros g Lg Fg Ic. apply A2; [|easy]. apply HF. auto.
      + intros j Hj. apply A3. intros g Ig. apply HF in Ig as (? & ? & _). auto.
  Qed.
End Constraints.

Section Products.
  Local Open Scope R_scope.
  Variables (n limit : nat) (first : nat -> nat) (N : nat) (copies : nat -> list nat) (fixed : nat -> bool) (index : nat -> nat -> nat -> nat).
  Hypothesis M : mesh n first N copies.
  Variable nb : nat -> list nat.
  Variable glued : list (nat * nat).
  Hypothesis Hg : ordered N copies fixed glued.
  Variable sort : (nat * nat -> nat * nat -> bool) -> list (nat * nat) -> list (nat * nat).
  Hypothesis Hsort : forall lt, strict_weak_order lt -> sort_contract lt (sort lt).
  Variables (ix : nat -> nat -> nat) (len : nat -> nat).
  Hypothesis HN : numbered N copies ix len.
  Hypothesis Hix : forall r d g, (r < n)%nat -> In d (own_domains first r) -> (g < N)%nat -> In d (copies g) -> index r d g = ix d g.
  Local Notation all := (multipliers n first N copies fixed glued).
  Local Notation L := (map (domains_of copies) all).
  Local Notation held r := (held_multipliers first copies r all).
  Local Notation entry := (entry copies low diag ix).
  Local Notation product := (product copies low diag ix len).
  Local Notation everywhere := (all_domains n first).
  Variable E : nat -> constraints R.
  Hypothesis HE : forall r, (r < n)%nat ->
    equality_set 0 1 low diag sort (decomposed first nb r) (dmap_of first N copies index r) (fixed_of first N copies fixed r) = Ok (E r).

  (** C92: [applyB] multiplies the vectors of the own domains: every multiplier gets the part of B u of these domains *)
  Theorem applyB_filter_computes r u ds : (r < n)%nat -> (forall d, In d (own_domains first r) -> length (u d) = len d) -> incl ds (own_domains first r) ->
    applyB_filter 0 Rplus Rmult (E r) (map (fun d => (d - first r)%nat) ds) (map u (own_domains first r)) (e_size (E r)) = Ok (map (product ds u) (held r)).
  Proof.
    intros Hr Hu Hds. pose proof (set_facts 0 1 low diag n first N copies fixed index M nb glued Hg sort Hsort E HE r Hr) as (E1 & _ & _ & E4).
    unfold applyB_filter. rewrite E1. apply (applyB_some n first N copies fixed M glued Hg ix len HN index r Hr (fun d g => Hix r d g Hr) (E r) (held r) eq_refl E4 u ds Hu Hds).
  Qed.
  Theorem applyB_computes r u : (r < n)%nat -> (forall d, In d (own_domains first r) -> length (u d) = len d) ->
    applyB 0 Rplus Rmult (E r) (first (r + 1) - first r) (map u (own_domains first r)) (e_size (E r)) = Ok (map (product (own_domains first r) u) (held r)).
  Proof.
    intros Hr Hu. rewrite <- (applyB_filter_computes r u (own_domains first r) Hr Hu (incl_refl _)). unfold applyB, applyB_filter. f_equal.
    unfold own_domains. clear. apply (nth_ext _ _ O O); [now rewrite map_length, !seq_length|]. intros i Hi. rewrite seq_length in Hi.
    rewrite seq_nth by easy. rewrite (nth_indep _ O (first r - first r)%nat) by (now rewrite map_length, seq_length). rewrite (map_nth (fun d => (d - first r)%nat)), seq_nth by easy. lia.
  Qed.
  (** C92: [applyBt] of an own domain computes alpha B^T lambda there *)
  Theorem applyBt_computes r alpha lambda d out : (r < n)%nat -> In d (own_domains first r) -> length out = len d ->
    applyBt 0 Rplus Rmult (E r) (d - first r) alpha (map lambda (held r)) out = Ok (map (fun j => alpha * Sum all (fun m => entry m d j * lambda m)) (seq 0 (len d))).
  Proof.
    intros Hr Id Lo. pose proof (set_facts 0 1 low diag n first N copies fixed index M nb glued Hg sort Hsort E HE r Hr) as (_ & _ & _ & E4).
    apply (applyBt_ok n first N copies fixed M glued Hg ix len HN index r Hr (fun d g => Hix r d g Hr) (E r) (held r) eq_refl E4 alpha lambda d out Id Lo).
  Qed.

  (** C92: the two products are adjoint: <B u, lambda> = <u, B^T lambda>, on every rank *)
  Theorem applyB_adjoint r u lambda : (r < n)%nat -> (forall d, In d (own_domains first r) -> length (u d) = len d) ->
    exists y (w : nat -> list R), applyB 0 Rplus Rmult (E r) (first (r + 1) - first r) (map u (own_domains first r)) (e_size (E r)) = Ok y /\
      (forall d, In d (own_domains first r) -> applyBt 0 Rplus Rmult (E r) (d - first r) 1 (map lambda (held r)) (u d) = Ok (w d)) /\
      Sum (combine y (map lambda (held r))) (fun p => fst p * snd p) = Sum (own_domains first r) (fun d => Sum (combine (u d) (w d)) (fun p => fst p * snd p)).
  Proof.
    intros Hr Hu. do 2 eexists. split; [now apply applyB_computes|]. split; [intros d I; apply applyBt_computes; [easy|easy|now apply Hu]|].
    assert (C : forall (A : Type) (f g : A -> R) l, Sum (combine (map f l) (map g l)) (fun p => fst p * snd p) = Sum l (fun x => f x * g x)).
    { intros A f g l. induction l as [|a l IH]; [reflexivity|]. cbn [map combine]. rewrite !Sum_cons, IH. reflexivity. }
    rewrite C. unfold product. rewrite (Sum_ext _ _ (fun m => Sum (own_domains first r) (fun d => Sum (seq 0 (len d)) (fun j => entry m d j * nth j (u d) 0 * lambda m)))).
    2: { intros m. rewrite <- Sum_scal_r. apply Sum_ext. intros d. now rewrite Sum_scal_r. }
    rewrite Sum_swap. apply Sum_ext_in. intros d Id. rewrite Sum_swap.
    assert (Eu : map (fun j => nth j (u d) 0) (seq 0 (len d)) = u d) by (rewrite <- (Hu d Id), (map_nth_seq (fun x => x) (u d) 0), map_id; reflexivity).
    match goal with |- _ = Sum (combine _ ?w) _ => replace (combine (u d) w) with (combine (map (fun j => nth j (u d) 0) (seq 0 (len d))) w) by (now rewrite Eu) end.
    rewrite C. apply Sum_ext_in. intros j _. rewrite Rmult_1_l, <- Sum_scal.
    assert (S : Sum all (fun m => nth j (u d) 0 * (entry m d j * lambda m)) = Sum (held r) (fun m => nth j (u d) 0 * (entry m d j * lambda m))).
    { unfold held_multipliers. rewrite Sum_filter. apply Sum_ext_in. intros m I. destruct (touches first r (domains_of copies m)) eqn:Tm; [reflexivity|].
      rewrite (entry_not_held n first N copies fixed M glued Hg ix r Hr (held r) eq_refl m d j Id I); [lra|]. unfold held_multipliers. intros X. apply filter_In in X as [_ X]. congruence. }
    rewrite S. apply Sum_ext. intros m. lra.
  Qed.

  (** C92: different constraints are orthogonal, every constraint has the length 1 *)
  Theorem constraints_orthonormal m m' : In m all -> In m' all ->
    (m = m' -> row_product n first copies low diag ix len m m' = 1) /\ (m <> m' -> row_product n first copies low diag ix len m m' = 0).
  Proof. intros I I'. apply (orthonormal n first N copies fixed M ix len HN); now apply (multiplier_valid n first N copies fixed M glued Hg). Qed.

  Lemma held_vector (f : multiplier -> R) r : map f (held r) = vector first L (fun _ i => f (nth i all (Fix 0 0))) r.
  Proof.
    unfold vector, S_Dual.held, held_multipliers. rewrite map_length. rewrite <- (filter_nth_seq (fun m => touches first r (domains_of copies m)) all (Fix 0 0)), map_map.
    f_equal. apply filter_ext_in. intros i I. apply in_seq in I. unfold domains. rewrite (nth_indep _ [] (domains_of copies (Fix 0 0))) by (rewrite map_length; lia). now rewrite map_nth.
  Qed.
  Lemma reduce_Sum {A} (l : list A) f : reduce Rplus 0 (map f l) = Sum l f.
  Proof.
    destruct l as [|a l]; [reflexivity|]. cbn [map reduce]. rewrite Sum_cons. generalize (f a) as x. induction l as [|b l IH]; intros x; cbn [map fold_left]; [rewrite Sum_nil; lra|]. rewrite IH, Sum_cons. lra.
  Qed.

  Variable (Mp : nat -> dual_map).
  Hypothesis Hmp : forall r, (r < n)%nat -> dual_map_set (decomposed first nb r) (e_size (E r)) [e_interval (E r)] (e_cmap (E r)) = Ok (Mp r).
  Hypothesis Hn : neighbourhood n nb.
  Hypothesis Hme : forall r, (r < n)%nat -> ~ In r (nb r).
  Hypothesis Hs : knows_sharing n first L nb.
  Hypothesis Hlimit : forall r q, (r < n)%nat -> In q (nb r) -> (length (common first L r q) <= limit)%nat.

  (** C92: after the synchronization every rank that keeps a multiplier holds B u of all domains *)
  Theorem applyB_synchronized (u : nat -> list R) (send recv : nat -> list (list R)) :
    (forall r, (r < n)%nat -> buffers (Mp r) (send r)) -> (forall r, (r < n)%nat -> buffers (Mp r) (recv r)) ->
    (forall r d, (r < n)%nat -> In d (own_domains first r) -> length (u d) = len d) ->
    exists y : nat -> list R,
      (forall r, (r < n)%nat -> applyB 0 Rplus Rmult (E r) (first (r + 1) - first r) (map u (own_domains first r)) (e_size (E r)) = Ok (y r)) /\
      exists ends, ncompletes n (map (fun r => synchronize Rplus limit (decomposed first nb r) (Mp r) (y r) (send r) (recv r)) (seq 0 n)) ends /\
        map (fun e => fst (fst e)) ends = map (fun r => map (product everywhere u) (held r)) (seq 0 n).
  Proof.
    intros Hsend Hrecv Hu. exists (fun r => map (product (own_domains first r) u) (held r)). split; [intros r Hr; apply applyB_computes; [easy|intros d; now apply Hu]|].
    pose proof (constraints_consistent 0 1 low diag n first N copies fixed index M nb glued Hg sort Hsort E HE Hn Hme Hs) as HC.
    pose proof (synchronize_sums Rplus n limit first L nb (fun r => e_cmap (E r)) HC Mp (fun r => e_size (E r)) (fun r => [e_interval (E r)]) Hmp
      (fun r i => product (own_domains first r) u (nth i all (Fix 0 0))) send recv Hsend Hrecv Hlimit 0) as S.
    eexists. split.
    - rewrite (map_ext _ (fun r => synchronize Rplus limit (decomposed first nb r) (Mp r) (vector first L (fun r i => product (own_domains first r) u (nth i all (Fix 0 0))) r) (send r) (recv r))).
      + apply S; [intros x y z; lra|intros x y; lra].
      + intros r. now rewrite (held_vector (product (own_domains first r) u) r).
    - rewrite map_map. apply map_ext. intros r. cbn [fst]. rewrite held_vector. unfold vector. apply map_ext_in. intros i I. unfold S_Dual.held in I. apply filter_In in I as [I _]. apply in_seq in I. rewrite map_length in I.
      rewrite reduce_Sum. rewrite <- (product_all n first N copies fixed M glued Hg ix len u (nth i all (Fix 0 0))) by (apply nth_In; lia).
      f_equal. unfold sharing. apply filter_ext. intros q. unfold domains. rewrite (nth_indep _ [] (domains_of copies (Fix 0 0))) by (rewrite map_length; lia). now rewrite map_nth.
  Qed.

  (** C91: B u = c holds on all ranks iff the copies of every DOF agree and the fixed ones have their Dirichlet values *)
  Theorem constraints_hold_iff (u : nat -> list R) value :
    (forall r, (r < n)%nat -> map (product everywhere u) (held r) = map (rhs 0 value) (held r)) <-> continuous N copies fixed ix u /\ prescribed N copies fixed ix value u.
  Proof.
    rewrite <- (constraints_meaning n first N copies fixed M glued Hg ix len HN u value). split.
    - intros H m I. assert (Hr : exists r, (r < n)%nat /\ In m (held r)).
      { assert (Hd : exists d, In d (domains_of copies m) /\ In d everywhere).
        { apply (multiplier_valid n first N copies fixed M glued Hg) in I. destruct m as [g size|d g]; cbn [valid_multiplier domains_of] in *.
          - destruct I as (Lg & _ & S1 & S2). exists (nth 0 (copies g) O). split; [|apply (copy_at n first N copies M ix len HN); [easy|lia]].
            destruct (copies g) as [|x l]; [cbn in S2; lia|]. destruct size; [lia|]. now left.
          - destruct I as (Lg & _ & Id). exists d. split; [now left|]. apply in_seq. pose proof (mesh_domains _ _ _ _ M g d Lg Id). lia. }
        destruct Hd as (d & D1 & D2). rewrite <- (own_cover n first N copies M) in D2. apply in_flat_map in D2 as (r & Ir & Id). apply in_seq in Ir. exists r. split; [lia|].
        unfold held_multipliers. apply filter_In. split; [easy|]. unfold touches. apply existsb_exists. exists d. split; [easy|]. apply in_seq in Id. rewrite andb_true_iff, Nat.leb_le, Nat.ltb_lt. lia. }
      destruct Hr as (r & Hr & Im). specialize (H r Hr). clear -H Im. induction (held r) as [|a l IH]; [destruct Im|]. cbn [map] in H. injection H as H1 H2. destruct Im as [->|Im]; auto.
    - intros H r Hr. apply map_ext_in. intros m I. apply H. unfold held_multipliers in I. now apply filter_In in I.
  Qed.

  (** C92: B B^T = I: [applyBt], [applyB] and the synchronization give the multipliers back *)
  Theorem B_Bt_identity lambda m : In m all ->
    product everywhere (fun d => map (fun j => 1 * Sum all (fun m' => entry m' d j * lambda m')) (seq 0 (len d))) m = lambda m.
  Proof.
    intros I. etransitivity; [|apply (b_bt n first N copies fixed M glued Hg ix len HN lambda m I)]. unfold product, S_Equality.product. apply Sum_ext. intros d. apply Sum_ext_in. intros j Ij. apply in_seq in Ij.
    rewrite !map_seq_nth by lia. lra.
  Qed.
End Products.

(* ---- Examples ----------------------------------------------------------------------- *)
(** three domains on two ranks; DOF 0 is in all of them, DOF 1 in the last two, DOF 2 in the first one, DOF 3 is fixed *)
Definition eq_first (r : nat) : nat := nth r [0; 2; 3] 3.
Definition eq_copies (g : nat) : list nat := nth g [[0; 1; 2]; [1; 2]; [0]; [0; 1; 2]] [].
Definition eq_fixed (g : nat) : bool := g =? 3.
Definition eq_ix (d g : nat) : nat := nth g (nth d [[0; 9; 1; 2]; [0; 1; 9; 2]; [1; 0; 9; 2]] []) 9.
Definition eq_index (r d g : nat) : nat := if (eq_first r <=? d) && (d <? eq_first (r + 1)) then eq_ix d g else 99.
Definition eq_glued : list (nat * nat) := [(0, 2); (0, 3); (1, 2)].
Definition eq_nb (r : nat) : list nat := [1 - r].

Lemma eq_mesh : mesh 2 eq_first 4 eq_copies.
Proof.
  constructor.
  - intros r H. cases_lt r H; cbn; lia.
  - intros g H. cases_lt g H; cbn; repeat constructor.
  - intros g d H. cases_lt g H; cbn; lia.
Qed.
Lemma eq_ordered : ordered 4 eq_copies eq_fixed eq_glued.
Proof. split; [apply Permutation_refl|]. repeat constructor. Qed.
Lemma eq_numbered : numbered 4 eq_copies eq_ix (fun _ => 3).
Proof.
  split.
  - intros d g H. cases_lt g H; cbn; intros I; repeat (destruct I as [<-|I]; [cbn; lia|]); destruct I.
  - intros d g g' H H'. cases_lt g H; cases_lt g' H'; cbn [eq_copies nth]; intros I I'; try reflexivity; cbn in I, I';
      repeat (destruct I as [<-|I]; [repeat (destruct I' as [I'|I']; [try discriminate; cbn; discriminate|]); destruct I'|]); destruct I.
Qed.
Lemma eq_index_own r d g : r < 2 -> In d (own_domains eq_first r) -> g < 4 -> In d (eq_copies g) -> eq_index r d g = eq_ix d g.
Proof. intros Hr. cases_lt r Hr; cbn; intros [<-|I] _ _; try reflexivity; try (destruct I as [<-|[]]; reflexivity); destruct I. Qed.
Lemma eq_sort (lt : nat * nat -> nat * nat -> bool) : strict_weak_order lt -> sort_contract lt (isort lt).
Proof. apply isort_contract. Qed.

Example constraints_set_ex :
  equality_set 0 1 (fun k => 10 * k) (fun k => 10 * k + 1) isort (decomposed eq_first eq_nb 0) (dmap_of eq_first 4 eq_copies eq_index 0) (fixed_of eq_first 4 eq_copies eq_fixed 0) =
    Ok {| e_size := 5; e_interval := (0, 5); e_cmap := [1; 2; 0; 1;  1; 3; 0; 1; 2;  1; 2; 1; 2;  1; 1; 0;  1; 1; 1];
          e_D2C := [[0; 1; 3]; [0; 1; 2; 4]]; e_COLS := [[0; 0; 2]; [0; 0; 1; 2]]; e_VALS := [[10; 20; 1]; [11; 20; 10; 1]]; e_doffset := [3; 4] |} /\
  equality_set 0 1 (fun k => 10 * k) (fun k => 10 * k + 1) isort (decomposed eq_first eq_nb 1) (dmap_of eq_first 4 eq_copies eq_index 1) (fixed_of eq_first 4 eq_copies eq_fixed 1) =
    Ok {| e_size := 3; e_interval := (2, 1); e_cmap := [1; 3; 0; 1; 2;  1; 2; 1; 2;  1; 1; 2];
          e_D2C := [[0; 1; 2]]; e_COLS := [[1; 0; 2]]; e_VALS := [[21; 11; 1]]; e_doffset := [2] |}.
Proof. split; reflexivity. Qed.
Example held_ex : held_multipliers eq_first eq_copies 1 (multipliers 2 eq_first 4 eq_copies eq_fixed eq_glued) = [Glue 0 3; Glue 1 2; Fix 2 3].
Proof. reflexivity. Qed.
Example constraints_update_ex : exists E, equality_set 0 1 (fun k => 10 * k) (fun k => 10 * k + 1) isort (decomposed eq_first eq_nb 0) (dmap_of eq_first 4 eq_copies eq_index 0) (fixed_of eq_first 4 eq_copies eq_fixed 0) = Ok E /\
  equality_update 0 (decomposed eq_first eq_nb 0) E (dmap_of eq_first 4 eq_copies eq_index 0) (dirichlet_of eq_first 4 eq_copies eq_fixed (fun _ => 77) 0) = Ok [0; 0; 0; 77; 77] /\
  equality_enforce (decomposed eq_first eq_nb 0) (dmap_of eq_first 4 eq_copies eq_index 0) (dirichlet_of eq_first 4 eq_copies eq_fixed (fun _ => 77) 0) [[1; 2; 3]; [4; 5; 6]] = Ok [[1; 2; 77]; [4; 5; 77]].
Proof. eexists. split; [reflexivity|]. split; reflexivity. Qed.

Definition eq_set (r : nat) : outcome (constraints R) := equality_set 0%R 1%R low diag isort (decomposed eq_first eq_nb r) (dmap_of eq_first 4 eq_copies eq_index r) (fixed_of eq_first 4 eq_copies eq_fixed r).
Definition eq_E (r : nat) : constraints R :=
  match eq_set r with Ok E => E | _ => {| e_size := 0; e_interval := (0, 0); e_cmap := []; e_D2C := []; e_COLS := []; e_VALS := []; e_doffset := [] |} end.
Lemma eq_E_ok r : r < 2 -> eq_set r = Ok (eq_E r).
Proof.
  intros H. destruct (constraints_set 0%R 1%R low diag 2 eq_first 4 eq_copies eq_fixed eq_index eq_mesh eq_nb eq_glued eq_ordered isort eq_sort r H) as (E & Es & _).
  unfold eq_E. fold (eq_set r) in Es. now rewrite Es.
Qed.
(** the hypotheses of the theorems about products are met *)
Example products_hyps : neighbourhood 2 eq_nb /\ (forall r, r < 2 -> ~ In r (eq_nb r)) /\ knows_sharing 2 eq_first (map (domains_of eq_copies) (multipliers 2 eq_first 4 eq_copies eq_fixed eq_glued)) eq_nb.
Proof.
  split; [split|split].
  - intros i j k H. cbn. lia.
  - intros i j H [<-|[]]. lia.
  - intros i j H [<-|[]]. unfold eq_nb. left. lia.
  - intros r H [E|[]]. lia.
  - intros r q m Hr Hq _ _ _ N. unfold eq_nb. left. lia.
Qed.
(** a continuous vector with the right values, and one that is not continuous *)
Example constraints_hold_ex : let u d := nth d [[5; 7; 8]; [5; 6; 8]; [6; 5; 8]]%R [] in
  continuous 4 eq_copies eq_fixed eq_ix u /\ prescribed 4 eq_copies eq_fixed eq_ix (fun _ => 8%R) u.
Proof.
  split.
  - intros g d d' H. cases_lt g H; cbn; intros F I I'; try discriminate; repeat (destruct I as [<-|I]; [repeat (destruct I' as [<-|I']; [reflexivity|]); destruct I'|]); destruct I.
  - intros g d H. cases_lt g H; cbn; intros F I; try discriminate; repeat (destruct I as [<-|I]; [reflexivity|]); destruct I.
Qed.
Example constraints_hold_not : ~ continuous 4 eq_copies eq_fixed eq_ix (fun d => nth d [[5; 7; 8]; [5; 6; 8]; [6; 4; 8]]%R []).
Proof. intros C. specialize (C 0 0 2 ltac:(lia) eq_refl (or_introl eq_refl) (or_intror (or_intror (or_introl eq_refl)))). cbn in C. lra. Qed.

Print Assumptions constraints_order.
Print Assumptions constraints_set.
Print Assumptions constraints_consistent.
Print Assumptions constraints_update.
Print Assumptions constraints_enforce.
Print Assumptions applyB_filter_computes.
Print Assumptions applyB_computes.
Print Assumptions applyBt_computes.
Print Assumptions applyB_adjoint.
Print Assumptions constraints_orthonormal.
Print Assumptions applyB_synchronized.
Print Assumptions constraints_hold_iff.
Print Assumptions B_Bt_identity.
