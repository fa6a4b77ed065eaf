(** Lemmas about the gluing constraints: the right-hand side and enforced values. *)
From Coq Require Import List Arith Bool Permutation Sorted Lia.
From Verif Require Import Base S_Order S_Dual M_Dual S_Equality M_Equality L_Equality L_Equality2 L_Equality3 L_Equality4.
Import ListNotations.
Local Open Scope out_scope.

Lemma upd_app_r {A} (x y : list A) i v : upd (x ++ y) (length x + i) v = x ++ upd y i v.
Proof. induction x as [|a x IH]; cbn; [reflexivity|]. now rewrite IH. Qed.
Lemma upd_app_l {A} (x y : list A) i v : i < length x -> upd (x ++ y) i v = upd x i v ++ y.
Proof. revert i. induction x as [|a x IH]; intros i H; cbn in H; [lia|]. destruct i; cbn; [reflexivity|]. rewrite IH by lia. reflexivity. Qed.
Lemma upd_flat_map {A} (F G : nat -> list A) d i v : forall m b, b <= d < b + m -> i < length (F d) -> G d = upd (F d) i v -> (forall d', d' <> d -> G d' = F d') ->
  upd (flat_map F (seq b m)) (length (flat_map F (seq b (d - b))) + i) v = flat_map G (seq b m).
Proof.
  intros m b H Hi E1 E2. replace m with ((d - b) + (1 + (b + m - d - 1))) by lia. rewrite !seq_app, !flat_map_app. cbn [seq flat_map]. rewrite !app_nil_r.
  replace (b + (d - b)) with d by lia. rewrite upd_app_r, upd_app_l by easy. rewrite <- E1. f_equal; [|f_equal]; apply flat_map_ext_in; intros x I; apply in_seq in I; symmetry; apply E2; lia.
Qed.

Section Update.
  Context {T : Type}.
  Variables (zero : T).
  Variables (n : nat) (first : nat -> nat) (N : nat) (copies : nat -> list nat) (fixed : nat -> bool) (index : nat -> nat -> nat -> nat).
  Hypothesis M : mesh n first N copies.
  Variables (nb : nat -> list nat) (r : nat).
  Hypothesis Hr : r < n.
  Variable value : nat -> T.

  Local Notation D := (decomposed first nb r).
  Local Notation b := (first r).
  Local Notation m := (first (r + 1) - first r).
  Local Notation loc := (local first N copies r).
  Local Notation dmap := (dmap_of first N copies index r).
  Local Notation cols := (fun d => map (fun g => index r d g) (fixed_in N copies fixed d)).
  Definition cnt (d : nat) : nat := length (fixed_in N copies fixed d).
  Definition filled (S : nat -> list T) (d : nat) : list T := S d ++ repeat zero (cnt d - length (S d)).
  Definition state (l0 : nat) (S : nat -> list T) : list T * list nat :=
    (repeat zero l0 ++ flat_map (filled S) (seq b m), map (fun d => offset_of first r cols l0 d + length (S d)) (seq b m)).
  Lemma state_ext l0 S S' : (forall d, b <= d < b + m -> S d = S' d) -> state l0 S = state l0 S'.
  Proof.
    intros H. unfold state. f_equal.
    - f_equal. apply flat_map_ext_in. intros d I. apply in_seq in I. unfold filled. now rewrite H by lia.
    - apply map_ext_in. intros d I. apply in_seq in I. now rewrite H by lia.
  Qed.
  Lemma filled_length S d : length (S d) <= cnt d -> length (filled S d) = cnt d.
  Proof. intros H. unfold filled. rewrite app_length, repeat_length. lia. Qed.
  Lemma filled_offset S l0 d : (forall d', b <= d' < b + m -> length (S d') <= cnt d') -> d <= b + m -> l0 + length (flat_map (filled S) (seq b (d - b))) = offset_of first r cols l0 d.
  Proof.
    intros H Hd. unfold offset_of. f_equal. assert (G : forall k, b + k <= b + m -> length (flat_map (filled S) (seq b k)) = length (flat_map cols (seq b k))).
    { induction k as [|k IH]; intros K; [reflexivity|]. rewrite seq_S, !flat_map_app, !app_length, IH by lia. cbn [flat_map]. rewrite !app_nil_r, filled_length by (apply H; lia).
      unfold cnt. now rewrite map_length. }
    destruct (Nat.le_gt_cases b d); [apply G; lia|]. replace (d - b) with 0 by lia. reflexivity.
  Qed.
  Lemma update_copy_ok l0 S v d i : (forall d', b <= d' < b + m -> length (S d') <= cnt d') -> (b <= d < b + m -> length (S d) < cnt d) ->
    update_copy D v (state l0 S) (d, i) = Ok (state l0 (fun d' => S d' ++ if d' =? d then [v] else [])).
  Proof.
    intros H Hd. unfold update_copy, state. cbn [fst snd]. destruct (ismy D d) eqn:E.
    - apply (my_range first nb r (mesh_first _ _ _ _ M r Hr)) in E. specialize (Hd E). change (dbegin D) with b. rewrite rd_map_seq by lia. cbn [obind].
      replace (b + (d - b)) with d by lia. rewrite <- (filled_offset S l0 d H) by lia.
      assert (F : length (flat_map (filled S) (seq b (d - b))) + length (S d) < length (flat_map (filled S) (seq b m))).
      { replace m with ((d - b) + (1 + (b + m - d - 1))) by lia. rewrite !seq_app, !flat_map_app, !app_length. cbn [seq flat_map]. rewrite app_nil_r.
        replace (b + (d - b)) with d by lia. rewrite filled_length by lia. lia. }
      rewrite wr_ok by (rewrite app_length, repeat_length; lia). cbn [obind]. rewrite wr_ok by (rewrite map_length, seq_length; lia). cbn [obind]. f_equal. f_equal.
      + rewrite <- (repeat_length zero l0) at 2. rewrite <- Nat.add_assoc, upd_app_r. f_equal.
        apply upd_flat_map; [easy|rewrite filled_length by lia; lia| |].
        * unfold filled. rewrite Nat.eqb_refl, app_length. cbn [length]. rewrite <- (Nat.add_0_r (length (S d))) at 3. rewrite upd_app_r, <- app_assoc. f_equal.
          replace (cnt d - length (S d)) with (1 + (cnt d - (length (S d) + 1))) by lia. reflexivity.
        * intros d' N'. unfold filled. destruct (Nat.eqb_spec d' d); [contradiction|]. now rewrite app_nil_r.
      + rewrite upd_map_seq by lia. replace (b + (d - b)) with d by lia. apply map_ext_in. intros d' I. destruct (Nat.eqb_spec d' d) as [->|].
        * rewrite app_length. cbn [length]. rewrite (filled_offset S l0 d H) by lia. lia.
        * now rewrite app_nil_r.
    - f_equal. apply (state_ext l0 S). intros d' Hd'. destruct (Nat.eqb_spec d' d) as [->|]; [|now rewrite app_nil_r].
      apply (my_range first nb r (mesh_first _ _ _ _ M r Hr)) in Hd'. congruence.
  Qed.
  Lemma update_dof_ok l0 v (ix : nat -> nat) ds : forall S, (forall d, b <= d < b + m -> length (S d) + length (filter (Nat.eqb d) ds) <= cnt d) ->
    foldM (update_copy D v) (map (fun d => (d, ix d)) ds) (state l0 S) = Ok (state l0 (fun d => S d ++ map (fun _ => v) (filter (Nat.eqb d) ds))).
  Proof.
    induction ds as [|d ds IH]; intros S H; cbn [map foldM].
    - f_equal. apply state_ext. intros. cbn. now rewrite app_nil_r.
    - rewrite update_copy_ok.
      + cbn [obind]. rewrite IH.
        * f_equal. apply state_ext. intros d' Hd. rewrite <- app_assoc. f_equal. cbn [filter]. destruct (Nat.eqb_spec d' d); reflexivity.
        * intros d' Hd. specialize (H d' Hd). cbn [filter] in H. rewrite app_length. destruct (Nat.eqb_spec d' d); cbn [length] in *; lia.
      + intros d' Hd. specialize (H d' Hd). lia.
      + intros Hd. specialize (H d Hd). cbn [filter] in H. rewrite Nat.eqb_refl in H. cbn [length] in H. lia.
  Qed.

  Lemma filter_has d l : filter (has copies fixed d) (filter fixed l) = filter (has copies fixed d) l.
  Proof.
    induction l as [|x l IH]; [reflexivity|]. cbn [filter]. destruct (fixed x) eqn:X; cbn [filter]; rewrite IH; [reflexivity|].
    replace (has copies fixed d x) with false; [reflexivity|]. unfold has. now rewrite X.
  Qed.
  (** the Dirichlet values of the rank *)
  Local Notation dirichlet := (dirichlet_of first N copies fixed value r).
  Lemma fixed_global : map (fun p => nth p loc 0) (fixed_of first N copies fixed r) = filter fixed loc.
  Proof. unfold fixed_of. apply filter_nth_seq. Qed.
  Local Notation rhs := (S_Equality.rhs zero value).
  Lemma update_ok l0 : exists dindex, foldM (fun st iv => dm <- rd dmap (fst iv) ;; foldM (update_copy D (snd iv)) dm st) dirichlet
      (repeat zero (l0 + length (own_fixes first N copies fixed r)), map (offset_of first r cols l0) (seq b m))
    = Ok (repeat zero l0 ++ map rhs (own_fixes first N copies fixed r), dindex).
  Proof.
    assert (E0 : (repeat zero (l0 + length (own_fixes first N copies fixed r)), map (offset_of first r cols l0) (seq b m)) = state l0 (fun _ => [])).
    { unfold state. f_equal.
      - rewrite repeat_app. f_equal. unfold own_fixes, filled. cbn [length app]. generalize (seq b m) as l. induction l as [|d l IH]; [reflexivity|]. cbn [flat_map].
        rewrite app_length, repeat_app, IH. f_equal. rewrite map_length, Nat.sub_0_r. reflexivity.
      - apply map_ext. intros. now rewrite Nat.add_0_r. }
    rewrite E0. unfold dirichlet_of. rewrite foldM_map. cbn [fst snd].
    set (F := fixed_of first N copies fixed r).
    assert (FL : forall p, In p F -> p < length loc /\ In (nth p loc 0) loc /\ fixed (nth p loc 0) = true).
    { intros p I. unfold F, fixed_of in I. apply filter_In in I as [I Fp]. apply in_seq in I. repeat split; [lia|apply nth_In; lia|easy]. }
    destruct (foldM_inv (fun st a => dm <- rd dmap a ;; foldM (update_copy D (value (nth a loc 0))) dm st)
      (fun pre st => st = state l0 (fun d => map value (filter (has copies fixed d) (map (fun p => nth p loc 0) pre)))) F (state l0 (fun _ => []))) as (st & E & I).
    - reflexivity.
    - intros pre a post st EF ->. destruct (FL a) as (A1 & A2 & A3); [rewrite EF; apply in_or_app; right; now left|].
      rewrite (rd_ok _ _ []) by (unfold dmap_of; rewrite map_length; easy). cbn [obind]. rewrite dmap_nth by easy. set (g := nth a loc 0) in *.
      assert (Sg : NoDup (copies g)).
      { apply ss_nodup, (mesh_copies _ _ _ _ M). unfold local in A2. apply filter_In in A2 as [A2 _]. apply in_seq in A2. lia. }
      eexists. split; [apply update_dof_ok|].
      + intros d Hd. assert (K : filter (has copies fixed d) (map (fun p => nth p loc 0) F) = fixed_in N copies fixed d).
        { unfold F. rewrite fixed_global, filter_has. now apply (has_loc n first N copies fixed M r Hr). }
        unfold cnt. rewrite <- K, EF, map_app. cbn [map]. fold g. rewrite filter_app. cbn [filter]. rewrite filter_eqb_nodup by easy. unfold has at 3. rewrite A3. cbn [andb].
        rewrite app_length, map_length. destruct (existsb (Nat.eqb d) (copies g)); cbn [length]; lia.
      + apply state_ext. intros d Hd. rewrite map_app. cbn [map]. fold g. rewrite filter_app, map_app. f_equal. rewrite filter_eqb_nodup by easy. cbn [filter]. unfold has. rewrite A3. cbn [andb].
        destruct (existsb (Nat.eqb d) (copies g)); reflexivity.
    - subst st. rewrite E. eexists. f_equal. unfold state. f_equal. f_equal. unfold own_fixes. rewrite map_flat_map. apply flat_map_ext_in. intros d I. apply in_seq in I. unfold filled.
      unfold F. rewrite fixed_global. assert (K : filter (has copies fixed d) (filter fixed loc) = fixed_in N copies fixed d).
      { rewrite filter_has. apply (has_loc n first N copies fixed M r Hr). lia. }
      rewrite K, map_length. unfold cnt. rewrite Nat.sub_diag. cbn [repeat]. rewrite app_nil_r, map_map. reflexivity.
  Qed.

  (* ---- enforced values ------------------------------------------------------------ *)
  Section Enforce.
    Variable len : nat -> nat.
    (** the DOFs of a domain have different positions in its vector *)
    Hypothesis Hix : forall d g, b <= d < b + m -> In g loc -> In d (copies g) -> index r d g < len d.
    Definition set_dof (X : nat -> list T) (v : T) (ix : nat -> nat) (ds : list nat) (d : nat) : list T := if existsb (Nat.eqb d) ds then upd (X d) (ix d) v else X d.
    Lemma enforce_dof_ok v (ix : nat -> nat) ds : NoDup ds -> forall X, (forall d, b <= d < b + m -> In d ds -> ix d < length (X d)) ->
      foldM (enforce_copy D v) (map (fun d => (d, ix d)) ds) (map X (seq b m)) = Ok (map (set_dof X v ix ds) (seq b m)).
    Proof.
      induction 1 as [|d ds Nd Nds IH]; intros X H; cbn [map foldM]; [reflexivity|]. unfold enforce_copy at 1. cbn [fst snd].
      assert (Z : forall d', existsb (Nat.eqb d') ds = true -> d' <> d).
      { intros d' Ex ->. apply existsb_exists in Ex as (y & I & Ey). apply Nat.eqb_eq in Ey. now subst y. }
      destruct (ismy D d) eqn:E.
      - apply (my_range first nb r (mesh_first _ _ _ _ M r Hr)) in E. change (dbegin D) with b. rewrite rd_map_seq by lia. cbn [obind]. replace (b + (d - b)) with d by lia.
        rewrite wr_ok by (apply H; [easy|now left]). cbn [obind]. rewrite wr_ok by (rewrite map_length, seq_length; lia). cbn [obind]. rewrite upd_map_seq by lia.
        replace (b + (d - b)) with d by lia. rewrite IH.
        + f_equal. apply map_ext. intros d'. unfold set_dof. cbn [existsb]. destruct (existsb (Nat.eqb d') ds) eqn:Ex.
          * destruct (Nat.eqb_spec d' d) as [->|]; [destruct (Z d Ex); reflexivity|]. cbn [orb]. reflexivity.
          * rewrite orb_false_r. destruct (Nat.eqb_spec d' d) as [->|]; reflexivity.
        + intros d' Hd I. destruct (Nat.eqb_spec d' d) as [->|]; [contradiction|]. apply H; [easy|now right].
      - cbn [obind]. rewrite IH by (intros; apply H; [easy|now right]). f_equal. apply map_ext_in. intros d' I. unfold set_dof. cbn [existsb].
        destruct (Nat.eqb_spec d' d) as [->|]; [|reflexivity]. exfalso. apply in_seq in I. assert (I' : b <= d < b + m) by lia. apply (my_range first nb r (mesh_first _ _ _ _ M r Hr)) in I'. congruence.
    Qed.
    Definition enforced (X : nat -> list T) (d : nat) (done : list nat) : list T :=
      fold_left (fun x g => if has copies fixed d g then upd x (index r d g) (value g) else x) done (X d).
    Lemma enforce_ok X : (forall d, b <= d < b + m -> length (X d) = len d) ->
      equality_enforce D dmap dirichlet (map X (seq b m)) = Ok (map (fun d => enforced X d (filter fixed loc)) (seq b m)).
    Proof.
      intros HX. unfold equality_enforce, dirichlet_of. rewrite foldM_map. cbn [fst snd]. set (F := fixed_of first N copies fixed r). rewrite <- fixed_global. fold F.
      assert (FL : forall p, In p F -> p < length loc /\ In (nth p loc 0) loc /\ fixed (nth p loc 0) = true).
      { intros p I. unfold F, fixed_of in I. apply filter_In in I as [I Fp]. apply in_seq in I. repeat split; [lia|apply nth_In; lia|easy]. }
      destruct (foldM_inv (fun x a => dm <- rd dmap a ;; foldM (enforce_copy D (value (nth a loc 0))) dm x)
        (fun pre st => st = map (fun d => enforced X d (map (fun p => nth p loc 0) pre)) (seq b m) /\ forall d, length (enforced X d (map (fun p => nth p loc 0) pre)) = length (X d)) F (map X (seq b m))) as (st & E & I & _).
      - split; reflexivity.
      - intros pre a post st EF [-> L]. destruct (FL a) as (A1 & A2 & A3); [rewrite EF; apply in_or_app; right; now left|].
        rewrite (rd_ok _ _ []) by (unfold dmap_of; rewrite map_length; easy). cbn [obind]. rewrite dmap_nth by easy. set (g := nth a loc 0) in *.
        assert (Sg : NoDup (copies g)).
        { apply ss_nodup, (mesh_copies _ _ _ _ M). unfold local in A2. apply filter_In in A2 as [A2 _]. apply in_seq in A2. lia. }
        assert (Es : forall d, enforced X d (map (fun p => nth p loc 0) (pre ++ [a])) = set_dof (fun d => enforced X d (map (fun p => nth p loc 0) pre)) (value g) (fun d => index r d g) (copies g) d).
        { intros d. unfold enforced. rewrite map_app, fold_left_app. cbn [map fold_left]. fold g. unfold set_dof, has. rewrite A3. reflexivity. }
        eexists. split; [apply enforce_dof_ok; [easy|]|split].
        + intros d Hd I. rewrite L, HX by easy. now apply Hix.
        + apply map_ext. intros d. symmetry. apply Es.
        + intros d. rewrite Es. unfold set_dof. destruct (existsb _ _); [rewrite upd_length|]; apply L.
      - subst st. exact E.
    Qed.
  End Enforce.
End Update.
