(** Lemmas about the gluing constraints: what the matrix means. *)
From Coq Require Import List Arith Bool Permutation Sorted Reals Lia Lra.
From Verif Require Import Base S_Order S_Dual M_Dual S_Equality M_Equality L_Equality L_Equality2 L_Equality3 L_Equality4 L_Equality6.
Import ListNotations.
Local Open Scope out_scope.
Local Open Scope R_scope.

Lemma bt_rows_ok {M} alpha (ent : M -> list (nat * R)) (lam : M -> R) ms : forall P out, (forall m, In m ms -> Forall (fun e => (fst e < length out)%nat) (ent m)) ->
  foldM (bt_row Rplus Rmult alpha (P ++ map lam ms)) (flat_map (fun y => map (pair (fst y)) (ent (snd y))) (combine (seq (length P) (length ms)) ms)) out
  = Ok (map (fun j => nth j out 0 + alpha * Sum ms (fun m => entry_sum (ent m) j * lam m)) (seq 0 (length out))).
Proof.
  induction ms as [|m ms IH]; intros P out H.
  - cbn [length seq combine flat_map foldM]. f_equal. apply (nth_ext _ _ 0 0); [now rewrite map_length, seq_length|]. intros j Hj. rewrite map_seq_nth by easy. rewrite Sum_nil. lra.
  - cbn [length seq combine flat_map fst snd map]. rewrite foldM_app, bt_row_fold.
    + cbn [obind]. replace (P ++ lam m :: map lam ms) with ((P ++ [lam m]) ++ map lam ms) by (now rewrite <- app_assoc).
      replace (S (length P)) with (length (P ++ [lam m])) by (rewrite app_length; cbn; lia).
      rewrite IH by (intros; rewrite map_length, seq_length; apply H; now right). rewrite map_length, seq_length. f_equal. apply map_ext_in. intros j I. apply in_seq in I.
      rewrite map_seq_nth by lia. rewrite Sum_cons, <- app_assoc, app_nth2, Nat.sub_diag by lia. cbn [app nth]. lra.
    + rewrite app_length. cbn. lia.
    + apply H. now left.
Qed.

Lemma NoDup_app_intro {A} (x y : list A) : NoDup x -> NoDup y -> (forall a, In a x -> In a y -> False) -> NoDup (x ++ y).
Proof.
  intros Nx Ny H. induction Nx as [|a x Na Nx IH]; [easy|]. cbn [app]. constructor.
  - rewrite in_app_iff. intros [I|I]; [contradiction|]. apply (H a); [now left|easy].
  - apply IH. intros b I1 I2. apply (H b); [now right|easy].
Qed.

(* ---- numbers ------------------------------------------------------------------------ *)
Lemma scale_pos k : (0 < k)%nat -> 0 < scale k.
Proof. intros H. apply lt_0_INR in H. unfold scale. apply sqrt_lt_R0. assert (0 < INR k / (INR k * INR k)); [|lra]. apply Rdiv_lt_0_compat; [easy|]. now apply Rmult_lt_0_compat. Qed.
Lemma scale_square k : (0 < k)%nat -> scale k * scale k * INR k = INR k + 1.
Proof.
  intros H. apply lt_0_INR in H. unfold scale. rewrite sqrt_sqrt.
  - field. lra.
  - assert (0 < INR k / (INR k * INR k)); [|lra]. apply Rdiv_lt_0_compat; [easy|]. now apply Rmult_lt_0_compat.
Qed.
Lemma Sum_const {A} (l : list A) c : Sum l (fun _ => c) = INR (length l) * c.
Proof. induction l as [|a l IH]; [cbn; lra|]. rewrite Sum_cons, IH. cbn [length]. rewrite S_INR. lra. Qed.
Lemma coefficient_low k c : (c < k)%nat -> coefficient low diag (S k) c = low k.
Proof. intros H. unfold coefficient. replace (S k - 1)%nat with k by lia. destruct (Nat.ltb_spec c k); [reflexivity|lia]. Qed.
Lemma coefficient_diag k : coefficient low diag (S k) k = diag k.
Proof. unfold coefficient. replace (S k - 1)%nat with k by lia. destruct (Nat.ltb_spec k k); [lia|reflexivity]. Qed.
Lemma coefficient_sum k f : Sum (seq 0 (S k)) (fun c => coefficient low diag (S k) c * f c) = low k * Sum (seq 0 k) f + diag k * f k.
Proof.
  rewrite seq_S, Sum_app, Sum_cons, Sum_nil. cbn [Nat.add]. rewrite coefficient_diag, <- Sum_scal. rewrite (Sum_ext_in (seq 0 k) _ (fun c => low k * f c)); [lra|].
  intros c I. apply in_seq in I. now rewrite coefficient_low by lia.
Qed.
Lemma coefficient_orthonormal k k' : (0 < k)%nat -> (0 < k')%nat ->
  Sum (seq 0 (S k)) (fun c => coefficient low diag (S k) c * (if (c <? S k')%nat then coefficient low diag (S k') c else 0)) = if (k =? k')%nat then 1 else 0.
Proof.
  intros Hk Hk'. rewrite coefficient_sum. pose proof (lt_0_INR k Hk) as Pk. pose proof (lt_0_INR k' Hk') as Pk'. destruct (Nat.eqb_spec k k') as [<-|Nk].
  - rewrite (Sum_ext_in _ _ (fun _ => low k)).
    + rewrite Sum_const, seq_length. destruct (Nat.ltb_spec k (S k)); [|lia]. rewrite coefficient_diag. unfold low, diag. pose proof (scale_square k Hk) as Q. set (s := scale k) in *. set (x := INR k) in *.
      replace (s / (x + 1) * (x * (s / (x + 1))) + - s * x / (x + 1) * (- s * x / (x + 1))) with ((s * s * x) / (x + 1)) by (field; lra). rewrite Q. field. lra.
    + intros c I. apply in_seq in I. destruct (Nat.ltb_spec c (S k)); [|lia]. now rewrite coefficient_low by lia.
  - destruct (Nat.ltb_spec k k') as [L|L].
    + rewrite (Sum_ext_in _ _ (fun _ => low k')).
      * rewrite Sum_const, seq_length. destruct (Nat.ltb_spec k (S k')); [|lia]. rewrite coefficient_low by lia. unfold low, diag. field. split; lra.
      * intros c I. apply in_seq in I. destruct (Nat.ltb_spec c (S k')); [|lia]. now rewrite coefficient_low by lia.
    + assert (L' : (k' < k)%nat) by lia. destruct (Nat.ltb_spec k (S k')); [lia|]. rewrite Rmult_0_r, Rplus_0_r. generalize (low k) as w. intros w.
      replace k with (S k' + (k - S k'))%nat by lia. rewrite seq_app, Sum_app, (Sum_zero (seq (0 + S k') _)).
      * rewrite Rplus_0_r. rewrite (Sum_ext_in _ _ (fun c => coefficient low diag (S k') c * 1)).
        -- rewrite coefficient_sum, Sum_const, seq_length. unfold low, diag. field. lra.
        -- intros c I. apply in_seq in I. destruct (Nat.ltb_spec c (S k')); [|lia]. lra.
      * intros c I. apply in_seq in I. destruct (Nat.ltb_spec c (S k')); [lia|]. reflexivity.
Qed.
(** all sums vanish iff all values are the same *)
Lemma glue_meaning len (f : nat -> R) :
  (forall k, (0 < k < len)%nat -> low k * Sum (seq 0 k) f + diag k * f k = 0) <-> (forall i j, (i < len)%nat -> (j < len)%nat -> f i = f j).
Proof.
  split; intros H.
  - assert (G : forall c, (c < len)%nat -> f c = f 0%nat).
    { induction c as [c IH] using (well_founded_induction lt_wf). intros Hc. destruct c as [|c]; [reflexivity|]. set (k := S c) in *. specialize (H k ltac:(lia)).
      rewrite (Sum_ext_in _ _ (fun _ => f 0%nat)) in H by (intros x I; apply in_seq in I; apply IH; lia). rewrite Sum_const, seq_length in H.
      assert (Pk : 0 < INR k) by (apply lt_0_INR; lia). pose proof (scale_pos k ltac:(lia)) as Ps. unfold low, diag in H. set (x := INR k) in *. set (s := scale k) in *.
      assert (E : s * x / (x + 1) * (f 0%nat - f k) = 0). { rewrite <- H. field. lra. }
      apply Rmult_integral in E as [E|E]; [|lra]. assert (0 < s * x / (x + 1)); [|lra]. apply Rdiv_lt_0_compat; [now apply Rmult_lt_0_compat|lra]. }
    intros i j Hi Hj. rewrite (G i Hi), (G j Hj). reflexivity.
  - intros k Hk. rewrite (Sum_ext_in _ _ (fun _ => f k)) by (intros x I; apply in_seq in I; apply H; lia). rewrite Sum_const, seq_length. unfold low, diag. field. pose proof (pos_INR k). lra.
Qed.

Section Meaning.
  Variables (n : nat) (first : nat -> nat) (N : nat) (copies : nat -> list nat) (fixed : nat -> bool).
  Hypothesis M : mesh n first N copies.
  Variable glued : list (nat * nat).
  Hypothesis Hg : ordered N copies fixed glued.
  Variables (ix : nat -> nat -> nat) (len : nat -> nat).
  Hypothesis HN : numbered N copies ix len.
  Local Notation all := (multipliers n first N copies fixed glued).
  Local Notation entry := (entry copies low diag ix).
  Local Notation domains := (all_domains n first).

  Definition valid_multiplier (m : multiplier) : Prop :=
    match m with
    | Glue g size => (g < N)%nat /\ fixed g = false /\ (2 <= size <= length (copies g))%nat
    | Fix d g => (g < N)%nat /\ fixed g = true /\ In d (copies g)
    end.
  Lemma multiplier_valid m : In m all <-> valid_multiplier m.
  Proof.
    unfold multipliers. rewrite in_app_iff, in_map_iff. destruct Hg as [P _]. destruct m as [g size|d g]; cbn [valid_multiplier].
    - split.
      + intros [((g', s) & E & I)|I].
        * injection E as <- <-. apply (Permutation_in _ P) in I. unfold all_glue in I. apply in_flat_map in I as (x & Ix & I). apply in_seq in Ix.
          destruct (fixed x) eqn:F; [destruct I|]. apply in_map_iff in I as (k & E & I). injection E as <- <-. apply in_seq in I. repeat split; [lia|easy|lia|lia].
        * unfold fixes in I. apply in_flat_map in I as (x & _ & I). apply in_map_iff in I as (? & E & _). discriminate.
      + intros (L & F & S1 & S2). left. exists (g, size). split; [reflexivity|]. apply (Permutation_in _ (Permutation_sym P)). unfold all_glue. apply in_flat_map. exists g. split; [apply in_seq; lia|].
        rewrite F. apply in_map. apply in_seq. lia.
    - split.
      + intros [(x & E & _)|I]; [discriminate|]. unfold fixes in I. apply in_flat_map in I as (x & _ & I). apply in_map_iff in I as (y & E & I). injection E as <- <-.
        unfold fixed_in in I. apply filter_In in I as [I F]. apply in_seq in I. apply andb_true_iff in F as [F X]. apply existsb_exists in X as (z & Iz & Ez). apply Nat.eqb_eq in Ez. subst z. repeat split; [lia|easy|easy].
      + intros (L & F & I). right. unfold fixes. apply in_flat_map. exists d. split.
        * apply in_seq. pose proof (mesh_domains _ _ _ _ M g d L I). lia.
        * apply in_map. unfold fixed_in. apply filter_In. split; [apply in_seq; lia|]. rewrite F. cbn [andb]. apply existsb_exists. exists d. split; [easy|apply Nat.eqb_refl].
  Qed.
  Lemma multipliers_nodup : NoDup all.
  Proof.
    unfold multipliers. destruct Hg as [P S]. assert (NG : NoDup glued).
    { clear -S. unfold strictly_sorted in S. induction S as [|a l S IH F]; constructor; [|exact IH]. rewrite Forall_forall in F. intros I. specialize (F a I). unfold before in F.
      rewrite Nat.ltb_irrefl, andb_false_r, orb_false_r in F. clear -F. induction (firstn (snd a) (copies (fst a))) as [|x l IH]; [discriminate|]. cbn [lex_lt] in F. rewrite Nat.ltb_irrefl, Nat.eqb_refl in F. auto. }
    assert (NF : forall l, NoDup l -> NoDup (flat_map (fun d => map (Fix d) (fixed_in N copies fixed d)) l)).
    { induction 1 as [|d l Nd Nl IH]; [constructor|]. cbn [flat_map]. apply NoDup_app_intro.
      - apply FinFun.Injective_map_NoDup; [intros x y E; now injection E|]. apply NoDup_filter, seq_NoDup.
      - exact IH.
      - intros x I1 I2. apply in_map_iff in I1 as (g & <- & _). apply in_flat_map in I2 as (d' & Id & I2). apply in_map_iff in I2 as (g' & E & _). injection E as -> _. contradiction. }
    apply NoDup_app_intro.
    - apply FinFun.Injective_map_NoDup; [intros [x1 x2] [y1 y2] E; cbn in E; congruence|easy].
    - apply NF, seq_NoDup.
    - intros x I1 I2. apply in_map_iff in I1 as (p & <- & _). unfold fixes in I2. apply in_flat_map in I2 as (d' & _ & I2). apply in_map_iff in I2 as (g' & E & _). discriminate.
  Qed.

  (** a row applied to any matrix of values *)
  Definition functional (m : multiplier) (F : nat -> nat -> R) : R :=
    match m with
    | Glue g size => Sum (seq 0 size) (fun c => coefficient low diag size c * F (nth c (copies g) O) (ix (nth c (copies g) O) g))
    | Fix d g => F d (ix d g)
    end.
  Lemma copy_at g c : (g < N)%nat -> (c < length (copies g))%nat -> In (nth c (copies g) O) (copies g) /\ In (nth c (copies g) O) domains /\ (ix (nth c (copies g) O) g < len (nth c (copies g) O))%nat.
  Proof.
    intros Lg Lc. assert (I : In (nth c (copies g) O) (copies g)) by now apply nth_In. repeat split; [easy| |now apply (proj1 HN)].
    apply in_seq. pose proof (mesh_domains _ _ _ _ M g _ Lg I). lia.
  Qed.
  Lemma row_apply m F : valid_multiplier m -> Sum domains (fun d => Sum (seq 0 (len d)) (fun j => entry m d j * F d j)) = functional m F.
  Proof.
    destruct m as [g size|d0 g]; cbn [valid_multiplier functional S_Equality.entry].
    - intros (Lg & _ & S1 & S2).
      rewrite (Sum_ext _ _ (fun d => Sum (seq 0 size) (fun c => Sum (seq 0 (len d)) (fun j => (if (nth c (copies g) O =? d)%nat && (ix d g =? j)%nat then coefficient low diag size c else 0) * F d j)))).
      2: { intros d. rewrite <- Sum_swap. apply Sum_ext. intros j. now rewrite Sum_scal_r. }
      rewrite Sum_swap. apply Sum_ext_in. intros c I. apply in_seq in I. destruct (copy_at g c Lg ltac:(lia)) as (I1 & I2 & I3).
      rewrite (Sum_single _ (nth c (copies g) O)); [|apply seq_NoDup|exact I2|].
      + rewrite (Sum_single _ (ix (nth c (copies g) O) g)); [now rewrite !Nat.eqb_refl|apply seq_NoDup|apply in_seq; lia|].
        intros y _ Ny. destruct (Nat.eqb_spec (ix (nth c (copies g) O) g) y); [congruence|]. rewrite andb_false_r. lra.
      + intros y _ Ny. apply Sum_zero. intros j _. destruct (Nat.eqb_spec (nth c (copies g) O) y); [congruence|]. cbn [andb]. lra.
    - intros (Lg & _ & Id). rewrite (Sum_single _ d0).
      + rewrite (Sum_single _ (ix d0 g)); [rewrite !Nat.eqb_refl; cbn [andb]; lra|apply seq_NoDup|apply in_seq; pose proof (proj1 HN d0 g Lg Id); lia|].
        intros y _ Ny. destruct (Nat.eqb_spec (ix d0 g) y); [congruence|]. rewrite andb_false_r. lra.
      + apply seq_NoDup.
      + apply in_seq. pose proof (mesh_domains _ _ _ _ M g d0 Lg Id). lia.
      + intros y _ Ny. apply Sum_zero. intros j _. destruct (Nat.eqb_spec d0 y); [congruence|]. cbn [andb]. lra.
  Qed.
  Lemma entry_at_glue g c g' s' : (g < N)%nat -> (c < length (copies g))%nat -> (g' < N)%nat -> (s' <= length (copies g'))%nat ->
    entry (Glue g' s') (nth c (copies g) O) (ix (nth c (copies g) O) g) = if (g' =? g)%nat then (if (c <? s')%nat then coefficient low diag s' c else 0) else 0.
  Proof.
    intros Lg Lc Lg' Ls. destruct (copy_at g c Lg Lc) as (I1 & _ & _). cbn [S_Equality.entry]. destruct (Nat.eqb_spec g' g) as [->|Ng].
    - assert (Nd : NoDup (copies g)) by now apply ss_nodup, (mesh_copies _ _ _ _ M). destruct (Nat.ltb_spec c s').
      + rewrite (Sum_single _ c); [now rewrite !Nat.eqb_refl|apply seq_NoDup|apply in_seq; lia|]. intros y Iy Ny. apply in_seq in Iy.
        destruct (Nat.eqb_spec (nth y (copies g) O) (nth c (copies g) O)) as [E|]; [|reflexivity]. apply (proj1 (NoDup_nth (copies g) O) Nd) in E; lia.
      + apply Sum_zero. intros y Iy. apply in_seq in Iy. destruct (Nat.eqb_spec (nth y (copies g) O) (nth c (copies g) O)) as [E|]; [|reflexivity]. apply (proj1 (NoDup_nth (copies g) O) Nd) in E; lia.
    - apply Sum_zero. intros y Iy. apply in_seq in Iy. destruct (Nat.eqb_spec (nth y (copies g') O) (nth c (copies g) O)) as [E|]; [|reflexivity]. cbn [andb].
      destruct (Nat.eqb_spec (ix (nth c (copies g) O) g') (ix (nth c (copies g) O) g)) as [E2|]; [|reflexivity]. destruct Ng. apply (proj2 HN (nth c (copies g) O)); auto. rewrite <- E. apply nth_In. lia.
  Qed.
  Lemma orthonormal m m' : valid_multiplier m -> valid_multiplier m' -> (m = m' -> row_product n first copies low diag ix len m m' = 1) /\ (m <> m' -> row_product n first copies low diag ix len m m' = 0).
  Proof.
    intros V V'. unfold row_product. rewrite (row_apply m (entry m') V). destruct m as [g size|d g]; cbn [valid_multiplier functional] in *.
    - destruct V as (Lg & Fg & S1 & S2). destruct m' as [g' s'|d' g']; cbn [valid_multiplier] in V'.
      + destruct V' as (Lg' & Fg' & S1' & S2').
        rewrite (Sum_ext_in _ _ (fun c => coefficient low diag size c * (if (g' =? g)%nat then (if (c <? s')%nat then coefficient low diag s' c else 0) else 0))).
        2: { intros c I. apply in_seq in I. rewrite entry_at_glue; (easy || lia). }
        destruct (Nat.eqb_spec g' g) as [->|Ng].
        * destruct size as [|k]; [lia|]. destruct s' as [|k']; [lia|]. rewrite coefficient_orthonormal by lia. destruct (Nat.eqb_spec k k') as [->|]; split; congruence.
        * rewrite Sum_zero by (intros; lra). split; congruence.
      + split; [discriminate|intros _]. apply Sum_zero. intros c I. apply in_seq in I. destruct V' as (Lg' & Fg' & Id'). cbn [S_Equality.entry].
        destruct (Nat.eqb_spec d' (nth c (copies g) O)) as [->|]; [|cbn [andb]; lra]. cbn [andb].
        destruct (Nat.eqb_spec (ix (nth c (copies g) O) g') (ix (nth c (copies g) O) g)) as [E|]; [|lra].
        apply (proj2 HN) in E; auto; [congruence|]. apply nth_In. lia.
    - destruct V as (Lg & Fg & Id). destruct m' as [g' s'|d' g']; cbn [valid_multiplier] in V'; cbn [S_Equality.entry].
      + split; [discriminate|intros _]. destruct V' as (Lg' & Fg' & S1' & S2'). apply Sum_zero. intros c I. apply in_seq in I.
        destruct (Nat.eqb_spec (nth c (copies g') O) d) as [E1|]; [|reflexivity]. cbn [andb]. destruct (Nat.eqb_spec (ix d g') (ix d g)) as [E|]; [|reflexivity].
        apply (proj2 HN) in E; auto; [congruence|]. rewrite <- E1. apply nth_In. lia.
      + destruct V' as (Lg' & Fg' & Id'). destruct (Nat.eqb_spec d' d) as [->|]; cbn [andb]; [|split; congruence].
        destruct (Nat.eqb_spec (ix d g') (ix d g)) as [E|NE]; [|split; congruence]. apply (proj2 HN) in E; auto. subst g'. split; congruence.
  Qed.
  Lemma product_functional u m : valid_multiplier m -> product copies low diag ix len domains u m = functional m (fun d j => nth j (u d) 0).
  Proof. apply (row_apply m (fun d j => nth j (u d) 0)). Qed.
  Lemma constraints_meaning u value :
    (forall m, In m all -> product copies low diag ix len domains u m = rhs 0 value m) <-> continuous N copies fixed ix u /\ prescribed N copies fixed ix value u.
  Proof.
    split.
    - intros H. split.
      + intros g d d' Lg Fg Id Id'. apply (In_nth _ _ O) in Id as (i & Hi & <-). apply (In_nth _ _ O) in Id' as (j & Hj & <-).
        apply (proj1 (glue_meaning (length (copies g)) (fun c => nth (ix (nth c (copies g) O) g) (u (nth c (copies g) O)) 0))); [|easy|easy].
        intros k Hk. assert (V : valid_multiplier (Glue g (S k))) by (cbn; repeat split; (easy || lia)). specialize (H _ (proj2 (multiplier_valid _) V)).
        rewrite product_functional in H by easy. cbn [functional rhs] in H. etransitivity; [symmetry; apply (coefficient_sum k (fun c => nth (ix (nth c (copies g) O) g) (u (nth c (copies g) O)) 0))|exact H].
      + intros g d Lg Fg Id. assert (V : valid_multiplier (Fix d g)) by (cbn; auto). specialize (H _ (proj2 (multiplier_valid _) V)). rewrite product_functional in H by easy. exact H.
    - intros [C P] m I. apply multiplier_valid in I. rewrite product_functional by easy. destruct m as [g size|d g]; cbn [valid_multiplier functional rhs] in *.
      + destruct I as (Lg & Fg & S1 & S2). destruct size as [|k]; [lia|]. rewrite (coefficient_sum k (fun c => nth (ix (nth c (copies g) O) g) (u (nth c (copies g) O)) 0)).
        apply (proj2 (glue_meaning (length (copies g)) (fun c => nth (ix (nth c (copies g) O) g) (u (nth c (copies g) O)) 0))); [|lia].
        intros i j Hi Hj. apply C; auto; now apply nth_In.
      + destruct I as (Lg & Fg & Id). now apply P.
  Qed.
  Lemma b_bt lam m : In m all -> product copies low diag ix len domains (fun d => map (fun j => Sum all (fun m' => entry m' d j * lam m')) (seq 0 (len d))) m = lam m.
  Proof.
    intros I. pose proof (proj1 (multiplier_valid _) I) as V. unfold product.
    rewrite (Sum_ext _ _ (fun d => Sum all (fun m' => Sum (seq 0 (len d)) (fun j => entry m d j * entry m' d j) * lam m'))).
    2: { intros d. rewrite (Sum_ext _ (fun m' => _ * lam m') (fun m' => Sum (seq 0 (len d)) (fun j => entry m d j * entry m' d j * lam m'))) by (intros; now rewrite Sum_scal_r).
         rewrite Sum_swap. apply Sum_ext_in. intros j Ij. apply in_seq in Ij. rewrite map_seq_nth by lia. rewrite <- Sum_scal. apply Sum_ext. intros. lra. }
    rewrite Sum_swap. rewrite (Sum_ext _ _ (fun m' => row_product n first copies low diag ix len m m' * lam m')) by (intros; now rewrite Sum_scal_r).
    rewrite (Sum_single _ m); [|apply multipliers_nodup|easy|].
    - rewrite (proj1 (orthonormal m m V V) eq_refl). lra.
    - intros y Iy Ny. apply multiplier_valid in Iy. rewrite (proj2 (orthonormal m y V Iy)) by congruence. lra.
  Qed.

  (* ---- a rank ---------------------------------------------------------------------- *)
  Section Rank.
    Variables (index : nat -> nat -> nat -> nat) (r : nat).
    Hypothesis Hr : (r < n)%nat.
    Local Notation own := (own_domains first r).
    Hypothesis Hix : forall d g, In d own -> (g < N)%nat -> In d (copies g) -> index r d g = ix d g.
    Lemma entries_entry d m j : In d own -> valid_multiplier m -> entry_sum (entries copies index 1 low diag r d m) j = entry m d j.
    Proof.
      intros Id V. unfold entry_sum. destruct m as [g size|d' g]; cbn [valid_multiplier entries S_Equality.entry] in *.
      - rewrite Sum_map, Sum_filter. apply Sum_ext_in. intros c I. apply in_seq in I. cbn [fst snd]. destruct (Nat.eqb_spec (nth c (copies g) O) d) as [E|]; [|reflexivity]. cbn [andb].
        rewrite Hix; [reflexivity|easy|easy|]. rewrite <- E. apply nth_In. lia.
      - destruct (Nat.eqb_spec d' d) as [->|]; cbn [andb]; [|reflexivity]. rewrite Sum_cons, Sum_nil. cbn [fst snd]. rewrite Hix by easy. destruct (Nat.eqb_spec (ix d g) j); lra.
    Qed.
    Lemma entries_range d m : In d own -> valid_multiplier m -> Forall (fun e => (fst e < len d)%nat) (entries copies index 1 low diag r d m).
    Proof.
      intros Id V. apply Forall_forall. intros e I. destruct m as [g size|d' g]; cbn [valid_multiplier entries] in *.
      - apply in_map_iff in I as (c & <- & I). apply filter_In in I as [I E]. apply in_seq in I. apply Nat.eqb_eq in E. cbn [fst]. assert (Ic : In d (copies g)) by (rewrite <- E; apply nth_In; lia).
        rewrite Hix by easy. now apply (proj1 HN).
      - destruct (Nat.eqb_spec d' d) as [->|]; [|destruct I]. destruct I as [<-|[]]. cbn [fst]. rewrite Hix by easy. now apply (proj1 HN).
    Qed.
    Variables (E : constraints R) (hm : list multiplier).
    Hypothesis Hhm : hm = held_multipliers first copies r all.
    Hypothesis HE : forall d, In d own -> domain_rows E (d - first r) = Ok (rows_of copies index 1 low diag r d hm).
    Lemma hm_valid m : In m hm -> valid_multiplier m.
    Proof. rewrite Hhm. unfold held_multipliers. intros I. apply filter_In in I as [I _]. now apply multiplier_valid. Qed.
    (** B u of some own domains *)
    Lemma applyB_some (u : nat -> list R) ds : (forall d, In d own -> length (u d) = len d) -> incl ds own ->
      foldM (b_domain Rplus Rmult E (map u own)) (map (fun d => (d - first r)%nat) ds) (repeat 0 (length hm)) = Ok (map (product copies low diag ix len ds u) hm).
    Proof.
      intros Hu Hds. replace (repeat 0 (length hm)) with (map (fun _ : multiplier => 0) hm) by (clear; induction hm as [|a l IH]; [reflexivity|]; cbn; now rewrite IH).
      assert (Nu : forall d, In d own -> nth (d - first r) (map u own) [] = u d).
      { intros d I. unfold own_domains in *. apply in_seq in I. rewrite (nth_indep _ [] (u 0%nat)) by (rewrite map_length, seq_length; lia). rewrite map_nth, seq_nth by lia. f_equal. lia. }
      rewrite (b_domains_ok E (map u own) (fun k m => entries copies index 1 low diag r (k + first r) m) hm).
      - f_equal. apply map_ext_in. intros m I. rewrite Rplus_0_l, Sum_map. unfold product. apply Sum_ext_in. intros d Id. apply Hds in Id. assert (Ld : (first r <= d)%nat) by (unfold own_domains in Id; apply in_seq in Id; lia).
        replace (d - first r + first r)%nat with d by lia. rewrite Nu by easy. rewrite <- (entry_sum_dot _ (len d) (fun j => nth j (u d) 0)) by (apply entries_range; [easy|now apply hm_valid]).
        apply Sum_ext_in. intros j _. rewrite entries_entry; [reflexivity|easy|now apply hm_valid].
      - intros k I. apply in_map_iff in I as (d & <- & Id). apply Hds in Id. unfold own_domains in Id. pose proof Id as Id'. apply in_seq in Id'. split; [rewrite map_length; unfold own_domains; rewrite seq_length; lia|].
        rewrite HE by easy. replace (d - first r + first r)%nat with d by lia. reflexivity.
      - intros k m I Im. apply in_map_iff in I as (d & <- & Id). apply Hds in Id. unfold own_domains in Id. pose proof Id as Id'. apply in_seq in Id'. replace (d - first r + first r)%nat with d by lia.
        rewrite Nu, Hu by easy. apply entries_range; [easy|now apply hm_valid].
    Qed.
    (** the transposed product of an own domain *)
    Lemma entry_not_held m d j : In d own -> In m all -> ~ In m hm -> entry m d j = 0.
    Proof.
      intros Id I NI. destruct (touches first r (domains_of copies m)) eqn:T.
      - destruct NI. rewrite Hhm. unfold held_multipliers. now apply filter_In.
      - assert (D : ~ In d (domains_of copies m)).
        { intros X. rewrite <- not_true_iff_false in T. apply T. unfold touches. apply existsb_exists. exists d. split; [easy|]. unfold own_domains in Id. apply in_seq in Id. apply andb_true_iff.
          rewrite Nat.leb_le, Nat.ltb_lt. lia. }
        apply multiplier_valid in I. destruct m as [g size|d' g]; cbn [S_Equality.entry domains_of valid_multiplier] in *.
        + apply Sum_zero. intros c Ic. apply in_seq in Ic. destruct (Nat.eqb_spec (nth c (copies g) O) d) as [E1|]; [|reflexivity]. destruct D. rewrite <- E1.
          rewrite <- (firstn_skipn size (copies g)) at 1. rewrite app_nth1 by (rewrite firstn_length; lia). apply nth_In. rewrite firstn_length. lia.
        + destruct (Nat.eqb_spec d' d) as [->|]; [|reflexivity]. destruct D. now left.
    Qed.
    Lemma applyBt_ok alpha lam d out : In d own -> length out = len d ->
      applyBt 0 Rplus Rmult E (d - first r) alpha (map lam hm) out = Ok (map (fun j => alpha * Sum all (fun m => entry m d j * lam m)) (seq 0 (len d))).
    Proof.
      intros Id Lo. unfold applyBt. rewrite HE by easy. cbn [obind]. unfold rows_of.
      pose proof (bt_rows_ok alpha (entries copies index 1 low diag r d) lam hm [] (repeat 0 (length out))) as B. cbn [length app] in B. rewrite B.
      - rewrite repeat_length, Lo. f_equal. apply map_ext_in. intros j I. apply in_seq in I. rewrite nth_repeat, Rplus_0_l. f_equal.
        assert (Hsplit : Sum all (fun m => entry m d j * lam m) = Sum hm (fun m => entry m d j * lam m)).
        { rewrite Hhm. unfold held_multipliers. rewrite Sum_filter. apply Sum_ext_in. intros m Im. destruct (touches first r (domains_of copies m)) eqn:T; [reflexivity|].
          rewrite entry_not_held; [lra|easy|easy|]. rewrite Hhm. unfold held_multipliers. intros X. apply filter_In in X as [_ X]. congruence. }
        rewrite Hsplit. apply Sum_ext_in. intros m Im. rewrite entries_entry; [reflexivity|easy|now apply hm_valid].
      - intros m Im. rewrite repeat_length, Lo. apply entries_range; [easy|now apply hm_valid].
    Qed.
  End Rank.

  (** all ranks together *)
  Lemma own_cover : flat_map (own_domains first) (seq 0 n) = domains.
  Proof.
    unfold all_domains. assert (G : forall k, (k <= n)%nat -> (first 0 <= first k)%nat /\ flat_map (own_domains first) (seq 0 k) = seq (first 0%nat) (first k - first 0%nat)).
    { induction k as [|k IH]; intros L; [split; [lia|]; now rewrite Nat.sub_diag|]. destruct (IH ltac:(lia)) as [L0 E]. pose proof (mesh_first _ _ _ _ M k ltac:(lia)) as L1. replace (k + 1)%nat with (S k) in L1 by lia.
      split; [lia|]. rewrite seq_S, flat_map_app, E. cbn [flat_map Nat.add]. rewrite app_nil_r. unfold own_domains. replace (k + 1)%nat with (S k) by lia.
      replace (first (S k) - first 0%nat)%nat with ((first k - first 0%nat) + (first (S k) - first k))%nat by lia. rewrite seq_app. do 2 f_equal. lia. }
    apply G. lia.
  Qed.
  Lemma product_all u m : In m all ->
    Sum (filter (fun q => touches first q (domains_of copies m)) (seq 0 n)) (fun q => product copies low diag ix len (own_domains first q) u m) = product copies low diag ix len domains u m.
  Proof.
    intros I. unfold product at 2. rewrite <- own_cover, Sum_flat_map, Sum_filter. apply Sum_ext_in. intros q Iq. apply in_seq in Iq. destruct (touches first q (domains_of copies m)) eqn:T; [reflexivity|].
    symmetry. apply Sum_zero. intros d Id. apply Sum_zero. intros j _. rewrite (entry_not_held q ltac:(lia) (held_multipliers first copies q all) eq_refl m d j Id I); [lra|].
    unfold held_multipliers. intros X. apply filter_In in X as [_ X]. congruence.
  Qed.
End Meaning.
