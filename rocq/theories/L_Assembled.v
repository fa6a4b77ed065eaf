(** Lemmas: constraints and the assembled problem. *)
From Coq Require Import List Arith Bool Permutation Sorted Reals Lia Lra.
From Verif Require Import Base S_Order M_Nb S_Nb S_Comm M_Exchange M_Mpi M_Dual S_Dual P_Dual S_Equality M_Equality L_Equality4 L_Equality6 L_Equality7 P_Equality M_TotalFeti S_Feti L_TotalFeti P_TotalFeti S_Projector S_Reconstruct.
From Verif Require Import M_DualVector M_Mprgp M_SolverInfo S_Mprgp M_Projector M_ProjectorRanks M_Reconstruct M_PcpgRanks S_PcpgRanks M_Assembled S_Assembled.
Import ListNotations.
Local Open Scope R_scope.

Section Rows.
  Variables (n : nat) (first : nat -> nat) (N : nat) (copies : nat -> list nat) (fixed : nat -> bool).
  Hypothesis M : mesh n first N copies.
  Variable glued : list (nat * nat).
  Hypothesis Hg : ordered N copies fixed glued.
  Variables (ix : nat -> nat -> nat) (len : nat -> nat).
  Hypothesis HN : numbered N copies ix len.
  Local Notation all := (multipliers n first N copies fixed glued).
  Local Notation L := (map (domains_of copies) all).
  Local Notation row := (equality_row n first N copies fixed glued ix).
  Local Notation entry := (entry copies low diag ix).
  Local Notation mult i := (nth i all (Fix 0 0)).

  Lemma row_entry m d j : B row m d j = entry (mult m) d j.
  Proof.
    unfold B, equality_row. destruct (mult m) as [g size|d' g]; cbn [entries S_Equality.entry].
    - rewrite Sum_map, Sum_filter. apply Sum_ext. intros c. cbn [fst snd]. now destruct (_ =? d)%nat.
    - destruct (d' =? d)%nat; [|reflexivity]. rewrite Sum_cons, Sum_nil. cbn [fst snd andb]. destruct (_ =? j)%nat; lra.
  Qed.
  Lemma mult_in i : (i < length L)%nat -> In (mult i) all.
  Proof. intros H. apply nth_In. now rewrite map_length in H. Qed.
  Lemma B_of_product u i : B_of n first len row u i = product copies low diag ix len (all_domains n first) (dense len u) (mult i).
  Proof.
    unfold B_of, product. apply Sum_ext. intros d. apply Sum_ext_in. intros j Ij. apply in_seq in Ij. rewrite row_entry. unfold dense. now rewrite map_seq_nth by lia.
  Qed.
  Lemma compatible_meaning value u : compatible n first L len row (fun i => rhs 0 value (mult i)) u <->
    continuous N copies fixed ix (dense len u) /\ prescribed N copies fixed ix value (dense len u).
  Proof.
    rewrite <- (constraints_meaning n first N copies fixed M glued Hg ix len HN (dense len u) value). split.
    - intros H m I. apply (In_nth _ _ (Fix 0 0)) in I as (i & Hi & <-). rewrite <- B_of_product. apply H. now rewrite map_length.
    - intros H i Hi. rewrite B_of_product. now apply H, mult_in.
  Qed.
  Lemma rows_independent : independent n first L len row.
  Proof.
    intros x H m Hm. pose proof (multipliers_nodup n first N copies fixed glued Hg) as ND.
    assert (O : forall i j, (i < length L)%nat -> (j < length L)%nat -> S_Equality.row_product n first copies low diag ix len (mult i) (mult j) = if (j =? i)%nat then 1 else 0).
    { intros i j Hi Hj. destruct (constraints_orthonormal n first N copies fixed M glued Hg ix len HN (mult i) (mult j) (mult_in i Hi) (mult_in j Hj)) as [O1 O2]. destruct (Nat.eqb_spec j i) as [->|Ne]; [now apply O1|].
      apply O2. intros E. apply Ne. rewrite map_length in Hi, Hj. symmetry. now apply (proj1 (NoDup_nth all (Fix 0 0)) ND). }
    transitivity (Sum (seq 0 (length L)) (fun j => S_Equality.row_product n first copies low diag ix len (mult m) (mult j) * x j)).
    - rewrite (Sum_single _ m); [rewrite O, Nat.eqb_refl by easy; lra|apply seq_NoDup|apply in_seq; lia|]. intros j Ij Nj. apply in_seq in Ij. rewrite O by lia. apply Nat.eqb_neq in Nj. rewrite Nj. lra.
    - unfold S_Equality.row_product. rewrite (Sum_ext _ _ (fun j => Sum (all_domains n first) (fun d => Sum (seq 0 (len d)) (fun i => entry (mult m) d i * (entry (mult j) d i * x j))))).
      2: { intros j. rewrite <- Sum_scal_r. apply Sum_ext. intros d. rewrite <- Sum_scal_r. apply Sum_ext. intros i. lra. }
      rewrite Sum_swap. apply Sum_zero. intros d Id. rewrite Sum_swap. apply Sum_zero. intros i Ii. apply in_seq in Ii. rewrite Sum_scal.
      rewrite (Sum_ext _ _ (fun j => B row j d i * x j)) by (intros j; now rewrite row_entry). fold (multiplier_list L). fold (Bt_of L row x d i). rewrite H; [lra|exact Id|lia].
  Qed.

  Lemma glue_balance m g : valid_multiplier N copies fixed m -> (g < N)%nat -> fixed g = false -> Sum (copies g) (fun d => entry m d (ix d g)) = 0.
  Proof.
    intros V Lg Fg. assert (NDc : NoDup (copies g)).
    { pose proof (mesh_copies _ _ _ _ M g Lg) as S. clear - S. induction S as [|a l S IH F]; constructor; [|exact IH]. intros I. rewrite Forall_forall in F. specialize (F a I). lia. }
    destruct m as [g' size|d' g']; cbn [valid_multiplier S_Equality.entry] in *.
    - destruct V as (Lg' & _ & S1 & S2). rewrite Sum_swap. destruct (Nat.eq_dec g' g) as [->|Ne].
      + rewrite (Sum_ext_in _ _ (fun c => coefficient low diag size c * 1)).
        * destruct size as [|k]; [lia|]. rewrite (coefficient_sum k (fun _ => 1)). rewrite Sum_const, seq_length. unfold low, diag. field. pose proof (pos_INR k). lra.
        * intros c Ic. apply in_seq in Ic. rewrite (Sum_single _ (nth c (copies g) O)); [rewrite !Nat.eqb_refl; cbn; lra|exact NDc|apply nth_In; lia|]. intros d _ Nd. destruct (Nat.eqb_spec (nth c (copies g) O) d); [congruence|reflexivity].
      + apply Sum_zero. intros c Ic. apply in_seq in Ic. apply Sum_zero. intros d Id. destruct (Nat.eqb_spec (nth c (copies g') O) d) as [E|]; [|reflexivity]. destruct (Nat.eqb_spec (ix d g') (ix d g)) as [E'|]; [|reflexivity]. destruct Ne.
        apply (proj2 HN d); [easy|easy| |easy|easy]. rewrite <- E. apply nth_In. lia.
    - destruct V as (Lg' & Fg' & Id'). apply Sum_zero. intros d Id. destruct (Nat.eqb_spec d' d) as [->|]; [|reflexivity]. destruct (Nat.eqb_spec (ix d g') (ix d g)) as [E|]; [|reflexivity].
      apply (proj2 HN d) in E; [congruence|easy..].
  Qed.
  Lemma forces_balance lambda g : (g < N)%nat -> fixed g = false -> Sum (copies g) (fun d => Bt_of L row lambda d (ix d g)) = 0.
  Proof.
    intros Lg Fg. unfold Bt_of. rewrite Sum_swap. apply Sum_zero. intros m Im. unfold multiplier_list in Im. apply in_seq in Im. rewrite Sum_scal_r, (Sum_ext _ _ (fun d => entry (mult m) d (ix d g))) by (intros; apply row_entry).
    rewrite glue_balance; [lra|apply (multiplier_valid n first N copies fixed M glued Hg); apply mult_in; lia|easy|easy].
  Qed.

  Variable K : nat -> nat -> nat -> R.
  Lemma equilibrium_balanced f u lambda : equilibrium n first L len row K f u lambda -> balanced N copies fixed ix len K f u.
  Proof.
    intros H g Lg Fg. unfold assembled_load. transitivity (Sum (copies g) (fun d => f d (ix d g) - Bt_of L row lambda d (ix d g))).
    - apply Sum_ext_in. intros d Id. rewrite <- (H d (ix d g)); [unfold K_of; lra| |now apply (proj1 HN)]. unfold everything, all_domains. apply in_seq. pose proof (mesh_domains _ _ _ _ M g d Lg Id). lia.
    - rewrite (Sum_ext _ _ (fun d => f d (ix d g) + (-1) * Bt_of L row lambda d (ix d g))) by (intros; lra). rewrite Sum_plus, Sum_scal, forces_balance by easy. lra.
  Qed.
  Lemma positions_perm d : covered n first N copies ix len -> In d (all_domains n first) ->
    Permutation (seq 0 (len d)) (map (ix d) (filter (fun g => existsb (Nat.eqb d) (copies g)) (seq 0 N))).
  Proof.
    intros HC Id. assert (X : forall g, In g (filter (fun g => existsb (Nat.eqb d) (copies g)) (seq 0 N)) <-> (g < N)%nat /\ In d (copies g)).
    { intros g. rewrite filter_In, in_seq, existsb_exists. split; [intros [A (y & B1 & B2)]; apply Nat.eqb_eq in B2; subst y; split; [lia|easy]|intros [A B1]; split; [lia|exists d; split; [easy|apply Nat.eqb_refl]]]. }
    apply NoDup_Permutation; [apply seq_NoDup| |].
    - assert (G : forall l, NoDup l -> (forall g, In g l -> (g < N)%nat /\ In d (copies g)) -> NoDup (map (ix d) l)).
      { induction 1 as [|g l Ng Nl IH]; intros H; [constructor|]. cbn [map]. constructor; [|apply IH; intros; apply H; now right]. intros I. apply in_map_iff in I as (g' & E & I).
        destruct (H g (or_introl eq_refl)) as [G1 G2], (H g' (or_intror I)) as [G3 G4]. apply (proj2 HN d) in E; [congruence|easy..]. }
      apply G; [apply NoDup_filter, seq_NoDup|]. intros g. apply X.
    - intros j. rewrite in_seq, in_map_iff. split.
      + intros Hj. destruct (HC d j Id ltac:(lia)) as (g & G1 & G2 & G3). exists g. split; [exact G3|now apply X].
      + intros (g & <- & G). apply X in G as [G1 G2]. pose proof (proj1 HN d g G1 G2). lia.
  Qed.
  Lemma assembled_solution f value u : covered n first N copies ix len -> balanced N copies fixed ix len K f u ->
    continuous N copies fixed ix (dense len u) /\ prescribed N copies fixed ix value (dense len u) ->
    exists U, restricts N copies ix U u /\ solves_assembled N copies fixed ix K f value U.
  Proof.
    intros HC HB [H1 H2]. assert (D : forall d g, (g < N)%nat -> In d (copies g) -> nth (ix d g) (dense len u d) 0 = u d (ix d g)) by (intros d g A1 A2; unfold dense; now rewrite map_seq_nth by (now apply (proj1 HN))).
    exists (fun g => if fixed g then value g else match copies g with [] => 0 | d :: _ => u d (ix d g) end).
    assert (RU : restricts N copies ix (fun g => if fixed g then value g else match copies g with [] => 0 | d :: _ => u d (ix d g) end) u).
    { intros d g Lg Id. cbv beta. rewrite <- D by easy. destruct (fixed g) eqn:Fg; [now apply H2|]. destruct (copies g) as [|d0 ds] eqn:Cg; [destruct Id|]. rewrite (H1 g d d0 Lg Fg); [apply D; [easy|rewrite Cg; now left]|now rewrite Cg|rewrite Cg; now left]. }
    split; [exact RU|]. set (U := fun g => _) in *. split; [|intros g _ Fg; unfold U; now rewrite Fg].
    intros g Lg Fg. rewrite <- (HB g Lg Fg). unfold assembled_matrix.
    rewrite (Sum_ext _ _ (fun g' => Sum (copies g) (fun d => (if existsb (Nat.eqb d) (copies g') then K d (ix d g) (ix d g') else 0) * U g'))) by (intros; now rewrite Sum_scal_r).
    rewrite Sum_swap. apply Sum_ext_in. intros d Id. assert (Ia : In d (all_domains n first)) by (unfold all_domains; apply in_seq; pose proof (mesh_domains _ _ _ _ M g d Lg Id); lia).
    rewrite (Sum_perm _ _ _ (positions_perm d HC Ia)), Sum_map, Sum_filter. apply Sum_ext_in. intros g' Ig. apply in_seq in Ig. destruct (existsb (Nat.eqb d) (copies g')) eqn:X; [|lra].
    apply existsb_exists in X as (y & B1 & B2). apply Nat.eqb_eq in B2. subst y. rewrite (RU d g') by (easy || lia). reflexivity.
  Qed.
End Rows.

(** only the ranks up to [n] matter *)
Section Ext.
  Variable K : scalar.
  Local Notation T := (num K).
  Local Notation vecs := (nat -> list T).
  Variables (isnan : T -> bool) (infinity : T) (quotient : T -> T -> outcome T) (C : config K).
  Variables (n limit : nat) (type : ggt_type) (p : nat -> projector T).
  Section Mono.
    Variables (conjugate : bool) (runF runF' runS : vecs -> vecs -> Prop) (arrFx arrL arrW arrY : vecs).
    Hypothesis HF : forall x y, runF x y -> runF' x y.
    Lemma project_mono x y res : run_project K n limit type p conjugate runF x y res -> run_project K n limit type p conjugate runF' x y res.
    Proof. intros (Fx & A1 & A2). exists Fx. split; [|exact A2]. destruct conjugate; auto. Qed.
    Lemma projectT_mono x y res : run_projectT K n limit type p conjugate runF arrFx x y res -> run_projectT K n limit type p conjugate runF' arrFx x y res.
    Proof. unfold run_projectT. destruct conjugate; [|auto]. unfold run_applyT. intros H. decompose [ex and] H. repeat (eexists; eauto). Qed.
    Lemma loop_mono k : forall s t, run_loop K isnan infinity quotient C n limit type p conjugate runF runS arrFx k s t -> run_loop K isnan infinity quotient C n limit type p conjugate runF' runS arrFx k s t.
    Proof.
      induction k as [|k IH]; intros s t; cbn [run_loop]; destruct (converged K (pstatus K s)); auto. intros (t0 & A1 & A2). exists t0. split; [|now apply IH].
      destruct A1 as (Fp & z & y & pFp & gamma & beta & A1 & B1 & B2 & B3 & B4 & B5 & B6 & B7 & B8). exists Fp, z, y, pFp, gamma, beta. repeat (split; try assumption); auto using projectT_mono, project_mono; apply B8.
    Qed.
    Lemma pcpg_mono k d e s : run_pcpg K isnan infinity quotient C n limit type p conjugate runF runS arrFx arrL arrW arrY k d e s -> run_pcpg K isnan infinity quotient C n limit type p conjugate runF' runS arrFx arrL arrW arrY k d e s.
    Proof.
      intros (s0 & (l & Fl & z & y & A1 & A2 & A3 & A4 & A5 & A6 & A7) & B1). exists s0. split; [|now apply loop_mono]. exists l, Fl, z, y. repeat (split; try assumption); auto using projectT_mono, project_mono; apply A7.
    Qed.
  End Mono.
  Variables (F F' : nat -> feti T) (solve : nat -> nat -> list T -> list T) (runS : vecs -> vecs -> Prop) (arrFx arrL arrW arrY arrE : vecs) (arrRa : nat -> list (list T)).
  Hypothesis HF : forall r, (r < n)%nat -> F r = F' r.
  Lemma solve_ext k f c c' s u btl : (forall r, (r < n)%nat -> c r = c' r) ->
    run_solve K isnan infinity quotient C n limit type p F solve runS arrFx arrL arrW arrY arrE arrRa k f c s u btl -> run_solve K isnan infinity quotient C n limit type p F' solve runS arrFx arrL arrW arrY arrE arrRa k f c' s u btl.
  Proof.
    intros Hc (d & e & (y & z & A1 & A2 & A3) & A4 & A5 & (ik & ra & B1 & B2 & B3 & B4)). exists d, e. split; [|split; [exact A4|split]].
    - exists y, z. split; [|split; [exact A2|]]; intros r Hr; [rewrite <- HF by exact Hr; now apply A1|rewrite <- Hc by exact Hr; now apply A3].
    - revert A5. apply pcpg_mono. intros v w (y0 & D1 & D2). exists y0. split; [|exact D2]. intros r Hr. rewrite <- HF by exact Hr. now apply D1.
    - exists ik, ra. split; [|split; [|split; [exact B3|exact B4]]]; intros r Hr; [rewrite <- HF by exact Hr; now apply B1|]. specialize (B2 r Hr). unfold BtL in *. rewrite <- HF by exact Hr. exact B2.
  Qed.
End Ext.
