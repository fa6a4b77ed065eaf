(** * Properties of the update of the projector: C100 *)
From Coq Require Import List Arith ZArith Lia Bool Reals Lra.
From Verif Require Import Base S_Order S_Mpi M_Mpi M_Comm M_Nb S_Nb M_Exchange M_Distribute M_Scan S_Scan M_Dual S_Dual L_Dual2 L_Dual4 P_Dual M_DualGraph S_DualGraph P_DualGraph S_Equality L_Equality6 M_TotalFeti S_Feti
  P_TotalFeti M_Projector S_Projector L_Projector2 L_Projector3 M_ProjectorRanks S_ProjectorRanks P_Projector M_ProjectorG S_ProjectorG L_ProjectorG L_ProjectorG2 L_ProjectorG3 P_ProjectorG M_ProjectorGGt S_ProjectorGGt
  L_ProjectorGGt P_ProjectorGGt S_ProjectorInverse P_ProjectorInverse M_ProjectorUpdate S_ProjectorUpdate L_ProjectorUpdate.
Import ListNotations.
Local Open Scope nat_scope.

Section Update.
  Variables (n limit chunk nthreads : nat) (first : nat -> nat) (nb : nat -> list nat) (sort : list nat -> list nat).
  Variables (u1 u2 u3 : Z) (allocG allocGGt : nat -> nat -> nat -> list nat * list nat * list R) (fresh : nat -> nat -> list R).
  Variables (solve forward backward : list nat -> list nat -> list R -> list R -> list R).
  Hypothesis Hn : 0 < n.
  Hypothesis Hc : 0 < chunk.
  Hypothesis Ht : 0 < nthreads.
  Hypothesis HS : sort_contract Nat.ltb sort.
  Hypothesis Hlimit : forall r, r < n -> 3 * (first (r + 1) - first r) <= limit.
  Hypothesis HaG : forall r nr nz, let '(rows, cols, vals) := allocG r nr nz in length rows = nr + 1 /\ length cols = nz /\ length vals = nz.
  Hypothesis HaGGt : forall r nr nz, let '(rows, cols, vals) := allocGGt r nr nz in length rows = nr + 1 /\ length cols = nz /\ length vals = nz.
  Hypothesis Hf : forall r k, length (fresh r k) = k.
  Local Notation D := (decomposed first nb).
  Local Notation posed := (posed n limit first nb u1 u2 solve forward backward).
  Local Notation input_of := (input_of first).
  Local Notation patterned := (patterned n nthreads first nb).
  Local Notation assembled := (assembled n first).
  Local Notation step := (fun updated q => run_update 0%R 1%R Rplus Rminus Rmult Ropp sort n limit chunk nthreads D u1 u2 u3 allocG allocGGt fresh solve forward backward updated (input_of q)).
  Local Notation kernels_of q := (kernel_list n first (p_ksize q)).

  Definition good (q : problem) (s : nat -> pstate R) : Prop :=
    patterned (p_L q) (p_ksize q) s /\ exists J, inverts n first (p_L q) (p_len q) (p_row q) (p_ksize q) (p_Rk q) J /\ assembled q J s.

  Lemma good_projects q s : posed q -> good q s -> (forall r, r < n -> s_e (s r) = kernel_vector (p_ksize q) (everything n first) (e_of (p_len q) (p_Rk q) (p_f q))) -> projects n first nb nthreads q s.
  Proof.
    intros HQ ((g & oG & oM & H) & J & HJ & HA) HE. destruct HQ as [HC HN HB HI HK HZ HU HL HSol]. set (type := match J with Whole _ => GGT | Factors _ _ => LU | Nothing => NONE end).
    assert (TY : forall r, r < n -> s_type (s r) = type).
    { intros r Hr. destruct (HA r Hr) as (_ & I). unfold type. destruct J; cbn [rows_of_inverse] in I; [| |destruct I as (I & _)]; injection I; auto. }
    exists J, type. split; auto. intros r Hr. split; [now apply TY|]. split; [now apply HE|]. intros sz itv sizes dm send recv mid E1 E2 E3 E4 E5.
    destruct (H r Hr) as (H1 & H2 & H3 & H4 & H5 & H6 & H7 & H8 & H9 & H10 & H11 & H12 & H13 & H14 & H15). destruct (HA r Hr) as (A1 & A2).
    constructor; cbn [projector_of threads dist koffset ksize_local ktotal mG invGGt invL invU mR1 arrGx arrIGGtGx arrMid deco dmap sendBuffer recvBuffer input_of in_R1 S_ProjectorUpdate.input_of]; unfold kernels; rewrite ?kernel_vector_length; auto.
    - rewrite H5, first_kernel_length. unfold kernels_before. now rewrite kernel_vector_length.
    - rewrite A1. apply (stored_G_ok n first (p_L q) nb (p_cmap q) (p_ksize q) (p_len q) (p_row q) (p_Rk q) HC r Hr (g r) (s_vs (s r)) H1).
    - unfold inverse_stored, type. destruct J as [A|Lo Up|]; cbn [rows_of_inverse projector_of invGGt invL invU] in A2 |- *; [| |destruct A2 as (A2 & A3); auto]; injection A2 as A2 _; rewrite A2; auto.
    - rewrite E5. unfold kernels. now rewrite kernel_vector_length.
  Qed.

  Lemma update_runs q s s1 type : posed q -> (if any_reset n s (input_of q) then run_reset sort n limit chunk nthreads D u1 u2 u3 allocG allocGGt fresh (input_of q) s s1 else forall r, r < n -> s1 r = s r) ->
    patterned (p_L q) (p_ksize q) s1 -> (kernels_of q <> [] -> type = GGT \/ type = LU) -> (forall r, r < n -> s_type (s1 r) = type) ->
    exists s', step true q s s' /\ projects n first nb nthreads q s' /\ good q s'.
  Proof.
    intros HQ HR HP HT Hty. pose proof (po_maps _ _ _ _ _ _ _ _ _ _ HQ) as HC.
    destruct (rhs_runs n limit chunk nthreads first nb u1 u2 solve forward backward Hn Hc Ht q s1 HQ HP) as (s2 & R1 & R2).
    assert (P2 : patterned (p_L q) (p_ksize q) s2). { apply (patterned_e n nthreads first nb (p_L q) (p_ksize q) s1 s2 (fun _ => kernel_vector (p_ksize q) (everything n first) (e_of (p_len q) (p_Rk q) (p_f q)))); auto. intros; apply kernel_vector_length. }
    destruct (matrices_run n limit chunk nthreads first nb u1 u2 solve forward backward Hn Hc Ht q s2 type HQ P2 HT) as (s3 & J & M1 & M2 & M3 & M4 & M5).
    { intros r Hr. rewrite R2 by auto. cbn [with_e s_type]. auto. }
    assert (G : good q s3) by (split; eauto). exists s3. split; [|split; auto].
    - exists s1, s2. auto.
    - apply good_projects; auto. intros r Hr. rewrite M5, R2 by auto. reflexivity.
  Qed.
  Lemma good_type q s : good q s -> exists type, (kernels_of q <> [] -> type = GGT \/ type = LU) /\ forall r, r < n -> s_type (s r) = type.
  Proof.
    intros (_ & J & _ & HA). exists (match J with Whole _ => GGT | Factors _ _ => LU | Nothing => NONE end). split.
    - intros NK. destruct (HA 0 Hn) as (_ & I). destruct J; auto. destruct I as (_ & I). exfalso. apply NK. unfold kernel_list. clear NK HA. revert I. generalize (everything n first). induction l as [|d l IH]; intros I; auto. cbn [flat_map]. rewrite (I d) by now left. apply IH. intros x Hx. apply I. now right.
    - intros r Hr. destruct (HA r Hr) as (_ & I). destruct J; cbn [rows_of_inverse] in I; [| |destruct I as (I & _)]; injection I; auto.
  Qed.
  Lemma next_update p updated q s : posed q -> good p s -> follows n first p updated q -> exists s', step updated q s s' /\ projects n first nb nthreads q s' /\ good q s'.
  Proof.
    intros HQ HG (HF & HK). pose proof HG as (HP & J & HJ & HA). destruct (good_type p s HG) as (type & T1 & T2).
    assert (T3 : kernels_of q <> [] -> type = GGT \/ type = LU) by (intros N; apply T1; intros E; apply N, HK, E).
    destruct updated.
    - destruct HF as [(E1 & E2)|HR].
      + apply (update_runs q s s type); auto; [|now rewrite <- E1, <- E2]. rewrite (any_same n chunk nthreads first nb Hn Hc Ht p q s HP E1 E2). auto.
      + destruct (reset_runs n limit chunk nthreads first nb sort u1 u2 u3 allocG allocGGt fresh solve forward backward Hn Hc Ht HS Hlimit HaG HaGGt Hf q s HQ) as (s1 & R1 & R2 & R3).
        { intros r Hr. destruct HP as (g & oG & oM & H). destruct (H r Hr) as (_ & _ & _ & _ & _ & _ & _ & (D1 & D2 & _) & _). split; auto. intros E. rewrite E in D1. cbn in D1. lia. }
        apply (update_runs q s s1 type); auto; [|intros r Hr; rewrite R3 by auto; apply T2, Hr]. rewrite (any_resized n chunk nthreads first nb Hn Hc Ht p q s HP HR). exact R1.
    - destruct HF as (E1 & E2 & E3 & E4 & E5).
      assert (HP' : patterned (p_L q) (p_ksize q) s) by (rewrite <- E1, <- E2; auto).
      destruct (rhs_runs n limit chunk nthreads first nb u1 u2 solve forward backward Hn Hc Ht q s HQ HP') as (s2 & R1 & R2).
      assert (G : good q s2).
      { split; [apply (patterned_e n nthreads first nb (p_L q) (p_ksize q) s s2 (fun _ => kernel_vector (p_ksize q) (everything n first) (e_of (p_len q) (p_Rk q) (p_f q)))); auto; intros; apply kernel_vector_length|].
        exists J. rewrite <- E1, <- E2, <- E3, <- E4, <- E5. split; auto. intros r Hr. rewrite R2 by auto. cbn [with_e s_G s_inv s_type]. rewrite <- E1, <- E2, <- E3, <- E4, <- E5. apply HA, Hr. }
      exists s2. split; [|split; auto].
      + exists s, s2. rewrite (any_same n chunk nthreads first nb Hn Hc Ht p q s HP E1 E2). auto.
      + apply good_projects; auto. intros r Hr. rewrite R2 by auto. reflexivity.
  Qed.

  (** C100: a new projector and any sequence of updates: the first one with any system, the next ones with another right side, with other kernels
      and entries of the multipliers, or with another number of multipliers or kernels.  After each of them the ranks keep the projector of the
      system at that time (the theorems of C94 are about such a projector) and e = - R f.  [u1], [u2]: the undefined buffers of MPI_Exscan on rank 0 *)
  Theorem projector_updates_exact type s p qs : first 0 < first n -> type = GGT \/ type = LU ->
    (forall r, r < n -> s_sizes (s r) = [] /\ s_dist (s r) = [0; 0] /\ s_type (s r) = type) ->
    posed p -> Forall (fun q => posed (snd q)) qs -> follow n first p qs ->
    all_project n first nb step nthreads s ((true, p) :: qs).
  Proof.
    intros HD HT H0 HP HQ HF. cbn [all_project].
    assert (X : forall qs p s, good p s -> Forall (fun q => posed (snd q)) qs -> follow n first p qs -> all_project n first nb step nthreads s qs).
    { clear -Hn Hc Ht HS Hlimit HaG HaGGt Hf. induction qs as [|(u, q) qs IH]; intros p s G P F; cbn [all_project]; auto. inversion P as [|? ? P1 P2]; subst. cbn [follow] in F. destruct F as (F1 & F2).
      destruct (next_update p u q s P1 G F1) as (s' & S1 & S2 & S3). exists s'. split; auto. split; auto. apply (IH q); auto. }
    destruct (reset_runs n limit chunk nthreads first nb sort u1 u2 u3 allocG allocGGt fresh solve forward backward Hn Hc Ht HS Hlimit HaG HaGGt Hf p s HP) as (s1 & R1 & R2 & R3).
    { intros r Hr. destruct (H0 r Hr) as (_ & -> & _). split; [discriminate|reflexivity]. }
    destruct (update_runs p s s1 type) as (s' & S1 & S2 & S3); auto.
    { assert (A : any_reset n s (input_of p) = true); [|now rewrite A]. apply (any_true n chunk nthreads Hn Hc Ht).
      assert (EX : exists r, r < n /\ first r < first (r + 1)).
      { clear -HD. induction n as [|m IH]; [lia|]. destruct (Nat.lt_ge_cases (first m) (first (S m))); [exists m; rewrite Nat.add_1_r; auto|]. destruct IH as (r & Hr & ?); [lia|]. exists r. auto. }
      destruct EX as (r & Hr & Hd). exists r. split; auto. destruct (H0 r Hr) as (E & _). unfold needs_reset. rewrite E. cbn [in_R1 S_ProjectorUpdate.input_of length]. rewrite R_length. unfold own, own_domains. rewrite seq_length. destruct (first (r + 1) - first r) eqn:E2; [lia|]. reflexivity. }
    { intros r Hr. rewrite R3 by auto. apply H0, Hr. }
    exists s'. split; auto. split; auto. apply (X qs p); auto.
  Qed.
End Update.

(** ** The case of P_ProjectorInverse: the first system, then the kernels change their sign, then another right side, then only domain 4 has a kernel *)
Local Open Scope R_scope.
Definition pu_problem (ksize : nat -> nat) (k f : R) : problem := {| p_L := ex_L; p_cmap := ex_cmap; p_ksize := ksize; p_len := pj_len; p_row := pj_row; p_Rk := fun _ _ _ => k; p_f := fun _ _ => f |}.
Definition pu_one (d : nat) : nat := if (d =? 4)%nat then 1 else 0.
Definition pu_updates : list (bool * problem) := [(true, pu_problem pj_ksize (-1) 0); (false, pu_problem pj_ksize (-1) 5); (true, pu_problem pu_one 1 3)].
Definition pu_solve (rows cols : list nat) (vals b : list R) : list R := if (length rows =? 2)%nat then [nth 0 b 0 / 2] else two (2 / 7) (1 / 7) (1 / 7) (4 / 7) b.
Definition pu_factor : nat -> nat -> R := fun _ _ => 1 / sqrt 2.
Definition pu_forward (rows cols : list nat) (vals b : list R) : list R := if (length rows =? 2)%nat then mat_vec 1 pu_factor b else mat_vec 2 pj_F b.
Definition pu_backward (rows cols : list nat) (vals b : list R) : list R := if (length rows =? 2)%nat then mat_vec 1 (transpose pu_factor) b else mat_vec 2 (transpose pj_F) b.
Definition pu_alloc (r nr nz : nat) : list nat * list nat * list R := (repeat 7%nat (nr + 1), repeat r nz, repeat 5 nz).
Definition pu_new (type : ggt_type) (r : nat) : pstate R :=
  {| s_sizes := []; s_lambdas := 0; s_roffset := 0; s_rsize := 0; s_total := 0; s_dist := [0; 0]%nat; s_vs := []; s_es := []; s_G := stored_G 0 ex_first [] pj_ksize 0 []; s_GGt := pj_ggt 0; s_inv := INothing; s_type := type;
     s_Gx := []; s_iGGtGx := []; s_e := [] |}.
Local Notation pu_A k := (GGt_of 3 ex_first ex_L pj_len pj_row pj_ksize (fun _ _ _ => k)).
Lemma pu_same i j : (i < 2)%nat -> (j < 2)%nat -> pu_A (-1) i j = pu_A 1 i j.
Proof. intros Hi Hj. cases_lt i Hi; cases_lt j Hj; unfold GGt_of, on_kernels, GGt, S_Projector.G, B, multiplier_list, Sum, pj_row, pj_len; cbn; lra. Qed.
Lemma pu_mat k x : k = 1 \/ k = -1 -> mat_vec 2 (pu_A k) x = mat_vec 2 (pu_A 1) x.
Proof. intros [-> | ->]; auto. unfold mat_vec. apply map_ext_in. intros i Hi. apply in_seq in Hi. apply Sum_ext_in. intros j Hj. apply in_seq in Hj. rewrite pu_same by lia. reflexivity. Qed.
Lemma pu_posed k f : k = 1 \/ k = -1 -> posed 3 20 ex_first ex_nbs 77 78 pu_solve pu_forward pu_backward (pu_problem pj_ksize k f).
Proof.
  intros Hk. split; cbn [pu_problem p_L p_cmap p_ksize p_len p_row p_Rk p_f].
  - exact ex_consistent.
  - exact ex_nodup.
  - exact pj_entries.
  - intros w H d i Id Hi. assert (Dd : (d = 2 \/ d = 4)%nat /\ i = 0%nat). { change (everything 3 ex_first) with [0; 1; 2; 3; 4]%nat in Id. repeat (destruct Id as [<-|Id]; [cbn in Hi; lia|]). destruct Id. }
    pose proof (H 1%nat ltac:(cbn; lia)) as E1. pose proof (H 4%nat ltac:(cbn; lia)) as E2. unfold Gt_of, S_Projector.G, B, Sum, pj_row, pj_len in E1, E2. cbn in E1, E2. destruct Hk as [-> | ->]; destruct Dd as ([-> | ->] & ->); lra.
  - cbn. lia.
  - vm_compute. reflexivity.
  - intros _. cbn. lia.
  - intros r H. cases_lt r H; cbn; lia.
  - cbv zeta. intros rows cols vals U. destruct (uc_rows _ _ _ _ _ U) as (LR & _). change (length (kernel_list 3 ex_first pj_ksize)) with 2%nat in *. unfold pu_solve, pu_forward, pu_backward. rewrite LR. cbn [Nat.add Nat.eqb].
    destruct pj_solves as (S1 & S2). assert (Y : symmetric 2 (pu_A 1) /\ positive 2 (pu_A 1)). { split; [apply (L_ProjectorInverse.A_symmetric 3 ex_first ex_L pj_ksize)|apply (L_ProjectorInverse.A_positive 3 ex_first ex_L pj_ksize pj_len pj_row pj_R pj_independent)]. }
    destruct Y as (Y1 & Y2). split; intros _ _.
    + intros b Hb. rewrite (pu_mat k) by auto. exact (S1 Y1 Y2 b Hb).
    + destruct (S2 Y1 Y2) as (F & HF). exists F. intros b Hb. rewrite (pu_mat k) by auto. exact (HF b Hb).
Qed.
Lemma pu_posed_one f : posed 3 20 ex_first ex_nbs 77 78 pu_solve pu_forward pu_backward (pu_problem pu_one 1 f).
Proof.
  assert (A0 : GGt_of 3 ex_first ex_L pj_len pj_row pu_one (fun _ _ _ => 1) 0 0 = 2) by (unfold GGt_of, on_kernels, GGt, S_Projector.G, B, multiplier_list, Sum, pj_row, pj_len; cbn; lra).
  split; cbn [pu_problem p_L p_cmap p_ksize p_len p_row p_Rk p_f].
  - exact ex_consistent.
  - exact ex_nodup.
  - exact pj_entries.
  - intros w H d i Id Hi. assert (Dd : d = 4%nat /\ i = 0%nat). { change (everything 3 ex_first) with [0; 1; 2; 3; 4]%nat in Id. repeat (destruct Id as [<-|Id]; [cbn in Hi; lia|]). destruct Id. }
    pose proof (H 4%nat ltac:(cbn; lia)) as E2. unfold Gt_of, S_Projector.G, B, Sum, pj_row, pj_len in E2. cbn in E2. destruct Dd as (-> & ->); lra.
  - cbn. lia.
  - vm_compute. reflexivity.
  - intros _. cbn. lia.
  - intros r H. cases_lt r H; cbn; lia.
  - cbv zeta. intros rows cols vals U. destruct (uc_rows _ _ _ _ _ U) as (LR & _). change (length (kernel_list 3 ex_first pu_one)) with 1%nat in *. unfold pu_solve, pu_forward, pu_backward. rewrite LR. cbn [Nat.add Nat.eqb].
    assert (L1 : forall b : list R, length b = 1%nat -> b = [nth 0 b 0]) by (intros [|x [|y b]]; try discriminate; reflexivity).
    split; intros _ _.
    + intros b Hb. split; [reflexivity|]. transitivity [nth 0 b 0]; [|symmetry; auto]. unfold mat_vec, Sum. cbn [seq map fold_right nth]. rewrite A0. f_equal. lra.
    + exists pu_factor. intros b Hb. split; [reflexivity|]. split; [reflexivity|]. transitivity [nth 0 b 0]; [|symmetry; auto]. unfold mat_vec, Sum, transpose, pu_factor. cbn [seq map fold_right nth]. rewrite A0. f_equal.
      pose proof (sqrt_sqrt 2 ltac:(lra)) as S2. pose proof (sqrt_lt_R0 2 ltac:(lra)) as P2. transitivity (2 / (sqrt 2 * sqrt 2) * nth 0 b 0); [field; lra|rewrite S2; lra].
Qed.
Example projector_updates_ex type : type = GGT \/ type = LU ->
  all_project 3 ex_first ex_nbs (fun updated q => run_update 0 1 Rplus Rminus Rmult Ropp isort 3 20 8 2 (decomposed ex_first ex_nbs) 77 78 79 pu_alloc pu_alloc (fun r k => repeat 9 k) pu_solve pu_forward pu_backward updated (input_of ex_first q)) 2
    (pu_new type) ((true, pu_problem pj_ksize 1 0) :: pu_updates).
Proof.
  intros HT. assert (AL : forall r nr nz, let '(rows, cols, vals) := pu_alloc r nr nz in (length rows = nr + 1 /\ length cols = nz /\ length vals = nz)%nat) by (intros; cbn; rewrite !repeat_length; auto).
  apply (projector_updates_exact 3 20 8 2 ex_first ex_nbs isort 77 78 79 pu_alloc pu_alloc (fun r k => repeat 9 k) pu_solve pu_forward pu_backward ltac:(lia) ltac:(lia) ltac:(lia)) with (type := type); auto.
  - exact isort_contract.
  - intros r H. cases_lt r H; cbn; lia.
  - intros r k. apply repeat_length.
  - cbn. lia.
  - apply pu_posed. auto.
  - constructor; [apply pu_posed; auto|constructor; [apply pu_posed; auto|constructor; [apply pu_posed_one|constructor]]].
  - cbn [follow pu_updates]. split; [split; [left; auto|auto]|]. split; [split; [cbn; auto|auto]|]. split; [|exact I]. split; [|cbn; discriminate]. right. exists 1%nat. split; [lia|]. right. exists 2%nat. split; [cbn; auto|cbn; lia].
Qed.

(** ** Finding: the pattern is kept when only the domains of the multipliers change *)
Section One.
  Context {M A : Type}.
  Local Ltac stuck := let s' := fresh in let S := fresh in intros s' [S|S]; inversion S; subst; match goal with H : nth_error _ ?v = Some _ |- _ => destruct v as [|[|v]]; discriminate H end.
  Lemma crash_alone (x : A) : ~ ncompletes 1 [@NCrash M A] [x].
  Proof. intros (_ & _ & H). specialize (H _ (nsteps_refl _ _ _ _)). assert (E : nstart 1 [@NCrash M A] = nstart 1 (map NRet [x])); [|discriminate E]. apply H. stuck. Qed.
  Lemma wait_alone (p : nprog M A) (y : A) : (exists x, p = NRet x) \/ p = NCrash -> ncompletes 1 [@WaitSent M A p] [y] -> p = NRet y.
  Proof.
    intros HP (_ & _ & H). assert (E : nstart 1 [p] = nstart 1 (map (@NRet M A) [y])); [|injection E; auto]. apply H.
    - eapply nsteps_next; [right; apply (StepBuffered _ _ 1 0 p); [lia|reflexivity]|]. apply nsteps_refl.
    - destruct HP as [(x & ->)| ->]; stuck.
  Qed.
End One.
Lemma update_G_alone limit D ro vs M B1 R1 M' : neighbors D = [] -> ncompletes 1 [update_G 0 Rminus Rmult limit D ro vs M B1 R1] [M'] -> exists vals, M' = with_vals M vals.
Proof.
  intros ND H. unfold update_G in H. rewrite ND in H. destruct (update_own _ _ _ D vs M B1 R1) as [v| |]; try (now apply crash_alone in H). destruct (send_G D ro vs (g_rows M) v) as [sb| |]; try (now apply crash_alone in H).
  destruct sb as [|b sb]; [|now apply crash_alone in H]. cbn in H. unfold nfin in H. cbn in H.
  destruct (receive_G M v []) as [vals| |]; cbn in H; apply wait_alone in H; eauto; try discriminate. injection H as <-. eauto.
Qed.
Definition sp_first (r : nat) : nat := if (r =? 0)%nat then 0 else 3.
Definition sp_ksize (d : nat) : nat := if (d =? 1)%nat then 1 else 0.
Definition sp_problem (a b : nat) : problem :=
  {| p_L := [[0; a]; [0; b]]%nat; p_cmap := fun _ => [1; 2; 0; a; 1; 2; 0; b]%nat; p_ksize := sp_ksize; p_len := fun _ => 1%nat;
     p_row := fun m d => if existsb (Nat.eqb d) (domains [[0; a]; [0; b]]%nat m) then [(0%nat, if (d =? 0)%nat then 1 else -1)] else []; p_Rk := fun _ _ _ => 1; p_f := fun _ _ => 0 |}.

Definition sp_solve (rows cols : list nat) (vals b : list R) : list R := b.
Local Notation sp_posed := (posed 1 20 sp_first (fun _ => []) 0 0 sp_solve sp_solve sp_solve).
Lemma sp_ok a b : (a = 1 /\ b = 2 \/ a = 2 /\ b = 1)%nat -> sp_posed (sp_problem a b).
Proof.
  intros Hab. assert (A0 : GGt_of 1 sp_first (p_L (sp_problem a b)) (p_len (sp_problem a b)) (p_row (sp_problem a b)) sp_ksize (p_Rk (sp_problem a b)) 0 0 = 1).
  { destruct Hab as [(-> & ->)|(-> & ->)]; unfold GGt_of, on_kernels, GGt, S_Projector.G, B, multiplier_list, Sum; cbn; lra. }
  split; cbn [sp_problem p_L p_cmap p_ksize p_len p_row p_Rk p_f].
  - destruct Hab as [(-> & ->)|(-> & ->)].
    + split; [split|split| | |].
      * intros r H. cases_lt r H; cbn; lia.
      * intros m i j Hm. cbn in Hm. cases_lt m Hm; cbn; intros H; cases_lt i H; cases_lt j H; cbn; lia.
      * intros m d Hm. cbn in Hm. cases_lt m Hm; cbn; lia.
      * intros m Hm. cbn in Hm. cases_lt m Hm; cbn; discriminate.
      * intros r j k Hr. cbn. lia.
      * intros r q Hr. cbn. tauto.
      * intros r q Hr. cbn. tauto.
      * intros r Hr. cbn. tauto.
      * intros r q m Hr Hq. lia.
      * intros r Hr. cases_lt r Hr. exists [(1, [0; 1]); (1, [0; 2])]%nat. split; [reflexivity|split; [reflexivity|repeat constructor]].
    + split; [split|split| | |].
      * intros r H. cases_lt r H; cbn; lia.
      * intros m i j Hm. cbn in Hm. cases_lt m Hm; cbn; intros H; cases_lt i H; cases_lt j H; cbn; lia.
      * intros m d Hm. cbn in Hm. cases_lt m Hm; cbn; lia.
      * intros m Hm. cbn in Hm. cases_lt m Hm; cbn; discriminate.
      * intros r j k Hr. cbn. lia.
      * intros r q Hr. cbn. tauto.
      * intros r q Hr. cbn. tauto.
      * intros r Hr. cbn. tauto.
      * intros r q m Hr Hq. lia.
      * intros r Hr. cases_lt r Hr. exists [(1, [0; 2]); (1, [0; 1])]%nat. split; [reflexivity|split; [reflexivity|repeat constructor]].
  - intros m Hm. cbn in Hm. destruct Hab as [(-> & ->)|(-> & ->)]; cases_lt m Hm; cbn; repeat constructor; cbn; lia.
  - intros m d Hm. destruct (existsb (Nat.eqb d) (domains [[0; a]; [0; b]]%nat m)) eqn:E.
    + split; [intros e [<-|[]]; cbn; lia|]. intros N. destruct N. apply existsb_exists in E as (d' & I & E). apply Nat.eqb_eq in E. now subst.
    + split; [intros e []|reflexivity].
  - intros w H d i Id Hi. assert (Dd : d = 1%nat /\ i = 0%nat). { change (everything 1 sp_first) with [0; 1; 2]%nat in Id. repeat (destruct Id as [<-|Id]; [cbn in Hi; lia|]). destruct Id. }
    pose proof (H 0%nat ltac:(cbn; lia)) as E1. pose proof (H 1%nat ltac:(cbn; lia)) as E2. unfold Gt_of, S_Projector.G, B, Sum in E1, E2. destruct Hab as [(-> & ->)|(-> & ->)]; cbn in E1, E2; destruct Dd as (-> & ->); lra.
  - cbn. lia.
  - destruct Hab as [(-> & ->)|(-> & ->)]; vm_compute; reflexivity.
  - lia.
  - intros r H. cases_lt r H. destruct Hab as [(-> & ->)|(-> & ->)]; cbn; lia.
  - cbv zeta. change (length (kernel_list 1 sp_first sp_ksize)) with 1%nat. set (A := GGt_of 1 sp_first _ _ _ _ _) in *. change (A 0%nat 0%nat = 1) in A0. intros rows cols vals _.
    assert (L1 : forall b : list R, length b = 1%nat -> b = [nth 0 b 0]) by (intros [|x [|y l]]; try discriminate; reflexivity).
    assert (I1 : forall M : nat -> nat -> R, M 0%nat 0%nat = 1 -> forall b : list R, length b = 1%nat -> mat_vec 1 M b = b). { intros M HM v Hv. transitivity [nth 0 v 0]; [|symmetry; auto]. unfold mat_vec, Sum. cbn [seq map fold_right]. rewrite HM. f_equal. lra. }
    unfold sp_solve. split; intros _ _.
    + intros v Hv. split; auto.
    + exists (fun _ _ => 1). intros v Hv. pose proof (I1 (fun _ _ => 1) eq_refl v Hv) as E1. pose proof (I1 (transpose (fun _ _ => 1)) eq_refl v Hv) as E2. split; [now symmetry|]. split; [now symmetry|]. rewrite E1, E2. auto.
Qed.

(** the projector of a system is updated for a system with as many multipliers and kernels, whose multipliers glue other domains *)
Theorem stale_pattern_refuted : ~ (forall n limit chunk nthreads first nb sort u1 u2 u3 allocG allocGGt fresh solve forward backward s0 s p q,
  (0 < n)%nat -> (0 < chunk)%nat -> (0 < nthreads)%nat -> sort_contract Nat.ltb sort -> (forall r, (r < n)%nat -> (3 * (first (r + 1) - first r) <= limit)%nat) ->
  (forall r nr nz, let '(rows, cols, vals) := allocG r nr nz in (length rows = nr + 1 /\ length cols = nz /\ length vals = nz)%nat) ->
  (forall r nr nz, let '(rows, cols, vals) := allocGGt r nr nz in (length rows = nr + 1 /\ length cols = nz /\ length vals = nz)%nat) -> (forall r k, length (fresh r k) = k) ->
  let step q := run_update 0 1 Rplus Rminus Rmult Ropp sort n limit chunk nthreads (decomposed first nb) u1 u2 u3 allocG allocGGt fresh solve forward backward true (input_of first q) in
  posed n limit first nb u1 u2 solve forward backward p -> posed n limit first nb u1 u2 solve forward backward q -> (forall r, (r < n)%nat -> s0 r = pu_new GGT r) -> kernel_list n first (p_ksize p) <> [] ->
  step p s0 s -> projects n first nb nthreads p s ->
  exists s', step q s s' /\ projects n first nb nthreads q s').
Proof.
  intros H. set (p := sp_problem 1 2). set (q := sp_problem 2 1).
  assert (AL : forall r nr nz, let '(rows, cols, vals) := pu_alloc r nr nz in (length rows = nr + 1 /\ length cols = nz /\ length vals = nz)%nat) by (intros; cbn; rewrite !repeat_length; auto).
  assert (FR : forall r k : nat, length ((fun _ k => repeat 9 k) r k) = k) by (intros; apply repeat_length).
  assert (LI : forall r, (r < 1)%nat -> (3 * (sp_first (r + 1) - sp_first r) <= 20)%nat) by (intros r Hr; cases_lt r Hr; cbn; lia).
  assert (P1 : sp_posed p) by (apply sp_ok; auto). assert (P2 : sp_posed q) by (apply sp_ok; auto).
  destruct (projector_updates_exact 1 20 8 2 sp_first (fun _ => []) isort 0 0 0 pu_alloc pu_alloc (fun _ k => repeat 9 k) sp_solve sp_solve sp_solve ltac:(lia) ltac:(lia) ltac:(lia) isort_contract LI AL AL FR GGT (pu_new GGT) p []) as (s & S1 & S2 & _); auto.
  { cbn. lia. }
  { exact I. }
  destruct (H 1 20 8 2 sp_first (fun _ => []) isort 0%Z 0%Z 0%Z pu_alloc pu_alloc (fun _ k => repeat 9%R k) sp_solve sp_solve sp_solve (pu_new GGT) s p q)%nat as (s' & S3 & S4); auto; try lia.
  { exact isort_contract. }
  { discriminate. }
  clear H. cbv beta in S1. destruct S1 as (s1 & s2 & R1 & R2 & R3). assert (A1 : any_reset 1 (pu_new GGT) (input_of sp_first p) = true) by reflexivity. rewrite A1 in R1.
  destruct R1 as (koffs & goffs & g & vs & M0 & M1 & di & _ & _ & _ & _ & _ & _ & E1). specialize (E1 0%nat ltac:(lia)). destruct R2 as (e & e' & _ & _ & E2). specialize (E2 0%nat ltac:(lia)). destruct R3 as (G3 & M3 & i3 & _ & _ & _ & E3). specialize (E3 0%nat ltac:(lia)).
  assert (SZ : s_sizes (s 0%nat) = [0; 1; 0]%nat /\ s_lambdas (s 0%nat) = 2%nat) by (rewrite E3, E2, E1; split; reflexivity). clear E1 E2 E3.
  destruct S3 as (t1 & t2 & T1 & T2 & T3). assert (A2 : any_reset 1 s (input_of sp_first q) = false). { unfold any_reset. cbn [seq existsb]. unfold needs_reset. destruct SZ as (-> & ->). reflexivity. }
  rewrite A2 in T1. specialize (T1 0%nat ltac:(lia)). destruct T2 as (f & f' & _ & _ & F2). specialize (F2 0%nat ltac:(lia)). destruct T3 as (G & M & i & U1 & _ & _ & F3). specialize (F3 0%nat ltac:(lia)).
  cbn [seq map] in U1. apply update_G_alone in U1; [|reflexivity]. destruct U1 as (vals & U1). rewrite F2, T1 in U1. cbn [with_e s_G] in U1.
  assert (SG : s_G (s' 0%nat) = with_vals (s_G (s 0%nat)) vals) by (rewrite F3; exact U1).
  assert (K : forall z st, z = p \/ z = q -> projects 1 sp_first (fun _ => []) 2 z st -> csr_rows (g_nrows (s_G (st 0%nat))) (g_rows (s_G (st 0%nat))) (g_cols (s_G (st 0%nat))) (g_vals (s_G (st 0%nat))) =
    G_stored sp_first (p_L z) (p_len z) (p_row z) (p_ksize z) (p_Rk z) 0).
  { intros z st Hz (J & ty & _ & HK). destruct (HK 0%nat ltac:(lia)) as (_ & _ & K).
    pose proof (K (fun _ => 2%nat) (fun _ => [(0, 2)]%nat) [2]%nat {| size := 2; local_intervals := [(0, 2)]%nat; nmap := []; nsize := [] |} [] [] [0]) as K'. destruct K' as [_ _ _ _ KG _ _ _ _ _ _ _ _ _ _]; auto.
    - destruct Hz as [-> | ->]; reflexivity.
    - destruct Hz as [-> | ->]; (split; [reflexivity|]; constructor; [|constructor]; exists [], [0; 1]%nat; split; [reflexivity|split; [reflexivity|split; intros m Hm; [destruct Hm|repeat (destruct Hm as [<-|Hm]; [reflexivity|]); destruct Hm]]]).
    - reflexivity.
    - reflexivity.
    - destruct Hz as [-> | ->]; reflexivity. }
  pose proof (K p s (or_introl eq_refl) S2) as K1. pose proof (K q s' (or_intror eq_refl) S4) as K2. rewrite SG in K2. cbn [with_vals g_nrows g_rows g_cols g_vals] in K2. clear -K1 K2.
  set (nr := g_nrows (s_G (s 0%nat))) in *. set (rows := g_rows (s_G (s 0%nat))) in *. set (cols := g_cols (s_G (s 0%nat))) in *. set (v := g_vals (s_G (s 0%nat))) in *.
  unfold csr_rows in *. destruct nr as [|nr]; [discriminate|]. cbn [seq map] in K1, K2. cbn in K1, K2. injection K1 as K1 _. injection K2 as K2 _.
  assert (X : forall (ve : list R) a b x, slice a b (combine cols ve) = [x] -> nth a cols 0%nat = fst x).
  { clear. intros ve a b x E. unfold slice in E. assert (E2 : nth a (combine cols ve) (0%nat, 0) = x /\ (a < length (combine cols ve))%nat).
    { destruct (skipn a (combine cols ve)) as [|y l] eqn:ES; [rewrite firstn_nil in E; discriminate|]. destruct (b - a)%nat; [discriminate|]. cbn [firstn] in E. injection E as -> _.
      assert (a < length (combine cols ve))%nat by (pose proof (skipn_length a (combine cols ve)) as LS; rewrite ES in LS; cbn in LS; lia). split; auto.
      rewrite <- (firstn_skipn a (combine cols ve)), ES. rewrite app_nth2; rewrite firstn_length; [|lia]. replace (a - Nat.min a (length (combine cols ve)))%nat with 0%nat by lia. reflexivity. }
    destruct E2 as (<- & LT). clear E. revert ve a LT. induction cols as [|c cs IH]; intros [|y ve] a LT; cbn in LT; try lia. destruct a as [|a]; [reflexivity|]. cbn. apply IH. lia. }
  apply X in K1. apply X in K2. cbn [fst] in K1, K2. rewrite K1 in K2. discriminate.
Qed.

Print Assumptions projector_updates_exact.
Print Assumptions stale_pattern_refuted.
