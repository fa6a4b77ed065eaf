(** * Properties of the inverse of G G^T: C99 *)
From Coq Require Import List Arith Lia Bool Reals Lra.
From Verif Require Import Base M_Indexing M_Dual S_Dual L_Dual2 P_Dual S_DualGraph S_Equality L_Equality6 M_TotalFeti S_Feti L_TotalFeti L_TotalFeti2 M_Projector S_Projector L_Projector2 L_Projector3 P_Projector
  M_ProjectorG S_ProjectorG L_ProjectorG L_ProjectorG2 L_ProjectorG3 M_ProjectorRanks M_ProjectorGGt S_ProjectorGGt L_ProjectorGGt S_ProjectorInverse L_ProjectorInverse.
Import ListNotations.
Local Open Scope out_scope.
Local Open Scope nat_scope.

Section Inverse.
  Variables (n : nat) (first : nat -> nat) (L : list (list nat)) (nb cmap : nat -> list nat) (ksize : nat -> nat).
  Hypothesis HC : consistent n first L nb cmap.
  Variables (len : nat -> nat) (row : nat -> nat -> list (nat * R)) (Rk : nat -> nat -> nat -> R).
  Local Notation K := (length (kernel_list n first ksize)).
  Local Notation A := (GGt_of n first L len row ksize Rk).

  (** C99: every rank solves with the rows of the identity that belong to its kernels, as right sides.  What it stores are its rows of the
      inverse of G G^T, or of two factors of it (of the same two on all ranks), when the rows of G are independent and the solver keeps its contract *)
  Theorem projector_inverse_exact type (M : nat -> ggt R) (nrows : nat -> nat) (solve forward backward : list nat -> list nat -> list R -> list R -> list R) :
    independent n first L len row ksize Rk -> type = GGT \/ type = LU ->
    (forall r, r < n -> nrows r = length (kernel_vector ksize (own first r) (fun _ _ => 0%R))) ->
    (forall r, r < n -> upper_csr K A (gg_rows (M r)) (gg_cols (M r)) (gg_vals (M r))) ->
    (forall r s, gg_rows (M r) = gg_rows (M s) /\ gg_cols (M r) = gg_cols (M s) /\ gg_vals (M r) = gg_vals (M s)) ->
    (forall rows cols vals, upper_csr K A rows cols vals -> solves K A (solve rows cols vals) /\ factorizes K A (forward rows cols vals) (backward rows cols vals)) ->
    exists J inv, inverts n first L len row ksize Rk J /\
    forall r, r < n -> invert 0%R 1%R (fun r => first_kernel first ksize (first r)) K nrows solve forward backward type r (M r) = Ok (inv r) /\ rows_of_inverse n first ksize J r (inv r).
  Proof.
    intros HI HT HN HM HS HK. change (kernel_list n first ksize) with (kidx ksize (everything n first)) in *. set (KK := length (kidx ksize (everything n first))) in *.
    assert (SA : symmetric KK A) by apply A_symmetric. assert (PA : positive KK A) by (apply A_positive; auto).
    assert (NR : forall r, r < n -> nrows r = length (kidx ksize (own first r))) by (intros r Hr; rewrite HN by auto; apply kernel_vector_length).
    assert (RO : forall r, r < n -> first_kernel first ksize (first r) + nrows r <= KK).
    { intros r Hr. rewrite NR by auto. pose proof (gidx_own n first L nb cmap ksize HC r Hr) as E. destruct (length (kidx ksize (own first r))) as [|c] eqn:EL.
      - rewrite first_kernel_length. pose proof (before_le n first L nb cmap HC ksize r ltac:(lia)) as B. unfold kernels_before in B. rewrite kernel_vector_length in B. fold KK in B. lia.
      - assert (I : In (first_kernel first ksize (first r) + c) (map (gidx first ksize) (kidx ksize (own first r)))) by (rewrite E; apply in_seq; lia). apply in_map_iff in I. destruct I as ((d, k) & E1 & I). apply kidx_in in I.
        destruct (nth_gidx n first ksize (d, k) (0, 0)) as (B & _); [apply kidx_in; split; [apply (own_in_all n first L nb cmap HC r d Hr), I|apply I]|]. rewrite E1 in B. change (length (kidx ksize (all_of n first))) with KK in B. lia. }
    assert (EQ : forall u w : nat -> nat -> R, vec_of n first ksize u = vec_of n first ksize w -> forall d k, In d (everything n first) -> k < ksize d -> u d k = w d k).
    { intros u w E d k Id Hk. rewrite <- (vec_of_at n first ksize u d k Id Hk), E. apply vec_of_at; auto. }
    unfold invert. destruct (KK =? 0) eqn:EK.
    { apply Nat.eqb_eq in EK. pose proof (K_zero n first ksize EK) as Z. exists Nothing, (fun _ => (INothing, NONE)). split; [|split; auto; split; auto].
      intros w d k Id Hk. rewrite (Z d Id) in Hk. lia. }
    assert (EE : forall r, r < n -> eye 0%R 1%R (nrows r) (first_kernel first ksize (first r)) KK = Ok (flat_map (fun i => unit_vec KK (first_kernel first ksize (first r) + i)) (seq 0 (nrows r)))) by (intros r Hr; apply eye_ok, RO, Hr).
    destruct (Nat.eq_dec n 0) as [Z|Nz].
    { exfalso. apply Nat.eqb_neq in EK. apply EK. unfold KK, everything. subst n. unfold all_domains. now rewrite Nat.sub_diag. }
    pose proof (HK _ _ _ (HM 0 ltac:(lia))) as (C1 & C2). specialize (C1 SA PA). specialize (C2 SA PA).
    destruct HT as [-> | ->].
    - set (f := solve (gg_rows (M 0)) (gg_cols (M 0)) (gg_vals (M 0))) in *. set (Y := fun i j => nth j (f (unit_vec KK i)) 0%R).
      pose proof (whole_inverse KK A f SA C1) as W. cbv zeta in W. fold Y in W.
      exists (Whole (lifted first ksize Y)), (fun r => (IWhole (kernel_rows n first ksize (own first r) (lifted first ksize Y)), GGT)). split.
      + intros w d k Id Hk. cbn [inverse_of]. split; apply EQ; auto.
        * rewrite lifted_product, GGt_lifted. apply W, vec_of_length.
        * rewrite GGt_lifted, lifted_product. apply W, vec_of_length.
      + intros r Hr. split; [|reflexivity]. rewrite EE by auto. cbn [obind]. destruct (HS r 0) as (-> & -> & ->). fold f. rewrite solve_rows_ok by (apply RO; auto). rewrite NR by auto. do 3 f_equal.
        apply (rows_stored n first L nb cmap ksize HC r f Hr). intros b Hb. now apply C1.
    - set (fw := forward (gg_rows (M 0)) (gg_cols (M 0)) (gg_vals (M 0))) in *. set (bw := backward (gg_rows (M 0)) (gg_cols (M 0)) (gg_vals (M 0))) in *. destruct C2 as (F & HF).
      set (Lo := fun i j => nth j (bw (unit_vec KK i)) 0%R). set (Up := fun i j => nth j (fw (unit_vec KK i)) 0%R).
      assert (EL : forall x, mat_vec KK Lo x = mat_vec KK F x).
      { intros x. unfold mat_vec. apply map_ext_in. intros i Hi. apply in_seq in Hi. apply Sum_ext_in. intros j Hj. apply in_seq in Hj. f_equal. unfold Lo. destruct (HF (unit_vec KK i) (unit_vec_length KK i)) as (_ & E & _). rewrite E. rewrite mat_vec_unit by lia. reflexivity. }
      assert (EU : forall x, mat_vec KK Up x = mat_vec KK (transpose F) x).
      { intros x. unfold mat_vec. apply map_ext_in. intros i Hi. apply in_seq in Hi. apply Sum_ext_in. intros j Hj. apply in_seq in Hj. f_equal. unfold Up. destruct (HF (unit_vec KK i) (unit_vec_length KK i)) as (E & _). rewrite E. rewrite mat_vec_unit by lia. reflexivity. }
      assert (HA : forall b, length b = KK -> mat_vec KK A (mat_vec KK (transpose F) (mat_vec KK F b)) = b) by (intros b Hb; apply HF, Hb).
      exists (Factors (lifted first ksize Lo) (lifted first ksize Up)), (fun r => (IFactors (kernel_rows n first ksize (own first r) (lifted first ksize Lo)) (kernel_rows n first ksize (own first r) (lifted first ksize Up)), LU)). split.
      + intros w d k Id Hk. cbn [inverse_of]. split; apply EQ; auto.
        * rewrite !lifted_product, GGt_lifted. fold KK. rewrite EL, EU. apply (factors_inverse KK A F SA HA), vec_of_length.
        * rewrite GGt_lifted, !lifted_product. fold KK. rewrite EL, EU. apply HA, vec_of_length.
      + intros r Hr. split; [|reflexivity]. rewrite EE by auto. cbn [obind]. destruct (HS r 0) as (-> & -> & ->). fold fw bw. rewrite !solve_rows_ok by (apply RO; auto). rewrite NR by auto. do 2 f_equal. f_equal.
        * apply (rows_stored n first L nb cmap ksize HC r bw Hr). intros b Hb. destruct (HF b Hb) as (_ & E & _). rewrite E. apply mat_vec_length.
        * apply (rows_stored n first L nb cmap ksize HC r fw Hr). intros b Hb. destruct (HF b Hb) as (E & _). rewrite E. apply mat_vec_length.
  Qed.
End Inverse.

(** ** The case of P_Projector: domain 2 of rank 1 and domain 4 of rank 2 have one kernel, G G^T is (4, -1; -1, 2) *)
Local Open Scope R_scope.
Local Notation pj_A := (GGt_of 3 ex_first ex_L pj_len pj_row pj_ksize pj_R).
Definition pj_ggt (r : nat) : ggt R := {| gg_rows := [0; 2; 3]%nat; gg_cols := [0; 1; 1]%nat; gg_vals := [4; -1; 2]; gg_offset := nth r [0; 0; 2]%nat 0%nat; gg_size := nth r [0; 2; 1]%nat 0%nat |}.
Definition two (a b c d : R) (x : list R) : list R := [a * nth 0 x 0 + b * nth 1 x 0; c * nth 0 x 0 + d * nth 1 x 0].
Definition pj_F : nat -> nat -> R := fun i j => nth j (nth i [[1 / 2; 0]; [1 / (2 * sqrt 7); 2 / sqrt 7]] []) 0.
Lemma pj_A_values : pj_A 0 0 = 4 /\ pj_A 0 1 = -1 /\ pj_A 1 0 = -1 /\ pj_A 1 1 = 2.
Proof. unfold GGt_of, on_kernels, GGt, S_Projector.G, B, multiplier_list, Sum, pj_row, pj_len, pj_R. cbn. repeat split; lra. Qed.
Lemma pj_upper r : upper_csr 2 pj_A (gg_rows (pj_ggt r)) (gg_cols (pj_ggt r)) (gg_vals (pj_ggt r)).
Proof.
  destruct pj_A_values as (A1 & A2 & _ & A4). cbn [pj_ggt gg_rows gg_cols gg_vals]. split.
  - split; [reflexivity|]. split; [reflexivity|]. intros i Hi. destruct i as [|[|i]]; cbn; lia.
  - split; reflexivity.
  - intros i a b x y Hi. destruct i as [|[|i]]; [| |lia]; unfold csr_line; cbn; intros E.
    + destruct a as [|a0 [|a1 a]]; cbn in E; [injection E as <- <- _; cbn; lia|discriminate|]. destruct a; discriminate.
    + destruct a as [|a0 a]; cbn in E; [discriminate|]. destruct a; discriminate.
  - intros i x Hi. destruct i as [|[|i]]; [| |lia]; unfold csr_line; cbn; intros I; repeat (destruct I as [<-|I]; [cbn; unfold Indexing_CSR; lia|]); destruct I.
  - intros i j Hij. assert (C : (i = 0 /\ j = 0 \/ i = 0 /\ j = 1 \/ i = 1 /\ j = 1)%nat) by lia. destruct C as [(-> & ->)|[(-> & ->)|(-> & ->)]]; [rewrite A1|rewrite A2|rewrite A4]; unfold csr_line, Sum; cbn; lra.
Qed.
Lemma pj_independent : independent 3 ex_first ex_L pj_len pj_row pj_ksize pj_R.
Proof.
  intros w H d k Id Hk.
  assert (D : (d = 2 \/ d = 4)%nat /\ k = 0%nat). { change (everything 3 ex_first) with [0; 1; 2; 3; 4]%nat in Id. repeat (destruct Id as [<-|Id]; [cbn in Hk; lia|]). destruct Id. }
  pose proof (H 1%nat ltac:(cbn; lia)) as E1. pose proof (H 4%nat ltac:(cbn; lia)) as E2. unfold Gt_of, S_Projector.G, B, Sum, pj_row, pj_len, pj_R in E1, E2. cbn in E1, E2. destruct D as ([-> | ->] & ->); lra.
Qed.
Lemma len2 (b : list R) : length b = 2%nat -> b = [nth 0 b 0; nth 1 b 0].
Proof. destruct b as [|x [|y [|z b]]]; try discriminate. reflexivity. Qed.
Lemma pj_solves : solves 2 pj_A (two (2 / 7) (1 / 7) (1 / 7) (4 / 7)) /\ factorizes 2 pj_A (mat_vec 2 pj_F) (mat_vec 2 (transpose pj_F)).
Proof.
  destruct pj_A_values as (A1 & A2 & A3 & A4). split; intros _ _.
  - intros b Hb. split; [reflexivity|]. transitivity [nth 0 b 0; nth 1 b 0]; [|symmetry; now apply len2]. unfold mat_vec, two, Sum. cbn [seq map fold_right nth]. rewrite A1, A2, A3, A4. f_equal; [lra|]. f_equal. lra.
  - exists pj_F. intros b Hb. split; [reflexivity|]. split; [reflexivity|]. transitivity [nth 0 b 0; nth 1 b 0]; [|symmetry; now apply len2]. unfold mat_vec, Sum, transpose, pj_F. cbn [seq map fold_right nth]. rewrite A1, A2, A3, A4.
    pose proof (sqrt_sqrt 7 ltac:(lra)) as S7. pose proof (sqrt_lt_R0 7 ltac:(lra)) as P7. set (i := / sqrt 7).
    assert (I2 : i ^ 2 = / 7) by (replace (/ 7) with (/ (sqrt 7 * sqrt 7)) by (now rewrite S7); unfold i; field; lra).
    replace (1 / (2 * sqrt 7)) with (i / 2) by (unfold i; field; lra). replace (2 / sqrt 7) with (2 * i) by (unfold i; field; lra). f_equal; [field|]. f_equal.
    transitivity (i ^ 2 * (7 / 4 * nth 0 b 0 + 7 * nth 1 b 0) - nth 0 b 0 / 4); [field|rewrite I2; lra].
Qed.
Example pj_inverse_exact type : type = GGT \/ type = LU -> exists J inv, inverts 3 ex_first ex_L pj_len pj_row pj_ksize pj_R J /\
  forall r, (r < 3)%nat -> invert 0 1 (fun r => nth r [0; 0; 1]%nat 0%nat) 2 (fun r => nth r [0; 1; 1]%nat 0%nat) (fun _ _ _ => two (2 / 7) (1 / 7) (1 / 7) (4 / 7)) (fun _ _ _ => mat_vec 2 pj_F) (fun _ _ _ => mat_vec 2 (transpose pj_F)) type r (pj_ggt r) = Ok (inv r) /\
  rows_of_inverse 3 ex_first pj_ksize J r (inv r).
Proof.
  intros HT. destruct (projector_inverse_exact 3 ex_first ex_L ex_nbs ex_cmap pj_ksize ex_consistent pj_len pj_row pj_R type pj_ggt (fun r => nth r [0; 1; 1]%nat 0%nat) (fun _ _ _ => two (2 / 7) (1 / 7) (1 / 7) (4 / 7)) (fun _ _ _ => mat_vec 2 pj_F) (fun _ _ _ => mat_vec 2 (transpose pj_F)) pj_independent HT) as (J & inv & H1 & H2).
  - intros r Hr. cases_lt r Hr; reflexivity.
  - intros r _. apply pj_upper.
  - auto.
  - intros rows cols vals _. apply pj_solves.
  - exists J, inv. split; auto. intros r Hr. destruct (H2 r Hr) as (E & S). split; auto. rewrite <- E. cases_lt r Hr; reflexivity.
Qed.

Print Assumptions projector_inverse_exact.
