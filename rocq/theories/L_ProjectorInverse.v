(** * Lemmas: the inverse of G G^T *)
From Coq Require Import List Arith Lia Bool Reals Lra.
From Verif Require Import Base M_Dual S_Dual L_Dual2 S_DualGraph S_Equality L_Equality6 M_TotalFeti S_Feti L_TotalFeti L_TotalFeti2 M_Projector S_Projector L_Projector2 L_Projector3
  M_ProjectorG S_ProjectorG L_ProjectorG L_ProjectorG2 L_ProjectorG3 M_ProjectorRanks M_ProjectorGGt S_ProjectorGGt L_ProjectorGGt S_ProjectorInverse.
Import ListNotations.
Local Open Scope out_scope.
Local Open Scope nat_scope.

(** ** The identity *)
Definition unit_vec (K i : nat) : list R := map (fun j => if j =? i then 1%R else 0%R) (seq 0 K).
Lemma unit_vec_length K i : length (unit_vec K i) = K.
Proof. unfold unit_vec. now rewrite map_length, seq_length. Qed.
Lemma unit_vec_split K i : i < K -> unit_vec K i = repeat 0%R i ++ 1%R :: repeat 0%R (K - i - 1).
Proof.
  intros H. apply (nth_ext _ _ 0%R 0%R); [rewrite unit_vec_length, app_length; cbn [length]; rewrite !repeat_length; lia|]. intros j Hj. rewrite unit_vec_length in Hj. unfold unit_vec. rewrite map_seq_nth by auto.
  destruct (lt_eq_lt_dec j i) as [[C|C]|C].
  - rewrite app_nth1 by (rewrite repeat_length; auto). rewrite nth_repeat. destruct (j =? i) eqn:E; auto. apply Nat.eqb_eq in E. lia.
  - subst. rewrite Nat.eqb_refl, app_nth2 by (rewrite repeat_length; auto). now rewrite repeat_length, Nat.sub_diag.
  - rewrite app_nth2 by (rewrite repeat_length; lia). rewrite repeat_length. destruct (j - i) as [|c] eqn:E; [lia|]. cbn [nth]. rewrite nth_repeat. destruct (j =? i) eqn:E2; auto. apply Nat.eqb_eq in E2. lia.
Qed.
Lemma eye_ok nrows roffset K : roffset + nrows <= K -> eye 0%R 1%R nrows roffset K = Ok (flat_map (fun r => unit_vec K (roffset + r)) (seq 0 nrows)).
Proof.
  intros H. unfold eye.
  assert (X : forall t rest, t + rest = nrows -> foldM (fun e r => wr e (r * K + roffset + r) 1%R) (seq 0 t) (repeat 0%R (nrows * K)) = Ok (flat_map (fun r => unit_vec K (roffset + r)) (seq 0 t) ++ repeat 0%R (rest * K))).
  { induction t as [|t IH]; intros rest E; [cbn [Nat.add] in E; subst; reflexivity|]. rewrite seq_S, foldM_app. rewrite (IH (S rest)) by lia. cbn [obind foldM Nat.add]. rewrite flat_map_app. cbn [flat_map]. rewrite app_nil_r.
    assert (LF : length (flat_map (fun r => unit_vec K (roffset + r)) (seq 0 t)) = t * K) by (rewrite (flat_map_length_const _ K) by (intros; apply unit_vec_length); now rewrite seq_length).
    replace (repeat 0%R (S rest * K)) with (repeat 0%R (roffset + t) ++ 0%R :: repeat 0%R (K - (roffset + t) - 1) ++ repeat 0%R (rest * K)).
    2: { change (S rest * K) with (K + rest * K). rewrite <- (repeat_app 0%R (K - (roffset + t) - 1)). change (0%R :: repeat 0%R (K - (roffset + t) - 1 + rest * K)) with (repeat 0%R (S (K - (roffset + t) - 1 + rest * K))). rewrite <- repeat_app. f_equal. lia. }
    rewrite app_assoc. rewrite wr_app_at by (rewrite app_length, repeat_length, LF; lia). cbn [obind]. f_equal. rewrite unit_vec_split by lia. rewrite <- !app_assoc. reflexivity. }
  rewrite (X nrows 0) by lia. cbn [Nat.mul repeat]. now rewrite app_nil_r.
Qed.
Lemma slice_rows {A} (f : nat -> list A) K m i : (forall a, length (f a) = K) -> i < m -> slice (i * K) (i * K + K) (flat_map f (seq 0 m)) = f i.
Proof.
  intros HK Hi. replace m with (i + (1 + (m - i - 1))) by lia. rewrite !seq_app, !flat_map_app. cbn [Nat.add seq flat_map]. rewrite app_nil_r.
  assert (LF : length (flat_map f (seq 0 i)) = i * K) by (rewrite (flat_map_length_const _ K) by auto; now rewrite seq_length).
  unfold slice. rewrite skipn_app, LF, Nat.sub_diag, skipn_all2 by lia. cbn [app skipn]. replace (i * K + K - i * K) with (length (f i)) by (rewrite HK; lia). rewrite firstn_app, firstn_all, Nat.sub_diag. cbn [firstn]. apply app_nil_r.
Qed.
Lemma solve_rows_ok (solve : list R -> list R) nrows roffset K : roffset + nrows <= K ->
  solve_rows solve nrows K (flat_map (fun r => unit_vec K (roffset + r)) (seq 0 nrows)) = flat_map (fun r => solve (unit_vec K (roffset + r))) (seq 0 nrows).
Proof.
  intros H. unfold solve_rows. rewrite !flat_map_concat_map. f_equal. apply map_ext_in. intros r Hr. apply in_seq in Hr. f_equal. rewrite <- flat_map_concat_map. apply (slice_rows (fun r => unit_vec K (roffset + r))); [intros; apply unit_vec_length|lia].
Qed.

(** ** Products *)
Section Products.
  Local Open Scope R_scope.
  Variable K : nat.
  Local Notation mat_vec := (mat_vec K).
  Lemma mat_vec_length A x : length (mat_vec A x) = K.
  Proof. unfold mat_vec, S_ProjectorInverse.mat_vec. now rewrite map_length, seq_length. Qed.
  Lemma mat_vec_nth A x i : (i < K)%nat -> nth i (mat_vec A x) 0 = Sum (seq 0 K) (fun j => A i j * nth j x 0).
  Proof. intros H. unfold S_ProjectorInverse.mat_vec. now rewrite map_seq_nth. Qed.
  Lemma unit_nth i j : (j < K)%nat -> nth j (unit_vec K i) 0 = if (j =? i)%nat then 1 else 0.
  Proof. intros H. unfold unit_vec. now rewrite map_seq_nth. Qed.
  Lemma mat_vec_unit A i l : (i < K)%nat -> (l < K)%nat -> nth l (mat_vec A (unit_vec K i)) 0 = A l i.
  Proof.
    intros Hi Hl. rewrite mat_vec_nth by auto. rewrite (Sum_single _ i) by (try apply seq_NoDup; try (apply in_seq; lia); intros j Ij Nj; apply in_seq in Ij; rewrite unit_nth by lia; apply Nat.eqb_neq in Nj; rewrite Nj; lra).
    rewrite unit_nth, Nat.eqb_refl by auto. lra.
  Qed.

  (** the rows of the inverse are the solutions for the rows of the identity *)
  Lemma whole_inverse A solve : symmetric K A -> (forall b, length b = K -> length (solve b) = K /\ mat_vec A (solve b) = b) ->
    let Y := fun i j => nth j (solve (unit_vec K i)) 0 in
    forall x, length x = K -> mat_vec Y (mat_vec A x) = x /\ mat_vec A (mat_vec Y x) = x.
  Proof.
    intros SA HS Y.
    assert (E : forall i l, (i < K)%nat -> (l < K)%nat -> Sum (seq 0 K) (fun j => A l j * Y i j) = if (l =? i)%nat then 1 else 0).
    { intros i l Hi Hl. destruct (HS (unit_vec K i) (unit_vec_length K i)) as (_ & E). rewrite <- (unit_nth i l Hl), <- E at 1. rewrite mat_vec_nth by auto. reflexivity. }
    assert (Left : forall x, length x = K -> mat_vec Y (mat_vec A x) = x).
    { intros x Hx. apply (nth_ext _ _ 0 0); [rewrite mat_vec_length; auto|]. intros i Hi. rewrite mat_vec_length in Hi. rewrite mat_vec_nth by auto.
      transitivity (Sum (seq 0 K) (fun l => Sum (seq 0 K) (fun j => A l j * Y i j) * nth l x 0)).
      - rewrite (Sum_ext_in (seq 0 K) (fun j => Y i j * nth j (mat_vec A x) 0) (fun j => Sum (seq 0 K) (fun l => A l j * Y i j * nth l x 0))).
        + rewrite Sum_swap. apply Sum_ext. intros l. now rewrite Sum_scal_r.
        + intros j Ij. apply in_seq in Ij. rewrite mat_vec_nth by lia. rewrite <- Sum_scal. apply Sum_ext_in. intros l Il. apply in_seq in Il. rewrite (SA j l) by lia. lra.
      - rewrite (Sum_single _ i); [|apply seq_NoDup|apply in_seq; lia|].
        + rewrite E, Nat.eqb_refl by auto. lra.
        + intros l Il Nl. apply in_seq in Il. rewrite E by lia. apply Nat.eqb_neq in Nl. rewrite Nl. lra. }
    intros x Hx. split; auto. destruct (HS x Hx) as (HL & HE). rewrite <- HE at 1. rewrite Left by auto. auto.
  Qed.
  (** F^T F is symmetric, hence a right inverse is a left inverse *)
  Lemma factors_inverse A F : symmetric K A -> (forall b, length b = K -> mat_vec A (mat_vec (transpose F) (mat_vec F b)) = b) ->
    forall x, length x = K -> mat_vec (transpose F) (mat_vec F (mat_vec A x)) = x.
  Proof.
    intros SA HF x Hx. set (S := fun i j => Sum (seq 0 K) (fun l => F l i * F l j)).
    assert (ES : forall b, mat_vec (transpose F) (mat_vec F b) = mat_vec S b).
    { intros b. apply (nth_ext _ _ 0 0); [rewrite !mat_vec_length; auto|]. intros i Hi. rewrite mat_vec_length in Hi. rewrite !mat_vec_nth by auto. unfold transpose, S.
      rewrite (Sum_ext_in _ _ (fun l => Sum (seq 0 K) (fun j => F l i * F l j * nth j b 0))).
      - rewrite Sum_swap. apply Sum_ext. intros j. now rewrite Sum_scal_r.
      - intros l Il. apply in_seq in Il. rewrite mat_vec_nth by lia. rewrite <- Sum_scal. apply Sum_ext. intros j. lra. }
    assert (SS : forall i j, S i j = S j i) by (intros i j; unfold S; apply Sum_ext; intros l; lra).
    assert (E : forall i l, (i < K)%nat -> (l < K)%nat -> Sum (seq 0 K) (fun j => A l j * S j i) = if (l =? i)%nat then 1 else 0).
    { intros i l Hi Hl. pose proof (HF (unit_vec K i) (unit_vec_length K i)) as E. rewrite ES in E. rewrite <- (unit_nth i l Hl), <- E at 1. rewrite mat_vec_nth by auto. apply Sum_ext_in. intros j Ij. apply in_seq in Ij. rewrite mat_vec_unit by lia. reflexivity. }
    rewrite ES. apply (nth_ext _ _ 0 0); [rewrite mat_vec_length; auto|]. intros i Hi. rewrite mat_vec_length in Hi. rewrite mat_vec_nth by auto.
    transitivity (Sum (seq 0 K) (fun l => Sum (seq 0 K) (fun j => A l j * S j i) * nth l x 0)).
    - rewrite (Sum_ext_in (seq 0 K) (fun j => S i j * nth j (mat_vec A x) 0) (fun j => Sum (seq 0 K) (fun l => A l j * S j i * nth l x 0))).
      + rewrite Sum_swap. apply Sum_ext. intros l. now rewrite Sum_scal_r.
      + intros j Ij. apply in_seq in Ij. rewrite mat_vec_nth by lia. rewrite <- Sum_scal. apply Sum_ext_in. intros l Il. apply in_seq in Il. rewrite (SA j l) by lia. rewrite (SS i j). lra.
    - rewrite (Sum_single _ i); [|apply seq_NoDup|apply in_seq; lia|].
      + rewrite E, Nat.eqb_refl by auto. lra.
      + intros l Il Nl. apply in_seq in Il. rewrite E by lia. apply Nat.eqb_neq in Nl. rewrite Nl. lra.
  Qed.
End Products.

(** ** The kernels *)
Section Kernels.
  Variables (n : nat) (first : nat -> nat) (L : list (list nat)) (nb cmap : nat -> list nat) (ksize : nat -> nat).
  Hypothesis HC : consistent n first L nb cmap.
  Variables (len : nat -> nat) (row : nat -> nat -> list (nat * R)) (Rk : nat -> nat -> nat -> R).
  Local Notation all := (everything n first).
  Local Notation kidx := (kidx ksize).
  Local Notation K := (length (kidx all)).
  Local Notation gidx := (gidx first ksize).
  Local Notation A := (GGt_of n first L len row ksize Rk).
  Local Notation kernel_product := (kernel_product n first ksize).
  Lemma gnth i : i < K -> gidx (nth i (kidx all) (0, 0)) = i.
  Proof. apply gidx_nth. Qed.
  (** a matrix of numbers of kernels as a matrix of kernels *)
  Definition lifted (Y : nat -> nat -> R) (d k d' k' : nat) : R := Y (gidx (d, k)) (gidx (d', k')).
  Definition vec_of (w : nat -> nat -> R) : list R := kernel_vector ksize all w.
  Lemma vec_of_length w : length (vec_of w) = K.
  Proof. apply kernel_vector_length. Qed.
  Lemma vec_of_at w d k : In d all -> k < ksize d -> nth (gidx (d, k)) (vec_of w) 0%R = w d k.
  Proof. intros Id Hk. destruct (nth_gidx n first ksize (d, k) (0, 0)) as (G1 & G2); [apply kidx_in; auto|]. unfold vec_of. rewrite kernel_nth by auto. change (all_of n first) with all in G2. now rewrite G2. Qed.
  Lemma lifted_product Y w : vec_of (kernel_product (lifted Y) w) = mat_vec K Y (vec_of w).
  Proof.
    apply (nth_ext _ _ 0%R 0%R); [now rewrite vec_of_length, mat_vec_length|]. intros i Hi. rewrite vec_of_length in Hi. rewrite mat_vec_nth by auto. unfold vec_of at 1. rewrite kernel_nth by auto.
    unfold S_Projector.kernel_product. transitivity (Sum (kidx all) (fun q => (lifted Y (fst (nth i (kidx all) (0%nat, 0%nat))) (snd (nth i (kidx all) (0%nat, 0%nat))) (fst q) (snd q) * w (fst q) (snd q))%R)); [rewrite Sum_kidx; reflexivity|].
    rewrite <- (Sum_nth (kidx all) (0, 0)). apply Sum_ext_in. intros j Ij. apply in_seq in Ij. unfold vec_of. rewrite kernel_nth by lia. f_equal. unfold lifted. rewrite <- !surjective_pairing. rewrite !gnth by lia. reflexivity.
  Qed.
  Lemma GGt_lifted w : vec_of (kernel_product (GGt L len row Rk) w) = mat_vec K A (vec_of w).
  Proof.
    rewrite <- lifted_product. unfold vec_of. apply kernel_vector_ext. intros d k Id Hk. unfold S_Projector.kernel_product. apply Sum_ext_in. intros d' Id'. apply Sum_ext_in. intros k' Ik'. apply in_seq in Ik'. f_equal.
    unfold lifted, GGt_of, on_kernels. change (kernel_list n first ksize) with (kidx all). destruct (nth_gidx n first ksize (d, k) (0, 0)) as (_ & G2); [apply kidx_in; auto|]. destruct (nth_gidx n first ksize (d', k') (0, 0)) as (_ & G4); [apply kidx_in; split; [auto|lia]|].
    change (all_of n first) with all in *. now rewrite G2, G4.
  Qed.
  Lemma A_symmetric : symmetric K A.
  Proof. intros i j Hi Hj. unfold GGt_of, on_kernels, GGt. apply Sum_ext. intros m. lra. Qed.
  Lemma A_positive : independent n first L len row ksize Rk -> positive K A.
  Proof.
    intros HI x (i & Hi & Nz).
    set (w := fun d k => x (gidx (d, k))). set (g := fun m => Gt_of n first len row ksize Rk w m).
    assert (E : Sum (seq 0 K) (fun i => x i * Sum (seq 0 K) (fun j => A i j * x j))%R = Sum (multiplier_list L) (fun m => g m * g m)%R).
    { assert (EG : forall m, g m = Sum (seq 0 K) (fun j => let q := nth j (kidx all) (0%nat, 0%nat) in S_Projector.G len row Rk (fst q) (snd q) m * x j)%R).
      { intros m. unfold g, Gt_of. transitivity (Sum (kidx all) (fun q => (S_Projector.G len row Rk (fst q) (snd q) m * w (fst q) (snd q))%R)); [rewrite Sum_kidx; reflexivity|]. rewrite <- (Sum_nth (kidx all) (0, 0)). apply Sum_ext_in. intros j Ij. apply in_seq in Ij. cbv zeta. f_equal. unfold w.
        rewrite <- surjective_pairing, gnth by lia. reflexivity. }
      rewrite (Sum_ext (multiplier_list L) (fun m => (g m * g m)%R) (fun m => Sum (seq 0 K) (fun i => x i * (S_Projector.G len row Rk (fst (nth i (kidx all) (0%nat, 0%nat))) (snd (nth i (kidx all) (0%nat, 0%nat))) m * g m))%R)).
      - rewrite Sum_swap. apply Sum_ext. intros i'. rewrite Sum_scal. f_equal. unfold GGt_of, on_kernels, GGt. change (kernel_list n first ksize) with (kidx all).
        rewrite (Sum_ext _ _ (fun j => Sum (multiplier_list L) (fun m => S_Projector.G len row Rk (fst (nth i' (kidx all) (0%nat, 0%nat))) (snd (nth i' (kidx all) (0%nat, 0%nat))) m * (S_Projector.G len row Rk (fst (nth j (kidx all) (0%nat, 0%nat))) (snd (nth j (kidx all) (0%nat, 0%nat))) m * x j))%R)).
        + rewrite Sum_swap. apply Sum_ext. intros m. rewrite Sum_scal. f_equal. symmetry. apply EG.
        + intros j. rewrite <- Sum_scal_r. apply Sum_ext. intros m. lra.
      - intros m. rewrite (EG m) at 1. rewrite <- Sum_scal_r. apply Sum_ext. intros j. cbv zeta. lra. }
    rewrite E. clear E.
    assert (NN : forall l, (0 <= Sum l (fun m : nat => g m * g m))%R). { induction l as [|m l IH]; [rewrite Sum_nil; lra|]. rewrite Sum_cons. pose proof (Rle_0_sqr (g m)) as Q. unfold Rsqr in Q. lra. }
    destruct (Rle_lt_or_eq_dec _ _ (NN (multiplier_list L))) as [|Z]; auto. exfalso. apply Nz.
    assert (ZZ : forall l, Sum l (fun m : nat => g m * g m)%R = 0%R -> forall m, In m l -> g m = 0%R).
    { induction l as [|a l IH]; intros E m Im; [destruct Im|]. rewrite Sum_cons in E. pose proof (NN l) as Q1. pose proof (Rle_0_sqr (g a)) as Q2. unfold Rsqr in Q2. destruct Im as [<-|Im]; [|apply IH; auto; lra]. apply Rsqr_0_uniq. unfold Rsqr. lra. }
    pose proof (HI w (fun m Hm => ZZ _ (eq_sym Z) m ltac:(unfold multiplier_list; apply in_seq; lia))) as W. pose proof (nth_In _ (0, 0) Hi) as I. rewrite (surjective_pairing (nth i (kidx all) (0, 0))) in I. apply kidx_in in I. specialize (W _ _ (proj1 I) (proj2 I)). unfold w in W.
    rewrite <- surjective_pairing, gnth in W by auto. exact W.
  Qed.
  Lemma K_zero : K = 0 -> forall d, In d all -> ksize d = 0.
  Proof. intros E d Id. destruct (ksize d) as [|k] eqn:Ek; auto. exfalso. assert (I : In (d, 0) (kidx all)) by (apply kidx_in; split; [auto|lia]). destruct (kidx all); [destruct I|discriminate]. Qed.

  Lemma rows_stored r (f : list R -> list R) : r < n -> (forall b, length b = K -> length (f b) = K) ->
    flat_map (fun i => f (unit_vec K (first_kernel first ksize (first r) + i))) (seq 0 (length (kidx (own first r)))) = kernel_rows n first ksize (own first r) (lifted (fun i j => nth j (f (unit_vec K i)) 0%R)).
  Proof.
    intros Hr HL. rewrite kernel_rows_idx. rewrite !flat_map_concat_map. f_equal. apply map_ext_in. intros i Hi. apply in_seq in Hi.
    assert (EI : gidx (nth i (kidx (own first r)) (0, 0)) = first_kernel first ksize (first r) + i).
    { rewrite <- (map_nth gidx). rewrite (gidx_own n first L nb cmap ksize HC r Hr). rewrite (nth_indep _ _ 0) by (rewrite seq_length; lia). now rewrite seq_nth by lia. }
    unfold lifted. rewrite <- surjective_pairing, EI. set (x := f _). assert (LX : length x = K) by (apply HL, unit_vec_length).
    apply (nth_ext _ _ 0%R 0%R); [now rewrite kernel_vector_length|]. intros j Hj. rewrite kernel_nth by lia. rewrite <- surjective_pairing, gnth by lia. reflexivity.
  Qed.
End Kernels.
