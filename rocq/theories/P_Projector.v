(** * Properties of the projectors: C94 *)
From Coq Require Import List Arith Bool Permutation Sorted Reals Lia Lra.
From Verif Require Import Base S_Nb S_Comm S_Mpi M_Mpi M_Comm M_Nb M_Exchange M_Dual S_Dual P_Dual S_Equality M_Equality L_Equality6 L_Equality7 P_Equality M_TotalFeti S_Feti L_TotalFeti L_TotalFeti2 P_TotalFeti M_Projector S_Projector L_Projector L_Projector2 L_Projector3 M_ProjectorRanks S_ProjectorRanks.
Import ListNotations.
Local Open Scope out_scope.
Local Open Scope R_scope.

(** C94: the threads share the rows of a rank: bounds from 0 to the number of rows, not decreasing *)
Theorem kernel_distribution_covers chunk threads size old : (0 < chunk)%nat -> (0 < threads)%nat -> old <> [] -> nth 0 old 0%nat = 0%nat ->
  exists dist, kernel_distribution chunk threads size old = Ok dist /\ distribution threads dist size.
Proof. apply distribution_ok. Qed.

Section Projectors.
  Variables (n limit : nat) (first : nat -> nat) (L : list (list nat)) (nb : nat -> list nat) (cmap : nat -> list nat) (sz : nat -> nat) (itv : nat -> list (nat * nat)) (sizes : list nat).
  Hypothesis HC : consistent n first L nb cmap.
  Hypothesis Hn : (0 < n)%nat.
  Hypothesis Hlimit : forall r q, (r < n)%nat -> In q (nb r) -> (length (common first L r q) <= limit)%nat.
  Variables (len : nat -> nat) (row : nat -> nat -> list (nat * R)).
  Hypothesis HB : entries_ok L len row.
  Variables (ksize : nat -> nat) (Rk : nat -> nat -> nat -> R) (J : inverse) (type : ggt_type) (p : nat -> projector R).
  Hypothesis HP : forall r, (r < n)%nat -> keeps n first L nb cmap sz itv sizes len row ksize Rk J type r (p r).
  Local Notation kernel_vector := (kernel_vector ksize).
  Local Notation own := (own first).
  Local Notation all := (everything n first).
  Local Notation G_of := (G_of L len row Rk).
  Local Notation Gt_of := (Gt_of n first len row ksize Rk).
  Local Notation J_of := (inverse_of n first ksize J).
  Local Notation dual := (dual first L).
  Local Notation kernels := (kernels ksize).
  Local Notation kidx := (kidx ksize).

  Lemma kernels_kidx ds : kernels ds = length (kidx ds).
  Proof. apply kernel_vector_length. Qed.
  Lemma maps_set : forall r, (r < n)%nat -> dual_map_set (decomposed first nb r) (sz r) (itv r) (cmap r) = Ok (dmap (p r)).
  Proof. intros r Hr. apply (HP r Hr). Qed.
  Lemma maps_intervals : forall r, (r < n)%nat -> intervals_ok first L sizes r (itv r).
  Proof. intros r Hr. apply (HP r Hr). Qed.

  (** synchronized vectors of kernels *)
  Lemma synced w (arr : nat -> list R) (old : nat -> list R) : (forall r, (r < n)%nat -> length (old r) = kernels all) ->
    (forall r, (r < n)%nat -> arr r = put (kernels_before first ksize r) (kernels_before first ksize r + length (kidx (own r))) (old r) (kernel_vector (own r) w)) ->
    kernel_sync n p arr (fun _ => kernel_vector all w).
  Proof.
    intros Lo Ha. unfold kernel_sync. rewrite (map_ext_in _ (fun r => all_gather_inplace n r (arr r) (kernels_before first ksize r) (length (kidx (own r))) (fun x => Ret x))).
    - apply (kernels_gathered n first L nb cmap HC ksize w arr Hn).
      + intros r Hr. rewrite Ha by easy. transitivity (length (old r)); [|now rewrite Lo, kernels_kidx]. rewrite <- (kernel_vector_length ksize (own r) w). apply put_length. rewrite kernel_vector_length, Lo, kernels_kidx by easy.
        now apply (before_room n first L nb cmap HC).
      + intros r Hr. exists (old r). split; [now rewrite Lo, kernels_kidx|now apply Ha].
    - intros r Ir. apply in_seq in Ir. rewrite (k_offset _ _ _ _ _ _ _ _ _ _ _ _ _ _ _ _ (HP r ltac:(lia))), (k_local _ _ _ _ _ _ _ _ _ _ _ _ _ _ _ _ (HP r ltac:(lia))), kernels_kidx. reflexivity.
  Qed.
  Local Ltac room r Hr := rewrite ?kernels_kidx; apply (before_room n first L nb cmap HC ksize r Hr).

  Lemma G_runs x : run_G 0 Rplus Rmult n p (dual x) (fun _ => kernel_vector all (G_of x)).
  Proof.
    exists (fun r => put (kernels_before first ksize r) (kernels_before first ksize r + length (kidx (own r))) (arrGx (p r)) (kernel_vector (own r) (G_of x))). split.
    - intros r Hr. destruct (HP r Hr) as [K1 K2 K3 K4 K5 K6 K7 K8 K9 K10 K11 K12 K13 K14 K15]. rewrite K2, K5. apply (local_G first L len row HB ksize Rk r).
      + now rewrite <- kernels_kidx.
      + rewrite K8. room r Hr.
    - apply (synced _ _ (fun r => arrGx (p r))); [|easy]. intros r Hr. apply (HP r Hr).
  Qed.

  Lemma dense_runs factor A r off w out : (r < n)%nat -> factor (p r) = kernel_rows n first ksize (own r) A -> (off + kernels (own r) <= length out)%nat ->
    apply_dense 0 Rplus Rmult (ktotal (p r)) (threads (p r)) (dist (p r)) off (factor (p r)) (kernel_vector all w) out =
    Ok (put off (off + length (kidx (own r))) out (kernel_vector (own r) (kernel_product n first ksize A w))).
  Proof.
    intros Hr E Lo. destruct (HP r Hr) as [K1 K2 K3 K4 K5 K6 K7 K8 K9 K10 K11 K12 K13 K14 K15]. rewrite K4, E, kernels_kidx. apply (local_dense n first ksize r).
    - now rewrite <- kernels_kidx.
    - now rewrite <- kernels_kidx.
  Qed.
  Lemma put_whole r w (out : list R) : length out = kernels (own r) -> put 0 (0 + length (kidx (own r))) out (kernel_vector (own r) w) = kernel_vector (own r) w.
  Proof. intros Lo. rewrite <- (kernel_vector_length ksize (own r) w). apply put_all. now rewrite kernel_vector_length, Lo, kernels_kidx. Qed.
  Lemma no_kernels ds w : (forall d, In d ds -> ksize d = 0%nat) -> kernel_vector ds w = [].
  Proof. intros Z. unfold S_Projector.kernel_vector. induction ds as [|d ds IH]; [reflexivity|]. cbn [flat_map]. rewrite (Z d) by now left. cbn [seq map app]. apply IH. intros d' I. apply Z. now right. Qed.

  Lemma inverse_runs w : run_inverse 0 Rplus Rmult n type p (fun _ => kernel_vector all w) (fun r => kernel_vector (own r) (J_of w)).
  Proof.
    assert (T : exists r0, (r0 < n)%nat) by (exists 0%nat; lia). destruct T as (r0 & H0). pose proof (k_inverse _ _ _ _ _ _ _ _ _ _ _ _ _ _ _ _ (HP r0 H0)) as I0. unfold run_inverse.
    assert (HI : forall r, (r < n)%nat -> inverse_stored n first ksize J r type (p r)) by (intros r Hr; apply (HP r Hr)).
    assert (D : (exists A, J = Whole A) \/ (exists Lo Up, J = Factors Lo Up) \/ J = Nothing) by (destruct J; eauto).
    unfold inverse_stored in *. destruct D as [(A & EJ)|[(Lo & Up & EJ)|EJ]]; rewrite EJ in I0, HI |- *; cbn [inverse_of].
    - destruct I0 as [ET _]. rewrite ET. intros r Hr. destruct (HI r Hr) as [_ I]. unfold apply_invGGt. pose proof (k_iGGtGx _ _ _ _ _ _ _ _ _ _ _ _ _ _ _ _ (HP r Hr)) as Li. rewrite (dense_runs invGGt A r 0 w (arrIGGtGx (p r)) Hr I) by lia. now rewrite put_whole.
    - destruct I0 as (ET & _). rewrite ET. exists (fun r => put (kernels_before first ksize r) (kernels_before first ksize r + length (kidx (own r))) (arrMid (p r)) (kernel_vector (own r) (kernel_product n first ksize Lo w))), (fun _ => kernel_vector all (kernel_product n first ksize Lo w)). split; [|split].
      + intros r Hr. destruct (HI r Hr) as (_ & I & _). unfold apply_invL. rewrite (k_offset _ _ _ _ _ _ _ _ _ _ _ _ _ _ _ _ (HP r Hr)). apply (dense_runs invL Lo r _ w (arrMid (p r)) Hr I).
        rewrite (k_mid _ _ _ _ _ _ _ _ _ _ _ _ _ _ _ _ (HP r Hr)). room r Hr.
      + apply (synced _ _ (fun r => arrMid (p r))); [|easy]. intros r Hr. apply (HP r Hr).
      + intros r Hr. destruct (HI r Hr) as (_ & _ & I). unfold apply_invU. pose proof (k_iGGtGx _ _ _ _ _ _ _ _ _ _ _ _ _ _ _ _ (HP r Hr)) as Li.
        rewrite (dense_runs invU Up r 0 (kernel_product n first ksize Lo w) (arrIGGtGx (p r)) Hr I) by lia. now rewrite put_whole.
    - destruct I0 as (ET & Z). rewrite ET. intros r Hr. pose proof (k_iGGtGx _ _ _ _ _ _ _ _ _ _ _ _ _ _ _ _ (HP r Hr)) as Li.
      assert (Z' : forall d, In d (own r) -> ksize d = 0%nat) by (intros d Id; apply Z; now apply (own_in_all n first L nb cmap HC r)).
      unfold S_ProjectorRanks.kernels in Li. rewrite no_kernels in * by easy. now destruct (arrIGGtGx (p r)).
  Qed.

  (** G^T on all ranks, with any vector before *)
  Lemma Gt_runs a alpha (y : nat -> nat -> R) (z : nat -> R) : (forall m, (m < length L)%nat -> Sum (sharing n first L m) (fun r => y r m) = z m) ->
    run_Gt Rplus Rmult n limit p (fun r => kernel_vector (own r) a) alpha (vector first L y) (dual (fun m => z m + alpha * Gt_of a m)).
  Proof.
    intros Hz. exists (fun r => vector first L (fun r m => y r m + alpha * Sum (own r) (fun d => Sum (seq 0 (ksize d)) (fun k => G len row Rk d k m * a d k))) r). split.
    - intros r Hr. rewrite (k_G _ _ _ _ _ _ _ _ _ _ _ _ _ _ _ _ (HP r Hr)). apply (local_Gt first L len row HB ksize Rk r).
    - pose proof maps_set as Hm. unfold dual_sync.
      pose proof (synchronize_sums Rplus n limit first L nb cmap HC (fun r => dmap (p r)) sz itv Hm
        (fun r m => y r m + alpha * Sum (own r) (fun d => Sum (seq 0 (ksize d)) (fun k => G len row Rk d k m * a d k))) (fun r => sendBuffer (p r)) (fun r => recvBuffer (p r))
        (fun r Hr => k_send _ _ _ _ _ _ _ _ _ _ _ _ _ _ _ _ (HP r Hr)) (fun r Hr => k_recv _ _ _ _ _ _ _ _ _ _ _ _ _ _ _ _ (HP r Hr)) Hlimit 0) as S.
      eexists. split.
      + rewrite (map_ext_in _ (fun r => synchronize Rplus limit (decomposed first nb r) (dmap (p r)) (vector first L (fun r m => y r m + alpha * Sum (own r) (fun d => Sum (seq 0 (ksize d)) (fun k => G len row Rk d k m * a d k))) r) (sendBuffer (p r)) (recvBuffer (p r)))).
        * apply S; [intros u v w; lra|intros u v; lra].
        * intros r Ir. apply in_seq in Ir. now rewrite (k_deco _ _ _ _ _ _ _ _ _ _ _ _ _ _ _ _ (HP r ltac:(lia))).
      + rewrite map_map. apply map_ext. intros r. cbn [fst]. unfold S_Feti.dual, vector. apply map_ext_in. intros m Im. rewrite reduce_Sum. apply held_lt in Im.
        rewrite Sum_plus, Hz by easy. f_equal. rewrite Sum_scal. f_equal. unfold S_Projector.Gt_of. apply (own_total n first L nb cmap HC m); [easy|].
        intros d N. apply Sum_zero. intros k _. rewrite (G_zero L len row HB); auto. lra.
  Qed.
  Lemma zeros_vector (y : nat -> list R) r : length (y r) = length (held first L r) -> map (fun _ => 0) (y r) = vector first L (fun _ _ => 0) r.
  Proof.
    unfold vector. generalize (held first L r) (y r). intros l. induction l as [|m l IH]; intros [|v y'] E; try discriminate E; [reflexivity|]. cbn [map]. f_equal. apply IH. now injection E.
  Qed.
  Lemma Gt_ext a alpha (y y' : nat -> list R) res : (forall r, (r < n)%nat -> y r = y' r) -> run_Gt Rplus Rmult n limit p a alpha y res -> run_Gt Rplus Rmult n limit p a alpha y' res.
  Proof. intros E (out & H & S). exists out. split; [|easy]. intros r Hr. rewrite <- E by easy. now apply H. Qed.
  Lemma Gt_res a alpha y (x x' : nat -> R) : (forall m, (m < length L)%nat -> x m = x' m) -> run_Gt Rplus Rmult n limit p a alpha y (dual x) -> run_Gt Rplus Rmult n limit p a alpha y (dual x').
  Proof.
    intros E (out & H & (ends & S1 & S2)). exists out. split; [easy|]. exists ends. split; [easy|]. rewrite S2. apply map_ext. intros r. unfold S_Feti.dual, vector. apply map_ext_in. intros m Im. apply E. now apply held_lt in Im.
  Qed.
  Lemma Gt_zero a alpha (y : nat -> list R) : (forall r, (r < n)%nat -> length (y r) = length (held first L r)) ->
    run_Gt Rplus Rmult n limit p (fun r => kernel_vector (own r) a) alpha (fun r => map (fun _ => 0) (y r)) (dual (fun m => alpha * Gt_of a m)).
  Proof.
    intros Ly. apply (Gt_ext _ _ (vector first L (fun _ _ => 0))); [intros r Hr; symmetry; now apply zeros_vector, Ly|].
    apply (Gt_res _ _ _ (fun m => 0 + alpha * Gt_of a m)); [intros; lra|]. apply Gt_runs. intros m _. now apply Sum_zero.
  Qed.

  (** C94: the projection on all ranks: x - G^T J G z, where z is x or F x (conjugate) *)
  Theorem projector_apply_computes (x z : nat -> R) (y : nat -> list R) : (forall r, (r < n)%nat -> length (y r) = length (held first L r)) ->
    run_apply 0 1 Rplus Rmult Ropp n limit type p (dual x) (dual z) y (dual (fun m => x m - Gt_of (J_of (G_of z)) m)).
  Proof.
    intros Ly. pose proof maps_set as Hm. pose proof maps_intervals as Hi. exists (vector first L (fun r m => if owned first L r m then x m else 0)), (fun _ => kernel_vector all (G_of z)), (fun r => kernel_vector (own r) (J_of (G_of z))).
    split; [|split; [apply G_runs|split; [apply inverse_runs|]]].
    - intros r Hr. apply (copy_without_halo_owned n first L nb cmap (fun r => dmap (p r)) sz itv Hm (fun _ => x) sizes Hi 0 r (y r) Hr (Ly r Hr)).
    - apply (Gt_res _ _ _ (fun m => x m + (- 1) * Gt_of (J_of (G_of z)) m)); [intros; lra|]. apply (Gt_runs (J_of (G_of z)) (-1) (fun r m => if owned first L r m then x m else 0) x).
      intros m Hmm. now apply (owned_sum n first L nb cmap HC).
  Qed.
  (** C94: the orthogonal projection *)
  Corollary orthogonal_apply_computes (x : nat -> R) (y : nat -> list R) : (forall r, (r < n)%nat -> length (y r) = length (held first L r)) ->
    run_apply 0 1 Rplus Rmult Ropp n limit type p (dual x) (dual x) y (dual (P_of n first L len row ksize Rk J x)).
  Proof. apply projector_apply_computes. Qed.
  (** C94: the transposed conjugate projection: x - F G^T J G x *)
  Theorem conjugate_applyT_computes (F : (nat -> list R) -> (nat -> list R) -> Prop) (F_of : (nat -> R) -> nat -> R) (x : nat -> R) (arrFx : nat -> list R) :
    (forall z, F (dual z) (dual (F_of z))) -> (forall r, (r < n)%nat -> length (arrFx r) = length (held first L r)) ->
    run_applyT 0 1 Rplus Rmult Ropp n limit type p F (dual x) arrFx (dual (fun m => F_of (fun m => (- 1) * Gt_of (J_of (G_of x)) m) m + x m)).
  Proof.
    intros HF Lf. exists (fun _ => kernel_vector all (G_of x)), (fun r => kernel_vector (own r) (J_of (G_of x))), (dual (fun m => (- 1) * Gt_of (J_of (G_of x)) m)), (dual (F_of (fun m => (- 1) * Gt_of (J_of (G_of x)) m))).
    split; [apply G_runs|split; [apply inverse_runs|split; [|split]]].
    - now apply Gt_zero.
    - apply HF.
    - intros r Hr. unfold S_Feti.dual, vector, axpy. generalize (held first L r). intros l. induction l as [|m l IH]; [reflexivity|]. cbn [map combine fst snd]. rewrite IH. f_equal. lra.
  Qed.
  (** C94: G^T J G x and G^T J w *)
  Theorem GtintGGtG_computes (x : nat -> R) (y : nat -> list R) : (forall r, (r < n)%nat -> length (y r) = length (held first L r)) ->
    run_GtintGGtG 0 1 Rplus Rmult n limit type p (dual x) y (dual (Gt_of (J_of (G_of x)))).
  Proof.
    intros Ly. exists (fun _ => kernel_vector all (G_of x)), (fun r => kernel_vector (own r) (J_of (G_of x))). split; [apply G_runs|split; [apply inverse_runs|]].
    apply (Gt_res _ _ _ (fun m => 1 * Gt_of (J_of (G_of x)) m)); [intros; lra|]. now apply Gt_zero.
  Qed.
  Theorem GtintGGt_computes (w : nat -> nat -> R) (y : nat -> list R) : (forall r, (r < n)%nat -> length (y r) = length (held first L r)) ->
    run_GtintGGt 0 1 Rplus Rmult n limit type p (fun _ => kernel_vector all w) y (dual (Gt_of (J_of w))).
  Proof.
    intros Ly. exists (fun r => kernel_vector (own r) (J_of w)). split; [apply inverse_runs|]. apply (Gt_res _ _ _ (fun m => 1 * Gt_of (J_of w) m)); [intros; lra|]. now apply Gt_zero.
  Qed.

  Lemma slice_own w r : (r < n)%nat -> slice (kernels_before first ksize r) (kernels_before first ksize r + kernels (own r)) (kernel_vector all w) = kernel_vector (own r) w.
  Proof.
    intros Hr. pose proof (gathered_kernels n first L nb cmap HC ksize w n (le_n _)) as E. change (seq (first 0%nat) (first n - first 0%nat)) with all in E. rewrite <- E.
    rewrite (L_Coll.gathered_split _ 0 r n), (L_Coll.gathered_split _ r (r + 1) n), L_Coll.gathered_one by lia.
    rewrite <- (before_offset n first L nb cmap HC ksize w r) by lia. unfold offset. unfold slice. rewrite kernels_kidx, <- (kernel_vector_length ksize (own r) w).
    rewrite skipn_app, skipn_all, Nat.sub_diag. cbn [skipn app]. rewrite Nat.add_comm, Nat.add_sub, firstn_app, firstn_all, Nat.sub_diag. cbn [firstn]. now rewrite app_nil_r.
  Qed.
  Lemma zeros_R (y : list (list R)) r a : (forall d, In d (own r) -> ksize d = 0%nat) -> map (@length R) y = map len (own r) -> zeros 0 y = map (dense len (R_of ksize Rk a)) (own r).
  Proof.
    intros Z. unfold zeros. revert y. induction (own r) as [|d ds IH]; intros [|v y] E; try discriminate E; [reflexivity|]. cbn [map] in *. injection E as E1 E2. f_equal; [|apply IH; auto; intros; apply Z; now right].
    unfold dense. rewrite <- E1. unfold R_of. rewrite (Z d) by now left. cbn [seq]. clear. generalize 0%nat. induction v as [|x v IH]; intros s; [reflexivity|]. cbn [length seq map]. f_equal; apply IH.
  Qed.
  (** C94: R^T a of a vector of kernels; the arrays of the result have the lengths of the domains *)
  Theorem R_computes (w : nat -> nat -> R) (y : nat -> list (list R)) : (forall r, (r < n)%nat -> map (@length R) (y r) = map len (own r)) ->
    run_R 0 Rplus Rmult n type p (fun _ => kernel_vector all w) y (fun r => map (dense len (R_of ksize Rk w)) (own r)).
  Proof.
    intros Ly r Hr. pose proof (k_inverse _ _ _ _ _ _ _ _ _ _ _ _ _ _ _ _ (HP r Hr)) as I. unfold inverse_stored in I.
    assert (X : apply_R 0 Rplus Rmult (mR1 (p r)) (slice (koffset (p r)) (koffset (p r) + ksize_local (p r)) (kernel_vector all w)) = Ok (map (dense len (R_of ksize Rk w)) (own r))).
    { rewrite (k_offset _ _ _ _ _ _ _ _ _ _ _ _ _ _ _ _ (HP r Hr)), (k_local _ _ _ _ _ _ _ _ _ _ _ _ _ _ _ _ (HP r Hr)), (k_R _ _ _ _ _ _ _ _ _ _ _ _ _ _ _ _ (HP r Hr)), slice_own by easy. apply local_R. }
    destruct type; auto. apply zeros_R; [|now apply Ly]. intros d Id. destruct J; try (now destruct I). destruct I as [_ Z]. apply Z. now apply (own_in_all n first L nb cmap HC r).
  Qed.
  (** C94: R^T J G x, the coefficients of the kernels in the solution; zero with the conjugate projector *)
  Theorem RinvGGtG_computes (x : nat -> R) (y : nat -> list (list R)) : (forall r, (r < n)%nat -> map (@length R) (y r) = map len (own r)) ->
    run_RinvGGtG 0 Rplus Rmult n type p false (dual x) y (fun r => map (dense len (R_of ksize Rk (J_of (G_of x)))) (own r)).
  Proof.
    intros Ly. unfold run_RinvGGtG.
    assert (X : exists gx a : nat -> list R, run_G 0 Rplus Rmult n p (dual x) gx /\ run_inverse 0 Rplus Rmult n type p gx a /\
      (forall r, (r < n)%nat -> apply_R 0 Rplus Rmult (mR1 (p r)) (a r) = Ok (map (dense len (R_of ksize Rk (J_of (G_of x)))) (own r)))).
    { exists (fun _ => kernel_vector all (G_of x)), (fun r => kernel_vector (own r) (J_of (G_of x))). split; [apply G_runs|split; [apply inverse_runs|]]. intros r Hr.
      rewrite (k_R _ _ _ _ _ _ _ _ _ _ _ _ _ _ _ _ (HP r Hr)). apply local_R. }
    assert (HI : forall r, (r < n)%nat -> inverse_stored n first ksize J r type (p r)) by (intros r Hr; apply (HP r Hr)).
    destruct type; auto. intros r Hr. specialize (HI r Hr). unfold inverse_stored in HI. apply zeros_R; [|now apply Ly]. intros d Id. destruct J; try (now destruct HI). destruct HI as [_ Z]. apply Z. now apply (own_in_all n first L nb cmap HC r).
  Qed.
  (** C94: with the conjugate projector the coefficients are zero, whatever x is *)
  Theorem RinvGGtG_conjugate_zero (x : nat -> list R) (y res : nat -> list (list R)) : run_RinvGGtG 0 Rplus Rmult n type p true x y res ->
    forall r, (r < n)%nat -> map (@length R) (res r) = map (@length R) (y r) /\ forall v e, In v (res r) -> In e v -> e = 0.
  Proof.
    intros H r Hr. assert (E : zeros 0 (y r) = res r) by (unfold run_RinvGGtG in H; destruct type; exact (H r Hr)). rewrite <- E. unfold zeros. split.
    - rewrite map_map. apply map_ext. intros v. apply map_length.
    - intros v e Iv Ie. apply in_map_iff in Iv as (w & <- & _). apply in_map_iff in Ie as (q & <- & _). reflexivity.
  Qed.
  (** C94: the factors alone *)
  Theorem factor_computes factor A (w : nat -> nat -> R) (y : nat -> list R) : (forall r, (r < n)%nat -> factor (p r) = kernel_rows n first ksize (own r) A) ->
    (forall r, (r < n)%nat -> length (y r) = kernels all) ->
    run_factor 0 Rplus Rmult n p factor (fun _ => kernel_vector all w) y (fun _ => kernel_vector all (kernel_product n first ksize A w)).
  Proof.
    intros Hf Ly. exists (fun r => put (kernels_before first ksize r) (kernels_before first ksize r + length (kidx (own r))) (map (fun _ => 0) (y r)) (kernel_vector (own r) (kernel_product n first ksize A w))). split.
    - intros r Hr. rewrite (k_offset _ _ _ _ _ _ _ _ _ _ _ _ _ _ _ _ (HP r Hr)). apply dense_runs; auto. rewrite map_length, Ly by easy. room r Hr.
    - apply (synced _ _ (fun r => map (fun _ => 0) (y r))); [|easy]. intros r Hr. now rewrite map_length, Ly.
  Qed.
  Theorem invLG_computes Lo Up (x : nat -> R) (y : nat -> list R) : J = Factors Lo Up -> (forall r, (r < n)%nat -> length (y r) = kernels all) ->
    run_invLG 0 Rplus Rmult n p (dual x) y (fun _ => kernel_vector all (kernel_product n first ksize Lo (G_of x))).
  Proof.
    intros EJ Ly. exists (fun _ => kernel_vector all (G_of x)). split; [apply G_runs|]. apply factor_computes; auto. intros r Hr.
    pose proof (k_inverse _ _ _ _ _ _ _ _ _ _ _ _ _ _ _ _ (HP r Hr)) as I. unfold inverse_stored in I. rewrite EJ in I. apply I.
  Qed.
  Theorem GtinvU_computes Lo Up (w : nat -> nat -> R) (y : nat -> list R) : J = Factors Lo Up -> (forall r, (r < n)%nat -> length (y r) = length (held first L r)) ->
    run_GtinvU 0 1 Rplus Rmult n limit p (fun _ => kernel_vector all w) y (dual (Gt_of (kernel_product n first ksize Up w))).
  Proof.
    intros EJ Ly. exists (fun r => kernel_vector (own r) (kernel_product n first ksize Up w)). split.
    - intros r Hr. pose proof (k_inverse _ _ _ _ _ _ _ _ _ _ _ _ _ _ _ _ (HP r Hr)) as I. unfold inverse_stored in I. rewrite EJ in I. destruct I as (_ & _ & I). unfold apply_invU.
      pose proof (k_iGGtGx _ _ _ _ _ _ _ _ _ _ _ _ _ _ _ _ (HP r Hr)) as Li. rewrite (dense_runs invU Up r 0 w (arrIGGtGx (p r)) Hr I) by lia. now rewrite put_whole.
    - apply (Gt_res _ _ _ (fun m => 1 * Gt_of (kernel_product n first ksize Up w) m)); [intros; lra|]. now apply Gt_zero.
  Qed.
  (** C94: e = - R f *)
  Theorem e_computes (f : nat -> nat -> R) (e : nat -> list R) : (forall r, (r < n)%nat -> length (e r) = kernels all) ->
    run_e 0 1 Rplus Rmult Ropp n p (fun r => map (dense len f) (own r)) e (fun _ => kernel_vector all (e_of len Rk f)).
  Proof.
    intros Le. exists (fun r => put (kernels_before first ksize r) (kernels_before first ksize r + length (kidx (own r))) (e r) (kernel_vector (own r) (e_of len Rk f))). split.
    - intros r Hr. rewrite (k_offset _ _ _ _ _ _ _ _ _ _ _ _ _ _ _ _ (HP r Hr)), (k_R _ _ _ _ _ _ _ _ _ _ _ _ _ _ _ _ (HP r Hr)). apply e_ok. rewrite Le by easy. room r Hr.
    - apply (synced _ _ e); [|easy]. auto.
  Qed.
End Projectors.

(** C94: with the inverse of G G^T it is the orthogonal projection to the vectors with G x = 0 *)
Section Orthogonal.
  Variables (n : nat) (first : nat -> nat) (L : list (list nat)) (len : nat -> nat) (row : nat -> nat -> list (nat * R)) (ksize : nat -> nat) (Rk : nat -> nat -> nat -> R) (J : inverse).
  Local Notation all := (everything n first).
  Local Notation G := (G len row Rk).
  Local Notation G_of := (G_of L len row Rk).
  Local Notation Gt_of := (Gt_of n first len row ksize Rk).
  Local Notation prod := (kernel_product n first ksize).
  Local Notation GGt := (GGt L len row Rk).
  Local Notation J_of := (inverse_of n first ksize J).
  Local Notation P_of := (P_of n first L len row ksize Rk J).
  (** products of vectors *)
  Definition ddot (x y : nat -> R) : R := Sum (multiplier_list L) (fun m => x m * y m).
  Definition kdot (u v : nat -> nat -> R) : R := Sum all (fun d => Sum (seq 0 (ksize d)) (fun k => u d k * v d k)).

  Lemma kdot_ext u u' v v' : (forall d k, In d all -> (k < ksize d)%nat -> u d k = u' d k /\ v d k = v' d k) -> kdot u v = kdot u' v'.
  Proof. intros H. apply Sum_ext_in. intros d Id. apply Sum_ext_in. intros k Ik. apply in_seq in Ik. destruct (H d k Id) as [-> ->]; [lia|reflexivity]. Qed.
  Lemma G_adjoint x a : kdot (G_of x) a = ddot x (Gt_of a).
  Proof.
    unfold kdot, ddot, S_Projector.Gt_of, S_Projector.G_of. rewrite (Sum_ext (multiplier_list L) _ (fun m => Sum all (fun d => Sum (seq 0 (ksize d)) (fun k => G d k m * x m * a d k)))).
    - rewrite Sum_swap. apply Sum_ext. intros d. rewrite Sum_swap. apply Sum_ext. intros k. rewrite <- Sum_scal_r. reflexivity.
    - intros m. rewrite <- Sum_scal. apply Sum_ext. intros d. rewrite <- Sum_scal. apply Sum_ext. intros k. lra.
  Qed.
  Lemma G_Gt a d k : G_of (Gt_of a) d k = prod GGt a d k.
  Proof.
    unfold S_Projector.G_of, S_Projector.Gt_of, kernel_product. rewrite (Sum_ext _ _ (fun m => Sum all (fun d' => Sum (seq 0 (ksize d')) (fun k' => G d k m * G d' k' m * a d' k')))).
    - rewrite Sum_swap. apply Sum_ext. intros d'. rewrite Sum_swap. apply Sum_ext. intros k'. unfold S_Projector.GGt. now rewrite Sum_scal_r.
    - intros m. rewrite <- Sum_scal. apply Sum_ext. intros d'. rewrite <- Sum_scal. apply Sum_ext. intros k'. lra.
  Qed.
  Lemma G_minus x y d k : G_of (fun m => x m - y m) d k = G_of x d k - G_of y d k.
  Proof.
    unfold S_Projector.G_of. rewrite (Sum_ext _ (fun m => G d k m * (x m - y m)) (fun m => G d k m * x m + (-1) * (G d k m * y m))) by (intros; lra). rewrite Sum_plus, Sum_scal. lra.
  Qed.
  Lemma prod_ext A w w' : (forall d k, In d all -> (k < ksize d)%nat -> w d k = w' d k) -> forall d k, prod A w d k = prod A w' d k.
  Proof. intros H d k. apply Sum_ext_in. intros d' Id. apply Sum_ext_in. intros k' Ik. apply in_seq in Ik. now rewrite H by (auto; lia). Qed.
  Lemma J_ext w w' : (forall d k, In d all -> (k < ksize d)%nat -> w d k = w' d k) -> forall d k, J_of w d k = J_of w' d k.
  Proof. intros H d k. destruct J; cbn [inverse_of]; [now apply prod_ext| |reflexivity]. apply prod_ext. intros. now apply prod_ext. Qed.
  Lemma prod_zero A w : (forall d k, In d all -> (k < ksize d)%nat -> w d k = 0) -> forall d k, prod A w d k = 0.
  Proof. intros H d k. apply Sum_zero. intros d' Id. apply Sum_zero. intros k' Ik. apply in_seq in Ik. rewrite H by (auto; lia). lra. Qed.
  Lemma J_zero w : (forall d k, In d all -> (k < ksize d)%nat -> w d k = 0) -> forall d k, J_of w d k = 0.
  Proof. intros H d k. destruct J; cbn [inverse_of]; [now apply prod_zero| |reflexivity]. apply prod_zero. intros. now apply prod_zero. Qed.
  Lemma Gt_zero_of a : (forall d k, In d all -> (k < ksize d)%nat -> a d k = 0) -> forall m, Gt_of a m = 0.
  Proof. intros H m. apply Sum_zero. intros d Id. apply Sum_zero. intros k Ik. apply in_seq in Ik. rewrite H by (auto; lia). lra. Qed.

  (** vectors with G x = 0 do not change *)
  Theorem P_keeps x : (forall d k, In d all -> (k < ksize d)%nat -> G_of x d k = 0) -> forall m, P_of x m = x m.
  Proof. intros H m. unfold S_Projector.P_of. rewrite Gt_zero_of; [lra|]. intros d k _ _. now apply J_zero. Qed.

  Hypothesis HJ : inverts n first L len row ksize Rk J.
  (** the result is in the kernel of G *)
  Theorem G_of_P x d k : In d all -> (k < ksize d)%nat -> G_of (P_of x) d k = 0.
  Proof. intros Id Hk. unfold S_Projector.P_of. rewrite G_minus, G_Gt. rewrite (proj2 (HJ (G_of x) d k Id Hk)). lra. Qed.
  Theorem P_idempotent x m : P_of (P_of x) m = P_of x m.
  Proof. apply P_keeps. apply G_of_P. Qed.
  Lemma GGt_symmetric u v : kdot (prod GGt u) v = kdot u (prod GGt v).
  Proof.
    rewrite (kdot_ext (prod GGt u) (G_of (Gt_of u)) v v) by (intros; split; [now rewrite G_Gt|reflexivity]). rewrite G_adjoint.
    assert (C : forall a b, kdot a b = kdot b a) by (intros a b; apply Sum_ext; intros d; apply Sum_ext; intros k; lra). rewrite (C u).
    rewrite (kdot_ext (prod GGt v) (G_of (Gt_of v)) u u) by (intros; split; [now rewrite G_Gt|reflexivity]). rewrite G_adjoint. apply Sum_ext. intros m. lra.
  Qed.
  Lemma J_symmetric u v : kdot (J_of u) v = kdot u (J_of v).
  Proof.
    rewrite (kdot_ext (J_of u) (J_of u) v (prod GGt (J_of v))) by (intros d k Id Hk; split; [reflexivity|symmetry; apply (proj2 (HJ v d k Id Hk))]).
    rewrite <- GGt_symmetric. apply kdot_ext. intros d k Id Hk. split; [apply (proj2 (HJ u d k Id Hk))|reflexivity].
  Qed.
  Theorem P_symmetric x y : ddot (P_of x) y = ddot x (P_of y).
  Proof.
    assert (E : forall x y, ddot (P_of x) y = ddot x y - kdot (J_of (G_of x)) (G_of y)).
    { intros x0 y0. assert (C : kdot (J_of (G_of x0)) (G_of y0) = ddot y0 (Gt_of (J_of (G_of x0)))) by (rewrite <- G_adjoint; apply Sum_ext; intros d; apply Sum_ext; intros k; lra). rewrite C. unfold ddot, S_Projector.P_of.
      rewrite (Sum_ext _ (fun m => (x0 m - Gt_of (J_of (G_of x0)) m) * y0 m) (fun m => x0 m * y0 m + (-1) * (y0 m * Gt_of (J_of (G_of x0)) m))) by (intros; lra). rewrite Sum_plus, Sum_scal. lra. }
    assert (C : forall a b, ddot a b = ddot b a) by (intros a b; apply Sum_ext; intros; lra).
    rewrite E, (C x (P_of y)), E, (C y x), J_symmetric. f_equal. apply Sum_ext. intros d. apply Sum_ext. intros k. lra.
  Qed.
  (** the result is the closest vector with G y = 0 *)
  Theorem P_closest x y : (forall d k, In d all -> (k < ksize d)%nat -> G_of y d k = 0) ->
    ddot (fun m => x m - P_of x m) (fun m => x m - P_of x m) <= ddot (fun m => x m - y m) (fun m => x m - y m).
  Proof.
    intros Hy. set (z := fun m => P_of x m - y m). assert (Hz : forall d k, In d all -> (k < ksize d)%nat -> G_of z d k = 0) by (intros d k Id Hk; unfold z; rewrite G_minus, G_of_P, Hy by easy; lra).
    assert (O : ddot (fun m => x m - P_of x m) z = 0).
    { replace (ddot (fun m => x m - P_of x m) z) with (ddot x z - ddot (P_of x) z).
      - rewrite P_symmetric. replace (ddot x (P_of z)) with (ddot x z); [lra|]. apply Sum_ext. intros m. now rewrite (P_keeps z Hz m).
      - unfold ddot. rewrite (Sum_ext _ (fun m => (x m - P_of x m) * z m) (fun m => x m * z m + (-1) * (P_of x m * z m))) by (intros; lra). rewrite Sum_plus, Sum_scal. lra. }
    replace (ddot (fun m => x m - y m) (fun m => x m - y m)) with (ddot (fun m => x m - P_of x m) (fun m => x m - P_of x m) + 2 * ddot (fun m => x m - P_of x m) z + ddot z z).
    - assert (0 <= ddot z z); [|lra]. unfold ddot. generalize (multiplier_list L). intros l. induction l as [|m l IH]; [rewrite Sum_nil; lra|]. rewrite Sum_cons. nra.
    - unfold ddot. rewrite <- Sum_scal, <- !Sum_plus. apply Sum_ext. intros m. unfold z. lra.
  Qed.
  (** G^T J w satisfies G lambda = w *)
  Theorem initial_feasible w d k : In d all -> (k < ksize d)%nat -> G_of (Gt_of (J_of w)) d k = w d k.
  Proof. intros Id Hk. rewrite G_Gt. apply (proj2 (HJ w d k Id Hk)). Qed.
End Orthogonal.

(** C94 (finding): the type NONE is never left: a projector that was updated without kernels ignores the kernels of a later update *)
Theorem type_none_stays_refuted : ~ (forall type totals, type = GGT \/ type = LU -> last totals 0%nat <> 0%nat -> fold_left type_after_update totals type = type).
Proof. intros H. specialize (H GGT [0; 1]%nat (or_introl eq_refl)). cbn in H. specialize (H ltac:(lia)). discriminate. Qed.
Theorem type_kept type totals : Forall (fun t => 0 < t)%nat totals -> fold_left type_after_update totals type = type.
Proof. revert type. induction totals as [|t totals IH]; intros type H; [reflexivity|]. inversion H as [|? ? H1 H2]; subst. cbn [fold_left]. unfold type_after_update at 2. destruct (Nat.eqb_spec t 0); [lia|]. now apply IH. Qed.

(** ** A case: the mesh of P_Dual, domains 2 (rank 1) and 4 (rank 2) have one kernel, the last element of their vectors is free *)
Definition pj_row (m d : nat) : list (nat * R) :=
  if existsb (Nat.eqb d) (domains ex_L m) then [(0%nat, if (hd 0%nat (domains ex_L m) =? d)%nat then 1 else -1)] else [].
Definition pj_len (d : nat) : nat := 2.
Definition pj_ksize (d : nat) : nat := if (d =? 2)%nat || (d =? 4)%nat then 1 else 0.
Definition pj_R (d k j : nat) : R := 1.
Definition pj_inverse (d k d' k' : nat) : R := if (d =? 2)%nat then (if (d' =? 2)%nat then 2 / 7 else 1 / 7) else (if (d' =? 2)%nat then 1 / 7 else 4 / 7).
Definition pj_dist (chunk threads size : nat) : list nat := match kernel_distribution chunk threads size [0; 0]%nat with Ok d => d | _ => [] end.
Definition pj (r : nat) : projector R :=
  {| threads := 3; dist := pj_dist 8 3 (kernels pj_ksize (own ex_first r)); koffset := kernels_before ex_first pj_ksize r; ksize_local := kernels pj_ksize (own ex_first r);
     ktotal := kernels pj_ksize (everything 3 ex_first); mG := G_stored ex_first ex_L pj_len pj_row pj_ksize pj_R r; invGGt := kernel_rows 3 ex_first pj_ksize (own ex_first r) pj_inverse;
     invL := []; invU := []; mR1 := R_stored ex_first pj_len pj_ksize pj_R r; arrGx := repeat 7 2; arrIGGtGx := repeat 8 (kernels pj_ksize (own ex_first r)); arrMid := repeat 9 2;
     deco := decomposed ex_first ex_nbs r; dmap := ex_map r; sendBuffer := tf_buf r; recvBuffer := tf_buf r |}.
Lemma pj_entries : entries_ok ex_L pj_len pj_row.
Proof.
  intros m d Hm. unfold pj_row. destruct (existsb (Nat.eqb d) (domains ex_L m)) eqn:E.
  - split; [intros e [<-|[]]; cbn; unfold pj_len; lia|]. intros N. destruct N. apply existsb_exists in E as (d' & I & E). apply Nat.eqb_eq in E. now subst.
  - split; [intros e []|reflexivity].
Qed.
Lemma pj_keeps r : (r < 3)%nat -> keeps 3 ex_first ex_L ex_nbs ex_cmap (fun r => nth r [5; 4; 3]%nat 0%nat) ex_itv [7%nat] pj_len pj_row pj_ksize pj_R (Whole pj_inverse) GGT r (pj r).
Proof.
  intros Hr. split; try reflexivity.
  - cbn [pj threads dist]. unfold pj_dist. destruct (kernel_distribution_covers 8 3 (kernels pj_ksize (own ex_first r)) [0; 0]%nat ltac:(lia) ltac:(lia) ltac:(discriminate) eq_refl) as (d & -> & D). exact D.
  - split; reflexivity.
  - cbn [pj arrIGGtGx]. apply repeat_length.
  - now apply ex_map_ok.
  - now apply ex_intervals_ok.
  - apply tf_buffers.
  - apply tf_buffers.
Qed.
Example pj_apply_ex x : run_apply 0 1 Rplus Rmult Ropp 3 7 GGT pj (dual ex_first ex_L x) (dual ex_first ex_L x) (dual ex_first ex_L (fun _ => 5)) (dual ex_first ex_L (P_of 3 ex_first ex_L pj_len pj_row pj_ksize pj_R (Whole pj_inverse) x)).
Proof.
  assert (Hl : forall r q, (r < 3)%nat -> In q (ex_nbs r) -> (length (common ex_first ex_L r q) <= 7)%nat).
  { intros r q Hr. cases_lt r Hr; cbn; intros Hq; repeat (destruct Hq as [<-|Hq]; [cbn; lia|]); destruct Hq. }
  apply (orthogonal_apply_computes 3 7 ex_first ex_L ex_nbs ex_cmap (fun r => nth r [5; 4; 3]%nat 0%nat) ex_itv [7%nat] ex_consistent ltac:(lia) Hl); [|exact pj_keeps|].
  - apply pj_entries.
  - intros r Hr. unfold dual, vector. apply map_length.
Qed.
Example pj_inverts : inverts 3 ex_first ex_L pj_len pj_row pj_ksize pj_R (Whole pj_inverse).
Proof.
  assert (E : everything 3 ex_first = [0; 1; 2; 3; 4]%nat) by reflexivity.
  assert (GG : forall d d', (d = 2 \/ d = 4)%nat -> (d' = 2 \/ d' = 4)%nat -> GGt ex_L pj_len pj_row pj_R d 0 d' 0 = if (d =? 2)%nat then (if (d' =? 2)%nat then 4 else -1) else (if (d' =? 2)%nat then -1 else 2)).
  { intros d d' [-> | ->] [-> | ->]; cbn [Nat.eqb]; unfold GGt, S_Projector.G, B, multiplier_list, Sum, pj_row, pj_len, pj_R; cbn; lra. }
  intros w d k Id Hk. rewrite E in Id. assert (D : (d = 2 \/ d = 4)%nat /\ k = 0%nat).
  { repeat (destruct Id as [<-|Id]; [cbn in Hk; lia|]). destruct Id. }
  destruct D as [D ->]. cbn [inverse_of]. unfold kernel_product. rewrite E.
  assert (S : forall f : nat -> nat -> R, Sum [0; 1; 2; 3; 4]%nat (fun d' => Sum (seq 0 (pj_ksize d')) (fun k' => f d' k')) = f 2%nat 0%nat + f 4%nat 0%nat) by (intros f; unfold Sum; cbn; lra).
  rewrite !S. rewrite !(GG 2%nat), !(GG 4%nat) by auto. rewrite ?S. destruct D as [-> | ->]; rewrite ?(GG 2%nat), ?(GG 4%nat) by auto; unfold pj_inverse; cbn [Nat.eqb]; split; lra.
Qed.
(** G of this case: the rows of domains 2 and 4 *)
Example pj_G_ex : G_stored ex_first ex_L pj_len pj_row pj_ksize pj_R 1 = [[(0%nat, 1); (1%nat, 1); (2%nat, 1); (3%nat, -1)]] /\ G_stored ex_first ex_L pj_len pj_row pj_ksize pj_R 2 = [[(1%nat, 1); (2%nat, 1)]].
Proof. split; unfold G_stored, G_line, S_Projector.G, B, Sum, pj_row, pj_len, pj_R; cbn; repeat f_equal; lra. Qed.

Print Assumptions kernel_distribution_covers.
Print Assumptions projector_apply_computes.
Print Assumptions orthogonal_apply_computes.
Print Assumptions conjugate_applyT_computes.
Print Assumptions GtintGGtG_computes.
Print Assumptions GtintGGt_computes.
Print Assumptions R_computes.
Print Assumptions RinvGGtG_computes.
Print Assumptions RinvGGtG_conjugate_zero.
Print Assumptions factor_computes.
Print Assumptions invLG_computes.
Print Assumptions GtinvU_computes.
Print Assumptions e_computes.
Print Assumptions P_keeps.
Print Assumptions G_of_P.
Print Assumptions P_idempotent.
Print Assumptions P_symmetric.
Print Assumptions P_closest.
Print Assumptions initial_feasible.
Print Assumptions type_none_stays_refuted.
Print Assumptions type_kept.
