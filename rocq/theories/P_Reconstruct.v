(** * Properties of the reconstruction of the primal solution: C95 *)
From Coq Require Import List Arith Bool Permutation Sorted Reals Lia Lra.
From Verif Require Import Base S_Nb M_Dual S_Dual P_Dual L_Dual5 S_Equality M_Equality L_Equality6 M_TotalFeti S_Feti L_TotalFeti L_TotalFeti2 P_TotalFeti M_Projector S_Projector L_Projector L_Projector2 L_Projector3 M_ProjectorRanks S_ProjectorRanks P_Projector M_Reconstruct S_Reconstruct.
Import ListNotations.
Local Open Scope out_scope.
Local Open Scope R_scope.

(* ---- the equations ---------------------------------------------------------------------- *)
Section Equations.
  Variables (n : nat) (first : nat -> nat) (L : list (list nat)) (len : nat -> nat) (row : nat -> nat -> list (nat * R)) (ksize : nat -> nat) (Rk : nat -> nat -> nat -> R) (J : inverse).
  Variables (K kplus : nat -> nat -> nat -> R) (f : nat -> nat -> R) (c lambda : nat -> R).
  Local Notation all := (everything n first).
  Local Notation G_of := (G_of L len row Rk).
  Local Notation Gt_of := (Gt_of n first len row ksize Rk).
  Local Notation R_of := (R_of ksize Rk).
  Local Notation B_of := (B_of n first len row).
  Local Notation Bt_of := (Bt_of L row).
  Local Notation Kplus_of := (Kplus_of len kplus).
  Local Notation F_of := (F_of n first L len row kplus).
  Local Notation J_of := (inverse_of n first ksize J).
  (** u = K+ (f - B^T lambda) + R^T a *)
  Definition primal (a : nat -> nat -> R) (d j : nat) : R := Kplus_of (fun d j => f d j - Bt_of lambda d j) d j + R_of a d j.
  (** d - F lambda *)
  Definition dual_residual (m : nat) : R := B_of (Kplus_of f) m - c m - F_of lambda m.

  Lemma Sum_opp {A} (l : list A) g : Sum l (fun x => - g x) = - Sum l g.
  Proof. rewrite (Sum_ext _ _ (fun x => (-1) * g x)) by (intros; lra). rewrite Sum_scal. lra. Qed.
  Lemma B_R a m : B_of (R_of a) m = - Gt_of a m.
  Proof.
    unfold S_Feti.B_of, S_Projector.Gt_of, S_Projector.R_of, S_Projector.G. rewrite <- Sum_opp. apply Sum_ext. intros d. rewrite <- Sum_opp.
    rewrite (Sum_ext (seq 0 (ksize d)) _ (fun k => Sum (seq 0 (len d)) (fun j => B row m d j * (Rk d k j * a d k)))).
    - rewrite Sum_swap. apply Sum_ext. intros j. now rewrite Sum_scal.
    - intros k. rewrite Ropp_mult_distr_l, Ropp_involutive. rewrite <- Sum_scal_r. apply Sum_ext. intros j. lra.
  Qed.
  Lemma B_plus u v m : B_of (fun d j => u d j + v d j) m = B_of u m + B_of v m.
  Proof. unfold S_Feti.B_of. rewrite <- Sum_plus. apply Sum_ext. intros d. rewrite <- Sum_plus. apply Sum_ext. intros j. lra. Qed.
  Lemma B_minus u v m : B_of (fun d j => u d j - v d j) m = B_of u m - B_of v m.
  Proof.
    unfold S_Feti.B_of, Rminus. rewrite <- Sum_opp, <- Sum_plus. apply Sum_ext. intros d. rewrite <- Sum_opp, <- Sum_plus. apply Sum_ext. intros j. lra.
  Qed.
  Lemma Kplus_minus u v d i : Kplus_of (fun d j => u d j - v d j) d i = Kplus_of u d i - Kplus_of v d i.
  Proof.
    unfold S_Feti.Kplus_of. rewrite (Sum_ext _ _ (fun j => kplus d i j * u d j + (-1) * (kplus d i j * v d j))) by (intros; lra). rewrite Sum_plus, Sum_scal. lra.
  Qed.
  (** C95: the gap at the interface is exactly the projected residual *)
  Theorem gap_is_projected_residual m : B_of (primal (J_of (G_of dual_residual))) m - c m = P_of n first L len row ksize Rk J dual_residual m.
  Proof.
    unfold primal. rewrite B_plus, B_R. unfold P_of. assert (E : B_of (Kplus_of (fun d j => f d j - Bt_of lambda d j)) m = B_of (Kplus_of f) m - F_of lambda m).
    { unfold S_Feti.F_of. rewrite <- B_minus. unfold S_Feti.B_of. apply Sum_ext. intros d. apply Sum_ext. intros j. now rewrite Kplus_minus. }
    rewrite E. unfold dual_residual at 2. lra.
  Qed.
  (** C95: G lambda = e means that f - B^T lambda is orthogonal to the kernels *)
  Lemma G_load d k : G_of lambda d k - e_of len Rk f d k = Sum (seq 0 (len d)) (fun j => Rk d k j * (f d j - Bt_of lambda d j)).
  Proof.
    unfold S_Projector.G_of, e_of, S_Feti.Bt_of, S_Projector.G.
    assert (E : Sum (multiplier_list L) (fun m => - Sum (seq 0 (len d)) (fun j => Rk d k j * B row m d j) * lambda m) = - Sum (seq 0 (len d)) (fun j => Rk d k j * Sum (multiplier_list L) (fun m => B row m d j * lambda m))).
    { rewrite (Sum_ext _ _ (fun m => (-1) * Sum (seq 0 (len d)) (fun j => Rk d k j * (B row m d j * lambda m)))).
      - rewrite Sum_scal, Sum_swap. rewrite (Sum_ext _ (fun j => Sum (multiplier_list L) (fun m => Rk d k j * (B row m d j * lambda m))) (fun j => Rk d k j * Sum (multiplier_list L) (fun m => B row m d j * lambda m))) by (intros; now rewrite Sum_scal). lra.
      - intros m. replace (- Sum (seq 0 (len d)) (fun j => Rk d k j * B row m d j) * lambda m) with ((-1) * (Sum (seq 0 (len d)) (fun j => Rk d k j * B row m d j) * lambda m)) by lra. f_equal. rewrite <- Sum_scal_r. apply Sum_ext. intros j. lra. }
    rewrite E. rewrite (Sum_ext _ (fun j => Rk d k j * (f d j - _)) (fun j => Rk d k j * f d j + (-1) * (Rk d k j * Sum (multiplier_list L) (fun m => B row m d j * lambda m)))) by (intros; lra). rewrite Sum_plus, Sum_scal. lra.
  Qed.
  Theorem reconstructed_equilibrium a : kernels_of n first len ksize Rk K -> generalized_inverse n first len ksize Rk K kplus ->
    (forall d k, In d all -> (k < ksize d)%nat -> G_of lambda d k = e_of len Rk f d k) -> equilibrium n first L len row K f (primal a) lambda.
  Proof.
    intros HK HP HG d i Id Hi. unfold K_of, primal. rewrite (Sum_ext _ _ (fun j => K d i j * Kplus_of (fun d j => f d j - Bt_of lambda d j) d j + K d i j * R_of a d j)) by (intros; lra). rewrite Sum_plus.
    change (Sum (seq 0 (len d)) (fun j => K d i j * Kplus_of (fun d j => f d j - Bt_of lambda d j) d j)) with (K_of len K (Kplus_of (fun d j => f d j - Bt_of lambda d j)) d i). rewrite HP by (auto; intros k Hk; rewrite <- G_load, HG by auto; lra).
    replace (Sum (seq 0 (len d)) (fun j => K d i j * R_of a d j)) with 0; [lra|]. unfold S_Projector.R_of. rewrite (Sum_ext _ _ (fun j => Sum (seq 0 (ksize d)) (fun k => K d i j * Rk d k j * a d k))).
    - rewrite Sum_swap. symmetry. apply Sum_zero. intros k Ik. apply in_seq in Ik. rewrite Sum_scal_r, HK by (auto; lia). lra.
    - intros j. rewrite <- Sum_scal. apply Sum_ext. intros k. lra.
  Qed.
  (** C95: a dual solution gives a primal solution *)
  Theorem dual_solution_solves : kernels_of n first len ksize Rk K -> generalized_inverse n first len ksize Rk K kplus ->
    (forall d k, In d all -> (k < ksize d)%nat -> G_of lambda d k = e_of len Rk f d k) -> (forall m, (m < length L)%nat -> P_of n first L len row ksize Rk J dual_residual m = 0) ->
    equilibrium n first L len row K f (primal (J_of (G_of dual_residual))) lambda /\ compatible n first L len row c (primal (J_of (G_of dual_residual))).
  Proof.
    intros HK HP HG HR. split; [now apply reconstructed_equilibrium|]. intros m Hm. pose proof (gap_is_projected_residual m) as E. rewrite HR in E by easy. lra.
  Qed.
End Equations.

(* ---- the program -------------------------------------------------------------------------- *)
Section Program.
  Variables (n limit : nat) (first : nat -> nat) (L : list (list nat)) (nb : nat -> list nat) (cmap : nat -> list nat) (sz : nat -> nat) (itv : nat -> list (nat * nat)) (sizes : list nat).
  Hypothesis HC : consistent n first L nb cmap.
  Hypothesis Hn : (0 < n)%nat.
  Variables (len : nat -> nat) (row : nat -> nat -> list (nat * R)).
  Hypothesis HB : entries_ok L len row.
  Variables (ksize : nat -> nat) (Rk : nat -> nat -> nat -> R) (J : inverse) (type : ggt_type) (p : nat -> projector R).
  Hypothesis HP : forall r, (r < n)%nat -> keeps n first L nb cmap sz itv sizes len row ksize Rk J type r (p r).
  Variables (kplus : nat -> nat -> nat -> R) (solve : nat -> nat -> list R -> list R).
  Hypothesis HS : forall r, (r < n)%nat -> solves first len kplus r (solve r).
  Local Notation own := (own first).
  Local Notation G_of := (G_of L len row Rk).
  Local Notation J_of := (inverse_of n first ksize J).
  Local Notation dual := (dual first L).
  Local Notation primal := (primal L len row ksize Rk kplus).
  Local Notation st := (stored first L len row).

  Lemma reconstruct_dense u v ds : reconstruct 1 Rplus Rmult (map (dense len u) ds) (map (dense len v) ds) = map (dense len (fun d j => u d j + v d j)) ds.
  Proof.
    unfold reconstruct. induction ds as [|d ds IH]; [reflexivity|]. cbn [map combine fst snd]. f_equal; [|exact IH]. unfold dense. generalize (seq 0 (len d)). intros l. induction l as [|j l IHl]; [reflexivity|].
    cbn [map combine fst snd]. f_equal; [lra|exact IHl].
  Qed.
  (** C95: the vectors of all domains after reconstructSolution(l, r) *)
  Theorem reconstruct_computes (f : nat -> nat -> R) (lambda rho : nat -> R) (Ra : nat -> list (list R)) : (forall r, (r < n)%nat -> map (@length R) (Ra r) = map len (own r)) ->
    run_reconstruct 0 1 Rplus Rmult Ropp n type p st solve false (fun r => map (dense len f) (own r)) (dual lambda) (dual rho) Ra
      (fun r => map (dense len (primal f lambda (J_of (G_of rho)))) (own r)) (fun r => map (dense len (Bt_of L row lambda)) (own r)).
  Proof.
    intros Lr. exists (fun r => map (dense len (Kplus_of len kplus (fun d j => f d j - Bt_of L row lambda d j))) (own r)), (fun r => map (dense len (R_of ksize Rk (J_of (G_of rho)))) (own r)).
    split; [|split; [|split]].
    - intros r Hr. apply (to_primal_computes n first L len row HB kplus solve HS f lambda r Hr).
    - intros r Hr. apply (all_Btx_ok first L len row HB r).
    - now apply (RinvGGtG_computes n first L nb cmap sz itv sizes HC Hn len row HB ksize Rk J type p HP).
    - intros r Hr. rewrite reconstruct_dense. reflexivity.
  Qed.
  (** C95: and after reconstructSolution(l, rbm); the first multipliers of every rank are the equalities *)
  Theorem reconstruct_rbm_computes (equality : nat -> bool) (equalities : nat -> nat) (f : nat -> nat -> R) (lambda : nat -> R) (w : nat -> nat -> R) (Ra : nat -> list (list R)) :
    (forall r, (r < n)%nat -> map (@length R) (Ra r) = map len (own r)) ->
    (forall r, (r < n)%nat -> map equality (held first L r) = repeat true (equalities r) ++ repeat false (length (held first L r) - equalities r)) ->
    run_reconstruct_rbm 0 1 Rplus Rmult Ropp n type p st solve equalities (fun r => map (dense len f) (own r)) (dual lambda) (fun _ => kernel_vector ksize (everything n first) w) Ra
      (fun r => map (dense len (primal f lambda w)) (own r)) (fun r => map (dense len (Bt_of L row lambda)) (own r))
      (fun r => map (dense len (Bt_of L row (fun m => if equality m then 0 else lambda m))) (own r)).
  Proof.
    intros Lr He. exists (fun r => map (dense len (Kplus_of len kplus (fun d j => f d j - Bt_of L row lambda d j))) (own r)), (fun r => map (dense len (R_of ksize Rk w)) (own r)).
    split; [|split; [|split; [|split]]].
    - intros r Hr. apply (to_primal_computes n first L len row HB kplus solve HS f lambda r Hr).
    - intros r Hr. apply (all_Btx_ok first L len row HB r).
    - intros r Hr. unfold BtL. rewrite <- (all_Btx_ok first L len row HB r). f_equal. specialize (He r Hr). unfold S_Feti.dual, vector. revert He. generalize (equalities r). generalize (held first L r). clear. intros l.
      induction l as [|m l IH]; intros e He.
      + destruct e; [reflexivity|discriminate].
      + destruct e as [|e]; cbn [repeat app skipn map] in *.
        * assert (X : forall x, In x (m :: l) -> equality x = false). { intros x Ix. cbn [length Nat.sub] in He. assert (I : In (equality x) (map equality (m :: l))) by (now apply in_map). cbn [map] in I. rewrite He in I. now apply repeat_spec in I. }
          f_equal; [now rewrite X by now left|]. apply map_ext_in. intros x Ix. now rewrite X by now right.
        * cbn [length Nat.sub] in He. injection He as E1 E2. rewrite E1. f_equal. now apply IH.
    - now apply (R_computes n first L nb cmap sz itv sizes HC Hn len row ksize Rk J type p HP).
    - intros r Hr. rewrite reconstruct_dense. reflexivity.
  Qed.
  (** C95: the reported norms *)
  Variables (K : nat -> nat -> nat -> R) (applyK : nat -> nat -> list R -> list R).
  Hypothesis HK : forall r, (r < n)%nat -> multiplies first len K r (applyK r).
  Lemma axpy_dense u a v d : axpy Rplus Rmult (dense len u d) a (dense len v d) = dense len (fun d j => u d j + a * v d j) d.
  Proof. unfold axpy, dense. generalize (seq 0 (len d)). intros l. induction l as [|j l IH]; [reflexivity|]. cbn [map combine fst snd]. now rewrite IH. Qed.
  Lemma dot_dense u d : blas_dot 0 Rplus Rmult (dense len u d) (dense len u d) = Sum (seq 0 (len d)) (fun j => u d j * u d j).
  Proof.
    unfold blas_dot, dense. assert (G : forall l s, fold_left (fun s p => s + fst p * snd p) (combine (map (u d) l) (map (u d) l)) s = s + Sum l (fun j => u d j * u d j)).
    { induction l as [|j l IH]; intros s; [rewrite Sum_nil; cbn; lra|]. cbn [map combine fold_left fst snd]. rewrite IH, Sum_cons. lra. }
    rewrite G. lra.
  Qed.
  Definition local_residual (f u : nat -> nat -> R) (lambda : nat -> R) (d : nat) : R := Sum (seq 0 (len d)) (fun i => (K_of len K u d i + Bt_of L row lambda d i - f d i) * (K_of len K u d i + Bt_of L row lambda d i - f d i)).
  Definition local_load (f : nat -> nat -> R) (lambda : nat -> R) (d : nat) : R := Sum (seq 0 (len d)) (fun i => (f d i - Bt_of L row lambda d i) * (f d i - Bt_of L row lambda d i)).
  Lemma kkt_domain_ok r f u lambda d acc : (r < n)%nat -> In d (own r) ->
    kkt_domain 0 1 Rplus Rmult Ropp (applyK r) acc ((d - first r)%nat, (dense len u d, (dense len f d, dense len (Bt_of L row lambda) d))) = (fst acc + local_residual f u lambda d, snd acc + local_load f lambda d).
  Proof.
    intros Hr Id. unfold kkt_domain. rewrite (HK r Hr d) by (auto; now rewrite dense_length).
    rewrite (dense_ext len (K_of len K (fun _ j => nth j (dense len u d) 0)) (K_of len K u) d).
    - rewrite !axpy_dense, !dot_dense. f_equal; f_equal; apply Sum_ext; intros i; lra.
    - intros i Hi. apply Sum_ext_in. intros j Ij. apply in_seq in Ij. now rewrite dense_nth by lia.
  Qed.
  Theorem kkt_local_computes (f u : nat -> nat -> R) (lambda : nat -> R) r : (r < n)%nat ->
    kkt_local 0 1 Rplus Rmult Ropp (applyK r) (map (dense len u) (own r)) (map (dense len f) (own r)) (map (dense len (Bt_of L row lambda)) (own r)) = (Sum (own r) (local_residual f u lambda), Sum (own r) (local_load f lambda)).
  Proof.
    intros Hr. unfold kkt_local. rewrite map_length. pose proof (own_seq first r) as OS. unfold S_Feti.own in *. rewrite OS.
    assert (G : forall ds acc, incl ds (own_domains first r) -> fold_left (kkt_domain 0 1 Rplus Rmult Ropp (applyK r)) (combine (map (fun d => (d - first r)%nat) ds) (combine (map (dense len u) ds) (combine (map (dense len f) ds) (map (dense len (Bt_of L row lambda)) ds)))) acc =
      (fst acc + Sum ds (local_residual f u lambda), snd acc + Sum ds (local_load f lambda))).
    { induction ds as [|d ds IH]; intros acc I; [rewrite !Sum_nil, !Rplus_0_r; now destruct acc|]. cbn [map combine fold_left]. rewrite kkt_domain_ok by (auto; apply I; now left). rewrite IH by (intros x Ix; apply I; now right). cbn [fst snd]. rewrite !Sum_cons, !Rplus_assoc. reflexivity. }
    rewrite G by apply incl_refl. cbn [fst snd]. now rewrite !Rplus_0_l.
  Qed.
  Theorem kkt_computes (f u : nat -> nat -> R) (lambda : nat -> R) (s0 s1 : R) :
    reduction Rplus (map (fun r => fst (kkt_local 0 1 Rplus Rmult Ropp (applyK r) (map (dense len u) (own r)) (map (dense len f) (own r)) (map (dense len (Bt_of L row lambda)) (own r)))) (seq 0 n)) s0 ->
    reduction Rplus (map (fun r => snd (kkt_local 0 1 Rplus Rmult Ropp (applyK r) (map (dense len u) (own r)) (map (dense len f) (own r)) (map (dense len (Bt_of L row lambda)) (own r)))) (seq 0 n)) s1 ->
    s0 = residual n first L len row K f u lambda /\ s1 = load n first L len row f lambda.
  Proof.
    assert (RS : forall (g : nat -> R) s, reduction Rplus (map (fun r => Sum (own r) g) (seq 0 n)) s -> s = Sum (everything n first) g).
    { intros g s Rd. rewrite <- (own_all n first L nb cmap HC), Sum_flat_map. rewrite (reduction_sum 0 Rplus ltac:(intros x y z; lra) ltac:(intros x y; lra) ltac:(intros; lra) _ _ Rd). clear.
      unfold L_Dual5.sum. induction (seq 0 n) as [|r l IH]; [reflexivity|]. cbn [map fold_right]. now rewrite IH, Sum_cons. }
    intros R0 R1. split.
    - apply (RS (local_residual f u lambda)). rewrite (map_ext_in _ (fun r => Sum (own r) (local_residual f u lambda))) in R0; [exact R0|]. intros r Ir. apply in_seq in Ir. now rewrite kkt_local_computes by lia.
    - apply (RS (local_load f lambda)). rewrite (map_ext_in _ (fun r => Sum (own r) (local_load f lambda))) in R1; [exact R1|]. intros r Ir. apply in_seq in Ir. now rewrite kkt_local_computes by lia.
  Qed.
End Program.
(** C95: the reported residual is zero exactly if the equations hold *)
Theorem kkt_zero n first L len row K f u lambda : residual n first L len row K f u lambda = 0 <-> equilibrium n first L len row K f u lambda.
Proof.
  assert (SP : forall (l : list nat) g, (forall x, In x l -> 0 <= g x) -> 0 <= Sum l g).
  { intros l g. induction l as [|x l IH]; intros H; [rewrite Sum_nil; lra|]. rewrite Sum_cons. pose proof (H x (or_introl eq_refl)). specialize (IH (fun y I => H y (or_intror I))). lra. }
  assert (SZ : forall (l : list nat) g, (forall x, In x l -> 0 <= g x) -> Sum l g = 0 -> forall x, In x l -> g x = 0).
  { intros l g. induction l as [|x l IH]; intros H Z y I; [destruct I|]. rewrite Sum_cons in Z. pose proof (H x (or_introl eq_refl)). pose proof (SP l g (fun y I => H y (or_intror I))).
    destruct I as [<-|I]; [lra|]. apply IH; auto; [intros z Iz; apply H; now right|lra]. }
  unfold residual, equilibrium. split.
  - intros Z d i Id Hi.
    assert (Z1 := SZ _ _ (fun d _ => SP (seq 0 (len d)) (fun i => (K_of len K u d i + Bt_of L row lambda d i - f d i) * (K_of len K u d i + Bt_of L row lambda d i - f d i)) (fun i _ => Rle_0_sqr _)) Z d Id). cbn beta in Z1.
    assert (Z2 := SZ _ _ (fun i _ => Rle_0_sqr (K_of len K u d i + Bt_of L row lambda d i - f d i)) Z1 i ltac:(apply in_seq; lia)). apply Rsqr_0_uniq in Z2. lra.
  - intros H. apply Sum_zero. intros d Id. apply Sum_zero. intros i Ii. apply in_seq in Ii. rewrite H by (auto; lia). lra.
Qed.

(** ** A case: the mesh and the projector of P_Projector; domains 2 and 4 float, the others are fixed *)
Definition rc_K (d i j : nat) : R := if (d =? 2)%nat || (d =? 4)%nat then (if (i =? j)%nat then 1 else -1) else (if (i =? j)%nat then 2 else 0).
Definition rc_kplus (d i j : nat) : R := if (d =? 2)%nat || (d =? 4)%nat then (if (i =? 0)%nat && (j =? 0)%nat then 1 else 0) else (if (i =? j)%nat then / 2 else 0).
Definition rc_solve (r i : nat) (v : list R) : list R := dense pj_len (Kplus_of pj_len rc_kplus (fun _ j => nth j v 0)) (ex_first r + i).
Lemma rc_solves r : solves ex_first pj_len rc_kplus r (rc_solve r).
Proof. intros d v Id Lv. unfold rc_solve. unfold own, own_domains in Id. apply in_seq in Id. f_equal. lia. Qed.
Lemma rc_kernels : kernels_of 3 ex_first pj_len pj_ksize pj_R rc_K.
Proof.
  intros d k i Id Hk Hi. unfold pj_ksize, rc_K, pj_R, pj_len in *. destruct ((d =? 2)%nat || (d =? 4)%nat); [|lia]. unfold Sum. destruct i as [|[|i]]; [| |lia]; cbn; lra.
Qed.
Lemma rc_inverse : generalized_inverse 3 ex_first pj_len pj_ksize pj_R rc_K rc_kplus.
Proof.
  intros g d i Id Hi O. unfold K_of, Kplus_of, rc_K, rc_kplus, pj_ksize, pj_R, pj_len in *. destruct ((d =? 2)%nat || (d =? 4)%nat).
  - specialize (O 0%nat ltac:(lia)). unfold Sum in *. destruct i as [|[|i]]; [| |lia]; cbn in *; lra.
  - unfold Sum. destruct i as [|[|i]]; [| |lia]; cbn; lra.
Qed.
Example rc_computes (f : nat -> nat -> R) (lambda rho : nat -> R) :
  run_reconstruct 0 1 Rplus Rmult Ropp 3 GGT pj (stored ex_first ex_L pj_len pj_row) rc_solve false (fun r => map (dense pj_len f) (own ex_first r)) (dual ex_first ex_L lambda) (dual ex_first ex_L rho)
    (fun r => map (fun _ => [5; 5]) (own ex_first r))
    (fun r => map (dense pj_len (primal ex_L pj_len pj_row pj_ksize pj_R rc_kplus f lambda (inverse_of 3 ex_first pj_ksize (Whole pj_inverse) (G_of ex_L pj_len pj_row pj_R rho)))) (own ex_first r))
    (fun r => map (dense pj_len (Bt_of ex_L pj_row lambda)) (own ex_first r)).
Proof.
  apply (reconstruct_computes 3 ex_first ex_L ex_nbs ex_cmap (fun r => nth r [5; 4; 3]%nat 0%nat) ex_itv [7%nat] ex_consistent ltac:(lia) pj_len pj_row pj_entries pj_ksize pj_R (Whole pj_inverse) GGT pj pj_keeps rc_kplus rc_solve).
  - intros r _. apply rc_solves.
  - intros r _. rewrite !map_map. reflexivity.
Qed.
(** loads that are in balance with the multipliers 0, 1, 2, ... *)
Definition rc_g (d j : nat) : R := if (j =? 0)%nat then 1 else -1.
Definition rc_f (d j : nat) : R := rc_g d j + Bt_of ex_L pj_row INR d j.
Definition rc_c (m : nat) : R := B_of 3 ex_first pj_len pj_row (Kplus_of pj_len rc_kplus rc_g) m.
Example rc_solution : let u := primal ex_L pj_len pj_row pj_ksize pj_R rc_kplus rc_f INR
    (inverse_of 3 ex_first pj_ksize (Whole pj_inverse) (G_of ex_L pj_len pj_row pj_R (dual_residual 3 ex_first ex_L pj_len pj_row rc_kplus rc_f rc_c INR))) in
  equilibrium 3 ex_first ex_L pj_len pj_row rc_K rc_f u INR /\ compatible 3 ex_first ex_L pj_len pj_row rc_c u.
Proof.
  apply dual_solution_solves; [exact rc_kernels|exact rc_inverse| |].
  - intros d k Id Hk.
    pose proof (G_load ex_L pj_len pj_row pj_R rc_f INR d k) as E.
    assert (Z : Sum (seq 0 (pj_len d)) (fun j => pj_R d k j * (rc_f d j - Bt_of ex_L pj_row INR d j)) = 0).
    { rewrite (Sum_ext _ _ (fun j => rc_g d j)) by (intros; unfold pj_R, rc_f; lra). unfold Sum, rc_g, pj_len. cbn. lra. }
    lra.
  - intros m Hm. assert (Z : forall m, dual_residual 3 ex_first ex_L pj_len pj_row rc_kplus rc_f rc_c INR m = 0).
    { intros m'. unfold dual_residual, rc_c, F_of. rewrite <- !(B_minus 3 ex_first pj_len pj_row). apply Sum_zero. intros d Id. apply Sum_zero. intros j _.
      rewrite <- !(Kplus_minus pj_len rc_kplus). unfold Kplus_of. rewrite Sum_zero; [lra|]. intros i _. unfold rc_f. lra. }
    rewrite P_keeps; [apply Z|]. intros d k _ _. apply Sum_zero. intros m' _. rewrite Z. lra.
Qed.

Print Assumptions gap_is_projected_residual.
Print Assumptions reconstructed_equilibrium.
Print Assumptions dual_solution_solves.
Print Assumptions reconstruct_computes.
Print Assumptions reconstruct_rbm_computes.
Print Assumptions kkt_local_computes.
Print Assumptions kkt_computes.
Print Assumptions kkt_zero.
