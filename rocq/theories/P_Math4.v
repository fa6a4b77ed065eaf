(** * C53, C83: orthonormalization and regularization over the real numbers (math.cpp) *)
From Coq Require Import List Bool Arith Permutation Sorted Lia Reals Lra RealField.
From Verif Require Import Base S_Order M_Csx M_Math S_Csx S_Dnx S_Math S_Math3 L_Utils L_Sort L_Various L_Csx L_Csx2 P_Csx L_Math L_Math3 L_Math4 P_Math2 P_Math3.
Import ListNotations.
Local Open Scope out_scope.

Section Blas.
Context {T : Type}.
Variables zero one : T.
Variables add mul : T -> T -> T.
Variables n m : nat.
Local Notation get := (L_Math3.get zero m).

Lemma blas_dot_ok (A : list T) a b : length A = n * m -> a < n -> b < n ->
  blas_dot mul zero add m A (a * m) (b * m) = Ok (row_dot zero add mul m (get A) a b).
Proof.
  intros L Ha Hb. unfold blas_dot, row_dot.
  destruct (foldM_seq_inv (fun s k => x <- rd A (a * m + k) ;; y <- rd A (b * m + k) ;; Ok (add s (mul x y)))
    (fun k s => s = sum zero add k (fun c => mul (get A a c) (get A b c))) 0 m zero) as (s & E & ->).
  - reflexivity.
  - intros k s Hk ->. rewrite (rd_ok A (a * m + k) zero), (rd_ok A (b * m + k) zero) by (rewrite L; apply pos_lt; lia). cbn [obind].
    eexists. split; [reflexivity|]. reflexivity.
  - exact E.
Qed.

Lemma blas_add_ok (A : list T) a s b : length A = n * m -> a < n -> b < n -> a <> b ->
  exists A', blas_add mul add m (a * m) s (b * m) A = Ok A' /\ length A' = n * m /\
    forall r c, c < m -> get A' r c = if r =? a then add (get A a c) (mul s (get A b c)) else get A r c.
Proof.
  intros L Ha Hb NE. unfold blas_add.
  destruct (foldM_seq_inv (fun A k => x <- rd A (a * m + k) ;; y <- rd A (b * m + k) ;; wr A (a * m + k) (add x (mul s y)))
    (fun k A' => length A' = n * m /\ forall r c, c < m -> get A' r c = if (r =? a) && (c <? k) then add (get A a c) (mul s (get A b c)) else get A r c) 0 m A) as (A' & E & L' & G).
  - split; auto. intros r c _. now rewrite andb_false_r.
  - intros k A1 Hk [L1 G1]. rewrite (rd_ok A1 (a * m + k) zero), (rd_ok A1 (b * m + k) zero) by (rewrite L1; apply pos_lt; lia). cbn [obind].
    fold (get A1 a k). fold (get A1 b k). rewrite !G1 by lia. rewrite Nat.ltb_irrefl, !andb_false_r.
    destruct (set_get zero (fun _ _ => true) mul mul mul n m A1 a k (add (get A a k) (mul s (get A b k))) L1 Ha ltac:(lia)) as (A2 & E2 & L2 & G2).
    exists A2. split; auto. split; auto. intros r c Hc. rewrite G2, G1 by auto. unfold is_at. destruct (Nat.eqb_spec r a) as [->|]; cbn [andb]; auto.
    destruct (Nat.eqb_spec c k) as [->|].
    + destruct (Nat.ltb_spec k (S k)); [auto|lia].
    + destruct (Nat.ltb_spec c (S k)), (Nat.ltb_spec c k); try lia; auto.
  - exists A'. split; auto. split; auto. intros r c Hc. rewrite G by auto. destruct (Nat.ltb_spec c (0 + m)); [|lia]. now rewrite andb_true_r.
Qed.

Lemma blas_scale_ok (A : list T) a s : length A = n * m -> a < n ->
  exists A', blas_scale mul m s (a * m) A = Ok A' /\ length A' = n * m /\
    forall r c, c < m -> get A' r c = if r =? a then mul s (get A a c) else get A r c.
Proof.
  intros L Ha. unfold blas_scale.
  destruct (foldM_seq_inv (fun A k => x <- rd A (a * m + k) ;; wr A (a * m + k) (mul s x))
    (fun k A' => length A' = n * m /\ forall r c, c < m -> get A' r c = if (r =? a) && (c <? k) then mul s (get A a c) else get A r c) 0 m A) as (A' & E & L' & G).
  - split; auto. intros r c _. now rewrite andb_false_r.
  - intros k A1 Hk [L1 G1]. rewrite (rd_ok A1 (a * m + k) zero) by (rewrite L1; apply pos_lt; lia). cbn [obind].
    fold (get A1 a k). rewrite !G1 by lia. rewrite Nat.ltb_irrefl, !andb_false_r.
    destruct (set_get zero (fun _ _ => true) mul mul mul n m A1 a k (mul s (get A a k)) L1 Ha ltac:(lia)) as (A2 & E2 & L2 & G2).
    exists A2. split; auto. split; auto. intros r c Hc. rewrite G2, G1 by auto. unfold is_at. destruct (Nat.eqb_spec r a) as [->|]; cbn [andb]; auto.
    destruct (Nat.eqb_spec c k) as [->|].
    + destruct (Nat.ltb_spec k (S k)); [auto|lia].
    + destruct (Nat.ltb_spec c (S k)), (Nat.ltb_spec c k); try lia; auto.
  - exists A'. split; auto. split; auto. intros r c Hc. rewrite G by auto. destruct (Nat.ltb_spec c (0 + m)); [|lia]. now rewrite andb_true_r.
Qed.
End Blas.

(** ** Over the reals *)
Local Open Scope R_scope.
Notation rget := (L_Math3.get 0%R).
Notation rsum := (S_Math3.sum 0%R Rplus).
Notation rcombo := (S_Math3.combo 0%R Rplus Rmult).
Notation rdot := (row_dot 0%R Rplus Rmult).
Notation rindep := (S_Math3.independent 0%R Rplus Rmult).
Notation rspan := (S_Math3.spanned 0%R Rplus Rmult).
Notation rortho := (orthonormal 0%R 1%R Rplus Rmult).
Notation FT := Rfield.

Lemma rdot_sym m A i j : rdot m A i j = rdot m A j i.
Proof. apply (sum_ext 0 Rplus). intros. ring. Qed.

Lemma rdot_ext m A B i j : (forall c, (c < m)%nat -> A i c = B i c) -> (forall c, (c < m)%nat -> A j c = B j c) -> rdot m A i j = rdot m B i j.
Proof. intros H1 H2. apply (sum_ext 0 Rplus). intros k Hk. rewrite H1, H2 by auto. reflexivity. Qed.

Lemma rsum_nonneg n f : (forall k, (k < n)%nat -> 0 <= f k) -> 0 <= rsum n f.
Proof. induction n; intros H; cbn [S_Math3.sum]; [lra|]. pose proof (IHn ltac:(auto)). pose proof (H n ltac:(auto)). lra. Qed.

Lemma rsum_zero_all n f : (forall k, (k < n)%nat -> 0 <= f k) -> rsum n f = 0 -> forall k, (k < n)%nat -> f k = 0.
Proof.
  induction n as [|n IH]; intros H E k Hk; [lia|]. cbn [S_Math3.sum] in E. pose proof (rsum_nonneg n f ltac:(auto)) as P. pose proof (H n ltac:(auto)) as Q.
  destruct (Nat.eq_dec k n) as [->|NE]; [lra|]. apply IH; auto; [|lia]. lra.
Qed.

Lemma rdot_self m A i : 0 <= rdot m A i i.
Proof. apply rsum_nonneg. intros. apply Rle_0_sqr. Qed.

Lemma rdot_self_zero m A i : rdot m A i i = 0 -> forall c, (c < m)%nat -> A i c = 0.
Proof.
  intros E c Hc. assert (Q := rsum_zero_all m (fun c => A i c * A i c) ltac:(intros; apply Rle_0_sqr) E c Hc). cbn beta in Q.
  destruct (Rmult_integral _ _ Q); auto.
Qed.

Section Mgs.
Variables n m : nat.
Variable R0 : nat -> nat -> R.

Definition good_rows (A : nat -> nat -> R) := rindep n m A /\ rspan n m A R0 /\ rspan n m R0 A.

Lemma good_ext A B : (forall r c, (r < n)%nat -> (c < m)%nat -> A r c = B r c) -> good_rows A -> good_rows B.
Proof.
  intros H (H1 & H2 & H3). split; [|split].
  - eapply independent_ext; eauto.
  - eapply spanned_trans; [|exact H2]. apply spanned_refl. intros. symmetry. auto.
  - eapply spanned_trans; [exact H3|]. apply spanned_refl. auto.
Qed.

Lemma good_add A r s rr : (r < n)%nat -> (rr < n)%nat -> rr <> r -> good_rows A -> good_rows (row_add Rplus Rmult A r s rr).
Proof.
  intros Hr Hrr NE (H1 & H2 & H3). split; [|split].
  - eapply row_add_independent; eauto using Rfield.
  - eapply spanned_trans; [|exact H2]. eapply row_add_span; eauto using Rfield.
  - eapply spanned_trans; [exact H3|]. eapply row_add_span_inv; eauto using Rfield.
Qed.

Lemma good_scale A r s : (r < n)%nat -> s <> 0 -> good_rows A -> good_rows (row_scale Rmult A r s).
Proof.
  intros Hr NE (H1 & H2 & H3). split; [|split].
  - eapply row_scale_independent; eauto using Rfield.
  - eapply spanned_trans; [|exact H2]. eapply row_scale_span; eauto using Rfield.
  - eapply spanned_trans; [exact H3|]. eapply row_scale_span_inv; eauto using Rfield.
Qed.

Lemma mgs_row_ok A r : (r < n)%nat -> length A = (n * m)%nat -> good_rows (rget m A) -> rortho r m (rget m A) ->
  exists A', mgs_row Rmult Rdiv 0 1 Rplus Ropp sqrt m A r = Ok A' /\ length A' = (n * m)%nat /\ good_rows (rget m A') /\ rortho (S r) m (rget m A').
Proof.
  intros Hr L G O. unfold mgs_row.
  destruct (foldM_seq_inv (mgs_sub Rmult 0 Rplus Ropp m r) (fun k A => length A = (n * m)%nat /\ good_rows (rget m A) /\ rortho r m (rget m A) /\
    forall i, (i < k)%nat -> rdot m (rget m A) i r = 0) 0 r A) as (A1 & E1 & L1 & G1 & O1 & Z1).
  - split; auto. split; auto. split; auto. intros; lia.
  - intros k B Hk (LB & GB & OB & ZB). unfold mgs_sub. rewrite (blas_dot_ok 0 Rplus Rmult n m) by (auto; lia). cbn [obind].
    set (s := rdot m (rget m B) k r).
    destruct (blas_add_ok 0 Rplus Rmult n m B r (- s) k LB Hr ltac:(lia) ltac:(lia)) as (B' & E & L' & G'). exists B'. split; auto. split; auto.
    assert (EQ : forall i c, (i < n)%nat -> (c < m)%nat -> row_add Rplus Rmult (rget m B) r (- s) k i c = rget m B' i c).
    { intros i c _ Hc. rewrite G' by auto. reflexivity. }
    assert (NR : forall i c, i <> r -> (c < m)%nat -> rget m B' i c = rget m B i c). { intros i c Hi Hc. rewrite G' by auto. destruct (Nat.eqb_spec i r); [lia|auto]. }
    split; [|split].
    + eapply good_ext; [exact EQ|]. apply good_add; auto; lia.
    + intros i j Hi Hj. rewrite <- (OB i j Hi Hj). apply rdot_ext; intros c Hc; apply NR; auto; lia.
    + assert (DD : forall i, (i < r)%nat -> rdot m (rget m B') i r = rdot m (rget m B) i r - s * rdot m (rget m B) i k).
      { intros i Hi. unfold row_dot.
        rewrite (sum_ext 0 Rplus m _ (fun c => rget m B i c * rget m B r c + (- s) * (rget m B i c * rget m B k c))).
        - rewrite (sum_add 0 1 Rplus Rmult Rminus Ropp Rdiv Rinv FT), (sum_mul 0 1 Rplus Rmult Rminus Ropp Rdiv Rinv FT). ring.
        - intros c Hc. rewrite (NR i c) by (auto; lia). rewrite G' by auto. rewrite Nat.eqb_refl. ring. }
      intros i Hi. rewrite DD by lia. rewrite (OB i k) by lia. destruct (Nat.eqb_spec i k) as [->|NE].
      * fold s. ring.
      * rewrite ZB by lia. ring.
  - rewrite E1. cbn [obind]. rewrite (blas_dot_ok 0 Rplus Rmult n m) by (auto; lia). cbn [obind].
    set (d := rdot m (rget m A1) r r).
    assert (DP : 0 < d).
    { destruct (Rle_lt_or_eq_dec 0 d (rdot_self _ _ _)) as [|E]; auto. exfalso.
      destruct G1 as (I & _). apply (independent_not_zero 0 1 Rplus Rmult Rminus Ropp Rdiv Rinv FT n m _ r I Hr). apply rdot_self_zero. auto. }
    assert (SP : 0 < sqrt d) by (apply sqrt_lt_R0; auto).
    set (s := 1 / sqrt d). assert (SN : s <> 0). { unfold s. apply Rgt_not_eq. apply Rdiv_lt_0_compat; lra. }
    destruct (blas_scale_ok 0 Rmult n m A1 r s L1 Hr) as (A2 & E2 & L2 & G2). exists A2. split; auto. split; auto.
    assert (NR : forall i c, i <> r -> (c < m)%nat -> rget m A2 i c = rget m A1 i c). { intros i c Hi Hc. rewrite G2 by auto. destruct (Nat.eqb_spec i r); [lia|auto]. }
    assert (RR : forall c, (c < m)%nat -> rget m A2 r c = s * rget m A1 r c) by (intros c Hc; rewrite G2 by auto; now rewrite Nat.eqb_refl).
    split.
    + eapply good_ext with (A := row_scale Rmult (rget m A1) r s); [|apply good_scale; auto]. intros i c _ Hc. rewrite G2 by auto. reflexivity.
    + assert (DR : forall i, (i < r)%nat -> rdot m (rget m A2) i r = 0).
      { intros i Hi. unfold row_dot. rewrite (sum_ext 0 Rplus m _ (fun c => s * (rget m A1 i c * rget m A1 r c))).
        - rewrite (sum_mul 0 1 Rplus Rmult Rminus Ropp Rdiv Rinv FT). fold (rdot m (rget m A1) i r). rewrite Z1 by lia. ring.
        - intros c Hc. rewrite NR, RR by (auto; lia). ring. }
      intros i j Hi Hj. destruct (Nat.eqb_spec i j) as [<-|NE].
      * destruct (Nat.eq_dec i r) as [->|].
        -- unfold row_dot. rewrite (sum_ext 0 Rplus m _ (fun c => (s * s) * (rget m A1 r c * rget m A1 r c))).
           ++ rewrite (sum_mul 0 1 Rplus Rmult Rminus Ropp Rdiv Rinv FT). fold (rdot m (rget m A1) r r). fold d. unfold s.
              rewrite <- (sqrt_sqrt d) at 3 by lra. field. lra.
           ++ intros c Hc. rewrite RR by auto. ring.
        -- pose proof (O1 i i ltac:(lia) ltac:(lia)) as Q. rewrite Nat.eqb_refl in Q. rewrite <- Q. apply rdot_ext; intros c Hc; apply NR; auto.
      * destruct (Nat.eq_dec j r) as [->|Nj]; [apply DR; lia|]. destruct (Nat.eq_dec i r) as [->|Ni]; [rewrite rdot_sym; apply DR; lia|].
        pose proof (O1 i j ltac:(lia) ltac:(lia)) as Q. destruct (Nat.eqb_spec i j); [lia|].
        transitivity (rdot m (rget m A1) i j); [|exact Q]. apply rdot_ext; intros c Hc; apply NR; auto.
Qed.
End Mgs.

(** Modified Gram-Schmidt: linearly independent rows become orthonormal rows with the same span. *)
Theorem orthonormalize_spec n m A : length A = (n * m)%nat -> rindep n m (mat 0 m A) ->
  exists A', orthonormalize Rmult Rdiv 0 1 Rplus Ropp sqrt n m A = Ok A' /\ length A' = (n * m)%nat /\
    rortho n m (mat 0 m A') /\ rspan n m (mat 0 m A') (mat 0 m A) /\ rspan n m (mat 0 m A) (mat 0 m A') /\ rindep n m (mat 0 m A').
Proof.
  intros L I. unfold orthonormalize.
  destruct (foldM_seq_inv (mgs_row Rmult Rdiv 0 1 Rplus Ropp sqrt m) (fun r B => length B = (n * m)%nat /\ good_rows n m (mat 0 m A) (rget m B) /\ rortho r m (rget m B)) 0 n A) as (B & E & LB & (G1 & G2 & G3) & O).
  - split; auto. split; [|intros i j Hi; lia]. split; [exact I|]. split; apply spanned_refl; auto.
  - intros r B Hr (LB & G & O). apply (mgs_row_ok n m (mat 0 m A) B r); auto. lia.
  - exists B. cbn [Nat.add] in O. split; [exact E|]. split; [exact LB|]. split; [exact O|]. auto.
Qed.

(** ** The regularized matrix *)
(** element (i, j) of the symmetric matrix whose upper triangle is stored *)
Definition sym_at (A : csx R) (i j : nat) : R := match lookup A (Nat.min i j) (Nat.max i j) with Some v => v | None => 0 end.
(** the product of an n x n matrix with a vector *)
Definition apply_mat (n : nat) (K : nat -> nat -> R) (u : nat -> R) (i : nat) : R := rsum n (fun j => K i j * u j).
Definition abs_leb (a b : R) : bool := if Rle_dec (Rabs a) (Rabs b) then true else false.

Lemma abs_leb_zero a : abs_leb a 0 = true -> a = 0.
Proof.
  unfold abs_leb. destruct (Rle_dec (Rabs a) (Rabs 0)) as [H|]; [|discriminate]. intros _. rewrite Rabs_R0 in H. pose proof (Rabs_pos a).
  destruct (Req_dec a 0); auto. pose proof (Rabs_pos_lt a H1). lra.
Qed.
Lemma zero_abs_leb a : abs_leb 0 a = true.
Proof. unfold abs_leb. rewrite Rabs_R0. destruct (Rle_dec 0 (Rabs a)) as [|N]; auto. exfalso. apply N, Rabs_pos. Qed.

Lemma reg_at (G : csx R) pv rho : NoDup pv -> entries G = map (fun p => (p, p, rho)) pv ->
  forall i j, sym_at G i j = if (i =? j)%nat && existsb (Nat.eqb i) pv then rho else 0.
Proof.
  intros ND EG i j. assert (D : distinct G).
  { unfold distinct. rewrite EG, map_map. cbn [fst]. apply nodup_map_on; auto. intros a b _ _ E. congruence. }
  unfold sym_at. destruct (lookup G (Nat.min i j) (Nat.max i j)) as [v|] eqn:E.
  - apply lookup_in in E. rewrite EG in E. apply in_map_iff in E. destruct E as (p & E & Hp). inversion E as [[E1 E2 E3]].
    destruct (Nat.eqb_spec i j) as [<-|]; [|lia]. rewrite Nat.min_id in *. assert (existsb (Nat.eqb i) pv = true) as ->; auto.
    apply existsb_exists. exists p. split; auto. apply Nat.eqb_eq. lia.
  - destruct (Nat.eqb_spec i j) as [<-|]; auto. cbn [andb]. destruct (existsb (Nat.eqb i) pv) eqn:B; auto. exfalso.
    apply existsb_exists in B. destruct B as (p & Hp & Q). apply Nat.eqb_eq in Q. subst p. rewrite Nat.min_id, Nat.max_id in E.
    rewrite (in_lookup G i i rho D) in E; [discriminate|]. rewrite EG. apply in_map_iff. exists i. auto.
Qed.

(** A symmetric positive semidefinite sparse matrix with a kernel basis: the basis becomes orthonormal (same
    span), and adding the regularization matrix, rho at as many diagonal positions as the kernel has
    dimensions, makes the matrix non-singular. *)
Theorem regularization_makes_nonsingular (A : csx R) (kr : nat) (B : list R) sort alloc n :
  valid A -> ord A = OrdR -> ascending A -> distinct A -> upper A -> has_diagonal A -> nrows A = n -> ncols A = n ->
  sort_contract Nat.ltb sort ->
  (forall r c k, length (fst (fst (alloc r c k))) = (r + 1)%nat /\ length (snd (fst (alloc r c k))) = k /\ length (snd (alloc r c k)) = k) ->
  (kr <= n)%nat -> length B = (kr * n)%nat -> rindep kr n (mat 0 n B) ->
  (forall u, (forall i, (i < n)%nat -> apply_mat n (sym_at A) u i = 0) -> exists x, forall c, (c < n)%nat -> u c = rcombo kr x (mat 0 n B) c) ->
  (forall u, 0 <= rsum n (fun i => u i * apply_mat n (sym_at A) u i)) ->
  (exists i v, In (i, i, v) (entries A) /\ 0 < v) ->
  exists B' G pv rho, get_reg_mat abs_leb Rminus Rmult Rdiv Rmax sort 0 1 Rplus Ropp sqrt A kr B alloc = Ok (B', G) /\
    rortho kr n (mat 0 n B') /\ rspan kr n (mat 0 n B') (mat 0 n B) /\ rspan kr n (mat 0 n B) (mat 0 n B') /\
    valid G /\ nrows G = n /\ ncols G = n /\ upl G = UploU /\
    entries G = map (fun p => (p, p, rho)) pv /\ length pv = kr /\ NoDup pv /\ (forall p, In p pv -> (p < n)%nat) /\
    (exists i, In (i, i, rho) (entries A)) /\ (forall i v, In (i, i, v) (entries A) -> v <= rho) /\
    forall u, (forall i, (i < n)%nat -> apply_mat n (sym_at A) u i + apply_mat n (sym_at G) u i = 0) -> forall i, (i < n)%nat -> u i = 0.
Proof.
  intros V O AS D U HD E1 E2 HS HA Hk LB I KER PSD (ip & vp & Hip & Hvp).
  assert (Hn : (0 < nrows A)%nat).
  { unfold entries in Hip. apply in_flat_map in Hip. destruct Hip as (p & Hp & _). apply in_seq in Hp. unfold size_primary in Hp. rewrite O in Hp. lia. }
  destruct (orthonormalize_spec kr n B LB I) as (B' & EB & LB' & OB & S1 & S2 & I').
  destruct (null_pivots_determine 0 1 Rplus Rmult Rminus Ropp Rdiv Rinv FT abs_leb abs_leb_zero zero_abs_leb sort HS kr n B' Hk LB' I') as (pv & EP & LP & SP & HP & DET).
  destruct (rho_is_greatest_diagonal Rle Rmax Rle_trans ltac:(intros a b; unfold Rmax; destruct (Rle_dec a b); auto) Rmax_l Rmax_r A V O AS D U HD Hn) as (rho & ER & HR1 & HR2).
  assert (RP : 0 < rho) by (pose proof (HR2 ip vp Hip); lra).
  assert (ND : NoDup pv).
  { clear - SP. induction SP as [|a l H IH Hf]; constructor; auto. intros Hin. rewrite Forall_forall in Hf. specialize (Hf a Hin). rewrite Nat.ltb_irrefl in Hf. discriminate. }
  destruct (HA n n (length pv)) as (A1 & A2 & A3). destruct (alloc n n (length pv)) as [[p0 ix0] vs0] eqn:EA. cbn [fst snd] in *.
  destruct (reg_matrix_diagonal rho n pv p0 ix0 vs0 SP HP A1 A2 A3) as (G & EG & VG & OG & UG & NG & CG & NNZ & ENT).
  exists B', G, pv, rho. split.
  { unfold get_reg_mat. rewrite E1, E2, EB. cbn [obind]. rewrite EP. cbn [obind]. rewrite ER. cbn [obind]. rewrite EA, EG. reflexivity. }
  repeat (split; [assumption|]). intros u HU.
  assert (GA : forall i, (i < n)%nat -> apply_mat n (sym_at G) u i = if existsb (Nat.eqb i) pv then rho * u i else 0).
  { intros i Hi. unfold apply_mat. rewrite <- (sum_one 0 1 Rplus Rmult Rminus Ropp Rdiv Rinv FT n i (if existsb (Nat.eqb i) pv then rho * u i else 0) Hi).
    apply (sum_ext 0 Rplus). intros j Hj. rewrite (reg_at G pv rho ND ENT). rewrite (Nat.eqb_sym i j). destruct (Nat.eqb_spec j i) as [->|]; cbn [andb]; [|ring].
    destruct (existsb _ _); ring. }
  set (g := fun i => u i * apply_mat n (sym_at G) u i).
  assert (GP : forall i, (i < n)%nat -> 0 <= g i).
  { intros i Hi. unfold g. rewrite GA by auto. destruct (existsb _ _); [|lra]. replace (u i * (rho * u i)) with (rho * Rsqr (u i)) by (unfold Rsqr; ring).
    apply Rmult_le_pos; [lra|apply Rle_0_sqr]. }
  assert (SZ : rsum n (fun i => u i * apply_mat n (sym_at A) u i) + rsum n g = 0).
  { rewrite <- (sum_add 0 1 Rplus Rmult Rminus Ropp Rdiv Rinv FT). apply (sum_zero 0 1 Rplus Rmult Rminus Ropp Rdiv Rinv FT). intros i Hi. unfold g.
    rewrite <- Rmult_plus_distr_l. rewrite HU by auto. ring. }
  pose proof (PSD u) as PS. pose proof (rsum_nonneg n g GP) as PG.
  assert (UP : forall p, In p pv -> u p = 0).
  { intros p Hp. assert (Q := rsum_zero_all n g GP ltac:(lra) p (HP p Hp)). unfold g in Q. rewrite GA in Q by auto.
    assert (existsb (Nat.eqb p) pv = true) as X by (apply existsb_exists; exists p; split; auto; apply Nat.eqb_refl). rewrite X in Q.
    destruct (Rmult_integral _ _ Q) as [|Q2]; auto. destruct (Rmult_integral _ _ Q2); auto. lra. }
  assert (KU : forall i, (i < n)%nat -> apply_mat n (sym_at A) u i = 0).
  { intros i Hi. pose proof (HU i Hi) as Q. rewrite GA in Q by auto. destruct (existsb (Nat.eqb i) pv) eqn:X; [|lra].
    apply existsb_exists in X. destruct X as (p & Hp & Ep). apply Nat.eqb_eq in Ep. subst p. rewrite (UP i Hp) in Q. lra. }
  destruct (KER u KU) as (x & Hx). destruct (S2 x) as (y & Hy).
  assert (YZ : forall r, (r < kr)%nat -> y r = 0).
  { apply DET. intros p Hp. rewrite <- Hy by auto. rewrite <- Hx by auto. auto. }
  intros i Hi. rewrite Hx, Hy by auto. apply (sum_zero 0 1 Rplus Rmult Rminus Ropp Rdiv Rinv FT). intros r Hr. rewrite YZ by auto. ring.
Qed.

(** a Laplace matrix of two nodes and its constant kernel meet the hypotheses *)
Definition lap : csx R := Csx 2 2 3 OrdR UploU [0; 2; 3]%nat [0; 1; 1]%nat [1; -1; 1].
Lemma lap_at u i : (i < 2)%nat -> apply_mat 2 (sym_at lap) u i = if (i =? 0)%nat then u 0%nat - u 1%nat else u 1%nat - u 0%nat.
Proof. intros H. destruct i as [|[|i]]; [| |lia]; unfold apply_mat, sym_at; cbn [S_Math3.sum]; cbn; ring. Qed.

Example regularization_hyps : valid lap /\ ord lap = OrdR /\ ascending lap /\ distinct lap /\ upper lap /\ has_diagonal lap /\
  rindep 1 2 (mat 0 2 [1; 1]) /\
  (forall u, (forall i, (i < 2)%nat -> apply_mat 2 (sym_at lap) u i = 0) -> exists x, forall c, (c < 2)%nat -> u c = rcombo 1 x (mat 0 2 [1; 1]) c) /\
  (forall u, 0 <= rsum 2 (fun i => u i * apply_mat 2 (sym_at lap) u i)) /\
  (exists i v, In (i, i, v) (entries lap) /\ 0 < v) /\ sort_contract Nat.ltb (isort Nat.ltb).
Proof.
  assert (V : valid lap).
  { repeat split; cbn; try lia. intros p Hp. assert (p = 0 \/ p = 1)%nat as [->| ->] by lia; cbn; lia. }
  split; [exact V|]. split; [reflexivity|]. split.
  { intros p Hp. assert (p = 0 \/ p = 1)%nat as [->| ->] by (cbn in Hp; lia); cbn; repeat constructor. }
  split. { unfold distinct. cbn. repeat constructor; cbn; intuition congruence. }
  split. { intros e He. cbn in He. unfold e_row, e_col. repeat (destruct He as [<-|He]; [cbn; lia|]). destruct He. }
  split. { intros i Hi. cbn in Hi. destruct i as [|[|i]]; [exists (0%nat, 0%nat, 1)|exists (1%nat, 1%nat, 1)|lia]; cbn; auto. }
  split. { intros y Z r Hr. assert (r = 0%nat) as -> by lia. specialize (Z 0%nat ltac:(lia)). unfold S_Math3.combo, mat in Z. cbn in Z. lra. }
  split. { intros u H. exists (fun _ => u 0%nat). pose proof (H 0%nat ltac:(lia)) as Q. rewrite lap_at in Q by lia. cbn [Nat.eqb] in Q.
           intros c Hc. unfold S_Math3.combo, mat. destruct c as [|[|c]]; [| |lia]; cbn; lra. }
  split. { intros u. cbn [S_Math3.sum]. rewrite !lap_at by lia. cbn [Nat.eqb]. replace (0 + u 0%nat * (u 0%nat - u 1%nat) + u 1%nat * (u 1%nat - u 0%nat)) with (Rsqr (u 0%nat - u 1%nat)) by (unfold Rsqr; ring). apply Rle_0_sqr. }
  split. { exists 0%nat, 1. split; [cbn; auto|lra]. }
  apply isort_contract. apply sto_swo with (eqb := Nat.eqb). apply nat_order.
Qed.

Print Assumptions orthonormalize_spec.
Print Assumptions regularization_makes_nonsingular.
