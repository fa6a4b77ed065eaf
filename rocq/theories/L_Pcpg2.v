(** * Conjugate gradients in exact arithmetic *)
From Coq Require Import List Reals Bool Lra Lia.
From Verif Require Import Base M_DualVector M_Mprgp M_SolverInfo M_Pcpg S_Mprgp S_Pcpg L_RVec L_Pcpg.
Import ListNotations.
Local Open Scope R_scope.
Local Open Scope out_scope.

Local Notation comb := combination.
Local Notation sp := scalar_product.

Lemma sp_zero_r x y : is_zero y -> sp x y = 0.
Proof. intros Z. rewrite sp_comm. now apply sp_zero_l. Qed.

(** more than n vectors of size n are dependent *)
Definition lin (cs : list R) (vs : list (list R)) (u : list R) : R :=
  fold_right (fun cv acc => fst cv * sp (snd cv) u + acc) 0 (combine cs vs).

Lemma lin_app c1 c2 v1 v2 u : length c1 = length v1 ->
  lin (c1 ++ c2) (v1 ++ v2) u = lin c1 v1 u + lin c2 v2 u.
Proof.
  revert v1; induction c1 as [|c c1 IH]; intros [|v v1] E; try discriminate.
  - cbn [app]. change (lin [] [] u) with 0. ring.
  - unfold lin in *. cbn [app combine fold_right fst snd]. rewrite IH by (cbn in E; lia). ring.
Qed.

Lemma lin_cons c cs v vs u : lin (c :: cs) (v :: vs) u = c * sp v u + lin cs vs u.
Proof. reflexivity. Qed.

Definition eliminate (hv : R) (tv : list R) (v : list R) : list R :=
  comb (tl v) (- (hd 0 v / hv)) tv.

Lemma lin_eliminate k hv tv cs vs a u : hv <> 0 -> length tv = k -> length u = k ->
  Forall (fun v : list R => length v = Datatypes.S k) vs -> length cs = length vs ->
  lin cs vs (a :: u)
  = lin cs (map (eliminate hv tv) vs) u
    + (a + sp tv u / hv) * fold_right (fun cv acc => fst cv * hd 0 (snd cv) + acc) 0 (combine cs vs).
Proof.
  intros Hv Lt Lu. revert cs; induction vs as [|v vs IH]; intros [|c cs] Lv E; try discriminate.
  - unfold lin. cbn. ring.
  - inversion Lv as [|? ? L1 L2]; subst. cbn [map]. rewrite !lin_cons, (IH cs) by (auto; cbn in E; lia).
    cbn [combine fold_right fst snd]. destruct v as [|b v]; [discriminate|].
    unfold eliminate at 2. cbn [tl hd]. rewrite sp_cons, sp_comb_l by (cbn in L1; lia).
    field. auto.
Qed.

Lemma dependent k (vs : list (list R)) :
  Forall (fun v : list R => length v = k) vs -> (k < length vs)%nat ->
  exists cs, length cs = length vs /\ ~ is_zero cs /\ forall u, length u = k -> lin cs vs u = 0.
Proof.
  revert vs; induction k as [|k IH]; intros vs Lv Lk.
  - exists (repeat 1 (length vs)). split; [apply repeat_length|]. split.
    + destruct vs; [cbn in Lk; lia|]. cbn. intros Z. inversion Z. lra.
    + intros u _. clear Lk. induction Lv as [|v vs L _ IHv]; auto.
      cbn [length repeat]. rewrite lin_cons, IHv. destruct v; [|discriminate]. rewrite sp_nil_l. ring.
  - assert (D : (forall v, In v vs -> hd 0 v = 0) \/ exists l1 v l2, vs = l1 ++ v :: l2 /\ hd 0 v <> 0).
    { clear. induction vs as [|v vs [IH|(l1 & w & l2 & -> & N)]].
      - left. intros v [].
      - destruct (Req_dec (hd 0 v) 0) as [E|N].
        + left. intros w [->|Hw]; auto.
        + right. exists [], v, vs. auto.
      - right. exists (v :: l1), w, l2. auto. }
    destruct D as [Z|(l1 & v & l2 & -> & N)].
    + destruct (IH (map (@tl R) vs)) as (cs & E & Nz & Hc).
      * apply Forall_map. eapply Forall_impl; [|exact Lv]. intros [|b v]; cbn; lia.
      * rewrite map_length. lia.
      * exists cs. rewrite map_length in E. split; [auto|split; [auto|]].
        intros [|a u] Lu; [discriminate|]. rewrite <- (Hc u) by (cbn in Lu; lia).
        clear - Z E Lv. revert cs E; induction vs as [|v vs IH]; intros [|c cs] E; try discriminate; auto.
        inversion Lv as [|? ? L1 L2]; subst. cbn [map]. rewrite !lin_cons.
        rewrite (IH L2) by (auto; try (intros; apply Z; cbn; auto); cbn in E; lia).
        f_equal. f_equal. destruct v as [|b v]; [discriminate|].
        rewrite sp_cons. cbn [tl]. specialize (Z (b :: v) (or_introl eq_refl)). cbn in Z. rewrite Z. ring.
    + destruct v as [|hv tv]; [cbn in N; lra|]. cbn in N.
      apply Forall_app in Lv. destruct Lv as [L1 L2]. inversion L2 as [|? ? Lt L3]; subst.
      assert (L4 : Forall (fun v : list R => length v = Datatypes.S k) (l1 ++ l2)) by (apply Forall_app; auto).
      destruct (IH (map (eliminate hv tv) (l1 ++ l2))) as (cs & E & Nz & Hc).
      * apply Forall_map. eapply Forall_impl; [|exact L4]. intros [|b w]; cbn; [lia|].
        intros Lw. unfold eliminate. cbn [tl hd]. apply comb_len; cbn in *; lia.
      * rewrite map_length, app_length. rewrite app_length in Lk. cbn in Lk. lia.
      * rewrite map_length, app_length in E.
        set (hs := fold_right (fun cv acc => fst cv * hd 0 (snd cv) + acc) 0 (combine cs (l1 ++ l2))).
        exists (firstn (length l1) cs ++ (- (hs / hv)) :: skipn (length l1) cs).
        assert (Lf : length (firstn (length l1) cs) = length l1) by (rewrite firstn_length; lia).
        split; [|split].
        -- rewrite !app_length, Lf. cbn [length]. rewrite skipn_length. lia.
        -- intros Z. apply Nz. apply Forall_app in Z. destruct Z as [Z1 Z2].
           inversion Z2; subst. rewrite <- (firstn_skipn (length l1) cs). apply Forall_app. auto.
        -- intros [|a u] Lu; [discriminate|]. rewrite lin_app, lin_cons by auto.
           assert (Es : lin (firstn (length l1) cs) l1 (a :: u) + lin (skipn (length l1) cs) l2 (a :: u)
                        = lin cs (l1 ++ l2) (a :: u)).
           { rewrite <- lin_app by auto. now rewrite firstn_skipn. }
           rewrite (lin_eliminate k hv tv cs (l1 ++ l2)) in Es by (auto; rewrite ?app_length; cbn in *; lia).
           rewrite Hc in Es by (cbn in Lu; lia). fold hs in Es.
           rewrite sp_cons. 
           replace (lin (firstn (length l1) cs) l1 (a :: u) +
                    (- (hs / hv) * (hv * a + sp tv u) + lin (skipn (length l1) cs) l2 (a :: u)))
             with ((lin (firstn (length l1) cs) l1 (a :: u) + lin (skipn (length l1) cs) l2 (a :: u))
                   - hs / hv * (hv * a + sp tv u)) by ring.
           rewrite Es. field. auto.
Qed.

Lemma lin_zero (f : nat -> list R) u cs b :
  (forall i, (b <= i < b + length cs)%nat -> sp (f i) u = 0) -> lin cs (map f (seq b (length cs))) u = 0.
Proof.
  revert b; induction cs as [|c cs IH]; intros b Z; [reflexivity|].
  cbn [length seq map] in *. rewrite lin_cons, IH by (intros; apply Z; lia). rewrite Z by lia. ring.
Qed.

Lemma lin_pick (f : nat -> list R) u j cs b :
  (forall i, (b <= i < b + length cs)%nat -> i <> j -> sp (f i) u = 0) ->
  (b <= j < b + length cs)%nat ->
  lin cs (map f (seq b (length cs))) u = nth (j - b) cs 0 * sp (f j) u.
Proof.
  revert b; induction cs as [|c cs IH]; intros b Z L; [cbn in L; lia|].
  cbn [length seq map] in *. rewrite lin_cons. destruct (Nat.eq_dec b j) as [->|N].
  - rewrite lin_zero by (intros; apply Z; lia). rewrite Nat.sub_diag. cbn [nth]. ring.
  - rewrite IH by (try (intros; apply Z); lia). rewrite (Z b) by lia.
    replace (j - b)%nat with (Datatypes.S (j - Datatypes.S b)) by lia. cbn [nth]. ring.
Qed.

Lemma lin_seq (f : nat -> list R) u cs b :
  lin cs (map f (seq b (length cs))) u
  = fold_right (fun j acc => nth (j - b) cs 0 * sp (f j) u + acc) 0 (seq b (length cs)).
Proof.
  revert b; induction cs as [|c cs IH]; intros b; [reflexivity|].
  cbn [length seq map fold_right]. rewrite lin_cons, IH, Nat.sub_diag. cbn [nth]. f_equal.
  assert (X : forall l, (forall j, In j l -> (b < j)%nat) ->
    fold_right (fun j acc => nth (j - Datatypes.S b) cs 0 * sp (f j) u + acc) 0 l
    = fold_right (fun j acc => nth (j - b) (c :: cs) 0 * sp (f j) u + acc) 0 l).
  { induction l as [|i l IHl]; intros Hl; [reflexivity|]. cbn [fold_right].
    rewrite IHl by (intros; apply Hl; right; auto). specialize (Hl i (or_introl eq_refl)).
    replace (i - b)%nat with (Datatypes.S (i - Datatypes.S b)) by lia. reflexivity. }
  apply X. intros j Hj. apply in_seq in Hj. lia.
Qed.

Section Spd.
Variable h : R.
Local Notation K := (exact h).
Variable n m : nat.
Variable A : operators (exact h).
Variable d e : list R.
Local Notation Fo := (F (exact h) A).
Local Notation So := (S (exact h) A).
Local Notation Go := (G (exact h) A).
Local Notation Gto := (Gt (exact h) A).
Local Notation invo := (inv (exact h) A).
Local Notation B := (constrained h A).
Local Notation P := (project (exact h) A).
Local Notation PT := (projectT (exact h) A).

Hypothesis SP : spd_problem h n m A d e.
Let LP : linear_problem h n m A d e := sp_linear _ _ _ _ _ _ SP.
Local Notation inv1 := (inv1 h n A d).

Lemma inv_zero (u : list R) : length u = m -> is_zero u -> is_zero (invo u).
Proof.
  intros E Z. apply sp_self_zero.
  pose proof (sp_invsym _ _ _ _ _ _ SP (invo u) u) as S.
  rewrite S; auto; [|now apply (inv_len h n m A d e LP)]. now apply sp_zero_r.
Qed.

Lemma Gt_inv_zero (u : list R) : length u = m -> is_zero u -> is_zero (Gto (invo u)).
Proof.
  intros E Z. apply (linear_map_zero m n); [apply (lp_Gt _ _ _ _ _ _ LP)| |].
  - now apply (inv_len h n m A d e LP).
  - now apply inv_zero.
Qed.

Lemma Gt_inv_len (u : list R) : length u = m -> length (Gto (invo u) : list R) = n.
Proof. intros E. apply (Gt_len h n m A d e LP), (inv_len h n m A d e LP), E. Qed.

Lemma P_fix (v : list R) : length v = n -> is_zero (B v) -> P v = v.
Proof.
  intros E Z. rewrite (P_eq h n A) by auto. pose proof (B_len h n m A d e LP v E) as L.
  apply comb_ext_zero; [now apply Gt_inv_zero|]. now rewrite Gt_inv_len.
Qed.

Lemma PT_fix (v : list R) : length v = n -> is_zero (Go v) -> PT v = v.
Proof.
  intros E Z. rewrite (PT_eq h n m A d e LP) by auto. pose proof (G_len h n m A d e LP v E) as L.
  destruct (conjugate K A).
  - apply comb_ext_zero.
    + apply (linear_map_zero n n); [apply (lp_F _ _ _ _ _ _ LP)|now apply Gt_inv_len|now apply Gt_inv_zero].
    + rewrite (F_len h n m A d e LP); auto. now apply Gt_inv_len.
  - apply comb_ext_zero; [now apply Gt_inv_zero|]. now rewrite Gt_inv_len.
Qed.

Lemma P_adjoint (u v : list R) : length u = n -> length v = n -> sp (P u) v = sp u (PT v).
Proof.
  intros Eu Ev. rewrite (P_eq h n A), (PT_eq h n m A d e LP) by auto.
  pose proof (B_len h n m A d e LP u Eu) as LB. pose proof (G_len h n m A d e LP v Ev) as LG.
  pose proof (Gt_inv_len _ LB) as L1. pose proof (Gt_inv_len _ LG) as L2.
  rewrite sp_comb_l by congruence.
  rewrite (sp_comm (Gto (invo (B u)))), (sp_adjoint _ _ _ _ _ _ SP), (sp_invsym _ _ _ _ _ _ SP);
    auto using (inv_len h n m A d e LP).
  rewrite (sp_comm (invo (Go v))). unfold constrained.
  destruct (conjugate K A).
  - rewrite sp_comb_r by (rewrite (F_len h n m A d e LP); auto).
    rewrite <- (sp_adjoint _ _ _ _ _ _ SP); auto using (inv_len h n m A d e LP), (F_len h n m A d e LP).
    rewrite (sp_Fsym _ _ _ _ _ _ SP); auto.
  - rewrite sp_comb_r by congruence.
    rewrite <- (sp_adjoint _ _ _ _ _ _ SP); auto using (inv_len h n m A d e LP).
Qed.

(** ** Facts about one state *)
Lemma w_fix s : inv1 s -> PT (w K s) = w K s.
Proof.
  intros I. apply PT_fix; [now apply (w_len h n m A d e LP)|].
  rewrite (i_w _ _ _ _ _ I). apply (G_PT h n m A d e LP), (r_len h n m A d e LP), I.
Qed.

(** a vector that meets the constraints sees only the projected residual *)
Lemma sp_r_w s (v : list R) : inv1 s -> length v = n -> is_zero (B v) ->
  sp v (r K s) = sp v (w K s).
Proof.
  intros I E Z. rewrite (i_w _ _ _ _ _ I), <- P_adjoint, P_fix; auto.
  now apply (r_len h n m A d e LP).
Qed.

Lemma yw_Sw s : inv1 s -> yw K s = sp (w K s) (So (w K s)).
Proof.
  intros I. pose proof (w_len h n m A d e LP s I) as L.
  rewrite (i_yw _ _ _ _ _ I), (i_y _ _ _ _ _ I), P_adjoint, w_fix; auto using (S_len h n m A d e LP).
  apply sp_comm.
Qed.

Lemma yw_pos s : inv1 s -> ~ is_zero (w K s) -> 0 < yw K s.
Proof.
  intros I Z. rewrite yw_Sw by auto. apply (sp_Sdef _ _ _ _ _ _ SP); auto.
  - now apply (w_len h n m A d e LP).
  - rewrite (i_w _ _ _ _ _ I). apply (G_PT h n m A d e LP), (r_len h n m A d e LP), I.
Qed.

Lemma yw_zero s : inv1 s -> is_zero (w K s) -> yw K s = 0.
Proof. intros I Z. rewrite yw_Sw by auto. now apply sp_zero_l. Qed.

(** y of one state and w of another *)
Lemma yw_sym s t : inv1 s -> inv1 t -> sp (y K s) (w K t) = sp (y K t) (w K s).
Proof.
  intros I J. pose proof (w_len h n m A d e LP s I) as L. pose proof (w_len h n m A d e LP t J) as L'.
  rewrite (i_y _ _ _ _ _ I), (i_y _ _ _ _ _ J), !P_adjoint, !w_fix; auto using (S_len h n m A d e LP).
  rewrite sp_comm, (sp_Ssym _ _ _ _ _ _ SP); auto.
Qed.

Lemma pFp_pos s : inv1 s -> ~ is_zero (p K s) -> 0 < sp (p K s) (Fo (p K s)).
Proof. intros I Z. apply (sp_Fdef _ _ _ _ _ _ SP); auto; apply I. Qed.

(** energy along the direction *)
Lemma energy_line (x v : list R) t : length x = n -> length v = n ->
  energy Fo d (comb x t v)
  = energy Fo d x - t * sp v (residual_of h A d x) + / 2 * t * t * sp v (Fo v).
Proof.
  intros Ex Ev. unfold energy, residual_of. destruct (lp_F _ _ _ _ _ _ LP) as [F1 F2].
  pose proof (lp_d _ _ _ _ _ _ LP) as Ed.
  rewrite F2, !sp_comb_l, !sp_comb_r by (auto; rewrite ?F1; auto; congruence).
  rewrite (sp_Fsym _ _ _ _ _ _ SP x v) by auto. rewrite (sp_comm (Fo x) v), (sp_comm d v), (sp_comm d x).
  lra.
Qed.

(** without projected residual the point is the minimum *)
Lemma w_zero_optimal s (z : list R) : inv1 s -> is_zero (w K s) ->
  length z = n -> B z = B (x K s) -> energy Fo d (x K s) <= energy Fo d z.
Proof.
  intros I Z Lz Bz. pose proof (i_x _ _ _ _ _ I) as Lx.
  set (v := comb z (-1) (x K s)).
  assert (Lv : length v = n) by (apply comb_len; auto).
  assert (Bv : is_zero (B v)).
  { destruct (B_linear h n m A d e LP) as [B1 B2]. unfold v. rewrite B2, Bz by auto. apply comb_minus_self. }
  assert (Ez : z = comb (x K s) 1 v).
  { unfold v. revert Lz Lx. generalize (x K s) as c. cbn [num exact]. clear. revert z.
    induction n as [|k IH]; intros [|a z] [|b c] E1 E2; try discriminate; auto.
    rewrite !comb_cons. f_equal; [ring|]. apply IH; auto. }
  rewrite Ez, energy_line by auto. rewrite <- (i_r _ _ _ _ _ I), (sp_r_w s) by auto.
  rewrite (sp_zero_r v) by auto.
  assert (0 <= sp v (Fo v)).
  { destruct (is_zero_dec v) as [Zv|Zv]; [rewrite sp_zero_l by auto; lra|].
    apply Rlt_le, (sp_Fdef _ _ _ _ _ _ SP); auto. }
  lra.
Qed.

(** ** Sequences of states *)
Variable st : nat -> state K.
Variable N : nat.
Variable gam : nat -> R.
Hypothesis HI : forall k, (k <= N)%nat -> inv1 (st k).
Hypothesis Hg : forall k, (k < N)%nat -> gam k = yw K (st k) / sp (p K (st k)) (Fo (p K (st k))).
Hypothesis Hr : forall k, (k < N)%nat ->
  r K (st (Datatypes.S k)) = comb (r K (st k)) (- gam k) (Fo (p K (st k))).
Hypothesis Hyw : forall k, (k < N)%nat -> yw K (st k) <> 0.
Hypothesis Hp : forall k, (k < N)%nat -> sp (p K (st k)) (Fo (p K (st k))) <> 0.

(** the first direction; a further one is y plus a combination of the earlier directions *)
Definition in_span (k : nat) (v : list R) : Prop :=
  exists c : nat -> R, forall u, length u = n ->
    sp v u = fold_right (fun j acc => c j * sp (p K (st j)) u + acc) 0 (seq 0 k).
Hypothesis Hspan : forall k, (k <= N)%nat -> exists v, in_span k v /\ length v = n /\
  p K (st k) = comb (y K (st k)) 1 v.
(** ... that makes it conjugate to them, once they are orthogonal to the residual *)
Hypothesis Hconj : forall k, (Datatypes.S k <= N)%nat ->
  (forall j, (j <= k)%nat -> sp (y K (st (Datatypes.S k))) (w K (st j)) = 0) ->
  (forall i j, (i < j <= k)%nat -> sp (p K (st i)) (Fo (p K (st j))) = 0) ->
  forall j, (j <= k)%nat -> sp (p K (st j)) (Fo (p K (st (Datatypes.S k)))) = 0.

Lemma span_sp k v u : in_span k v -> length u = n ->
  (forall j, (j < k)%nat -> sp (p K (st j)) u = 0) -> sp v u = 0.
Proof.
  intros [c Hc] Lu Z. rewrite Hc by auto. clear Hc.
  assert (X : forall l, (forall j, In j l -> sp (p K (st j)) u = 0) ->
            fold_right (fun j acc => c j * sp (p K (st j)) u + acc) 0 l = 0).
  { induction l as [|j l IH]; intros Hl; cbn [fold_right]; auto.
    rewrite IH by (intros i Hi; apply Hl; right; auto). rewrite Hl by (left; auto). ring. }
  apply X. intros j Hj. apply in_seq in Hj. apply Z. lia.
Qed.

Lemma gam_nonzero k : (k < N)%nat -> gam k <> 0.
Proof.
  intros L. rewrite Hg by auto. apply Rmult_integral_contrapositive_currified; [now apply Hyw|].
  apply Rinv_neq_0_compat. now apply Hp.
Qed.

Lemma F_len' k : (k <= N)%nat -> length (Fo (p K (st k)) : list R) = n.
Proof. intros L. apply (F_len h n m A d e LP), (i_p _ _ _ _ _ (HI k L)). Qed.
Lemma r_len' k : (k <= N)%nat -> length (r K (st k) : list R) = n.
Proof. intros L. apply (r_len h n m A d e LP), (HI k L). Qed.

(** p_j . r_k = 0 and p_j . F p_k = 0 for j < k *)
Lemma conjugate_all k : (k <= N)%nat ->
  (forall i j, (i < j <= k)%nat -> sp (p K (st i)) (r K (st j)) = 0) /\
  (forall i j, (i < j <= k)%nat -> sp (p K (st i)) (Fo (p K (st j))) = 0).
Proof.
  induction k as [|k IH]; intros L; [split; intros; lia|].
  destruct (IH ltac:(lia)) as [IA IB].
  assert (NA : forall i, (i <= k)%nat -> sp (p K (st i)) (r K (st (Datatypes.S k))) = 0).
  { intros i Li. rewrite Hr by lia.
    rewrite sp_comb_r by (change (num K) with R; rewrite r_len', F_len' by lia; auto).
    destruct (Nat.eq_dec i k) as [->|Ni].
    - (* p_k . r_k = yw_k *)
      destruct (Hspan k ltac:(lia)) as (v & Hv & Lv & Ep).
      assert (Epr : sp (p K (st k)) (r K (st k)) = yw K (st k)).
      { rewrite Ep, sp_comb_l by (change (num K) with R; rewrite (y_len h n m A d e LP) by (apply HI; lia); auto).
        rewrite (span_sp k v _ Hv (r_len' k ltac:(lia)) (fun j Lj => IA j k (conj Lj (le_n k)))).
        rewrite sp_r_w by (try apply HI; try apply (y_len h n m A d e LP); try apply (B_y h n m A d e LP); try apply HI; lia).
        rewrite (i_yw _ _ _ _ _ (HI k ltac:(lia))). ring. }
      rewrite Epr, Hg by lia. field. apply Hp. lia.
    - rewrite IA, IB by lia. ring. }
  assert (IA' : forall i j, (i < j <= Datatypes.S k)%nat -> sp (p K (st i)) (r K (st j)) = 0).
  { intros i j Lij. destruct (Nat.eq_dec j (Datatypes.S k)) as [->|Nj]; [apply NA; lia|apply IA; lia]. }
  split; auto.
  assert (NY : forall j, (j <= k)%nat -> sp (y K (st (Datatypes.S k))) (w K (st j)) = 0).
  { intros j Lj. rewrite yw_sym by (apply HI; lia).
    rewrite <- sp_r_w by (try apply HI; try apply (y_len h n m A d e LP); try apply (B_y h n m A d e LP); try apply HI; lia).
    destruct (Hspan j ltac:(lia)) as (v & Hv & Lv & Ep).
    assert (E1 : sp (p K (st j)) (r K (st (Datatypes.S k)))
                 = sp (y K (st j)) (r K (st (Datatypes.S k))) + 1 * sp v (r K (st (Datatypes.S k)))).
    { rewrite Ep, sp_comb_l by (change (num K) with R; rewrite (y_len h n m A d e LP) by (apply HI; lia); auto). auto. }
    assert (E2 : sp v (r K (st (Datatypes.S k))) = 0).
    { apply (span_sp j v); auto; [apply r_len'; lia|]. intros i Li. apply NA. lia. }
    rewrite NA in E1 by lia. lra. }
  intros i j Lij. destruct (Nat.eq_dec j (Datatypes.S k)) as [->|Nj]; [|apply IB; lia].
  apply Hconj; auto. lia.
Qed.

(** the scalar products of the residuals *)
Lemma yr_zero i j : (i < j <= N)%nat -> sp (y K (st j)) (w K (st i)) = 0.
Proof.
  intros L. destruct (conjugate_all N ltac:(lia)) as [IA IB].
  rewrite yw_sym by (apply HI; lia).
  rewrite <- sp_r_w by (try apply HI; try apply (y_len h n m A d e LP); try apply (B_y h n m A d e LP); try apply HI; lia).
  destruct (Hspan i ltac:(lia)) as (v & Hv & Lv & Ep).
  assert (E1 : sp (p K (st i)) (r K (st j)) = sp (y K (st i)) (r K (st j)) + 1 * sp v (r K (st j))).
  { rewrite Ep, sp_comb_l by (change (num K) with R; rewrite (y_len h n m A d e LP) by (apply HI; lia); auto). auto. }
  assert (E2 : sp v (r K (st j)) = 0).
  { apply (span_sp i v); auto; [apply r_len'; lia|]. intros t Lt. apply IA. lia. }
  rewrite IA in E1 by lia. lra.
Qed.

Lemma pr_yw k : (k <= N)%nat -> sp (p K (st k)) (r K (st k)) = yw K (st k).
Proof.
  intros L. destruct (conjugate_all N ltac:(lia)) as [IA _].
  destruct (Hspan k L) as (v & Hv & Lv & Ep). rewrite Ep.
  rewrite sp_comb_l by (change (num K) with R; rewrite (y_len h n m A d e LP) by (apply HI; lia); auto).
  rewrite (span_sp k v _ Hv (r_len' k L) (fun j Lj => IA j k (conj Lj L))).
  rewrite sp_r_w by (try apply HI; try apply (y_len h n m A d e LP); try apply (B_y h n m A d e LP); try apply HI; lia).
  rewrite (i_yw _ _ _ _ _ (HI k L)). ring.
Qed.

(** at most n directions *)
Lemma few_directions : (N <= n)%nat.
Proof.
  destruct (Nat.le_gt_cases N n) as [|L]; auto. exfalso.
  destruct (dependent n (map (fun j => p K (st j) : list R) (seq 0 N))) as (cs & E & Nz & Hc).
  - apply Forall_map, Forall_forall. intros j Hj. apply in_seq in Hj.
    apply (i_p _ _ _ _ _ (HI j ltac:(lia))).
  - rewrite map_length, seq_length. auto.
  - apply Nz. rewrite map_length, seq_length in E.
    destruct (conjugate_all N ltac:(lia)) as [_ CB].
    assert (X : forall j, (j < N)%nat -> nth j cs 0 = 0).
    { intros j Lj. specialize (Hc (Fo (p K (st j))) (F_len' j ltac:(lia))).
      assert (CS : forall i, (i <= N)%nat -> i <> j -> sp (p K (st i)) (Fo (p K (st j))) = 0).
      { intros i Li Ni. destruct (Nat.lt_ge_cases i j); [apply CB; lia|].
        rewrite (sp_Fsym _ _ _ _ _ _ SP _ _ (i_p _ _ _ _ _ (HI i Li)) (i_p _ _ _ _ _ (HI j ltac:(lia)))).
        rewrite sp_comm. apply CB. lia. }
      pose proof (lin_pick (fun j => p K (st j) : list R) (Fo (p K (st j))) j cs 0) as Y.
      rewrite E, Hc, Nat.sub_0_r in Y.
      specialize (Y ltac:(intros; apply CS; lia) ltac:(lia)).
      symmetry in Y. apply Rmult_integral in Y. destruct Y as [Y|Y]; auto. destruct (Hp j Lj Y). }
    apply Forall_forall. intros c Hin. apply (In_nth _ _ 0) in Hin. destruct Hin as (j & Lj & <-).
    apply X. lia.
Qed.

(** the iterate minimizes the energy over all combinations of the directions *)
Lemma walk_facts (ps : list (list R)) cs (x : list R) : length x = n ->
  Forall (fun v : list R => length v = n /\ is_zero (B v)) ps -> length cs = length ps ->
  length (walk x cs ps) = n /\ B (walk x cs ps) = B x /\
  forall u, sp (walk x cs ps) u = sp x u + lin cs ps u.
Proof.
  revert cs x; induction ps as [|v ps IH]; intros [|c cs] x0 E Z L; try discriminate.
  - cbn [walk]. repeat split; auto. intros u. unfold lin. cbn. ring.
  - inversion Z as [|? ? [Z1 Z2] Z3]; subst. cbn [walk].
    destruct (IH cs (comb x0 c v)) as (W1 & W2 & W3); auto.
    { apply comb_len; auto. }
    split; [auto|split].
    + rewrite W2. destruct (B_linear h n m A d e LP) as [B1 B2]. rewrite B2 by auto.
      apply comb_ext_zero; auto. rewrite !B1; auto.
    + intros u. rewrite W3, lin_cons, sp_comb_l by congruence. ring.
Qed.

Hypothesis Hx : forall k, (k < N)%nat ->
  x K (st (Datatypes.S k)) = comb (x K (st k)) (gam k) (p K (st k)).

Lemma x_sp k u : (k <= N)%nat -> (forall j, (j < k)%nat -> sp (p K (st j)) u = 0) ->
  sp (x K (st k)) u = sp (x K (st 0)) u.
Proof.
  induction k as [|k IH]; intros L Z; auto. rewrite Hx by lia.
  rewrite sp_comb_l by
    (transitivity n; [apply (i_x _ _ _ _ _ (HI k ltac:(lia)))|symmetry; apply (i_p _ _ _ _ _ (HI k ltac:(lia)))]).
  rewrite IH by (auto; lia). rewrite Z by lia. ring.
Qed.

Lemma x_B k : (k <= N)%nat -> B (x K (st k)) = B (x K (st 0)).
Proof.
  induction k as [|k IH]; intros L; auto. rewrite Hx by lia.
  destruct (B_linear h n m A d e LP) as [B1 B2].
  rewrite B2 by apply (HI k ltac:(lia)). rewrite IH by lia.
  apply comb_ext_zero; [apply (HI k ltac:(lia))|].
  rewrite !B1; auto; [apply (HI k ltac:(lia))|apply (HI 0%nat ltac:(lia))].
Qed.

Lemma minimal k cs : (k <= N)%nat -> length cs = k ->
  energy Fo d (x K (st k))
  <= energy Fo d (walk (x K (st 0)) cs (map (fun j => p K (st j) : list R) (seq 0 k))).
Proof.
  intros L Lc. set (ps := map (fun j => p K (st j) : list R) (seq 0 k)).
  destruct (walk_facts ps cs (x K (st 0))) as (W1 & W2 & W3).
  - apply (HI 0%nat ltac:(lia)).
  - apply Forall_map, Forall_forall. intros j Hj. apply in_seq in Hj.
    split; apply (HI j ltac:(lia)).
  - unfold ps. now rewrite map_length, seq_length.
  - set (z := walk (x K (st 0)) cs ps) in *.
    pose proof (i_x _ _ _ _ _ (HI k L)) as Lx. set (v := comb z (-1) (x K (st k))).
    assert (Lv : length v = n) by (apply comb_len; auto).
    assert (Bv : is_zero (B v)).
    { destruct (B_linear h n m A d e LP) as [B1 B2]. unfold v. rewrite B2, W2, (x_B k) by auto.
      apply comb_minus_self. }
    assert (Ez : z = comb (x K (st k)) 1 v).
    { unfold v. revert W1 Lx. generalize (x K (st k)) as c. generalize z as z0. cbn [num exact]. clear.
      induction n as [|i IH]; intros [|a z] [|b c] E1 E2; try discriminate; auto.
      rewrite !comb_cons. f_equal; [ring|]. apply IH; auto. }
    rewrite Ez, energy_line by auto. rewrite <- (i_r _ _ _ _ _ (HI k L)).
    destruct (conjugate_all N ltac:(lia)) as [IA _].
    assert (Zr : sp v (r K (st k)) = 0).
    { unfold v. rewrite sp_comb_l by (transitivity n; [exact W1|symmetry; exact Lx]). rewrite W3, (x_sp k) by (auto; intros; apply IA; lia).
      unfold ps. rewrite <- Lc, lin_zero; [ring|]. intros i Li. apply IA. lia. }
    rewrite Zr.
    assert (0 <= sp v (Fo v)).
    { destruct (is_zero_dec v) as [Zv|Zv]; [rewrite sp_zero_l by auto; lra|].
      apply Rlt_le, (sp_Fdef _ _ _ _ _ _ SP); auto. }
    lra.
Qed.

End Spd.
