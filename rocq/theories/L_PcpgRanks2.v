(** * The dual problem of Total FETI is one that PCPG solves *)
From Coq Require Import List Arith Bool Permutation Reals Lia Lra FunctionalExtensionality.
From Verif Require Import Base S_Nb M_Mpi M_Dual S_Dual P_Dual S_Equality M_Equality L_Equality6 M_TotalFeti S_Feti L_TotalFeti L_TotalFeti2 P_TotalFeti M_Projector S_Projector L_Projector L_Projector2 L_Projector3 M_ProjectorRanks S_ProjectorRanks P_Projector M_Reconstruct S_Reconstruct P_Reconstruct.
From Verif Require Import M_DualVector M_Mprgp M_SolverInfo S_Mprgp M_PcpgRanks S_Precond L_Precond2 L_Precond6 P_Precond S_PcpgRanks L_PcpgRanks.
From Verif Require M_Pcpg S_Pcpg.
Import ListNotations.
Local Open Scope R_scope.

Lemma Sum_nonneg_zero {A} (l : list A) f : (forall a, In a l -> 0 <= f a) -> Sum l f = 0 -> forall a, In a l -> f a = 0.
Proof.
  induction l as [|b l IH]; intros H Z a; [intros []|]. rewrite Sum_cons in Z. pose proof (H b (or_introl eq_refl)) as H1. pose proof (Sum_nonneg l f (fun x Hx => H x (or_intror Hx))) as H2.
  intros [->|I]; [lra|]. apply IH; auto. - intros x Hx. apply H. now right. - lra.
Qed.
Lemma Sum_squares {A} (l : list A) f : Sum l (fun a => f a * f a) = 0 -> forall a, In a l -> f a = 0.
Proof. intros Z a I. pose proof (Sum_nonneg_zero l (fun a => f a * f a) ltac:(intros; nra) Z a I) as H. cbv beta in H. nra. Qed.

(** a vector without energy is in the kernel *)
Lemma no_energy N (a : nat -> nat -> R) u : (forall i j, (i < N)%nat -> (j < N)%nat -> a i j = a j i) -> (forall v, 0 <= Sum (seq 0 N) (fun i => v i * times N a v i)) ->
  Sum (seq 0 N) (fun i => u i * times N a u i) = 0 -> forall i, (i < N)%nat -> times N a u i = 0.
Proof.
  intros Hs Hp Z. set (w := times N a u). set (q := fun x y : nat -> R => Sum (seq 0 N) (fun i => x i * y i)).
  assert (T : forall t i, times N a (fun i => u i + t * w i) i = w i + t * times N a w i).
  { intros t i. unfold w at 2, times. rewrite <- Sum_scal, <- Sum_plus. apply Sum_ext. intros j. lra. }
  assert (Ew : q u (times N a w) = q w w) by (unfold q; rewrite (bilinear N a Hs u w); apply Sum_ext; intros; reflexivity).
  assert (Q : forall t, 0 <= 2 * t * q w w + t * t * q w (times N a w)).
  { intros t. pose proof (Hp (fun i => u i + t * w i)) as H. rewrite (Sum_ext _ _ (fun i => u i * w i + (t * (w i * w i) + (t * (u i * times N a w i) + t * t * (w i * times N a w i))))) in H by (intros i; rewrite T; lra).
    rewrite !Sum_plus, !Sum_scal in H. unfold q in *. change (Sum (seq 0 N) (fun i => u i * w i) = 0) in Z. rewrite Z, Ew in H. lra. }
  assert (W : q w w = 0).
  { set (c := q w (times N a w)) in Q. assert (0 <= c) by (apply Hp). assert (0 <= q w w) by (apply Sum_nonneg; intros; nra). destruct (Rle_lt_or_eq_dec 0 (q w w)) as [P|]; [assumption| |auto]. exfalso.
    specialize (Q (- (q w w / (1 + c)))). assert (X : 2 * - (q w w / (1 + c)) * q w w + - (q w w / (1 + c)) * - (q w w / (1 + c)) * c = (q w w / (1 + c)) * (q w w / (1 + c)) * (c - 2 * (1 + c))) by (field; lra). rewrite X in Q.
    assert (0 < q w w / (1 + c)) by (apply Rdiv_lt_0_compat; lra). assert (0 < (q w w / (1 + c)) * (q w w / (1 + c))) by nra. nra. }
  intros i Hi. apply (Sum_squares (seq 0 N) w W). apply in_seq. lia.
Qed.

Section Dual.
  Variables (h : R).
  Local Notation E := (exact h).
  Variables (n : nat) (first : nat -> nat) (L : list (list nat)) (len : nat -> nat) (row : nat -> nat -> list (nat * R)) (ksize : nat -> nat) (Rk : nat -> nat -> nat -> R) (J : inverse).
  Variables (K kplus : nat -> nat -> nat -> R).
  Variables (Sg : (nat -> R) -> nat -> R).
  Local Notation all := (everything n first).
  Local Notation G_of := (G_of L len row Rk).
  Local Notation Gt_of := (Gt_of n first len row ksize Rk).
  Local Notation J_of := (inverse_of n first ksize J).
  Local Notation F_of := (F_of n first L len row kplus).
  Local Notation N := (length L).
  Local Notation M := (kernels ksize all).
  Local Notation lst := (multipliers_of L).
  Local Notation ask := (as_kernels first ksize).
  Local Notation ddot := (ddot L).
  Local Notation kdot := (kdot n first ksize).
  Local Notation kv := (kernel_vector ksize all).
  Local Notation A := (global n first L len row ksize Rk J h false F_of Sg).
  Local Notation Bt := (Bt_of L row).

  (** ** vectors *)
  Lemma kernels_snoc b c : kernels ksize (seq b (S c)) = (kernels ksize (seq b c) + ksize (b + c))%nat.
  Proof. rewrite seq_S. unfold kernels. rewrite kernel_vector_app, app_length. unfold kernel_vector at 2. cbn [flat_map]. rewrite app_nil_r, map_length, seq_length. reflexivity. Qed.
  Lemma kernels_app b c e : kernels ksize (seq b (c + e)) = (kernels ksize (seq b c) + kernels ksize (seq (b + c) e))%nat.
  Proof. rewrite seq_app. unfold kernels. now rewrite kernel_vector_app, app_length. Qed.
  Lemma map_nth_slice (a : list R) o c : (o + c <= length a)%nat -> map (fun k => nth (o + k) a 0) (seq 0 c) = firstn c (skipn o a).
  Proof.
    intros H. apply (nth_ext _ _ 0 0); [rewrite map_length, seq_length, firstn_length, skipn_length; lia|]. intros i Hi. rewrite map_length, seq_length in Hi. rewrite (nth_map_seq (fun k => nth (o + k) a 0)) by lia. 
    transitivity (nth i (skipn o a) 0).
    - rewrite <- (firstn_skipn o a) at 1. rewrite app_nth2; rewrite firstn_length, Nat.min_l by lia; [f_equal; lia|lia].
    - rewrite <- (firstn_skipn c (skipn o a)) at 1. apply app_nth1. rewrite firstn_length, skipn_length. lia.
  Qed.
  Lemma vector_ask_from (a : list R) b c : forall s, length a = kernels ksize (seq b (s + c)) ->
    kernel_vector ksize (seq (b + s) c) (fun d k => nth (kernels ksize (seq b (d - b)) + k) a 0) = skipn (kernels ksize (seq b s)) a.
  Proof.
    induction c as [|c IH]; intros s H.
    - rewrite skipn_all2; [reflexivity|]. rewrite Nat.add_0_r in H. apply Nat.eq_le_incl. exact H.
    - cbn [seq]. unfold kernel_vector. cbn [flat_map]. replace (Datatypes.S (b + s)) with (b + (Datatypes.S s))%nat by lia. change (flat_map (fun d => map (fun k => nth (kernels ksize (seq b (d - b)) + k) a 0) (seq 0 (ksize d))) (seq (b + Datatypes.S s) c)) with (kernel_vector ksize (seq (b + Datatypes.S s) c) (fun d k => nth (kernels ksize (seq b (d - b)) + k) a 0)).
      rewrite (IH (Datatypes.S s)) by (rewrite H; replace (Datatypes.S s + c)%nat with (s + Datatypes.S c)%nat by lia; reflexivity). replace (b + s - b)%nat with s by lia. rewrite kernels_snoc. rewrite map_nth_slice.
      + rewrite <- (firstn_skipn (ksize (b + s)) (skipn (kernels ksize (seq b s)) a)) at 2. f_equal. set (o := kernels ksize (seq b s)). clearbody o. generalize (ksize (b + s)). intros z. clear. revert o. induction a as [|v a IH]; intros o; [now rewrite !skipn_nil|]. destruct o as [|o]; [reflexivity|]. cbn [skipn Nat.add]. apply IH.
      + rewrite H, kernels_app. replace (Datatypes.S c) with (1 + c)%nat by lia. rewrite kernels_app. pose proof (kernels_snoc (b + s) 0) as X. cbn [Nat.add] in X. rewrite Nat.add_0_r in X. change (kernels ksize (seq (b + s) 0)) with 0%nat in X. lia.
  Qed.
  Lemma vector_ask (a : list R) : length a = M -> kv (ask a) = a.
  Proof.
    intros H. unfold as_kernels, everything, all_domains in *. pose proof (vector_ask_from a (first 0%nat) (first n - first 0%nat) 0) as X. cbn [Nat.add] in X. rewrite Nat.add_0_r in X. apply X in H. exact H.
  Qed.
  Lemma kv_ext u w : (forall d k, In d all -> (k < ksize d)%nat -> u d k = w d k) -> kv u = kv w.
  Proof. intros H. unfold kernel_vector. rewrite !flat_map_concat_map. f_equal. apply map_ext_in. intros d Id. apply map_ext_in. intros k Ik. apply in_seq in Ik. apply H; [assumption|lia]. Qed.
  Lemma sp_lst x y : scalar_product (lst x) (lst y) = ddot x y.
  Proof. unfold P_Projector.ddot, multipliers_of, scalar_product. generalize (multiplier_list L). intros l. induction l as [|m l IH]; [reflexivity|]. rewrite Sum_cons, <- IH. reflexivity. Qed.
  Lemma sp_app (a b c e : list R) : length a = length c -> scalar_product (a ++ b) (c ++ e) = scalar_product a c + scalar_product b e.
  Proof.
    revert c. induction a as [|u a IH]; intros [|v c] H; try discriminate; [unfold scalar_product; cbn; lra|]. injection H as H. specialize (IH c H). unfold scalar_product in *. cbn [app combine fold_right fst snd]. rewrite IH. lra.
  Qed.
  Lemma sp_kv u w : scalar_product (kv u) (kv w) = kdot u w.
  Proof.
    unfold P_Projector.kdot, kernel_vector. generalize all. intros l. induction l as [|d l IH]; [reflexivity|]. rewrite Sum_cons, <- IH. cbn [flat_map]. rewrite sp_app by (now rewrite !map_length). f_equal. generalize (seq 0 (ksize d)). intros q. induction q as [|k q IHq]; [reflexivity|]. rewrite Sum_cons, <- IHq. reflexivity.
  Qed.
  Lemma comb_lst g a g' : combination (lst g) a (lst g') = lst (fun m => g m + a * g' m).
  Proof. unfold multipliers_of, combination. generalize (multiplier_list L). intros l. induction l as [|m l IH]; [reflexivity|]. cbn [map combine fst snd]. now rewrite IH. Qed.
  Lemma comb_kv u a w : combination (kv u) a (kv w) = kv (fun d k => u d k + a * w d k).
  Proof.
    unfold combination, kernel_vector. generalize all. intros l. induction l as [|d l IH]; [reflexivity|]. cbn [flat_map].
    assert (X : forall (x x' y y' : list R), length x = length y -> combine (x ++ x') (y ++ y') = combine x y ++ combine x' y').
    { clear. induction x as [|a x IH]; intros x' [|b y] y' H; try discriminate; [reflexivity|]. cbn. f_equal. apply IH. now injection H. }
    rewrite X by (now rewrite !map_length). rewrite map_app, IH. f_equal. generalize (seq 0 (ksize d)). intros q. induction q as [|k q IHq]; [reflexivity|]. cbn [map combine fst snd]. now rewrite IHq.
  Qed.
  Lemma zero_kv w : is_zero (kv w) -> forall d k, In d all -> (k < ksize d)%nat -> w d k = 0.
  Proof. unfold is_zero. rewrite Forall_forall. intros H d k Id Hk. apply H. apply in_flat_map. exists d. split; [assumption|]. apply in_map. apply in_seq. lia. Qed.
  Lemma zero_lst g : is_zero (lst g) <-> forall m, (m < N)%nat -> g m = 0.
  Proof.
    unfold is_zero. rewrite Forall_forall. split.
    - intros H m Hm. apply H. apply in_map. apply in_seq. lia.
    - intros H a Ia. apply in_map_iff in Ia. destruct Ia as (m & <- & Im). apply in_seq in Im. apply H. lia.
  Qed.

  (** ** linearity *)
  Lemma Bt_ext x y : (forall m, (m < N)%nat -> x m = y m) -> forall d j, Bt x d j = Bt y d j.
  Proof. intros H d j. apply Sum_ext_in. intros m Im. apply in_seq in Im. rewrite H by lia. reflexivity. Qed.
  Lemma F_respects : respects L F_of.
  Proof. intros x y H m _. unfold S_Feti.F_of, B_of, Kplus_of. apply Sum_ext. intros d. apply Sum_ext. intros j. f_equal. apply Sum_ext. intros i. f_equal. now apply Bt_ext. Qed.
  Lemma Bt_lin x a y d j : Bt (fun m => x m + a * y m) d j = Bt x d j + a * Bt y d j.
  Proof. unfold Bt_of. rewrite <- Sum_scal, <- Sum_plus. apply Sum_ext. intros m. lra. Qed.
  Lemma F_lin x a y m : F_of (fun m => x m + a * y m) m = F_of x m + a * F_of y m.
  Proof.
    unfold S_Feti.F_of, B_of. rewrite <- Sum_scal, <- Sum_plus. apply Sum_ext. intros d. rewrite <- Sum_scal, <- Sum_plus. apply Sum_ext. intros j.
    replace (Kplus_of len kplus (Bt (fun m => x m + a * y m)) d j) with (Kplus_of len kplus (Bt x) d j + a * Kplus_of len kplus (Bt y) d j); [lra|].
    unfold Kplus_of. rewrite <- Sum_scal, <- Sum_plus. apply Sum_ext. intros i. rewrite Bt_lin. lra.
  Qed.
  Lemma G_lin x a y d k : G_of (fun m => x m + a * y m) d k = G_of x d k + a * G_of y d k.
  Proof. unfold S_Projector.G_of. rewrite <- Sum_scal, <- Sum_plus. apply Sum_ext. intros m. lra. Qed.
  Lemma Gt_lin u a w m : Gt_of (fun d k => u d k + a * w d k) m = Gt_of u m + a * Gt_of w m.
  Proof. unfold S_Projector.Gt_of. rewrite <- Sum_scal, <- Sum_plus. apply Sum_ext. intros d. rewrite <- Sum_scal, <- Sum_plus. apply Sum_ext. intros k. lra. Qed.

  (** ** the kernel of G *)
  Lemma G_Bt x d k : G_of x d k = - Sum (seq 0 (len d)) (fun j => Rk d k j * Bt x d j).
  Proof.
    pose proof (G_load L len row Rk (fun _ _ => 0) x d k) as H. unfold e_of in H. rewrite (Sum_zero (seq 0 (len d)) (fun j => Rk d k j * 0)) in H by (intros; lra).
    rewrite (Sum_ext _ (fun j => Rk d k j * (0 - Bt x d j)) (fun j => (-1) * (Rk d k j * Bt x d j))) in H by (intros; lra). rewrite Sum_scal in H. lra.
  Qed.
  Lemma kernel_orthogonal x d : (forall k, (k < ksize d)%nat -> G_of x d k = 0) -> forall a, Sum (seq 0 (len d)) (fun j => Bt x d j * Sum (seq 0 (ksize d)) (fun k => Rk d k j * a k)) = 0.
  Proof.
    intros H a. rewrite (Sum_ext _ _ (fun j => Sum (seq 0 (ksize d)) (fun k => Rk d k j * Bt x d j * a k))) by (intros j; rewrite <- Sum_scal; apply Sum_ext; intros; lra). rewrite Sum_swap. apply Sum_zero. intros k Ik. apply in_seq in Ik. rewrite Sum_scal_r.
    specialize (H k ltac:(lia)). rewrite G_Bt in H. replace (Sum (seq 0 (len d)) (fun j => Rk d k j * Bt x d j)) with 0 by lra. lra.
  Qed.

  Hypothesis HK : semidefinite n first len K.
  Hypothesis HR : spans_kernel n first len ksize Rk K.
  Hypothesis HI : independent n first L len row.
  Hypothesis HG : generalized_inverse n first len ksize Rk K kplus.
  Hypothesis Hsym : forall d i j, In d all -> (i < len d)%nat -> (j < len d)%nat -> kplus d i j = kplus d j i.
  Hypothesis HS : is_preconditioner n first L len row K Sg.
  Hypothesis HJ : inverts n first L len row ksize Rk J.

  Lemma F_sym x y : ddot (F_of x) y = ddot x (F_of y).
  Proof.
    assert (X : forall x y, ddot (F_of x) y = Sum all (fun d => Sum (seq 0 (len d)) (fun j => Kplus_of len kplus (Bt x) d j * Bt y d j))) by (intros; apply B_adjoint).
    transitivity (ddot (F_of y) x); [|apply Sum_ext; intros; lra]. rewrite !X. apply Sum_ext_in. intros d Id.
    unfold Kplus_of. rewrite (Sum_ext _ _ (fun i => Sum (seq 0 (len d)) (fun j => kplus d i j * Bt x d j * Bt y d i))) by (intros; now rewrite Sum_scal_r).
    rewrite Sum_swap. apply Sum_ext_in. intros j Ij. rewrite <- Sum_scal_r. apply Sum_ext_in. intros i Ii. apply in_seq in Ij, Ii. rewrite (Hsym d i j) by (auto; lia). lra.
  Qed.
  (** the energy of a combination of constraints without a load of the kernels *)
  Lemma F_energy x : (forall d k, In d all -> (k < ksize d)%nat -> G_of x d k = 0) ->
    ddot x (F_of x) = Sum all (fun d => Sum (seq 0 (len d)) (fun j => Kplus_of len kplus (Bt x) d j * times (len d) (K d) (Kplus_of len kplus (Bt x) d) j)) /\
    forall d i, In d all -> (i < len d)%nat -> times (len d) (K d) (Kplus_of len kplus (Bt x) d) i = Bt x d i.
  Proof.
    intros H. assert (X : forall d i, In d all -> (i < len d)%nat -> times (len d) (K d) (Kplus_of len kplus (Bt x) d) i = Bt x d i).
    { intros d i Id Hi. apply (HG (Bt x) d i Id Hi). intros k Hk. specialize (H d k Id Hk). rewrite G_Bt in H. lra. }
    split; [|exact X]. rewrite <- F_sym. unfold P_Projector.ddot. etransitivity; [apply B_adjoint|]. apply Sum_ext_in. intros d Id. apply Sum_ext_in. intros j Ij. apply in_seq in Ij. rewrite X by (auto; lia). reflexivity.
  Qed.
  Lemma F_definite x : (forall d k, In d all -> (k < ksize d)%nat -> G_of x d k = 0) -> 0 <= ddot x (F_of x) /\ (ddot x (F_of x) = 0 -> forall m, (m < N)%nat -> x m = 0).
  Proof.
    intros H. destruct (F_energy x H) as (E1 & E2). rewrite E1. assert (P : forall d, In d all -> 0 <= Sum (seq 0 (len d)) (fun j => Kplus_of len kplus (Bt x) d j * times (len d) (K d) (Kplus_of len kplus (Bt x) d) j)) by (intros d Id; now apply HK).
    split; [now apply Sum_nonneg|]. intros Z. apply HI. intros d j Id Hj. rewrite <- E2 by auto. apply no_energy; [intros; now apply HK|intros; now apply HK| |exact Hj].
    exact (Sum_nonneg_zero all _ P Z d Id).
  Qed.
  (** no load in the kernel of K: no load at all *)
  Lemma kernel_load x (w : nat -> nat -> R) : (forall d k, In d all -> (k < ksize d)%nat -> G_of x d k = 0) ->
    (forall d j, In d all -> (j < len d)%nat -> times (len d) (K d) (w d) j = 0) -> (forall d j, In d all -> (j < len d)%nat -> Bt x d j * w d j = Bt x d j * Bt x d j) -> forall m, (m < N)%nat -> x m = 0.
  Proof.
    intros H Hw He. apply HI. intros d j Id Hj. apply (Sum_squares (seq 0 (len d)) (Bt x d)); [|apply in_seq; lia]. destruct (HR d (w d) Id (fun i => Hw d i Id)) as (a & Ha).
    rewrite <- (kernel_orthogonal x d (fun k => H d k Id) a). apply Sum_ext_in. intros i Ii. apply in_seq in Ii. rewrite <- Ha, He by (auto; lia). reflexivity.
  Qed.
  Lemma S_sym x y : ddot (Sg x) y = ddot x (Sg y).
  Proof.
    transitivity (ddot (Sg y) x); [|apply Sum_ext; intros; lra]. destruct HK as [K1 K2]. destruct HS as [S0|[S0|S0]].
    - apply Sum_ext. intros m. rewrite !S0. lra.
    - unfold P_Projector.ddot. rewrite (Sum_ext _ _ (fun m => lumped_of n first L len row K x m * y m)) by (intros; now rewrite S0). rewrite lumped_symmetric by exact K1. apply Sum_ext. intros m. now rewrite S0.
    - apply (dirichlet_symmetric n first L len row K K1); apply S0.
  Qed.
  Lemma S_definite x : (forall d k, In d all -> (k < ksize d)%nat -> G_of x d k = 0) -> 0 <= ddot x (Sg x) /\ (ddot x (Sg x) = 0 -> forall m, (m < N)%nat -> x m = 0).
  Proof.
    intros H. destruct HK as [K1 K2]. destruct HS as [S0|[S0|S0]].
    - assert (X : ddot x (Sg x) = Sum (multiplier_list L) (fun m => x m * x m)) by (apply Sum_ext; intros; now rewrite S0). rewrite X. split; [apply Sum_nonneg; intros; nra|]. intros Z m Hm. apply (Sum_squares _ x Z). apply in_seq. lia.
    - assert (X : ddot x (Sg x) = Sum all (fun d => Sum (seq 0 (len d)) (fun j => Bt x d j * times (len d) (K d) (Bt x d) j))).
      { transitivity (Sum (multiplier_list L) (fun m => lumped_of n first L len row K x m * x m)); [apply Sum_ext; intros; rewrite S0; lra|]. unfold lumped_of. rewrite B_adjoint. apply Sum_ext. intros d. apply Sum_ext. intros j. lra. }
      rewrite X. assert (P : forall d, In d all -> 0 <= Sum (seq 0 (len d)) (fun j => Bt x d j * times (len d) (K d) (Bt x d) j)) by (intros; now apply K2). split; [now apply Sum_nonneg|]. intros Z.
      apply (kernel_load x (Bt x) H); [|reflexivity]. intros d j Id Hj. apply no_energy; auto. exact (Sum_nonneg_zero all _ P Z d Id).
    - destruct (S0 x) as (w & Ew & Ey). assert (X : ddot x (Sg x) = Sum all (fun d => Sum (seq 0 (len d)) (fun i => w d i * times (len d) (K d) (w d) i))).
      { rewrite <- (dirichlet_energy n first L len row K x (Sg x) x (Sg x) w w Ew Ey Ew Ey). apply Sum_ext. intros. lra. }
      rewrite X. assert (P : forall d, In d all -> 0 <= Sum (seq 0 (len d)) (fun j => w d j * times (len d) (K d) (w d) j)) by (intros; now apply K2). split; [now apply Sum_nonneg|]. intros Z.
      apply (kernel_load x w H).
      + intros d j Id Hj. apply no_energy; auto. exact (Sum_nonneg_zero all _ P Z d Id).
      + intros d j Id Hj. specialize (Ew d Id j Hj). destruct (surface L row d j) eqn:Es; [rewrite Ew; reflexivity|]. rewrite (Bt_inside L row x d j Es). lra.
  Qed.

  Variables (dg : nat -> R) (eg : nat -> nat -> R).
  Local Notation as_ v := (lst_as L v).
  Lemma total_feti_spd : S_Pcpg.spd_problem h N M A (lst dg) (kv eg).
  Proof.
    assert (GK : forall v u, kv (G_of (as_function v)) = u -> is_zero u -> forall d k, In d all -> (k < ksize d)%nat -> G_of (as_function v) d k = 0) by (intros v u <- Z; now apply zero_kv).
    assert (D0 : forall (v : list R) (Q : R), length v = N -> ~ is_zero v -> 0 <= Q /\ (Q = 0 -> forall m, (m < N)%nat -> as_function v m = 0) -> 0 < Q).
    { intros v Q Hv Hz (Q1 & Q2). destruct (Rle_lt_or_eq_dec 0 Q Q1) as [|Z]; [assumption|]. exfalso. apply Hz. rewrite <- (as_ v Hv). apply zero_lst. apply Q2. now symmetry. }
    assert (SP : forall (v : list R) g, length v = N -> scalar_product v (lst g) = ddot (as_function v) g) by (intros v g Hv; rewrite <- (as_ v Hv) at 1; apply sp_lst).
    split; [split| | | | | |].
    - apply lst_len.
    - apply kernel_vector_len.
    - split; [intros; apply lst_len|]. intros v a w Hv Hw. rewrite <- (as_ v Hv), <- (as_ w Hw), comb_lst. cbn [global M_Pcpg.F]. rewrite comb_lst. apply lst_ext. intros m Hm. rewrite <- F_lin. apply F_respects; [|exact Hm]. intros i Hi. rewrite !as_lst by exact Hi. reflexivity.
    - intros. apply lst_len.
    - split; [intros; apply kernel_vector_len|]. intros v a w Hv Hw. rewrite <- (as_ v Hv), <- (as_ w Hw), comb_lst. cbn [global M_Pcpg.G]. rewrite comb_kv. apply kv_ext. intros d k _ _. rewrite <- G_lin. apply G_ext. intros i Hi. rewrite !as_lst by exact Hi. reflexivity.
    - split; [intros; apply lst_len|]. intros v a w Hv Hw. rewrite <- (vector_ask v Hv), <- (vector_ask w Hw), comb_kv. cbn [global M_Pcpg.Gt]. rewrite comb_lst. apply lst_ext. intros m Hm. rewrite <- Gt_lin. apply Gt_ext. intros d k Id Hk. rewrite !ask_vector by auto. reflexivity.
    - intros. apply kernel_vector_len.
    - intros u Hu. unfold S_Pcpg.constrained. cbn [global M_Pcpg.conjugate M_Pcpg.G M_Pcpg.Gt M_Pcpg.inv]. rewrite <- (vector_ask u Hu) at 2. apply kv_ext. intros d k Id Hk. rewrite <- (initial_feasible n first L len row ksize Rk J HJ (ask u) d k Id Hk). apply G_ext. intros m Hm. rewrite as_lst by exact Hm. apply Gt_ext. intros d' k' Id' Hk'. now apply ask_vector.
    - intros v w Hv Hw. cbn [global M_Pcpg.F]. rewrite (SP v) by exact Hv. rewrite <- (as_ w Hw) at 2. rewrite sp_lst. symmetry. apply F_sym.
    - intros v Hv Hz Hn. cbn [global M_Pcpg.F]. rewrite (SP v) by exact Hv. apply (D0 v); auto. apply F_definite. apply (GK v (S_Pcpg.constrained h A v)); [reflexivity|exact Hz].
    - intros v w Hv Hw. cbn [global M_Pcpg.S]. rewrite (SP v) by exact Hv. rewrite <- (as_ w Hw) at 2. rewrite sp_lst. symmetry. apply S_sym.
    - intros v Hv Hz Hn. cbn [global M_Pcpg.S]. rewrite (SP v) by exact Hv. apply (D0 v); auto. apply S_definite. apply (GK v (M_Pcpg.G E A v)); [reflexivity|exact Hz].
    - intros v u Hv Hu. cbn [global M_Pcpg.G M_Pcpg.Gt]. rewrite (SP v) by exact Hv. rewrite <- (vector_ask u Hu) at 2. rewrite sp_kv. symmetry. apply G_adjoint.
    - intros u w Hu Hw. cbn [global M_Pcpg.inv]. rewrite <- (vector_ask u Hu) at 1. rewrite <- (vector_ask w Hw) at 2. rewrite !sp_kv. symmetry. apply (J_symmetric n first L len row ksize Rk J HJ).
  Qed.
End Dual.
