(** * Lemmas about extensions and Schur complements *)
From Coq Require Import List Arith Bool Permutation Sorted Reals Lia Lra.
From Verif Require Import Base M_Csx M_Dnx S_Csx S_Dnx M_Math S_Math S_Dual S_Equality L_Equality6 S_Feti L_TotalFeti2 M_Precond S_Precond L_Precond.
Import ListNotations.
Local Open Scope R_scope.

Section Domain.
  Variables (n : nat) (s : nat -> bool) (a : nat -> nat -> R).
  Hypothesis Hsym : forall i j, (i < n)%nat -> (j < n)%nat -> a i j = a j i.
  Local Notation ix := (surface_list n s).
  Local Notation inn := (interior_list n s).
  Local Notation times := (times n a).
  Local Notation extension := (extension n s a).
  Local Notation unit j := (fun c : nat => if (c =? nth j ix 0)%nat then 1 else 0).

  Lemma Sum_split f : Sum (seq 0 n) f = Sum inn f + Sum ix f.
  Proof. rewrite <- Sum_app. apply Sum_perm, Permutation_sym, filter_both. Qed.
  Lemma in_ix i : In i ix <-> (i < n)%nat /\ s i = true.
  Proof. unfold surface_list. rewrite filter_In, in_seq. intuition lia. Qed.
  Lemma in_inn i : In i inn <-> (i < n)%nat /\ s i = false.
  Proof. unfold interior_list. rewrite filter_In, in_seq, negb_true_iff. intuition lia. Qed.
  Lemma ix_nth j : (j < length ix)%nat -> (nth j ix 0 < n)%nat /\ s (nth j ix 0%nat) = true.
  Proof. intros Hj. apply in_ix, nth_In, Hj. Qed.
  Lemma inn_nth j : (j < length inn)%nat -> (nth j inn 0 < n)%nat /\ s (nth j inn 0%nat) = false.
  Proof. intros Hj. apply in_inn, nth_In, Hj. Qed.
  Lemma ix_nodup : NoDup ix.
  Proof. apply NoDup_filter, seq_NoDup. Qed.
  Lemma ix_sorted : StronglySorted lt ix.
  Proof. apply L_Equality.ss_filter, L_Equality.ss_seq. Qed.
  Lemma lengths : (length inn + length ix = n)%nat.
  Proof. pose proof (Permutation_length (filter_both s (seq 0 n))) as P. rewrite app_length, seq_length in P. exact P. Qed.

  Lemma bilinear u w : Sum (seq 0 n) (fun i => u i * times w i) = Sum (seq 0 n) (fun i => w i * times u i).
  Proof.
    unfold S_Precond.times. rewrite (Sum_ext _ _ (fun i => Sum (seq 0 n) (fun j => u i * (a i j * w j)))) by (intros; now rewrite Sum_scal).
    rewrite (Sum_ext _ (fun i => w i * _) (fun i => Sum (seq 0 n) (fun j => w i * (a i j * u j)))) by (intros; now rewrite Sum_scal).
    rewrite Sum_swap. apply Sum_ext_in. intros j Ij. apply Sum_ext_in. intros i Ii. apply in_seq in Ij, Ii. rewrite (Hsym i j) by lia. lra.
  Qed.

  (** u against the forces of an extension: only the surface *)
  Lemma energy u v w : extension v w -> Sum (seq 0 n) (fun i => u i * times w i) = Sum ix (fun i => u i * times w i).
  Proof.
    intros E. rewrite Sum_split. rewrite (Sum_zero inn); [lra|]. intros i I. apply in_inn in I. destruct I as [Hi Si]. specialize (E i Hi). rewrite Si in E. rewrite E. lra.
  Qed.
  Lemma unit_energy u j w : (j < length ix)%nat -> extension (unit j) u -> Sum ix (fun i => u i * times w i) = times w (nth j ix 0%nat).
  Proof.
    intros Hj E. destruct (ix_nth j Hj) as [Hn Hs]. rewrite (Sum_single _ (nth j ix 0%nat)).
    - specialize (E _ Hn). rewrite Hs in E. rewrite E, Nat.eqb_refl. lra.
    - apply ix_nodup.
    - now apply nth_In.
    - intros i I N. apply in_ix in I. destruct I as [Hi Si]. specialize (E i Hi). rewrite Si in E. rewrite E. destruct (Nat.eqb_spec i (nth j ix 0%nat)); [easy|lra].
  Qed.

  Lemma schur_symmetric S i j : is_schur n s a S -> (i < length ix)%nat -> (j < length ix)%nat -> S i j = S j i.
  Proof.
    intros HS Hi Hj. destruct (HS i Hi) as (wi & Ei & Vi). destruct (HS j Hj) as (wj & Ej & Vj). rewrite (Vj i Hi), (Vi j Hj).
    rewrite <- (unit_energy wi i wj Hi Ei), <- (unit_energy wj j wi Hj Ej). rewrite <- (energy wi _ wj Ej), <- (energy wj _ wi Ei). apply bilinear.
  Qed.

  Lemma times_ext w u i : (forall j, (j < n)%nat -> w j = u j) -> times w i = times u i.
  Proof. intros H. apply Sum_ext_in. intros j I. apply in_seq in I. rewrite H by lia. reflexivity. Qed.
  Lemma times_zero w i : (forall j, (j < n)%nat -> w j = 0) -> times w i = 0.
  Proof. intros H. apply Sum_zero. intros j I. apply in_seq in I. rewrite H by lia. lra. Qed.
  Lemma times_sum {A} (l : list A) (c : A -> R) (w : A -> nat -> R) i : times (fun j => Sum l (fun x => c x * w x j)) i = Sum l (fun x => c x * times (w x) i).
  Proof.
    unfold S_Precond.times. rewrite (Sum_ext _ _ (fun j => Sum l (fun x => c x * (a i j * w x j)))).
    - rewrite Sum_swap. apply Sum_ext. intros x. now rewrite Sum_scal.
    - intros j. rewrite <- Sum_scal. apply Sum_ext. intros x. lra.
  Qed.

  (** finite choice *)
  Lemma choose_functions (P : nat -> (nat -> R) -> Prop) m : (forall j, (j < m)%nat -> exists w, P j w) -> exists W, forall j, (j < m)%nat -> P j (W j).
  Proof.
    induction m as [|m IH]; intros H; [exists (fun _ _ => 0); intros; lia|]. destruct IH as (W & HW); [intros; apply H; lia|]. destruct (H m) as (w & Hw); [lia|].
    exists (fun j => if (j =? m)%nat then w else W j). intros j Hj. destruct (Nat.eqb_spec j m) as [->|]; [easy|apply HW; lia].
  Qed.

  (** the Schur complement maps values on the surface to the forces of the extension *)
  Lemma schur_apply S v : is_schur n s a S ->
    exists w, extension v w /\ forall i, (i < length ix)%nat -> Sum (seq 0 (length ix)) (fun j => S i j * v (nth j ix 0%nat)) = times w (nth i ix 0%nat).
  Proof.
    intros HS. destruct (choose_functions _ (length ix) HS) as (W & HW).
    exists (fun c => Sum (seq 0 (length ix)) (fun j => v (nth j ix 0%nat) * W j c)). split.
    - intros i Hi. destruct (s i) eqn:Si.
      + assert (I : In i ix) by (now apply in_ix). destruct (In_nth _ _ 0%nat I) as (p & Hp & Ep).
        rewrite (Sum_single _ p).
        * rewrite Ep. destruct (HW p Hp) as [E _]. specialize (E i Hi). rewrite Si in E. rewrite E, Ep, Nat.eqb_refl. lra.
        * apply seq_NoDup.
        * apply in_seq. lia.
        * intros j Ij Nj. apply in_seq in Ij. destruct (HW j ltac:(lia)) as [E _]. specialize (E i Hi). rewrite Si in E. rewrite E.
          destruct (Nat.eqb_spec i (nth j ix 0%nat)) as [X|]; [|lra]. exfalso. apply Nj. apply (proj1 (NoDup_nth ix 0%nat) ix_nodup); [lia|easy|congruence].
      + rewrite times_sum. apply Sum_zero. intros j Ij. apply in_seq in Ij. destruct (HW j ltac:(lia)) as [E _]. specialize (E i Hi). rewrite Si in E. rewrite E. lra.
    - intros i Hi. rewrite times_sum. apply Sum_ext_in. intros j Ij. apply in_seq in Ij. destruct (HW j ltac:(lia)) as [_ V]. rewrite (V i Hi). lra.
  Qed.

  (** ** The interior block is regular *)
  Section Solver.
    Variable Z : list R -> list R.
    Hypothesis HZ : forall v, length v = length inn -> length (Z v) = length inn /\
      forall p, (p < length inn)%nat -> Sum (seq 0 (length inn)) (fun q => interior_block n s a p q * nth q (Z v) 0) = nth p v 0.

    (** an interior vector as a function on all degrees of freedom *)
    Definition inner (z : list R) (c : nat) : R := Sum (seq 0 (length inn)) (fun q => if (c =? nth q inn 0)%nat then nth q z 0 else 0).
    Lemma inner_surface z i : s i = true -> inner z i = 0.
    Proof.
      intros Si. unfold inner. apply Sum_zero. intros q Iq. apply in_seq in Iq. destruct (Nat.eqb_spec i (nth q inn 0%nat)) as [->|]; [|easy]. destruct (inn_nth q ltac:(lia)) as [_ X]. congruence.
    Qed.
    Lemma inner_nth z q : (q < length inn)%nat -> inner z (nth q inn 0%nat) = nth q z 0.
    Proof.
      intros Hq. unfold inner. rewrite (Sum_single _ q).
      - now rewrite Nat.eqb_refl.
      - apply seq_NoDup.
      - apply in_seq. lia.
      - intros p Ip Np. apply in_seq in Ip. destruct (Nat.eqb_spec (nth q inn 0%nat) (nth p inn 0%nat)) as [X|]; [|easy]. exfalso. apply Np.
        assert (ND : NoDup inn) by (apply NoDup_filter, seq_NoDup). apply (proj1 (NoDup_nth inn 0%nat) ND); [lia|easy|congruence].
    Qed.
    Lemma Sum_inn f : Sum inn f = Sum (seq 0 (length inn)) (fun q => f (nth q inn 0%nat)).
    Proof. symmetry. apply Sum_seq_nth. Qed.
    Lemma times_inner z i : times (inner z) i = Sum (seq 0 (length inn)) (fun q => a i (nth q inn 0%nat) * nth q z 0).
    Proof.
      unfold S_Precond.times. rewrite Sum_split. rewrite (Sum_zero ix); [|intros j I; apply in_ix in I; rewrite inner_surface by easy; lra].
      rewrite Sum_inn, Rplus_0_r. apply Sum_ext_in. intros q Iq. apply in_seq in Iq. rewrite inner_nth by lia. reflexivity.
    Qed.

    Lemma times_plus w u i : times (fun j => w j + u j) i = times w i + times u i.
    Proof. unfold S_Precond.times. rewrite <- Sum_plus. apply Sum_ext. intros. lra. Qed.
    Lemma times_scal c w i : times (fun j => c * w j) i = c * times w i.
    Proof. unfold S_Precond.times. rewrite <- Sum_scal. apply Sum_ext. intros. lra. Qed.

    (** the values on the surface and the solution of the interior *)
    Definition on_surface (v : nat -> R) (c : nat) : R := if s c then v c else 0.
    Definition extended (v : nat -> R) (c : nat) : R := on_surface v c + -1 * inner (Z (map (times (on_surface v)) inn)) c.
    Lemma extended_ok v : extension v (extended v).
    Proof.
      intros i Hi. unfold extended. destruct (s i) eqn:Si.
      - rewrite inner_surface by easy. unfold on_surface. rewrite Si. lra.
      - rewrite times_plus, times_scal, times_inner. assert (I : In i inn) by (now apply in_inn). destruct (In_nth _ _ 0%nat I) as (p & Hp & Ep).
        destruct (HZ (map (times (on_surface v)) inn) ltac:(now rewrite map_length)) as [_ E]. specialize (E p Hp). unfold interior_block in E.
        rewrite Ep in E. rewrite E. rewrite (L_Distributed.nth_map _ _ _ _ 0%nat) by easy. rewrite Ep. lra.
    Qed.

    Lemma extension_unique v w w' : extension v w -> extension v w' -> forall i, (i < n)%nat -> w i = w' i.
    Proof.
      intros E E' i Hi. destruct (s i) eqn:Si. { pose proof (E i Hi) as X. pose proof (E' i Hi) as Y. rewrite Si in X, Y. congruence. }
      assert (I : In i inn) by (now apply in_inn). destruct (In_nth _ _ 0%nat I) as (p & Hp & Ep).
      set (u := fun c => w c + -1 * w' c). set (z := Z (map (fun q => if (q =? p)%nat then 1 else 0) (seq 0 (length inn)))).
      assert (U : forall c, (c < n)%nat -> if s c then u c = 0 else times u c = 0).
      { intros c Hc. specialize (E c Hc). specialize (E' c Hc). unfold u. destruct (s c); [rewrite E, E'; lra|rewrite times_plus, times_scal, E, E'; lra]. }
      enough (u i = 0) by (unfold u in *; lra).
      assert (B : Sum (seq 0 n) (fun c => u c * times (inner z) c) = 0).
      { rewrite bilinear. apply Sum_zero. intros c Ic. apply in_seq in Ic. specialize (U c ltac:(lia)). destruct (s c) eqn:Sc; [rewrite inner_surface by easy; lra|rewrite U; lra]. }
      rewrite Sum_split in B. rewrite (Sum_zero ix) in B; [|intros c Ic; apply in_ix in Ic; destruct Ic as [Hc Sc]; specialize (U c Hc); rewrite Sc in U; rewrite U; lra].
      rewrite Sum_inn, (Sum_single _ p) in B.
      - rewrite Ep, times_inner in B. destruct (HZ (map (fun q => if (q =? p)%nat then 1 else 0) (seq 0 (length inn))) ltac:(now rewrite map_length, seq_length)) as [_ Y].
        specialize (Y p Hp). unfold interior_block in Y. rewrite Ep in Y. fold z in Y. rewrite Y, L_Distributed.nth_map_seq, Nat.eqb_refl in B by easy. lra.
      - apply seq_NoDup.
      - apply in_seq. lia.
      - intros q Iq Nq. apply in_seq in Iq. rewrite times_inner. destruct (HZ (map (fun q => if (q =? p)%nat then 1 else 0) (seq 0 (length inn))) ltac:(now rewrite map_length, seq_length)) as [_ Y].
        specialize (Y q ltac:(lia)). unfold interior_block in Y. fold z in Y. rewrite Y, L_Distributed.nth_map_seq by lia. destruct (Nat.eqb_spec q p); [easy|lra].
    Qed.
  End Solver.
End Domain.
