(** * Linear algebra over a field: row operations, Gaussian elimination with complete pivoting *)
From Coq Require Import List Bool Arith Permutation Sorted Lia Field.
From Verif Require Import Base S_Order M_Math S_Math3 L_Utils L_Csx L_Math L_Math3.
Import ListNotations.
Local Open Scope out_scope.

Section Field.
Context {F : Type}.
Variables zero one : F.
Variables add mul sub : F -> F -> F.
Variable opp : F -> F.
Variable div : F -> F -> F.
Variable inv : F -> F.
Hypothesis FT : field_theory zero one add mul sub opp div inv (@eq F).
Add Field FF : FT.
Local Notation "0" := zero. Local Notation "1" := one.
Local Infix "+" := add. Local Infix "*" := mul. Local Infix "-" := sub. Local Infix "/" := div.
Local Notation sum := (sum zero add).
Local Notation combo := (combo zero add mul).
Local Notation independent := (independent zero add mul).
Local Notation spanned := (spanned zero add mul).

Lemma sum_ext n f g : (forall k, (k < n)%nat -> f k = g k) -> sum n f = sum n g.
Proof. induction n as [|n IH]; intros H; cbn [S_Math3.sum]; auto. rewrite IH, H; auto. Qed.

Lemma sum_zero n f : (forall k, (k < n)%nat -> f k = 0) -> sum n f = 0.
Proof. induction n as [|n IH]; intros H; cbn [S_Math3.sum]; auto. rewrite IH, H by auto. ring. Qed.

Lemma sum_add n f g : sum n (fun k => f k + g k) = sum n f + sum n g.
Proof. induction n as [|n IH]; cbn [S_Math3.sum]; [ring|]. rewrite IH. ring. Qed.

Lemma sum_mul n a f : sum n (fun k => a * f k) = a * sum n f.
Proof. induction n as [|n IH]; cbn [S_Math3.sum]; [ring|]. rewrite IH. ring. Qed.

Lemma sum_one n a v : (a < n)%nat -> sum n (fun k => if (k =? a)%nat then v else 0) = v.
Proof.
  induction n as [|n IH]; intros H; [lia|]. cbn [S_Math3.sum]. destruct (Nat.eqb_spec n a) as [->|NE].
  - rewrite sum_zero; [ring|]. intros k Hk. destruct (Nat.eqb_spec k a); [lia|auto].
  - rewrite IH by lia. ring.
Qed.

Lemma sum_change n f a v : (a < n)%nat -> sum n (fun k => if (k =? a)%nat then v else f k) = sum n f + (v - f a).
Proof.
  intros H. rewrite <- (sum_one n a (v - f a) H), <- sum_add. apply sum_ext. intros k Hk.
  destruct (Nat.eqb_spec k a); subst; ring.
Qed.

Lemma sum_comm n k (f : nat -> nat -> F) : sum n (fun i => sum k (fun j => f i j)) = sum k (fun j => sum n (fun i => f i j)).
Proof.
  induction n as [|n IH]; cbn [S_Math3.sum].
  - symmetry. apply sum_zero. auto.
  - rewrite IH, <- sum_add. reflexivity.
Qed.

(** exchange of an index with the last one *)
Lemma sum_tr n f a : (a < S n)%nat -> sum (S n) (fun k => f (tr a n k)) = sum (S n) f.
Proof.
  intros H. cbn [S_Math3.sum]. assert (E : f (tr a n n) = f a) by (unfold tr; now rewrite Nat.eqb_refl). rewrite E.
  destruct (Nat.eq_dec a n) as [->|NE].
  - f_equal. apply sum_ext. intros k Hk. unfold tr. destruct (Nat.eqb_spec k n); [lia|auto].
  - assert (Q : sum n (fun k => f (tr a n k)) = sum n (fun k => if (k =? a)%nat then f n else f k)).
    { apply sum_ext. intros k Hk. unfold tr. destruct (Nat.eqb_spec k n); [lia|]. destruct (Nat.eqb_spec k a); auto. }
    rewrite Q, sum_change by lia. ring.
Qed.

Lemma combo_ext n y y' A A' c : (forall r, (r < n)%nat -> y r = y' r) -> (forall r, (r < n)%nat -> A r c = A' r c) -> combo n y A c = combo n y' A' c.
Proof. intros H1 H2. apply sum_ext. intros r Hr. rewrite H1, H2 by auto. reflexivity. Qed.

Lemma unit_combo n r A c : (r < n)%nat -> combo n (fun k => if (k =? r)%nat then 1 else 0) A c = A r c.
Proof.
  intros H. unfold S_Math3.combo. rewrite <- (sum_one n r (A r c) H). apply sum_ext. intros k Hk. destruct (Nat.eqb_spec k r); subst; ring.
Qed.

Lemma one_zero : 1 <> 0.
Proof. apply (F_1_neq_0 FT). Qed.

Lemma independent_not_zero n m A r : independent n m A -> (r < n)%nat -> ~ (forall c, (c < m)%nat -> A r c = 0).
Proof.
  intros I Hr Z. apply one_zero. specialize (I (fun k => if (k =? r)%nat then 1 else 0)). specialize (I ltac:(intros c Hc; rewrite unit_combo by auto; auto) r Hr).
  cbn beta in I. now rewrite Nat.eqb_refl in I.
Qed.

(** ** Row operations keep the span and the independence *)
Lemma spanned_refl n m A B : (forall r c, (r < n)%nat -> (c < m)%nat -> A r c = B r c) -> spanned n m A B.
Proof. intros H y. exists y. intros c Hc. apply combo_ext; auto. Qed.

Lemma spanned_trans n m A B C : spanned n m A B -> spanned n m B C -> spanned n m A C.
Proof. intros H1 H2 y. destruct (H1 y) as (x & Hx). destruct (H2 x) as (z & Hz). exists z. intros c Hc. rewrite Hx, Hz; auto. Qed.

Definition row_add (A : nat -> nat -> F) (r : nat) (s : F) (rr : nat) : nat -> nat -> F := fun k c => if (k =? r)%nat then A r c + s * A rr c else A k c.
Definition row_scale (A : nat -> nat -> F) (r : nat) (s : F) : nat -> nat -> F := fun k c => if (k =? r)%nat then s * A r c else A k c.

Lemma combo_row_add n A r s rr y c : (r < n)%nat -> (rr < n)%nat -> rr <> r ->
  combo n y (row_add A r s rr) c = combo n (fun k => if (k =? rr)%nat then y rr + s * y r else y k) A c.
Proof.
  intros Hr Hrr NE. unfold S_Math3.combo, row_add.
  rewrite (sum_ext n _ (fun k => if (k =? r)%nat then y r * (A r c + s * A rr c) else y k * A k c)).
  2:{ intros k Hk. destruct (Nat.eqb_spec k r); subst; auto. }
  rewrite (sum_change n (fun k => y k * A k c)) by auto.
  rewrite (sum_ext n (fun r0 => (if (r0 =? rr)%nat then y rr + s * y r else y r0) * A r0 c) (fun k => if (k =? rr)%nat then (y rr + s * y r) * A rr c else y k * A k c)).
  2:{ intros k Hk. destruct (Nat.eqb_spec k rr); subst; auto. }
  rewrite (sum_change n (fun k => y k * A k c)) by auto. ring.
Qed.

Lemma row_add_span n m A r s rr : (r < n)%nat -> (rr < n)%nat -> rr <> r -> spanned n m (row_add A r s rr) A.
Proof. intros Hr Hrr NE y. eexists. intros c Hc. apply combo_row_add; auto. Qed.

Lemma row_add_inv A r s rr k c : rr <> r -> row_add (row_add A r s rr) r (opp s) rr k c = A k c.
Proof. intros NE. unfold row_add. rewrite Nat.eqb_refl. destruct (Nat.eqb_spec rr r); [tauto|]. destruct (Nat.eqb_spec k r); subst; ring. Qed.

Lemma row_add_span_inv n m A r s rr : (r < n)%nat -> (rr < n)%nat -> rr <> r -> spanned n m A (row_add A r s rr).
Proof.
  intros Hr Hrr NE. eapply spanned_trans; [|apply (row_add_span n m (row_add A r s rr) r (opp s) rr); auto]. apply spanned_refl. intros k c _ _. symmetry. apply row_add_inv; auto.
Qed.

Lemma row_add_independent n m A r s rr : (r < n)%nat -> (rr < n)%nat -> rr <> r -> independent n m A -> independent n m (row_add A r s rr).
Proof.
  intros Hr Hrr NE I y Z. pose proof (I _ (fun c Hc => eq_trans (eq_sym (combo_row_add n A r s rr y c Hr Hrr NE)) (Z c Hc))) as Q. cbn beta in Q.
  assert (Yr : y r = 0). { specialize (Q r Hr). destruct (Nat.eqb_spec r rr); [subst; tauto|]. auto. }
  intros k Hk. specialize (Q k Hk). destruct (Nat.eqb_spec k rr) as [EE|]; [|auto]. rewrite EE. rewrite Yr in Q. rewrite <- Q. ring.
Qed.

Lemma combo_row_scale n A r s y c : combo n y (row_scale A r s) c = combo n (fun k => if (k =? r)%nat then y r * s else y k) A c.
Proof. apply sum_ext. intros k Hk. unfold row_scale. destruct (Nat.eqb_spec k r); subst; ring. Qed.

Lemma row_scale_span n m A r s : spanned n m (row_scale A r s) A.
Proof. intros y. eexists. intros c Hc. apply combo_row_scale. Qed.

Lemma row_scale_span_inv n m A r s : s <> 0 -> spanned n m A (row_scale A r s).
Proof.
  intros NE y. exists (fun k => if (k =? r)%nat then y r / s else y k). intros c Hc. rewrite combo_row_scale. apply combo_ext; auto.
  intros k Hk. rewrite Nat.eqb_refl. destruct (Nat.eqb_spec k r); subst; auto. field. auto.
Qed.

Lemma row_scale_independent n m A r s : s <> 0 -> independent n m A -> independent n m (row_scale A r s).
Proof.
  intros NE I y Z k Hk. pose proof (I _ (fun c Hc => eq_trans (eq_sym (combo_row_scale n A r s y c)) (Z c Hc)) k Hk) as Q. cbn beta in Q.
  destruct (Nat.eqb_spec k r) as [EE|]; [|auto]. rewrite EE. replace (y r) with (y r * s / s) by (field; auto). rewrite Q. field. auto.
Qed.

Lemma independent_ext n m A B : (forall r c, (r < n)%nat -> (c < m)%nat -> A r c = B r c) -> independent n m A -> independent n m B.
Proof. intros H I y Z. apply I. intros c Hc. transitivity (combo n y B c); [|auto]. apply combo_ext; auto. Qed.

(** ** The elimination *)
Variable abs_le : F -> F -> bool.
Hypothesis abs_zero : forall a, abs_le a 0 = true -> a = 0.
Hypothesis zero_abs : forall a, abs_le 0 a = true.

Section Elim.
Variables n m : nat.
Variable R : nat -> nat -> F.
Local Notation get := (L_Math3.get 0 m).

(** after p steps: the first n-p rows are independent, vanish in the last p columns, and generate every
    combination of R that vanishes in the pivots found so far *)
Definition inv_p (p : nat) (N : list F) (piv : list nat) : Prop :=
  length N = (n * m)%nat /\ Permutation (seq 0 m) piv /\
  independent (n - p) m (get N) /\
  (forall r c, (r < n - p)%nat -> (m - p <= c < m)%nat -> get N r c = 0) /\
  (forall x, (forall c, (m - p <= c < m)%nat -> combo n x R (nth c piv O) = 0) ->
     exists y, forall c, (c < m)%nat -> combo n x R (nth c piv O) = combo (n - p) y (get N) c).

Lemma exists_nonzero k A : independent (S k) m A -> ~ (forall r c, (r < S k)%nat -> (c < m)%nat -> A r c = 0).
Proof. intros I Z. apply (independent_not_zero (S k) m A 0 I ltac:(lia)). intros c Hc. apply Z; auto. lia. Qed.

Lemma step_inv p N piv : (p < n)%nat -> (n <= m)%nat -> inv_p p N piv ->
  exists N' piv', pivot_step abs_le sub mul div n m (N, piv) p = Ok (N', piv') /\ inv_p (S p) N' piv'.
Proof.
  intros Hp Hnm (L & P & I & Z & C).
  destruct (pivot_step_ok 0 abs_le sub mul div n m N piv p L P Hp ltac:(lia)) as (row & col & N' & piv' & Hrow & Hcol & E & L' & P' & EP & MX & G).
  exists N', piv'. split; auto.
  remember (n - p)%nat as k0 eqn:Ek. destruct k0 as [|k]; [lia|]. replace (S k - 1)%nat with k in * by lia.
  set (last := (m - p - 1)%nat) in *. assert (EL : (m - p = S last)%nat) by (unfold last; lia). rewrite EL in *.
  assert (NZ : get N row col <> 0).
  { intros Q. apply (exists_nonzero k (get N) I). apply (MX (fun a => a = 0)); auto.
    - intros a b -> H. auto.
    - intros a b ->. auto. }
  assert (Hcl : (col <= last)%nat). { destruct (Nat.le_gt_cases col last) as [|H]; auto. exfalso. apply NZ. apply Z; lia. }
  set (X := exchanged 0 n m N p row col) in *.
  assert (XE : forall r c, (r <= k)%nat -> X r c = get N (tr row k r) (tr col last c)).
  { intros r c Hr. unfold X, exchanged. rewrite <- Ek. replace (S k - 1)%nat with k by lia. destruct (Nat.ltb_spec r (S k)); [|lia]. reflexivity. }
  assert (TC : forall c, (c < m)%nat -> (tr col last c < m)%nat) by (intros c Hc; unfold tr; destruct (c =? last)%nat, (c =? col)%nat; unfold last; lia).
  assert (TT : forall c, tr col last (tr col last c) = c).
  { intros c. unfold tr. destruct (Nat.eqb_spec c last) as [->|]; [destruct (Nat.eqb_spec col last); [auto|rewrite Nat.eqb_refl; auto]|].
    destruct (Nat.eqb_spec c col) as [->|]; [rewrite Nat.eqb_refl; auto|].
    destruct (Nat.eqb_spec c last); [tauto|]. destruct (Nat.eqb_spec c col); tauto. }
  assert (TR : forall r, (r <= k)%nat -> (tr row k r <= k)%nat) by (intros r Hr; unfold tr; destruct (r =? k)%nat, (r =? row)%nat; lia).
  assert (PV : X k last = get N row col) by (rewrite XE by lia; unfold tr; rewrite !Nat.eqb_refl; reflexivity).
  assert (XC : forall y c, combo (S k) (fun r => y (tr row k r)) X c = combo (S k) y (get N) (tr col last c)).
  { intros y c. unfold S_Math3.combo. rewrite <- (sum_tr k (fun r => y r * get N r (tr col last c)) row) by lia.
    apply sum_ext. intros r Hr. rewrite XE by lia. reflexivity. }
  assert (XI : independent (S k) m X).
  { intros y Q r Hr. assert (Q2 : forall c, (c < m)%nat -> combo (S k) (fun r => y (tr row k r)) (get N) c = 0).
    { intros c Hc. transitivity (combo (S k) y X (tr col last c)); [|apply Q; auto]. rewrite <- (TT c) at 1. rewrite <- XC. apply combo_ext; auto.
      intros i Hi. f_equal. unfold tr. destruct (Nat.eqb_spec i k) as [->|]; [destruct (Nat.eqb_spec row k); [auto|rewrite Nat.eqb_refl; auto]|].
      destruct (Nat.eqb_spec i row) as [->|]; [rewrite Nat.eqb_refl; auto|]. destruct (Nat.eqb_spec i k); [tauto|]. destruct (Nat.eqb_spec i row); tauto. }
    specialize (I _ Q2 (tr row k r) ltac:(pose proof (TR r ltac:(lia)); lia)). cbn beta in I. transitivity (y (tr row k (tr row k r))); [|exact I]. f_equal. symmetry.
    unfold tr. destruct (Nat.eqb_spec r k) as [->|]; [destruct (Nat.eqb_spec row k); [auto|rewrite Nat.eqb_refl; auto]|].
    destruct (Nat.eqb_spec r row) as [->|]; [rewrite Nat.eqb_refl; auto|]. destruct (Nat.eqb_spec r k); [tauto|]. destruct (Nat.eqb_spec r row); tauto. }
  assert (XZ : forall r c, (r <= k)%nat -> (last < c < m)%nat -> X r c = 0).
  { intros r c Hr Hc. rewrite XE by auto. assert (ET : tr col last c = c) by (unfold tr; destruct (Nat.eqb_spec c last); [lia|]; destruct (Nat.eqb_spec c col); lia).
    rewrite ET. pose proof (TR r Hr). apply Z; lia. }
  (* the new rows *)
  assert (NR : forall r c, (r < k)%nat -> (c < m)%nat -> get N' r c = X r c - X r last * X k c / X k last).
  { intros r c Hr Hc. rewrite G by auto. destruct (Nat.ltb_spec r k); [|lia]. cbn [andb]. destruct (Nat.ltb_spec c (S last)); auto.
    rewrite !(XZ _ c) by lia. field. rewrite PV. auto. }
  assert (NC : forall y c, (c < m)%nat -> combo k y (get N') c = combo k y X c - combo k y X last * X k c / X k last).
  { intros y c Hc. unfold S_Math3.combo. rewrite (sum_ext k _ (fun r => y r * X r c + (opp (X k c / X k last)) * (y r * X r last))).
    - rewrite sum_add, sum_mul. field. rewrite PV; auto.
    - intros r Hr. rewrite NR by auto. field. rewrite PV; auto. }
  unfold inv_p. split; auto. split; auto. replace (n - S p)%nat with k by lia. replace (m - S p)%nat with last by (unfold last; lia).
  split; [|split].
  - intros y Q r Hr.
    assert (Q2 : forall c, (c < m)%nat -> combo (S k) (fun i => if (i =? k)%nat then opp (combo k y X last / X k last) else y i) X c = 0).
    { intros c Hc. unfold S_Math3.combo. cbn [S_Math3.sum]. rewrite Nat.eqb_refl.
      rewrite (sum_ext k _ (fun i => y i * X i c)) by (intros i Hi; destruct (Nat.eqb_spec i k); [lia|auto]).
      fold (combo k y X c). transitivity (combo k y (get N') c); [|auto]. rewrite NC by auto. unfold S_Math3.combo. field. rewrite PV; auto. }
    specialize (XI _ Q2 r ltac:(lia)). cbn beta in XI. destruct (Nat.eqb_spec r k); [lia|auto].
  - intros r c Hr Hc. rewrite NR by lia. destruct (Nat.eq_dec c last) as [->|].
    + field. rewrite PV; auto.
    + rewrite !(XZ _ c) by lia. field. rewrite PV; auto.
  - intros x Hx. destruct (C x) as (y & Hy).
    { intros c Hc. transitivity (combo n x R (nth c piv' O)); [|apply Hx; lia]. f_equal. rewrite EP by lia. f_equal. unfold tr. destruct (Nat.eqb_spec c last); [lia|]. destruct (Nat.eqb_spec c col); lia. }
    set (y2 := fun r => y (tr row k r)).
    assert (H2 : forall c, (c < m)%nat -> combo n x R (nth c piv' O) = combo (S k) y2 X c).
    { intros c Hc. rewrite EP by auto. rewrite Hy by auto. unfold y2. rewrite XC. reflexivity. }
    exists y2. intros c Hc. rewrite NC by auto. rewrite H2 by auto.
    pose proof (Hx last ltac:(unfold last; lia)) as HL. rewrite H2 in HL by (unfold last; lia).
    unfold S_Math3.combo in HL |- *. cbn [S_Math3.sum] in HL |- *.
    set (a := sum k (fun r => y2 r * X r last)) in *. set (b := sum k (fun r => y2 r * X r c)).
    assert (EA : a = opp (y2 k * X k last)). { transitivity (a + y2 k * X k last - y2 k * X k last); [ring|]. rewrite HL. ring. }
    rewrite EA. field. rewrite PV; auto.
Qed.
End Elim.
End Field.
