(** * Lemmas: the product of two rows of Gt *)
From Coq Require Import List Arith Lia Bool Reals Lra.
From Verif Require Import Base L_Dual2 S_Equality L_Equality6 L_ProjectorG2 M_ProjectorGGt.
Import ListNotations.
Local Open Scope out_scope.

Lemma skipn_cons {A} (l : list A) d : forall k, k < length l -> skipn k l = nth k l d :: skipn (k + 1) l.
Proof. induction l as [|x l IH]; intros [|k] H; cbn [length] in H; try lia; cbn [skipn nth Nat.add]; auto. apply IH. lia. Qed.
Lemma slice_cons {A} (l : list A) k ke d : k < ke -> ke <= length l -> slice k ke l = nth k l d :: slice (k + 1) ke l.
Proof. intros H H1. unfold slice. replace (ke - k) with (S (ke - (k + 1))) by lia. rewrite (skipn_cons l d) by lia. reflexivity. Qed.
Lemma slice_nil {A} (l : list A) k ke : ke <= k -> slice k ke l = [].
Proof. intros H. unfold slice. replace (ke - k) with 0 by lia. reflexivity. Qed.

Fixpoint drop_lt {A} (y : nat) (a : list (nat * A)) : list (nat * A) := match a with [] => [] | e :: a' => if fst e <? y then drop_lt y a' else a end.
(** the product of two sparse rows *)
Definition mdot (a b : list (nat * R)) : R := Sum a (fun e => (snd e * entry_sum b (fst e))%R).

Lemma entry_none (b : list (nat * R)) i : (forall e, In e b -> fst e <> i) -> entry_sum b i = 0%R.
Proof. intros H. unfold entry_sum. induction b as [|e b IH]; [reflexivity|]. rewrite Sum_cons, IH by (intros; apply H; right; auto). specialize (H e (or_introl eq_refl)). destruct (Nat.eqb_spec (fst e) i); [congruence|lra]. Qed.
Lemma entry_cons (e : nat * R) b i : entry_sum (e :: b) i = ((if fst e =? i then snd e else 0) + entry_sum b i)%R.
Proof. reflexivity. Qed.
Lemma drop_in {A} y (a : list (nat * A)) e : In e (drop_lt y a) -> In e a.
Proof. induction a as [|x a IH]; cbn [drop_lt]; auto. destruct (fst x <? y); auto. right; auto. Qed.
Lemma drop_incr {A} y (a : list (nat * A)) : incr (map fst a) -> incr (map fst (drop_lt y a)).
Proof. induction a as [|x a IH]; cbn [drop_lt]; auto. intros H. destruct (fst x <? y); auto. apply IH. apply H. Qed.
Lemma drop_length {A} y (a : list (nat * A)) : length (drop_lt y a) <= length a.
Proof. induction a as [|x a IH]; cbn [drop_lt length]; auto. destruct (fst x <? y); cbn [length]; lia. Qed.
Lemma incr_ge (a : list (nat * R)) x e : incr (map fst (x :: a)) -> In e (x :: a) -> fst x <= fst e.
Proof. intros (H & _) [<-|I]; auto. specialize (H (fst e) (in_map fst _ _ I)). lia. Qed.

Lemma mdot_nil_r a : mdot a [] = 0%R.
Proof. unfold mdot. apply Sum_zero. intros. unfold entry_sum. rewrite Sum_nil. lra. Qed.
Lemma mdot_drop_l y a b : (forall e, In e b -> y <= fst e) -> mdot (drop_lt y a) b = mdot a b.
Proof.
  intros H. induction a as [|x a IH]; cbn [drop_lt]; auto. destruct (Nat.ltb_spec (fst x) y); auto. rewrite IH. unfold mdot. rewrite Sum_cons. rewrite entry_none; [lra|]. intros e I. specialize (H e I). lia.
Qed.
Lemma mdot_drop_r x a b : (forall e, In e a -> x <= fst e) -> mdot a (drop_lt x b) = mdot a b.
Proof.
  intros H. induction b as [|y b IH]; cbn [drop_lt]; auto. destruct (Nat.ltb_spec (fst y) x); auto. rewrite IH. unfold mdot. apply Sum_ext_in. intros e I. rewrite entry_cons. specialize (H e I). destruct (Nat.eqb_spec (fst y) (fst e)); [lia|]. lra.
Qed.
Lemma mdot_heads x u w a b : incr (map fst ((x, u) :: a)) -> incr (map fst ((x, w) :: b)) -> mdot ((x, u) :: a) ((x, w) :: b) = (u * w + mdot a b)%R.
Proof.
  intros (H1 & _) (H2 & _). cbn [map fst] in H1, H2. unfold mdot. rewrite Sum_cons. cbn [fst snd]. rewrite entry_cons. cbn [fst snd]. rewrite Nat.eqb_refl. rewrite (entry_none b x).
  - rewrite Rplus_0_r. f_equal. apply Sum_ext_in. intros e I. rewrite entry_cons. cbn [fst snd]. specialize (H1 (fst e) (in_map fst _ _ I)). destruct (Nat.eqb_spec x (fst e)); [lia|]. lra.
  - intros e I. specialize (H2 (fst e) (in_map fst _ _ I)). lia.
Qed.

Section Merge.
  Variables (cols : list nat) (gv : list R).
  Hypothesis HL : length gv = length cols.
  Local Notation z := (combine cols gv).
  Local Notation N := (length cols).
  Lemma z_length : length z = N.
  Proof. rewrite combine_length. lia. Qed.
  Lemma rd_cols k : k < N -> rd cols k = Ok (fst (nth k z (0, 0%R))) /\ rd gv k = Ok (snd (nth k z (0, 0%R))).
  Proof. intros H. rewrite combine_nth by auto. cbn [fst snd]. split; apply rd_ok; lia. Qed.

  Lemma skip_ok fuel : forall k ke o y, ke - k <= fuel -> k <= ke -> ke <= N -> rd cols o = Ok y ->
    exists k', skip_lower fuel cols k ke o = Ok k' /\ k <= k' <= ke /\ slice k' ke z = drop_lt y (slice k ke z).
  Proof.
    induction fuel as [|fuel IH]; intros k ke o y HF Hk HN Ho; cbn [skip_lower].
    - destruct (Nat.ltb_spec k ke); [lia|]. exists k. split; auto. split; auto. rewrite slice_nil by auto. reflexivity.
    - destruct (Nat.ltb_spec k ke) as [C|C].
      2: { exists k. split; auto. split; auto. rewrite slice_nil by auto. reflexivity. }
      destruct (rd_cols k ltac:(lia)) as (E & _). rewrite E. cbn [obind]. rewrite Ho. cbn [obind]. rewrite (slice_cons z k ke (0, 0%R)) by (rewrite ?z_length; lia). cbn [drop_lt].
      destruct (Nat.ltb_spec (fst (nth k z (0, 0%R))) y) as [C1|C1].
      + destruct (IH (k + 1) ke o y ltac:(lia) ltac:(lia) HN Ho) as (k' & E1 & E2 & E3). exists k'. split; auto. split; [lia|auto].
      + exists k. split; auto. split; auto. rewrite (slice_cons z k ke (0, 0%R)) by (rewrite ?z_length; lia). reflexivity.
  Qed.

  Lemma merge_ok fuel : forall k1 ke1 k2 ke2 vpre s vpost, (ke1 - k1) + (ke2 - k2) <= fuel -> k1 <= ke1 -> ke1 <= N -> k2 <= ke2 -> ke2 <= N ->
    (k2 < ke2 -> ke1 < N \/ (k1 = k2 /\ ke1 = ke2)) -> incr (map fst (slice k1 ke1 z)) -> incr (map fst (slice k2 ke2 z)) ->
    merge_rows Rplus Rmult fuel cols gv (length vpre) k1 ke1 k2 ke2 (vpre ++ s :: vpost) = Ok (vpre ++ (s + mdot (slice k1 ke1 z) (slice k2 ke2 z))%R :: vpost).
  Proof.
    induction fuel as [|fuel IH]; intros k1 ke1 k2 ke2 vpre s vpost HF H1 N1 H2 N2 SA I1 I2.
    { cbn [merge_rows]. destruct (Nat.ltb_spec k1 ke1); [lia|]. cbn [andb]. rewrite (slice_nil z k1) by lia. unfold mdot. rewrite Sum_nil, Rplus_0_r. reflexivity. }
    cbn [merge_rows]. destruct (Nat.ltb_spec k1 ke1) as [C1|C1]; [|cbn [andb]; rewrite (slice_nil z k1) by lia; unfold mdot; rewrite Sum_nil, Rplus_0_r; reflexivity].
    destruct (Nat.ltb_spec k2 ke2) as [C2|C2]; [|cbn [andb]; rewrite (slice_nil z k2), mdot_nil_r, Rplus_0_r by lia; reflexivity]. cbn [andb]. specialize (SA C2).
    destruct (rd_cols k1 ltac:(lia)) as (R1 & _). destruct (rd_cols k2 ltac:(lia)) as (R2 & _). set (x0 := fst (nth k1 z (0, 0%R))) in *. set (y0 := fst (nth k2 z (0, 0%R))) in *.
    assert (Sa : slice k1 ke1 z = nth k1 z (0, 0%R) :: slice (k1 + 1) ke1 z) by (apply slice_cons; rewrite ?z_length; lia). assert (Sb : slice k2 ke2 z = nth k2 z (0, 0%R) :: slice (k2 + 1) ke2 z) by (apply slice_cons; rewrite ?z_length; lia).
    destruct (skip_ok (ke1 - k1) k1 ke1 k2 y0 (le_n _) H1 N1 R2) as (k1' & E1 & B1 & D1). rewrite E1. cbn [obind].
    assert (M1 : mdot (slice k1' ke1 z) (slice k2 ke2 z) = mdot (slice k1 ke1 z) (slice k2 ke2 z)).
    { rewrite D1. apply mdot_drop_l. rewrite Sb. intros e I. rewrite Sb in I2. apply (incr_ge _ _ _ I2 I). }
    assert (I1' : incr (map fst (slice k1' ke1 z))) by (rewrite D1; apply drop_incr; auto). rewrite <- M1.
    (* the position of the second loop can be read *)
    assert (LK : k1 = k2 /\ ke1 = ke2 -> k1' = k1).
    { intros (-> & ->). assert (Y : k1' <= k2); [|lia]. destruct (Nat.le_gt_cases k1' k2); auto. exfalso. rewrite Sb in D1. cbn [drop_lt] in D1. fold y0 in D1. rewrite Nat.ltb_irrefl in D1. apply (f_equal (@length _)) in D1. rewrite <- Sb in D1. rewrite !slice_length in D1 by (rewrite z_length; lia). lia. }
    assert (R1' : exists x, rd cols k1' = Ok x).
    { destruct (rd_cols k1') as (E & _); [|eauto]. destruct SA as [SA|SA]; [lia|]. rewrite (LK SA). lia. }
    destruct R1' as (x & R1'). destruct (skip_ok (ke2 - k2) k2 ke2 k1' x (le_n _) H2 N2 R1') as (k2' & E2 & B2 & D2). rewrite E2. cbn [obind].
    assert (I2' : incr (map fst (slice k2' ke2 z))) by (rewrite D2; apply drop_incr; auto).
    destruct (Nat.ltb_spec k1' ke1) as [C3|C3].
    2: { cbn [andb obind]. rewrite (slice_nil z k1') by lia. unfold mdot. rewrite Sum_nil, Rplus_0_r. destruct fuel; cbn [merge_rows]; (destruct (Nat.ltb_spec k1' ke1); [lia|]); reflexivity. }
    destruct (rd_cols k1' ltac:(lia)) as (R1x & R1v). assert (x = fst (nth k1' z (0, 0%R))) by congruence. subst x. assert (Sa' : slice k1' ke1 z = nth k1' z (0, 0%R) :: slice (k1' + 1) ke1 z) by (apply slice_cons; rewrite ?z_length; lia).
    assert (M2 : mdot (slice k1' ke1 z) (slice k2' ke2 z) = mdot (slice k1' ke1 z) (slice k2 ke2 z)).
    { rewrite D2. apply mdot_drop_r. rewrite Sa'. intros e I. rewrite Sa' in I1'. apply (incr_ge _ _ _ I1' I). }
    rewrite <- M2. destruct (Nat.ltb_spec k2' ke2) as [C4|C4].
    2: { cbn [andb obind]. rewrite (slice_nil z k2'), mdot_nil_r, Rplus_0_r by lia. destruct fuel; cbn [merge_rows]; (destruct (Nat.ltb_spec k2' ke2); [lia|]); rewrite andb_false_r; reflexivity. }
    cbn [andb]. destruct (rd_cols k2' ltac:(lia)) as (R2x & R2v). rewrite R1x. cbn [obind]. rewrite R2x. cbn [obind]. assert (Sb' : slice k2' ke2 z = nth k2' z (0, 0%R) :: slice (k2' + 1) ke2 z) by (apply slice_cons; rewrite ?z_length; lia).
    destruct (Nat.eqb_spec (fst (nth k1' z (0, 0%R))) (fst (nth k2' z (0, 0%R)))) as [E|NE].
    - rewrite (rd_app_at vpre) by auto. cbn [obind]. rewrite R1v. cbn [obind]. rewrite R2v. cbn [obind]. rewrite (wr_app_at vpre) by auto. cbn [obind].
      rewrite IH; try lia.
      + do 3 f_equal. rewrite Sa', Sb'. rewrite Sa' in I1'. rewrite Sb' in I2'. destruct (nth k1' z (0, 0%R)) as (a, u). destruct (nth k2' z (0, 0%R)) as (b, w). cbn [fst snd] in *. subst b. rewrite mdot_heads by auto. lra.
      + intros _. destruct SA as [SA|(-> & ->)]; [auto|]. right. split; auto. rewrite (LK (conj eq_refl eq_refl)). f_equal. rewrite (LK (conj eq_refl eq_refl)) in *.
        assert (Y : k2' <= k2); [|lia]. destruct (Nat.le_gt_cases k2' k2); auto. exfalso. rewrite Sb in D2. cbn [drop_lt] in D2. rewrite Nat.ltb_irrefl in D2. apply (f_equal (@length _)) in D2. rewrite <- Sb in D2. rewrite !slice_length in D2 by (rewrite z_length; lia). lia.
      + rewrite Sa' in I1'. apply I1'.
      + rewrite Sb' in I2'. apply I2'.
    - cbn [obind]. assert (P : k1 < k1' \/ k2 < k2').
      { destruct (Nat.eq_dec k1' k1) as [->|]; [|lia]. destruct (Nat.eq_dec k2' k2) as [->|]; [|lia]. exfalso. rewrite Sa in D1. cbn [drop_lt] in D1. rewrite Sb in D2. cbn [drop_lt] in D2. fold x0 y0 in D1, D2, NE.
        destruct (Nat.ltb_spec x0 y0) as [X|X].
        - apply (f_equal (@length _)) in D1. pose proof (drop_length y0 (slice (k1 + 1) ke1 z)) as Q. cbn [length] in D1. lia.
        - destruct (Nat.ltb_spec y0 x0) as [X'|X']; [|lia]. apply (f_equal (@length _)) in D2. pose proof (drop_length x0 (slice (k2 + 1) ke2 z)) as Q. cbn [length] in D2. lia. }
      rewrite IH; try lia; auto.
      intros _. destruct SA as [SA|(-> & ->)]; [auto|]. exfalso. rewrite (LK (conj eq_refl eq_refl)) in *. destruct P as [P|P]; [lia|]. rewrite Sb in D2. cbn [drop_lt] in D2. rewrite Nat.ltb_irrefl in D2. apply (f_equal (@length _)) in D2. rewrite <- Sb in D2. rewrite !slice_length in D2 by (rewrite z_length; lia). lia.
  Qed.
End Merge.
