(** * Lemmas about the trees *)
From Coq Require Import ZArith List Bool Arith Lia Permutation FinFun.
From Verif Require Import Base S_Order L_Merge L_Tarray M_Trees S_Trees.
Import ListNotations.
Local Open Scope nat_scope.

(** [l'] is [l] with the positions [b, e) permuted *)
Definition shuffle (b e : nat) (l l' : list nat) : Prop :=
  length l' = length l /\ Permutation l l' /\
  (forall p, ~ (b <= p < e) -> nth p l' 0 = nth p l 0) /\
  (forall p, b <= p < e -> exists q, b <= q < e /\ nth p l' 0 = nth q l 0).

Lemma shuffle_refl b e l : shuffle b e l l.
Proof. repeat split; auto. intros p H; exists p; auto. Qed.

Lemma shuffle_trans b e l m r : shuffle b e l m -> shuffle b e m r -> shuffle b e l r.
Proof.
  intros (A1 & A2 & A3 & A4) (B1 & B2 & B3 & B4). split; [congruence|]. split; [etransitivity; eauto|]. split.
  - intros p H. rewrite B3, A3; auto.
  - intros p H. destruct (B4 p H) as (q & Hq & E). destruct (A4 q Hq) as (r' & Hr & E'). exists r'. split; auto. congruence.
Qed.

Lemma shuffle_widen b e b' e' l m : b' <= b -> e <= e' -> shuffle b e l m -> shuffle b' e' l m.
Proof.
  intros Hb He (A1 & A2 & A3 & A4). split; auto. split; auto. split.
  - intros p H. apply A3. lia.
  - intros p H. destruct (le_lt_dec b p); destruct (le_lt_dec e p).
    + exists p. split; auto. apply A3; lia.
    + destruct (A4 p ltac:(lia)) as (q & Hq & E). exists q. split; auto; lia.
    + exists p. split; auto. apply A3; lia.
    + exists p. split; auto. apply A3; lia.
Qed.

Lemma shuffle_put b e l new : b <= e <= length l -> Permutation (slice b e l) new -> shuffle b e l (put b e l new).
Proof.
  intros H P.
  assert (Ln : length new = e - b) by (rewrite <- (Permutation_length P); apply slice_length; auto).
  split; [apply put_length; auto|]. split; [apply put_perm; auto; lia|]. split; intros p Hp.
  - rewrite nth_put by auto. destruct (Nat.leb_spec b p); destruct (Nat.ltb_spec p e); cbn; auto; lia.
  - rewrite nth_put by auto. destruct (Nat.leb_spec b p); destruct (Nat.ltb_spec p e); cbn; try lia.
    assert (I : In (nth (p - b) new 0) (slice b e l)).
    { eapply Permutation_in; [symmetry; exact P|]. apply nth_In; lia. }
    apply (In_nth _ _ 0) in I. destruct I as (q & Hq & E). rewrite slice_length in Hq by auto.
    exists (b + q). split; [lia|]. rewrite <- E. apply nth_slice. lia.
Qed.

Definition transp (i j x : nat) : nat := if x =? i then j else if x =? j then i else x.

Lemma transp_inj i j x y : transp i j x = transp i j y -> x = y.
Proof.
  unfold transp. destruct (Nat.eqb_spec x i), (Nat.eqb_spec x j), (Nat.eqb_spec y i), (Nat.eqb_spec y j); subst; intros; try lia; auto.
Qed.

Lemma swap_ok b e l i j : b <= i < e -> b <= j < e -> e <= length l ->
  exists l', swap l i j = Ok l' /\ shuffle b e l l' /\ forall p, nth p l' 0 = nth (transp i j p) l 0.
Proof.
  intros Hi Hj He. unfold swap.
  rewrite (rd_ok l i 0), (rd_ok l j 0) by lia. cbn [obind].
  rewrite wr_ok by lia. cbn [obind]. rewrite wr_ok by (rewrite upd_length; lia).
  eexists; split; [reflexivity|].
  assert (N : forall p, nth p (upd (upd l i (nth j l 0%nat)) j (nth i l 0%nat)) 0 = nth (transp i j p) l 0).
  { intros p. unfold transp.
    destruct (Nat.eqb_spec p j) as [->|Nj].
    - rewrite nth_upd_eq by (rewrite upd_length; lia). destruct (Nat.eqb_spec j i); subst; auto.
    - rewrite nth_upd_neq by auto. destruct (Nat.eqb_spec p i) as [->|Ni].
      + rewrite nth_upd_eq by lia. auto.
      + rewrite nth_upd_neq by auto. auto. }
  split; [|exact N]. split; [rewrite !upd_length; auto|]. split.
  - apply (Permutation_nth _ _ 0). rewrite !upd_length. split; auto.
    exists (transp i j). split; [|split].
    + intros x Hx. unfold transp. destruct (x =? i); [lia|]. destruct (x =? j); lia.
    + intros x y _ _. apply transp_inj.
    + intros x Hx. apply N.
  - split; intros p Hp; rewrite N; unfold transp.
    + destruct (Nat.eqb_spec p i); [lia|]. destruct (Nat.eqb_spec p j); [lia|auto].
    + eexists; split; [|reflexivity]. destruct (p =? i); [lia|]. destruct (p =? j); lia.
Qed.

(** ** One node *)
Section Node.
  Variable k : nat -> Z.
  Variable same : list nat -> nat -> nat -> outcome bool.
  Variables b e : nat.
  Variable v : Z.
  Variable len : nat.
  Variable good : list nat -> Prop.
  Hypothesis good_shuffle : forall l l', good l -> shuffle b e l l' -> good l'.
  Hypothesis good_len : forall l, good l -> length l = len.
  Hypothesis He : e <= len.
  Hypothesis same_ok : forall l i c, good l -> b <= i < e -> b <= c < e -> k (nth i l 0%nat) = v ->
    same l i c = Ok (Z.eqb v (k (nth c l 0%nat))).

  Lemma advance_ok : forall fuel l i, good l -> b <= i < e -> k (nth i l 0%nat) = v -> e <= fuel + i ->
    exists i', advance same l e fuel i = Ok i' /\ i <= i' < e /\
      (forall p, i <= p <= i' -> k (nth p l 0%nat) = v) /\ (i' + 1 < e -> k (nth (i' + 1) l 0%nat) <> v).
  Proof.
    induction fuel as [|f IH]; intros l i G Hi Kv F; [lia|].
    cbn [advance]. destruct (Nat.ltb_spec (i + 1) e) as [L|L].
    - rewrite same_ok by (auto; lia). cbn [obind]. destruct (Z.eqb_spec v (k (nth (i + 1) l 0%nat))) as [E|E].
      + destruct (IH l (i + 1) G ltac:(lia) (eq_sym E) ltac:(lia)) as (i' & R & B & P & Q).
        exists i'. split; auto. split; [lia|]. split; auto.
        intros p Hp. destruct (Nat.eq_dec p i); [subst; auto|]. apply P; lia.
      + exists i. split; auto. split; [lia|]. split; [|intros _; congruence].
        intros p Hp. replace p with i by lia. auto.
    - exists i. split; auto. split; [lia|]. split; [|lia].
      intros p Hp. replace p with i by lia. auto.
  Qed.

  Lemma gather_ok : forall fuel l i c, good l -> b <= i < e -> i < c ->
    (forall p, b <= p <= i -> (k (nth p l 0%nat) <= v)%Z) -> k (nth i l 0%nat) = v ->
    (forall p, i < p < e -> p < c -> (k (nth p l 0%nat) > v)%Z) ->
    (forall p, i < p < e -> (k (nth p l 0%nat) >= v)%Z) ->
    (c = i + 1 -> c < e -> (k (nth c l 0%nat) > v)%Z) ->
    (e - c) + (e - i) < fuel ->
    exists l' i', gather same e fuel l i c = Ok (l', i') /\ shuffle b e l l' /\ b <= i' < e /\
      (forall p, b <= p <= i' -> (k (nth p l' 0%nat) <= v)%Z) /\ (forall p, i' < p < e -> (k (nth p l' 0%nat) > v)%Z).
  Proof.
    induction fuel as [|f IH]; intros l i c G Hi Hc Hle Hv Hgt Hge Hex F; [lia|].
    cbn [gather]. destruct (Nat.ltb_spec c e) as [L|L].
    - rewrite same_ok by (auto; lia). cbn [obind]. destruct (Z.eqb_spec v (k (nth c l 0%nat))) as [E|E].
      + assert (Nc : c <> i + 1). { intros ->. specialize (Hex eq_refl L). lia. }
        destruct (swap_ok b e l (i + 1) c ltac:(lia) ltac:(lia) ltac:(rewrite (good_len l G); auto)) as (l1 & R & Sh & N).
        rewrite R. cbn [obind].
        destruct (IH l1 (i + 1) c) as (l' & i' & R' & Sh' & B & P & Q); eauto; try lia.
        * intros p Hp. rewrite N. unfold transp. destruct (Nat.eqb_spec p (i + 1)); [lia|].
          destruct (Nat.eqb_spec p c); [lia|]. apply Hle. lia.
        * rewrite N. unfold transp. rewrite Nat.eqb_refl. auto.
        * intros p Hp Hpc. rewrite N. unfold transp. destruct (Nat.eqb_spec p (i + 1)); [lia|].
          destruct (Nat.eqb_spec p c); [lia|]. apply Hgt; lia.
        * intros p Hp. rewrite N. unfold transp. destruct (Nat.eqb_spec p (i + 1)); [lia|].
          destruct (Nat.eqb_spec p c); apply Hge; lia.
        * intros Ec _. rewrite N. unfold transp. destruct (Nat.eqb_spec c (i + 1)); [lia|].
          rewrite Nat.eqb_refl. apply Hgt; lia.
        * exists l', i'. split; auto. split; [eapply shuffle_trans; eauto|]. split; [lia|auto].
      + destruct (IH l i (c + 1)) as (l' & i' & R' & Sh' & B & P & Q); eauto; try lia.
        * intros p Hp Hpc. destruct (Nat.eq_dec p c) as [->|]; [|apply Hgt; lia].
          specialize (Hge c ltac:(lia)). lia.
        * exists l', i'. repeat (split; auto).
    - exists l, i. split; auto. split; [apply shuffle_refl|]. split; [auto|]. split; auto.
      intros p Hp. apply Hgt; lia.
  Qed.
End Node.

Lemma key_getc pts d i : i < length pts -> getc pts d i = Ok (key pts d i).
Proof. intros H. unfold getc, key. rewrite (rd_ok pts i (0, 0, 0)%Z) by auto. reflexivity. Qed.

Lemma do_nth_ok nthel pts d node perm b e : nth_element_contract nthel -> b <= e <= length perm ->
  (forall x, In x perm -> x < length pts) ->
  exists perm', do_nth nthel pts d node perm b (b + (e - b) / 2) e = Ok perm' /\ shuffle b e perm perm' /\
    forall p, b <= p < e -> let m := b + (e - b) / 2 in
      (p < m -> (key pts d (nth p perm' 0%nat) <= key pts d (nth m perm' 0%nat))%Z) /\
      (m <= p -> (key pts d (nth m perm' 0%nat) <= key pts d (nth p perm' 0%nat))%Z).
Proof.
  intros C H A. unfold do_nth.
  assert (Hm : (e - b) / 2 <= e - b) by (apply Nat.div_le_upper_bound; lia).
  assert (F : forallb (fun i => i <? length pts) (slice b e perm) = true).
  { apply forallb_forall. intros x Hx. apply Nat.ltb_lt. apply A.
    rewrite (split_slice b e perm) by lia. rewrite !in_app_iff. auto. }
  rewrite F. rewrite !(proj2 (Nat.leb_le _ _)) by lia. cbn [andb].
  eexists; split; [reflexivity|].
  destruct (C node (key pts d) (slice b e perm) (b + (e - b) / 2 - b)) as [P Q].
  assert (S : shuffle b e perm (put b e perm (nthel node (key pts d) (slice b e perm) (b + (e - b) / 2 - b)))).
  { apply shuffle_put; auto. symmetry; auto. }
  split; auto.
  intros p Hp. set (m := b + (e - b) / 2) in *. assert (L : m < e). { subst m. enough ((e - b) / 2 < e - b) by lia. apply Nat.div_lt; lia. }
  assert (Lb : b <= m) by (subst m; lia).
  assert (Ll : length (slice b e perm) = e - b) by (apply slice_length; auto).
  assert (LL := Permutation_length P).
  specialize (Q ltac:(lia)). destruct Q as [Q1 Q2].
  clearbody m.
  rewrite !nth_put by (auto; lia).
  rewrite !(proj2 (Nat.leb_le _ _)) by lia. rewrite !(proj2 (Nat.ltb_lt _ _)) by lia. cbn [andb].
  split; intros Hpm.
  - apply Q1; lia.
  - apply Q2; lia.
Qed.

(** ** begin and end of nodes *)
Lemma strip_even_fuel : forall f g x, 0 < x -> x <= f -> x <= g -> strip_even f x = strip_even g x.
Proof.
  induction f as [|f IH]; intros g x P Hf Hg; [lia|]. destruct g as [|g]; [lia|]. cbn [strip_even].
  destruct (Nat.even x) eqn:E; auto. apply Nat.even_spec in E. destruct E as (y & ->).
  rewrite Nat.mul_comm, Nat.div_mul by lia. apply IH; lia.
Qed.
Lemma strip_odd_fuel : forall f g x, x <= f -> x <= g -> strip_odd f x = strip_odd g x.
Proof.
  induction f as [|f IH]; intros g x Hf Hg.
  - replace x with 0 by lia. destruct g; reflexivity.
  - destruct g as [|g]; [replace x with 0 by lia; reflexivity|]. cbn [strip_odd].
    destruct (Nat.odd x) eqn:E; auto. apply Nat.odd_spec in E. destruct E as (y & ->).
    replace ((2 * y + 1) / 2) with y by (rewrite Nat.add_comm, Nat.mul_comm, Nat.div_add by lia; reflexivity).
    apply IH; lia.
Qed.

Lemma half_even x : (2 * x) / 2 = x.
Proof. rewrite Nat.mul_comm. apply Nat.div_mul. lia. Qed.
Lemma half_odd x : (2 * x + 1) / 2 = x.
Proof. rewrite Nat.add_comm, Nat.mul_comm, Nat.div_add by lia. reflexivity. Qed.
Lemma even_2x x : Nat.even (2 * x) = true.
Proof. apply Nat.even_spec. exists x; auto. Qed.
Lemma even_2x1 x : Nat.even (2 * x + 1) = false.
Proof. rewrite Nat.add_1_r, Nat.even_succ. rewrite <- Nat.negb_even, even_2x. reflexivity. Qed.
Lemma odd_2x x : Nat.odd (2 * x) = false.
Proof. rewrite <- Nat.negb_even, even_2x. reflexivity. Qed.
Lemma odd_2x1 x : Nat.odd (2 * x + 1) = true.
Proof. rewrite <- Nat.negb_even, even_2x1. reflexivity. Qed.

Lemma begin_even spl x : 0 < x -> tree_begin spl (2 * x) = tree_begin spl x.
Proof.
  intros H. unfold tree_begin. replace (strip_even (2 * x) (2 * x)) with (strip_even x x); auto.
  rewrite (strip_even_fuel (2 * x) (S (2 * x)) (2 * x)) by lia.
  cbn [strip_even]. rewrite even_2x, half_even. apply strip_even_fuel; lia.
Qed.
Lemma begin_odd spl x : 0 < x -> tree_begin spl (2 * x + 1) = obind (rd spl x) (fun s => Ok (s_index s)).
Proof.
  intros H. unfold tree_begin.
  rewrite (strip_even_fuel (2 * x + 1) (S (2 * x + 1)) (2 * x + 1)) by lia.
  cbn [strip_even]. rewrite even_2x1. rewrite half_odd. destruct (Nat.eqb_spec (2 * x + 1) 1); [lia|auto].
Qed.
Lemma end_odd n spl x : tree_end n spl (2 * x + 1) = tree_end n spl x.
Proof.
  unfold tree_end. replace (strip_odd (2 * x + 1) (2 * x + 1)) with (strip_odd x x); auto.
  rewrite (strip_odd_fuel (2 * x + 1) (S (2 * x + 1)) (2 * x + 1)) by lia.
  cbn [strip_odd]. rewrite odd_2x1, half_odd. apply strip_odd_fuel; lia.
Qed.
Lemma end_even n spl x : 0 < x -> tree_end n spl (2 * x) = obind (rd spl x) (fun s => Ok (s_index s)).
Proof.
  intros H. unfold tree_end.
  rewrite (strip_odd_fuel (2 * x) (S (2 * x)) (2 * x)) by lia.
  cbn [strip_odd]. rewrite odd_2x, half_even. destruct (Nat.eqb_spec (2 * x) 0); [lia|auto].
Qed.

Lemma even_or_odd m : (exists x, m = 2 * x) \/ (exists x, m = 2 * x + 1).
Proof. destruct (Nat.Even_or_Odd m) as [(x & ->)|(x & ->)]; eauto. Qed.

(** start of the i-th range of a level *)
Fixpoint pos (n : nat) (spl : list splitter) (ll m : nat) : nat :=
  match ll with
  | 0 => if m =? 0 then 0 else n
  | S l => if Nat.even m then pos n spl l (m / 2) else s_index (nth (2 ^ l + m / 2) spl splitter0)
  end.

Lemma pow2_pos ll : 0 < 2 ^ ll.
Proof. induction ll; cbn; lia. Qed.
Lemma pow2_S ll : 2 ^ S ll = 2 * 2 ^ ll.
Proof. reflexivity. Qed.

Lemma pos_even n spl ll x : pos n spl (S ll) (2 * x) = pos n spl ll x.
Proof. cbn [pos]. rewrite even_2x, half_even. reflexivity. Qed.
Lemma pos_odd n spl ll x : pos n spl (S ll) (2 * x + 1) = s_index (nth (2 ^ ll + x) spl splitter0).
Proof. cbn [pos]. rewrite even_2x1, half_odd. reflexivity. Qed.

Lemma pos_0 n spl ll : pos n spl ll 0 = 0.
Proof. induction ll; auto. Qed.
Lemma pos_last n spl ll : pos n spl ll (2 ^ ll) = n.
Proof. induction ll; auto. rewrite pow2_S, pos_even. auto. Qed.

Lemma begin_pos n spl : forall ll m, m < 2 ^ ll -> 2 ^ ll <= length spl ->
  tree_begin spl (2 ^ ll + m) = Ok (pos n spl ll m).
Proof.
  induction ll as [|ll IH]; intros m Hm L.
  - cbn in Hm. replace m with 0 by lia. reflexivity.
  - rewrite pow2_S in Hm, L. destruct (even_or_odd m) as [(x & ->)|(x & ->)].
    + rewrite pos_even. replace (2 ^ S ll + 2 * x) with (2 * (2 ^ ll + x)) by (rewrite pow2_S; lia).
      rewrite begin_even by (pose proof (pow2_pos ll); lia). apply IH; lia.
    + rewrite pos_odd. replace (2 ^ S ll + (2 * x + 1)) with (2 * (2 ^ ll + x) + 1) by (rewrite pow2_S; lia).
      rewrite begin_odd by (pose proof (pow2_pos ll); lia). rewrite (rd_ok spl _ splitter0) by lia. reflexivity.
Qed.

Lemma end_pos n spl : forall ll m, m < 2 ^ ll -> 2 ^ ll <= length spl ->
  tree_end n spl (2 ^ ll + m) = Ok (pos n spl ll (m + 1)).
Proof.
  induction ll as [|ll IH]; intros m Hm L.
  - cbn in Hm. replace m with 0 by lia. reflexivity.
  - rewrite pow2_S in Hm, L. destruct (even_or_odd m) as [(x & ->)|(x & ->)].
    + rewrite pos_odd. replace (2 ^ S ll + 2 * x) with (2 * (2 ^ ll + x)) by (rewrite pow2_S; lia).
      rewrite end_even by (pose proof (pow2_pos ll); lia). rewrite (rd_ok spl _ splitter0) by lia. reflexivity.
    + replace (2 * x + 1 + 1) with (2 * (x + 1)) by lia. rewrite pos_even.
      replace (2 ^ S ll + (2 * x + 1)) with (2 * (2 ^ ll + x) + 1) by (rewrite pow2_S; lia).
      rewrite end_odd. apply IH; lia.
Qed.

Lemma pos_ext n spl spl' : forall ll m, m <= 2 ^ ll ->
  (forall i, i < 2 ^ ll -> s_index (nth i spl splitter0) = s_index (nth i spl' splitter0)) ->
  pos n spl ll m = pos n spl' ll m.
Proof.
  induction ll as [|ll IH]; intros m Hm H; auto.
  rewrite pow2_S in Hm. destruct (even_or_odd m) as [(x & ->)|(x & ->)].
  - rewrite !pos_even. apply IH; [lia|]. intros i Hi. apply H. rewrite pow2_S. lia.
  - rewrite !pos_odd. apply H. rewrite pow2_S. lia.
Qed.

(** ** State of a tree during its construction *)
Section Inv.
  Variable n : nat.
  Variables LP RP : splitter -> nat -> Prop.
  Variable dim : nat -> nat.

  (** splitter of the i-th node of a level, given the permutation *)
  Definition node_ok (perm : list nat) (spl : list splitter) (ll i : nat) : Prop :=
    let s := nth (2 ^ ll + i) spl splitter0 in
    s_d s = dim ll /\
    pos n spl ll i <= s_index s <= pos n spl ll (i + 1) /\
    (forall p, pos n spl ll i <= p < s_index s -> LP s (nth p perm 0%nat)) /\
    (forall p, s_index s <= p < pos n spl ll (i + 1) -> RP s (nth p perm 0%nat)).

  (** all levels before [ll] are finished *)
  Definition levels_ok (perm : list nat) (spl : list splitter) (ll : nat) : Prop :=
    forall l i, l < ll -> i < 2 ^ l -> node_ok perm spl l i.

  Lemma pos_mono1 perm spl ll : levels_ok perm spl ll -> forall m, m < 2 ^ ll -> pos n spl ll m <= pos n spl ll (m + 1).
  Proof.
    induction ll as [|ll IH]; intros H m Hm.
    - cbn in Hm. replace m with 0 by lia. cbn. lia.
    - rewrite pow2_S in Hm. destruct (even_or_odd m) as [(x & ->)|(x & ->)].
      + rewrite pos_even, pos_odd. destruct (H ll x ltac:(lia) ltac:(lia)) as (_ & B & _). lia.
      + replace (2 * x + 1 + 1) with (2 * (x + 1)) by lia. rewrite pos_even, pos_odd.
        destruct (H ll x ltac:(lia) ltac:(lia)) as (_ & B & _). lia.
  Qed.

  Lemma pos_mono perm spl ll : levels_ok perm spl ll -> forall m k, m <= k <= 2 ^ ll -> pos n spl ll m <= pos n spl ll k.
  Proof.
    intros H m k [A B]. induction A as [|k A IH]; auto.
    etransitivity; [apply IH; lia|]. rewrite <- Nat.add_1_r. eapply pos_mono1; eauto.
  Qed.

  Lemma pos_le perm spl ll m : levels_ok perm spl ll -> m <= 2 ^ ll -> pos n spl ll m <= n.
  Proof. intros H L. rewrite <- (pos_last n spl ll) at 2. eapply pos_mono; eauto. Qed.

  (** the cuts of a level are cuts of all deeper levels *)
  Lemma pos_deeper spl l : forall j m, pos n spl l m = pos n spl (j + l) (2 ^ j * m).
  Proof.
    induction j as [|j IH]; intros m; cbn [Nat.add].
    - rewrite Nat.mul_1_l. reflexivity.
    - rewrite pow2_S. rewrite <- Nat.mul_assoc, pos_even. apply IH.
  Qed.

  Lemma cut_respected perm spl l ll m i : levels_ok perm spl ll -> l <= ll -> m <= 2 ^ l -> i < 2 ^ ll ->
    pos n spl l m <= pos n spl ll i \/ pos n spl ll (i + 1) <= pos n spl l m.
  Proof.
    intros H L Hm Hi. replace ll with ((ll - l) + l) in * by lia. set (j := ll - l) in *. clearbody j.
    rewrite (pos_deeper spl l j m). rewrite Nat.pow_add_r in Hi.
    assert (2 ^ j * m <= 2 ^ (j + l)) by (rewrite Nat.pow_add_r; apply Nat.mul_le_mono_l; auto).
    destruct (le_lt_dec (2 ^ j * m) i).
    - left. eapply pos_mono; eauto. rewrite Nat.pow_add_r in *. lia.
    - right. eapply pos_mono; eauto. lia.
  Qed.

  Lemma shuffle_keeps (Q : nat -> Prop) b e lo hi l l' : shuffle b e l l' ->
    (lo <= b \/ e <= lo) -> (hi <= b \/ e <= hi) ->
    (forall p, lo <= p < hi -> Q (nth p l 0%nat)) -> (forall p, lo <= p < hi -> Q (nth p l' 0%nat)).
  Proof.
    intros (_ & _ & A & B) Hlo Hhi H p Hp.
    destruct (le_lt_dec b p); [destruct (le_lt_dec e p)|]; try (rewrite A by lia; auto).
    destruct (B p ltac:(lia)) as (q & Hq & ->). apply H. lia.
  Qed.

  (** a node keeps its property when a part between two cuts is permuted and other splitters change *)
  Lemma node_ok_keep b e perm perm' spl spl' l i :
    node_ok perm spl l i -> shuffle b e perm perm' -> i < 2 ^ l ->
    (forall k, k <= 2 ^ l + i -> nth k spl' splitter0 = nth k spl splitter0) ->
    (pos n spl l i <= b \/ e <= pos n spl l i) ->
    (s_index (nth (2 ^ l + i) spl splitter0) <= b \/ e <= s_index (nth (2 ^ l + i) spl splitter0)) ->
    (pos n spl l (i + 1) <= b \/ e <= pos n spl l (i + 1)) ->
    node_ok perm' spl' l i.
  Proof.
    intros (D & B & L & R) Sh Hi E C1 C2 C3. unfold node_ok.
    rewrite (E (2 ^ l + i)) by lia.
    rewrite <- !(pos_ext n spl spl' l) by (try lia; intros k Hk; rewrite E by lia; auto).
    split; auto. split; auto. split.
    - apply (shuffle_keeps (LP (nth (2 ^ l + i) spl splitter0)) b e _ _ perm); auto.
    - apply (shuffle_keeps (RP (nth (2 ^ l + i) spl splitter0)) b e _ _ perm); auto.
  Qed.

  (** during a level: the nodes of [done] are finished *)
  Definition level_inv (levels ll : nat) (done : list nat) (perm : list nat) (spl : list splitter) : Prop :=
    Permutation perm (seq 0 n) /\ length spl = 2 ^ levels /\
    levels_ok perm spl ll /\ (forall i, In i done -> node_ok perm spl ll i).

  (** executing one node: the range is permuted, the splitter written *)
  Lemma level_inv_step levels ll done i perm spl perm' s : ll < levels -> i < 2 ^ ll ->
    (forall j, In j done -> j < 2 ^ ll) -> ~ In i done ->
    level_inv levels ll done perm spl ->
    shuffle (pos n spl ll i) (pos n spl ll (i + 1)) perm perm' ->
    s_d s = dim ll -> pos n spl ll i <= s_index s <= pos n spl ll (i + 1) ->
    (forall p, pos n spl ll i <= p < s_index s -> LP s (nth p perm' 0%nat)) ->
    (forall p, s_index s <= p < pos n spl ll (i + 1) -> RP s (nth p perm' 0%nat)) ->
    level_inv levels ll (done ++ [i]) perm' (upd spl (2 ^ ll + i) s).
  Proof.
    intros Hl Hi Hd Nd (P & Ls & Lv & Dn) Sh Sd Si SL SR.
    assert (Lll : 2 ^ ll + i < length spl).
    { rewrite Ls. apply Nat.lt_le_trans with (2 ^ S ll); [rewrite pow2_S; lia|]. apply Nat.pow_le_mono_r; lia. }
    assert (PE : forall m, m <= 2 ^ ll -> pos n (upd spl (2 ^ ll + i) s) ll m = pos n spl ll m).
    { intros m Hm. apply pos_ext; auto. intros k Hk. rewrite nth_upd_neq by lia. auto. }
    split; [|split; [|split]].
    - destruct Sh as (_ & P' & _). rewrite <- P'. auto.
    - rewrite upd_length. auto.
    - intros l j Hlj Hj.
      assert (Pl : 2 ^ l + j < 2 ^ ll).
      { apply Nat.lt_le_trans with (2 ^ S l); [rewrite pow2_S; lia|]. apply Nat.pow_le_mono_r; lia. }
      eapply node_ok_keep; eauto.
      + intros k Hk. rewrite nth_upd_neq by lia. auto.
      + eapply (cut_respected perm spl l ll); eauto; lia.
      + rewrite <- pos_odd with (n := n).
        eapply (cut_respected perm spl (S l) ll); eauto; try lia. rewrite pow2_S; lia.
      + eapply (cut_respected perm spl l ll); eauto; lia.
    - intros j Hj. apply in_app_iff in Hj. destruct Hj as [Hj|[<-|[]]].
      + assert (Hj' := Hd j Hj). assert (Nji : j <> i) by (intros ->; auto).
        assert (Bj := Dn j Hj). destruct Bj as (Dj & Bj & Lj & Rj).
        assert (M1 := pos_mono1 perm spl ll Lv i Hi).
        unfold node_ok. rewrite !PE by lia. rewrite nth_upd_neq by lia.
        assert (X : pos n spl ll (j + 1) <= pos n spl ll i \/ pos n spl ll (i + 1) <= pos n spl ll j).
        { destruct (le_lt_dec j i); [left|right]; eapply pos_mono; eauto; lia. }
        split; auto. split; auto. split.
        * apply (shuffle_keeps (LP (nth (2 ^ ll + j) spl splitter0)) (pos n spl ll i) (pos n spl ll (i + 1)) _ _ perm); auto; lia.
        * apply (shuffle_keeps (RP (nth (2 ^ ll + j) spl splitter0)) (pos n spl ll i) (pos n spl ll (i + 1)) _ _ perm); auto; lia.
      + unfold node_ok. rewrite !PE by lia. rewrite nth_upd_eq by auto. auto.
  Qed.

  (** a whole level *)
  Lemma level_inv_next levels ll done perm spl : Permutation done (seq 0 (2 ^ ll)) ->
    level_inv levels ll done perm spl -> level_inv levels (S ll) [] perm spl.
  Proof.
    intros P (A & B & C & D). split; auto. split; auto. split; [|intros i []].
    intros l i Hl Hi. destruct (Nat.eq_dec l ll) as [->|N]; [|apply C; auto; lia].
    apply D. eapply Permutation_in; [symmetry; exact P|]. apply in_seq. lia.
  Qed.

  (** ** The finished tree: an element of a range satisfies the predicates of its ancestors *)
  Fixpoint path_ok (spl : list splitter) (ll m x : nat) : Prop :=
    match ll with
    | 0 => True
    | S l => (if Nat.even m then LP (nth (2 ^ l + m / 2) spl splitter0) x else RP (nth (2 ^ l + m / 2) spl splitter0) x) /\
             path_ok spl l (m / 2) x
    end.

  Lemma path_holds perm spl : forall ll, levels_ok perm spl ll -> forall m p, m < 2 ^ ll ->
    pos n spl ll m <= p < pos n spl ll (m + 1) -> path_ok spl ll m (nth p perm 0%nat).
  Proof.
    induction ll as [|ll IH]; intros H m p Hm Hp; cbn [path_ok]; auto.
    rewrite pow2_S in Hm.
    assert (H' : levels_ok perm spl ll) by (intros l i Hl Hi; apply H; auto; lia).
    destruct (even_or_odd m) as [(x & ->)|(x & ->)].
    - rewrite even_2x, half_even. rewrite pos_even, pos_odd in Hp.
      destruct (H ll x ltac:(lia) ltac:(lia)) as (_ & B & L & R). split; [apply L; auto|].
      apply IH; auto; lia.
    - rewrite even_2x1, half_odd. replace (2 * x + 1 + 1) with (2 * (x + 1)) in Hp by lia.
      rewrite pos_even, pos_odd in Hp.
      destruct (H ll x ltac:(lia) ltac:(lia)) as (_ & B & L & R). split; [apply R; auto|].
      apply IH; auto; lia.
  Qed.

  (** every position lies in a range of the level *)
  Lemma pos_find perm spl ll p : levels_ok perm spl ll -> p < n ->
    exists m, m < 2 ^ ll /\ pos n spl ll m <= p < pos n spl ll (m + 1).
  Proof.
    intros H Hp.
    assert (G : forall k, k <= 2 ^ ll -> p < pos n spl ll k -> exists m, m < k /\ pos n spl ll m <= p < pos n spl ll (m + 1)).
    { induction k as [|k IH]; intros Hk Hpk.
      - rewrite pos_0 in Hpk. lia.
      - destruct (le_lt_dec (pos n spl ll k) p).
        + exists k. rewrite Nat.add_1_r. split; auto.
        + destruct (IH ltac:(lia) l) as (m & Hm & X). exists m. split; auto. }
    apply G; auto. rewrite pos_last. auto.
  Qed.
End Inv.

(** ** Splitting of one node, common to both trees *)
Lemma perm_lt n l x : Permutation l (seq 0 n) -> In x l -> x < n.
Proof. intros P H. apply (Permutation_in _ P), in_seq in H. lia. Qed.
Lemma perm_len n l : Permutation l (seq 0 n) -> length l = n.
Proof. intros P. rewrite (Permutation_length P), seq_length. auto. Qed.
Lemma perm_nth_lt n l p : Permutation l (seq 0 n) -> p < n -> nth p l 0 < n.
Proof. intros P H. apply (perm_lt n l); auto. apply nth_In. rewrite (perm_len n l P). auto. Qed.

Lemma split_ok nthel (same : Z -> list nat -> nat -> nat -> outcome bool) pts d node perm b e v0 :
  nth_element_contract nthel -> Permutation perm (seq 0 (length pts)) -> b <= e <= length pts ->
  (forall v l i c, Permutation l (seq 0 (length pts)) -> b <= i < e -> b <= c < e -> key pts d (nth i l 0) = v ->
     same v l i c = Ok (Z.eqb v (key pts d (nth c l 0%nat)))) ->
  exists perm1 v i1 perm2 i2,
    do_nth nthel pts d node perm b (b + (e - b) / 2) e = Ok perm1 /\
    (if e - b =? 0 then Ok v0 else obind (rd perm1 (b + (e - b) / 2)) (fun j => getc pts d j)) = Ok v /\
    advance (same v) perm1 e e (b + (e - b) / 2) = Ok i1 /\
    gather (same v) e (2 * e + 1) perm1 i1 (i1 + 2) = Ok (perm2, i2) /\
    shuffle b e perm perm2 /\ b <= Nat.min (i2 + 1) e <= e /\
    (forall p, b <= p < Nat.min (i2 + 1) e -> (key pts d (nth p perm2 0%nat) <= v)%Z) /\
    (forall p, Nat.min (i2 + 1) e <= p < e -> (key pts d (nth p perm2 0%nat) > v)%Z).
Proof.
  intros C P H So.
  destruct (do_nth_ok nthel pts d node perm b e C) as (perm1 & R1 & Sh1 & Ord1).
  { rewrite (perm_len _ _ P). auto. } { intros x Hx. eapply perm_lt; eauto. }
  exists perm1.
  destruct (Nat.eqb_spec (e - b) 0) as [Z0|NZ].
  - assert (e = b) by lia. subst e.
    exists v0, (b + (b - b) / 2), perm1, (b + (b - b) / 2). rewrite !Nat.sub_diag in *.
    change (0 / 2) with 0 in *. rewrite !Nat.add_0_r in *.
    split; auto. split; auto. split.
    { destruct b; auto. cbn [advance]. destruct (Nat.ltb_spec (S b + 1) (S b)); [lia|auto]. }
    split. { rewrite Nat.add_1_r. cbn [gather]. destruct (Nat.ltb_spec (b + 2) b); [lia|auto]. }
    split; auto. split; [lia|]. split; intros; lia.
  - set (m := b + (e - b) / 2) in *.
    assert (Lm : m < e). { subst m. enough ((e - b) / 2 < e - b) by lia. apply Nat.div_lt; lia. }
    assert (Lb : b <= m) by (subst m; lia). clearbody m.
    set (v := key pts d (nth m perm1 0)).
    assert (P1 : Permutation perm1 (seq 0 (length pts))) by (destruct Sh1 as (_ & X & _); rewrite <- X; auto).
    assert (G : forall l l', Permutation l (seq 0 (length pts)) -> shuffle b e l l' -> Permutation l' (seq 0 (length pts)))
      by (intros l l' Pl (_ & X & _); rewrite <- X; auto).
    assert (GL : forall l, Permutation l (seq 0 (length pts)) -> length l = length pts) by (intros l; apply perm_len).
    destruct (advance_ok (key pts d) (same v) b e v (length pts)
                (fun l => Permutation l (seq 0 (length pts))) (proj2 H) (So v) e perm1 m P1) as (i1 & R2 & B1 & E1 & N1); auto; try lia.
    destruct (gather_ok (key pts d) (same v) b e v (length pts)
                (fun l => Permutation l (seq 0 (length pts))) G GL (proj2 H) (So v) (2 * e + 1) perm1 i1 (i1 + 2))
      as (perm2 & i2 & R3 & Sh2 & B2 & Le & Gt); auto; try lia.
    + intros p Hp. destruct (le_lt_dec m p).
      * rewrite E1 by lia. lia.
      * apply Ord1; lia.
    + apply E1. lia.
    + intros p Hp Hp2. replace p with (i1 + 1) in * by lia.
      specialize (N1 ltac:(lia)). destruct (Ord1 (i1 + 1) ltac:(lia)) as [_ X]. specialize (X ltac:(lia)). unfold v in *. lia.
    + intros p Hp. destruct (Ord1 p ltac:(lia)) as [_ X]. specialize (X ltac:(lia)). unfold v in *. lia.
    + exists v, i1, perm2, i2. split; auto. split.
      { rewrite (rd_ok perm1 m 0) by (rewrite (perm_len _ _ P1); lia). cbn [obind].
        apply key_getc. apply perm_nth_lt; auto; lia. }
      split; auto. split; auto. split; [eapply shuffle_trans; eauto|].
      rewrite Nat.min_l by lia. split; [lia|]. split; intros p Hp; [apply Le|apply Gt]; lia.
Qed.

(** ** IntervalTree *)
Definition it_left (iend : list point) (s : splitter) (x : nat) : Prop := (key iend (s_d s) x <= s_value s)%Z.
Definition it_right (istart iend : list point) (s : splitter) (x : nat) : Prop :=
  (key iend (s_d s) x > s_value s)%Z /\ (s_start s <= key istart (s_d s) x)%Z.

Lemma it_same_ok iend d b e v l i c : Permutation l (seq 0 (length iend)) -> e <= length iend ->
  b <= i < e -> b <= c < e -> key iend d (nth i l 0) = v ->
  it_same iend d v l i c = Ok (Z.eqb v (key iend d (nth c l 0%nat))).
Proof.
  intros P He Hi Hc _. unfold it_same. rewrite (rd_ok l c 0) by (rewrite (perm_len _ _ P); lia). cbn [obind].
  rewrite key_getc by (apply perm_nth_lt; auto; lia). reflexivity.
Qed.

Lemma it_min_ok istart d perm v : forall cnt b,
  (forall p, b <= p < b + cnt -> p < length perm /\ nth p perm 0 < length istart) ->
  exists m, foldM (it_min istart d perm) (seq b cnt) v = Ok m /\
    forall p, b <= p < b + cnt -> (m <= key istart d (nth p perm 0%nat))%Z.
Proof.
  intros cnt b H.
  destruct (foldM_seq_inv (it_min istart d perm)
              (fun c m => forall p, b <= p < c -> (m <= key istart d (nth p perm 0%nat))%Z) b cnt v) as (m & R & I).
  - intros; lia.
  - intros c acc Hc I. unfold it_min. destruct (H c Hc) as [A B].
    rewrite (rd_ok perm c 0) by auto. cbn [obind]. rewrite key_getc by auto. cbn [obind].
    eexists; split; [reflexivity|]. intros p Hp. destruct (Nat.eq_dec p c) as [->|N]; [lia|].
    specialize (I p ltac:(lia)). lia.
  - exists m. split; auto.
Qed.

Section ITree.
  Variable nthel : nat -> (nat -> Z) -> list nat -> nat -> list nat.
  Variable order : nat -> list nat.
  Variable dim : nat -> nat.
  Variables istart iend : list point.
  Hypothesis HN : nth_element_contract nthel.
  Hypothesis HO : level_orders order.
  Hypothesis HL : length istart = length iend.
  Let n := length iend.
  Let inv := level_inv n (it_left iend) (it_right istart iend) dim.

  Lemma it_node_ok levels ll done i t : ll < levels -> i < 2 ^ ll ->
    (forall j, In j done -> j < 2 ^ ll) -> ~ In i done -> inv levels ll done (it_perm t) (it_spl t) ->
    exists t', it_node nthel dim istart iend ll t i = Ok t' /\ inv levels ll (done ++ [i]) (it_perm t') (it_spl t').
  Proof.
    intros Hl Hi Hd Nd I. destruct t as [perm spl]. cbn [it_perm it_spl] in *.
    pose proof I as (P & Ls & Lv & Dn).
    assert (Lpw : 2 ^ S ll <= length spl) by (rewrite Ls; apply Nat.pow_le_mono_r; lia). rewrite pow2_S in Lpw.
    assert (Mn := pos_mono1 _ _ _ _ _ _ _ Lv i Hi).
    assert (Le : pos n spl ll (i + 1) <= n) by (eapply pos_le; eauto; lia).
    unfold it_node. cbn [it_perm it_spl].
    rewrite (begin_pos n) by lia. cbn [obind].
    rewrite (perm_len _ _ P). rewrite end_pos by lia. cbn [obind].
    rewrite (rd_ok spl _ splitter0) by lia. cbn [obind].
    set (b := pos n spl ll i) in *. set (e := pos n spl ll (i + 1)) in *.
    destruct (split_ok nthel (it_same iend (dim ll)) iend (dim ll) (2 ^ ll + i) perm b e
                (s_value (nth (2 ^ ll + i) spl splitter0)) HN P ltac:(auto))
      as (perm1 & v & i1 & perm2 & i2 & R1 & R2 & R3 & R4 & Sh & B & Lp & Rp).
    { intros v l j c Pl Hj Hc. apply (it_same_ok iend (dim ll) b e); auto. }
    rewrite R1. cbn [obind]. rewrite R2. cbn [obind]. rewrite R3. cbn [obind]. rewrite R4. cbn [obind].
    assert (P2 : Permutation perm2 (seq 0 n)) by (destruct Sh as (_ & X & _); rewrite <- X; auto).
    set (x := Nat.min (i2 + 1) e) in *. clearbody x.
    destruct (it_min_ok istart (dim ll) perm2 v (e - x) x) as (m & R5 & Mp).
    { intros p Hp. rewrite (perm_len _ _ P2). split; [unfold n in *; lia|]. rewrite HL. apply perm_nth_lt; auto. unfold n in *; lia. }
    rewrite R5. cbn [obind]. rewrite wr_ok by lia. cbn [obind].
    eexists; split; [reflexivity|]. cbn [it_perm it_spl].
    eapply level_inv_step; eauto; cbn [s_d s_index]; auto.
    intros p Hp. split; cbn [s_d s_value s_start].
    - apply Rp. exact Hp.
    - apply Mp. unfold e. lia.
  Qed.

  Lemma in_order_lt ll pre i post : order ll = pre ++ i :: post ->
    i < 2 ^ ll /\ (forall j, In j pre -> j < 2 ^ ll) /\ ~ In i pre.
  Proof.
    intros E. specialize (HO ll). unfold parallel_order in HO. rewrite E in HO.
    assert (Nd : NoDup (pre ++ i :: post)) by (eapply Permutation_NoDup; [symmetry; exact HO|apply seq_NoDup]).
    split; [|split].
    - eapply (perm_lt _ _ i HO). rewrite in_app_iff; cbn; auto.
    - intros j Hj. eapply (perm_lt _ _ j HO). rewrite in_app_iff; auto.
    - intros Hi. apply NoDup_remove_2 in Nd. apply Nd. rewrite in_app_iff. auto.
  Qed.

  Lemma it_level_ok levels ll t : ll < levels -> inv levels ll [] (it_perm t) (it_spl t) ->
    exists t', it_level nthel order dim istart iend t ll = Ok t' /\ inv levels (S ll) [] (it_perm t') (it_spl t').
  Proof.
    intros Hl I. unfold it_level.
    destruct (foldM_inv (it_node nthel dim istart iend ll) (fun pre t => inv levels ll pre (it_perm t) (it_spl t)) (order ll) t I)
      as (t' & R & I').
    - intros pre i post s E Is. destruct (in_order_lt _ _ _ _ E) as (A & B & C). apply it_node_ok; auto.
    - exists t'. split; auto. exact (level_inv_next _ _ _ _ _ _ (order ll) _ _ (HO ll) I').
  Qed.

  Lemma it_build_ok : exists levels t, it_build nthel order dim istart iend = Ok (levels, t) /\
    inv levels levels [] (it_perm t) (it_spl t).
  Proof.
    unfold it_build, tree_levels. set (levels := if length iend <? 8 then 0 else Nat.log2 (length iend / 8)).
    exists levels.
    replace (if length iend <? 8 then Ok 0 else if 8 =? 0 then UB else Ok (Nat.log2 (length iend / 8))) with (Ok levels)
      by (unfold levels; destruct (length iend <? 8); auto).
    cbn [obind].
    destruct (foldM_seq_inv (it_level nthel order dim istart iend)
                (fun ll t => inv levels ll [] (it_perm t) (it_spl t)) 0 levels
                {| it_perm := seq 0 (length iend); it_spl := repeat splitter0 (2 ^ levels) |}) as (t & R & I).
    - cbn [it_perm it_spl]. split; auto. split; [apply repeat_length|]. split; [|intros i []].
      intros l i Hl. lia.
    - intros ll t Hl I. apply it_level_ok; auto. lia.
    - exists t. rewrite R. auto.
  Qed.
End ITree.

(** the search reports all leaves whose ancestors let it pass *)
Lemma nodup_app {A} (a b : list A) : NoDup a -> NoDup b -> (forall x, In x a -> ~ In x b) -> NoDup (a ++ b).
Proof.
  induction a as [|x a IH]; cbn; intros Ha Hb D; auto. inversion Ha as [|? ? H1 H2]; subst.
  constructor; [|apply IH; auto]. rewrite in_app_iff. intros [H|H]; auto. apply (D x); auto.
Qed.

Section Traverse.
  Variable spl : list splitter.
  Variables qs qe : point.

  Fixpoint passes (ll m : nat) : Prop :=
    match ll with
    | 0 => True
    | S l => (if Nat.even m then (coord qs (s_d (nth (2 ^ l + m / 2) spl splitter0)) < s_value (nth (2 ^ l + m / 2) spl splitter0))%Z
              else (s_start (nth (2 ^ l + m / 2) spl splitter0) < coord qe (s_d (nth (2 ^ l + m / 2) spl splitter0)))%Z) /\
             passes l (m / 2)
    end.

  (** the leaf 2^levels + m lies below the node 2^ll + m / 2^(levels - ll) *)
  Lemma traverse_ok levels : length spl = 2 ^ levels -> forall j ll, j + ll = levels -> forall i fuel out, i < 2 ^ ll -> j < fuel ->
    exists found, it_traverse spl fuel (2 ^ ll + i) qs qe out = Ok (out ++ found) /\
      NoDup found /\
      (forall leaf, In leaf found -> exists m, leaf = 2 ^ levels + m /\ 2 ^ j * i <= m < 2 ^ j * (i + 1)) /\
      forall m, 2 ^ j * i <= m < 2 ^ j * (i + 1) -> passes levels m -> In (2 ^ levels + m) found.
  Proof.
    intros L. induction j as [|j IH]; intros ll E i fuel out Hi F; (destruct fuel as [|f]; [lia|]); cbn [it_traverse].
    - cbn in E. subst ll. destruct (Nat.ltb_spec (2 ^ levels + i) (length spl)); [lia|].
      exists [2 ^ levels + i]. split; auto. cbn [Nat.pow]. split; [constructor; auto; constructor|]. split.
      + intros leaf [<-|[]]. exists i. split; auto. lia.
      + intros m Hm _. left. lia.
    - assert (Pw : 2 ^ S ll <= 2 ^ levels) by (apply Nat.pow_le_mono_r; lia). rewrite pow2_S in Pw.
      destruct (Nat.ltb_spec (2 ^ ll + i) (length spl)); [|lia].
      rewrite (rd_ok spl _ splitter0) by lia. cbn [obind].
      set (s := nth (2 ^ ll + i) spl splitter0).
      replace (2 * (2 ^ ll + i)) with (2 ^ S ll + 2 * i) by (rewrite pow2_S; lia).
      replace (2 ^ S ll + 2 * i + 1) with (2 ^ S ll + (2 * i + 1)) by lia.
      (* the ancestor condition at this node *)
      assert (Anc : forall m x, 2 ^ j * x <= m < 2 ^ j * (x + 1) -> passes levels m ->
                      passes (S ll) x).
      { clear - E. intros m x Hm Hp. replace levels with (j + S ll) in Hp by lia. clear E.
        revert m x Hm Hp. induction j as [|j IHj]; intros m x Hm Hp.
        - cbn [Nat.pow] in Hm. replace x with m by lia. exact Hp.
        - cbn [Nat.add passes] in Hp. destruct Hp as [_ Hp]. apply (IHj (m / 2) x); auto.
          rewrite pow2_S in Hm. split.
          + apply Nat.div_le_lower_bound; lia.
          + apply Nat.div_lt_upper_bound; lia. }
      destruct (Z.ltb_spec (coord qs (s_d s)) (s_value s)) as [C1|C1].
      + destruct (IH (S ll) ltac:(lia) (2 * i) f out ltac:(rewrite pow2_S; lia) ltac:(lia)) as (f1 & R1 & U1 & S1 & T1).
        rewrite R1. cbn [obind].
        destruct (Z.ltb_spec (s_start s) (coord qe (s_d s))) as [C2|C2].
        * destruct (IH (S ll) ltac:(lia) (2 * i + 1) f (out ++ f1) ltac:(rewrite pow2_S; lia) ltac:(lia)) as (f2 & R2 & U2 & S2 & T2).
          exists (f1 ++ f2). rewrite R2, app_assoc. split; auto. split.
          { apply nodup_app; auto. intros y H1 H2. apply S1 in H1. apply S2 in H2.
            destruct H1 as (m1 & E1 & H1). destruct H2 as (m2 & E2 & H2). lia. }
          split.
          { intros leaf Hf. apply in_app_iff in Hf. destruct Hf as [Hf|Hf]; [apply S1 in Hf|apply S2 in Hf];
              destruct Hf as (m & -> & Hm); exists m; split; auto; rewrite pow2_S; lia. }
          { intros m Hm Hp. rewrite in_app_iff. rewrite pow2_S in Hm. destruct (le_lt_dec (2 ^ j * (2 * i + 1)) m).
            - right. apply T2; auto; lia.
            - left. apply T1; auto; lia. }
        * exists f1. split; auto. split; auto. split.
          { intros leaf Hf. apply S1 in Hf. destruct Hf as (m & -> & Hm); exists m; split; auto; rewrite pow2_S; lia. }
          { intros m Hm Hp. rewrite pow2_S in Hm. destruct (le_lt_dec (2 ^ j * (2 * i + 1)) m).
            - exfalso. assert (Q := Anc m (2 * i + 1) ltac:(lia) Hp). cbn [passes] in Q. rewrite even_2x1, half_odd in Q.
              fold s in Q. lia.
            - apply T1; auto; lia. }
      + cbn [obind].
        destruct (Z.ltb_spec (s_start s) (coord qe (s_d s))) as [C2|C2].
        * destruct (IH (S ll) ltac:(lia) (2 * i + 1) f out ltac:(rewrite pow2_S; lia) ltac:(lia)) as (f2 & R2 & U2 & S2 & T2).
          exists f2. rewrite R2. split; auto. split; auto. split.
          { intros leaf Hf. apply S2 in Hf. destruct Hf as (m & -> & Hm); exists m; split; auto; rewrite pow2_S; lia. }
          { intros m Hm Hp. rewrite pow2_S in Hm. destruct (le_lt_dec (2 ^ j * (2 * i + 1)) m).
            - apply T2; auto; lia.
            - exfalso. assert (Q := Anc m (2 * i) ltac:(lia) Hp). cbn [passes] in Q. rewrite even_2x, half_even in Q.
              fold s in Q. lia. }
        * exists []. rewrite app_nil_r. split; auto. split; [constructor|]. split; [intros leaf []|].
          intros m Hm Hp. exfalso. rewrite pow2_S in Hm. destruct (le_lt_dec (2 ^ j * (2 * i + 1)) m).
          -- assert (Q := Anc m (2 * i + 1) ltac:(lia) Hp). cbn [passes] in Q. rewrite even_2x1, half_odd in Q. fold s in Q. lia.
          -- assert (Q := Anc m (2 * i) ltac:(lia) Hp). cbn [passes] in Q. rewrite even_2x, half_even in Q. fold s in Q. lia.
  Qed.
End Traverse.

(** ** KDTree *)
Lemma kd_same_ok pts d b e v l i c : Permutation l (seq 0 (length pts)) -> e <= length pts ->
  b <= i < e -> b <= c < e -> key pts d (nth i l 0) = v ->
  kd_same pts d l i c = Ok (Z.eqb v (key pts d (nth c l 0%nat))).
Proof.
  intros P He Hi Hc Hv. unfold kd_same.
  rewrite (rd_ok l i 0), (rd_ok l c 0) by (rewrite (perm_len _ _ P); lia). cbn [obind].
  rewrite !key_getc by (apply perm_nth_lt; auto; lia). cbn [obind]. rewrite Hv. reflexivity.
Qed.

Lemma compxyz_swo pts : strict_weak_order (compxyz pts).
Proof.
  split; unfold le_of, compxyz; intros a b.
  - destruct (Z.eqb_spec (key pts 0 a) (key pts 0 b)), (Z.eqb_spec (key pts 0 b) (key pts 0 a)),
      (Z.eqb_spec (key pts 1 a) (key pts 1 b)), (Z.eqb_spec (key pts 1 b) (key pts 1 a));
      rewrite ?Z.ltb_lt, ?Z.ltb_ge; lia.
  - intros c.
    destruct (Z.eqb_spec (key pts 0 b) (key pts 0 a)), (Z.eqb_spec (key pts 0 c) (key pts 0 b)), (Z.eqb_spec (key pts 0 c) (key pts 0 a)),
      (Z.eqb_spec (key pts 1 b) (key pts 1 a)), (Z.eqb_spec (key pts 1 c) (key pts 1 b)), (Z.eqb_spec (key pts 1 c) (key pts 1 a));
      rewrite ?Z.ltb_ge; lia.
Qed.

Lemma slice_same lo hi (l l' : list nat) : lo <= hi <= length l -> length l' = length l ->
  (forall p, lo <= p < hi -> nth p l' 0 = nth p l 0) -> slice lo hi l' = slice lo hi l.
Proof.
  intros H L E. apply (nth_ext _ _ 0 0).
  - rewrite !slice_length; lia.
  - intros p Hp. rewrite slice_length in Hp by lia. rewrite !nth_slice by lia. apply E. lia.
Qed.

Definition kd_left (pts : list point) (s : splitter) (x : nat) : Prop := (key pts (s_d s) x <= s_value s)%Z.
Definition kd_right (pts : list point) (s : splitter) (x : nat) : Prop := (key pts (s_d s) x > s_value s)%Z.

Section KD.
  Variable nthel : nat -> (nat -> Z) -> list nat -> nat -> list nat.
  Variable order : nat -> list nat.
  Variable dim : nat -> nat.
  Variable sort : nat -> bool -> (nat -> nat -> bool) -> list nat -> list nat.
  Variable pts : list point.
  Hypothesis HN : nth_element_contract nthel.
  Hypothesis HO : level_orders order.
  Hypothesis HS : sorts_contract sort.
  Let n := length pts.
  Let inv := level_inv n (kd_left pts) (kd_right pts) dim.

  Definition sorted_part (perm : list nat) (lo hi : nat) : Prop := sorted (compxyz pts) (slice lo hi perm).

  Definition last_inv (ll : nat) (done : list nat) (t : kdtree) : Prop :=
    length (kd_leaf_intervals t) = 2 ^ ll /\
    forall i, In i done ->
      nth i (kd_leaf_intervals t) (0, 0) = (pos n (kd_spl t) ll i, pos n (kd_spl t) ll (i + 1)) /\
      sorted_part (kd_perm t) (pos n (kd_spl t) ll i) (s_index (nth (2 ^ ll + i) (kd_spl t) splitter0)) /\
      sorted_part (kd_perm t) (s_index (nth (2 ^ ll + i) (kd_spl t) splitter0)) (pos n (kd_spl t) ll (i + 1)).

  Definition kd_inv (levels ll : nat) (done : list nat) (t : kdtree) : Prop :=
    inv levels ll done (kd_perm t) (kd_spl t) /\
    (ll + 1 = levels -> last_inv ll done t) /\
    (ll + 1 <> levels -> ll < levels -> kd_leaf_intervals t = []).

  Lemma kd_sorts node perm b x e : b <= x <= e -> e <= length perm ->
    let perm3 := put b x perm (sort node false (compxyz pts) (slice b x perm)) in
    let perm4 := put x e perm3 (sort node true (compxyz pts) (slice x e perm3)) in
    shuffle b x perm perm3 /\ shuffle x e perm3 perm4 /\ sorted_part perm4 b x /\ sorted_part perm4 x e.
  Proof.
    intros H L perm3 perm4.
    destruct (HS node false (compxyz pts) (compxyz_swo pts) (slice b x perm)) as [P1 S1].
    assert (Sh1 : shuffle b x perm perm3) by (apply shuffle_put; auto; lia).
    assert (L3 : length perm3 = length perm) by (apply (proj1 Sh1)).
    destruct (HS node true (compxyz pts) (compxyz_swo pts) (slice x e perm3)) as [P2 S2].
    assert (Sh2 : shuffle x e perm3 perm4) by (apply shuffle_put; auto; lia).
    split; auto. split; auto.
    assert (K1 := Permutation_length P1). rewrite slice_length in K1 by lia.
    assert (K2 := Permutation_length P2). rewrite slice_length in K2 by lia.
    split; unfold sorted_part.
    - rewrite (slice_same b x perm3 perm4); [|lia|apply (proj1 Sh2)|].
      + unfold perm3. rewrite slice_put_same by lia. exact S1.
      + intros p Hp. destruct Sh2 as (_ & _ & A & _). apply A. lia.
    - unfold perm4. rewrite slice_put_same by lia. exact S2.
  Qed.

  Lemma kd_node_ok levels ll done i t : ll < levels -> i < 2 ^ ll ->
    (forall j, In j done -> j < 2 ^ ll) -> ~ In i done -> kd_inv levels ll done t ->
    exists t', kd_node nthel dim sort pts levels ll t i = Ok t' /\ kd_inv levels ll (done ++ [i]) t'.
  Proof.
    intros Hl Hi Hd Nd (I & La & Lb). destruct t as [perm spl leaves]. cbn [kd_perm kd_spl kd_leaf_intervals] in *.
    pose proof I as (P & Ls & Lv & Dn).
    assert (Lpw : 2 ^ S ll <= length spl) by (rewrite Ls; apply Nat.pow_le_mono_r; lia). rewrite pow2_S in Lpw.
    assert (Mn := pos_mono1 _ _ _ _ _ _ _ Lv i Hi).
    assert (Le : pos n spl ll (i + 1) <= n) by (eapply pos_le; eauto; lia).
    unfold kd_node. cbn [kd_perm kd_spl kd_leaf_intervals].
    rewrite (begin_pos n) by lia. cbn [obind].
    rewrite (perm_len _ _ P). rewrite end_pos by lia. cbn [obind].
    set (b := pos n spl ll i) in *. set (e := pos n spl ll (i + 1)) in *.
    assert (Lf : exists leaves', (if ll + 1 =? levels then wr leaves i (b, e) else Ok leaves) = Ok leaves' /\
                   (ll + 1 = levels -> length leaves = 2 ^ ll /\ leaves' = upd leaves i (b, e)) /\ (ll + 1 <> levels -> leaves' = leaves)).
    { destruct (Nat.eqb_spec (ll + 1) levels) as [E|E].
      - destruct (La E) as [Q _]. cbn [kd_leaf_intervals] in Q. rewrite wr_ok by lia. eexists; split; [reflexivity|]. split; auto. lia.
      - eexists; split; [reflexivity|]. split; auto. lia. }
    destruct Lf as (leaves' & R0 & Lf1 & Lf2). rewrite R0. cbn [obind].
    rewrite (rd_ok spl _ splitter0) by lia. cbn [obind].
    destruct (split_ok nthel (fun _ => kd_same pts (dim ll)) pts (dim ll) (2 ^ ll + i) perm b e
                (s_value (nth (2 ^ ll + i) spl splitter0)) HN P ltac:(auto))
      as (perm1 & v & i1 & perm2 & i2 & R1 & R2 & R3 & R4 & Sh & B & Lp & Rp).
    { intros v l j c Pl Hj Hc Hv. apply (kd_same_ok pts (dim ll) b e); auto. }
    rewrite R1. cbn [obind]. rewrite R2. cbn [obind]. rewrite R3. cbn [obind]. rewrite R4. cbn [obind].
    assert (P2 : Permutation perm2 (seq 0 n)) by (destruct Sh as (_ & X & _); rewrite <- X; auto).
    set (x := Nat.min (i2 + 1) e) in *. clearbody x.
    rewrite wr_ok by lia. cbn [obind].
    eexists; split; [reflexivity|].
    set (s := {| s_d := dim ll; s_index := x; s_value := v; s_start := s_start (nth (2 ^ ll + i) spl splitter0) |}).
    set (perm' := if ll + 1 =? levels then _ else perm2).
    assert (K : shuffle b e perm perm' /\ (forall p, b <= p < x -> kd_left pts s (nth p perm' 0)) /\
                (forall p, x <= p < e -> kd_right pts s (nth p perm' 0)) /\
                (ll + 1 = levels -> sorted_part perm' b x /\ sorted_part perm' x e)).
    { subst perm'. destruct (Nat.eqb_spec (ll + 1) levels) as [E|E].
      - destruct (kd_sorts (2 ^ ll + i) perm2 b x e ltac:(lia) ltac:(rewrite (perm_len _ _ P2); unfold n in *; lia)) as (S1 & S2 & S3 & S4).
        match type of S1 with shuffle _ _ _ ?l => set (perm3 := l) in * end.
        match type of S2 with shuffle _ _ _ ?l => set (perm4 := l) in * end.
        split; [|split; [|split]]; auto.
        + eapply shuffle_trans; [exact Sh|]. eapply shuffle_trans; [eapply (shuffle_widen b x)|eapply (shuffle_widen x e)]; eauto; lia.
        + apply (shuffle_keeps (kd_left pts s) x e b x perm3); auto; try lia.
          apply (shuffle_keeps (kd_left pts s) b x b x perm2); auto; try lia.
        + apply (shuffle_keeps (kd_right pts s) x e x e perm3); auto; try lia.
          apply (shuffle_keeps (kd_right pts s) b x x e perm2); auto; try lia.
      - split; auto. split; auto. split; auto. lia. }
    clearbody perm'. destruct K as (Sh' & KL & KR & KS).
    assert (PE : forall m, m <= 2 ^ ll -> pos n (upd spl (2 ^ ll + i) s) ll m = pos n spl ll m).
    { intros m Hm. apply pos_ext; auto. intros k Hk. rewrite nth_upd_neq by lia. auto. }
    split; [|split]; cbn [kd_perm kd_spl kd_leaf_intervals].
    - eapply level_inv_step; eauto.
    - intros E. destruct (La E) as [Q1 Q2]. cbn [kd_perm kd_spl kd_leaf_intervals] in *.
      destruct (Lf1 E) as [_ ->]. destruct (KS E) as [KS1 KS2].
      unfold last_inv. cbn [kd_perm kd_spl kd_leaf_intervals]. split; [rewrite upd_length; auto|].
      intros j Hj. rewrite !PE by (apply in_app_iff in Hj; destruct Hj as [Hj|[<-|[]]]; [apply Hd in Hj|]; lia).
      apply in_app_iff in Hj. destruct Hj as [Hj|[<-|[]]].
      + assert (Hj' := Hd j Hj). assert (Nji : j <> i) by (intros ->; auto).
        destruct (Q2 j Hj) as (V1 & V2 & V3). destruct (Dn j Hj) as (_ & Bj & _).
        rewrite !nth_upd_neq by lia. split; auto.
        assert (X : pos n spl ll (j + 1) <= b \/ e <= pos n spl ll j).
        { destruct (le_lt_dec j i); [left|right]; eapply pos_mono; eauto; lia. }
        assert (Y : pos n spl ll (j + 1) <= n) by (eapply pos_le; eauto; lia).
        destruct Sh' as (Sl & _ & So & _).
        unfold sorted_part. rewrite !(slice_same _ _ perm perm'); auto; try (rewrite (perm_len _ _ P); lia).
        * intros p Hp. apply So. lia.
        * intros p Hp. apply So. lia.
      + rewrite !nth_upd_eq by lia. auto.
    - intros E1 E2. rewrite (Lf2 E1). auto.
  Qed.

  Lemma kd_level_ok levels ll t : ll < levels -> inv levels ll [] (kd_perm t) (kd_spl t) ->
    kd_leaf_intervals t = [] ->
    exists t', kd_level nthel order dim sort pts levels t ll = Ok t' /\ kd_inv levels ll (order ll) t'.
  Proof.
    intros Hl I Lf. unfold kd_level.
    destruct (foldM_inv (kd_node nthel dim sort pts levels ll) (kd_inv levels ll) (order ll)
       (if ll + 1 =? levels
             then {| kd_perm := kd_perm t; kd_spl := kd_spl t;
                     kd_leaf_intervals := resize (2 ^ ll) (kd_leaf_intervals t) (0, 0) |}
             else t)) as (t' & R & I').
    - destruct (Nat.eqb_spec (ll + 1) levels) as [E|E].
      + split; [|split]; cbn [kd_perm kd_spl kd_leaf_intervals]; auto; [|lia].
        intros _. split; [|intros j []]. cbn [kd_leaf_intervals]. rewrite Lf. unfold resize.
        rewrite firstn_nil. cbn [app length]. rewrite repeat_length. lia.
      + split; [|split]; auto. lia.
    - intros pre i post s E Is. destruct (in_order_lt order HO _ _ _ _ E) as (A & B & C). apply kd_node_ok; auto.
    - exists t'. split; auto.
  Qed.

  Lemma kd_build_ok bucket : 0 < bucket ->
    exists levels t, kd_build nthel order dim sort pts bucket = Ok (levels, t) /\
      inv levels levels [] (kd_perm t) (kd_spl t) /\
      (forall m, m < 2 ^ levels -> sorted_part (kd_perm t) (pos n (kd_spl t) levels m) (pos n (kd_spl t) levels (m + 1))) /\
      (forall ll, S ll = levels -> length (kd_leaf_intervals t) = 2 ^ ll /\ forall i, i < 2 ^ ll ->
          nth i (kd_leaf_intervals t) (0, 0) = (pos n (kd_spl t) ll i, pos n (kd_spl t) ll (i + 1))) /\
      (levels = 0 -> kd_leaf_intervals t = []).
  Proof.
    intros Hb. unfold kd_build, tree_levels.
    set (levels := if length pts <? bucket then 0 else Nat.log2 (length pts / bucket)).
    exists levels.
    replace (if length pts <? bucket then Ok 0 else if bucket =? 0 then UB else Ok (Nat.log2 (length pts / bucket))) with (Ok levels)
      by (unfold levels; destruct (length pts <? bucket); auto; destruct (Nat.eqb_spec bucket 0); auto; lia).
    cbn [obind]. clearbody levels.
    set (t0 := {| kd_perm := seq 0 (length pts); kd_spl := repeat splitter0 (2 ^ levels); kd_leaf_intervals := [] |}).
    assert (I0 : inv levels 0 [] (kd_perm t0) (kd_spl t0)).
    { cbn [kd_perm kd_spl t0]. split; auto. split; [apply repeat_length|]. split; [|intros i []]. intros l i Hl. lia. }
    destruct (foldM_seq_inv (kd_level nthel order dim sort pts levels)
                (fun ll t => inv levels ll [] (kd_perm t) (kd_spl t) /\
                   (ll < levels -> kd_leaf_intervals t = []) /\
                   (forall l, S l = levels -> ll = levels -> last_inv l (order l) t) /\ (levels = 0 -> t = t0)) 0 levels t0) as (t & R & I & I1 & I2 & I3).
    - split; auto. split; auto. split; auto. intros l E1 E2. lia.
    - intros ll t Hl (I & E & _). destruct (kd_level_ok levels ll t ltac:(lia) I ltac:(apply E; lia)) as (t' & R & (J1 & J2 & J3)).
      exists t'. split; auto. split; [exact (level_inv_next _ _ _ _ _ _ (order ll) _ _ (HO ll) J1)|]. split.
      + intros H. apply J3; lia.
      + split; [|lia]. intros l E1 E2. assert (l = ll) by lia. subst l. apply J2. lia.
    - rewrite R. cbn [obind]. eexists; split; [reflexivity|]. assert (T0 : kd_leaf_intervals t0 = []) by auto. clearbody t0.
      destruct (Nat.eqb_spec levels 0) as [E|E].
      + specialize (I3 E). subst t levels. cbn [kd_perm kd_spl kd_leaf_intervals].
        destruct I as (P & Ls & Lv & Dn).
        destruct (HS 0 false (compxyz pts) (compxyz_swo pts) (kd_perm t0)) as [P1 S1].
        split; [|split; [|split]].
        * split; [rewrite <- P1; auto|]. split; auto. split; [|intros i []]. intros l i Hl; lia.
        * intros m Hm. cbn in Hm. replace m with 0 by lia. cbn [pos Nat.eqb Nat.add]. unfold sorted_part.
          assert (Q := Permutation_length P1). rewrite (perm_len _ _ P) in Q. rewrite Q, slice_whole. exact S1.
        * intros ll Hll. lia.
        * auto.
      + destruct levels as [|ll]; [lia|]. destruct (I2 ll eq_refl eq_refl) as [Q1 Q2].
        assert (In_o : forall i, i < 2 ^ ll -> In i (order ll)).
        { intros i Hi. eapply Permutation_in; [symmetry; apply (HO ll)|]. apply in_seq. lia. }
        split; auto. split; [|split].
        * intros m Hm. rewrite pow2_S in Hm. destruct (even_or_odd m) as [(x & ->)|(x & ->)].
          -- rewrite pos_even, pos_odd. apply Q2. apply In_o. lia.
          -- replace (2 * x + 1 + 1) with (2 * (x + 1)) by lia. rewrite pos_even, pos_odd. apply Q2. apply In_o. lia.
        * intros l El. injection El as ->. split; auto. intros i Hi. apply Q2. auto.
        * lia.
  Qed.
End KD.

(** ** Consequences *)
Lemma pos_fn n LP RP dim perm spl levels : level_inv n LP RP dim levels levels [] perm spl ->
  leaves_partition n levels (tree_begin spl) (tree_end n spl).
Proof.
  intros (P & Ls & Lv & _). exists (pos n spl levels). split; [apply pos_0|]. split; [apply pos_last|].
  intros i Hi. rewrite (begin_pos n), end_pos by (try rewrite Ls; auto; lia). rewrite !Nat.add_1_r.
  split; auto. split; auto. rewrite <- Nat.add_1_r. eapply pos_mono1; eauto.
Qed.

(** paths of indices with the same key agree *)
Lemma path_unique (LP RP : splitter -> nat -> Prop) spl x y : (forall s, LP s x -> RP s y -> False) -> (forall s, RP s x -> LP s y -> False) ->
  forall ll m k, m < 2 ^ ll -> k < 2 ^ ll -> path_ok LP RP spl ll m x -> path_ok LP RP spl ll k y -> m = k.
Proof.
  intros N1 N2. induction ll as [|ll IH]; intros m k Hm Hk Px Py.
  - cbn in *; lia.
  - rewrite pow2_S in *. cbn [path_ok] in Px, Py. destruct Px as [Px Qx], Py as [Py Qy].
    assert (E : m / 2 = k / 2) by (apply IH; auto; apply Nat.div_lt_upper_bound; lia).
    rewrite E in Px. destruct (even_or_odd m) as [(a & ->)|(a & ->)], (even_or_odd k) as [(c & ->)|(c & ->)];
      rewrite ?half_even, ?half_odd, ?even_2x, ?even_2x1 in *; subst; auto; exfalso; eauto.
Qed.

Lemma find_index n perm j : Permutation perm (seq 0 n) -> j < n -> exists p, p < n /\ nth p perm 0 = j.
Proof.
  intros P H. assert (I : In j perm) by (eapply Permutation_in; [symmetry; exact P|]; apply in_seq; lia).
  apply (In_nth _ _ 0) in I. destruct I as (p & Hp & E). rewrite (perm_len _ _ P) in Hp. eauto.
Qed.

(** boxMin *)
Lemma coord_set p d d' v : d < 3 -> d' < 3 -> coord (set_coord p d v) d' = if d =? d' then v else coord p d'.
Proof.
  destruct p as [[x y] z]. intros H H'.
  destruct d as [|[|[|]]]; [| | |lia]; destruct d' as [|[|[|]]]; try lia; reflexivity.
Qed.

Lemma box_min_ok pts spl dim x : (forall ll, dim ll < 3) ->
  forall ll m fuel lo, m < 2 ^ ll -> ll <= fuel -> 2 ^ ll <= length spl ->
  (forall l i, l < ll -> i < 2 ^ l -> s_d (nth (2 ^ l + i) spl splitter0) = dim l) ->
  path_ok (kd_left pts) (kd_right pts) spl ll m x ->
  (forall d, d < 3 -> (coord lo d <= key pts d x)%Z) ->
  exists q, box_min_loop spl fuel (2 ^ ll + m) ((2 ^ ll + m) / 2) lo = Ok q /\
    forall d, d < 3 -> (coord lo d <= coord q d <= key pts d x)%Z.
Proof.
  intros Hdim. induction ll as [|ll IH]; intros m fuel lo Hm F L Hd Pth Hlo.
  - cbn in Hm. replace m with 0 by lia. change ((2 ^ 0 + 0) / 2) with 0.
    destruct fuel; cbn [box_min_loop Nat.eqb]; eexists; (split; [reflexivity|]); intros d Hd3; specialize (Hlo d Hd3); lia.
  - destruct fuel as [|f]; [lia|]. rewrite pow2_S in Hm, L.
    assert (L2 := pow2_pos ll). cbn [path_ok] in Pth. destruct Pth as [Pn Pth].
    assert (Hd' : forall l i, l < ll -> i < 2 ^ l -> s_d (nth (2 ^ l + i) spl splitter0) = dim l) by (intros; apply Hd; auto).
    destruct (even_or_odd m) as [(y & ->)|(y & ->)].
    + replace (2 ^ S ll + 2 * y) with (2 * (2 ^ ll + y)) by (rewrite pow2_S; lia).
      rewrite half_even in *. cbn [box_min_loop]. destruct (Nat.eqb_spec (2 ^ ll + y) 0); [lia|].
      rewrite odd_2x. cbn [obind]. apply IH; auto; lia.
    + replace (2 ^ S ll + (2 * y + 1)) with (2 * (2 ^ ll + y) + 1) by (rewrite pow2_S; lia).
      rewrite half_odd in *. rewrite even_2x1 in Pn. cbn [box_min_loop]. destruct (Nat.eqb_spec (2 ^ ll + y) 0); [lia|].
      rewrite odd_2x1. rewrite (rd_ok spl _ splitter0) by lia. cbn [obind].
      unfold kd_right in Pn. assert (Sd := Hd ll y ltac:(lia) ltac:(lia)).
      set (s := nth (2 ^ ll + y) spl splitter0) in *.
      assert (D3 : s_d s < 3) by (rewrite Sd; auto).
      destruct (Z.ltb_spec (coord lo (s_d s)) (s_value s)) as [C|C].
      * destruct (IH y f (set_coord lo (s_d s) (s_value s))) as (q & R & Q); auto; try lia.
        { intros d H3. rewrite coord_set by auto. destruct (Nat.eqb_spec (s_d s) d) as [<-|]; auto. lia. }
        exists q. split; auto. intros d H3. specialize (Q d H3). rewrite coord_set in Q by auto.
        destruct (Nat.eqb_spec (s_d s) d) as [E|]; [subst d|]; lia.
      * apply IH; auto; lia.
Qed.

Lemma kd_min_le pts x d : In x pts -> (coord (kd_min pts) d <= coord x d)%Z.
Proof.
  destruct pts as [|p t]; [intros []|]. cbn [kd_min In].
  assert (M : forall a b, (coord (min_point a b) d <= coord a d)%Z /\ (coord (min_point a b) d <= coord b d)%Z).
  { intros [[a1 a2] a3] [[b1 b2] b3]. cbn [min_point coord]. destruct d as [|[|d]]; lia. }
  assert (G : forall t p, (coord (fold_left min_point t p) d <= coord p d)%Z /\
                          forall x, In x t -> (coord (fold_left min_point t p) d <= coord x d)%Z).
  { clear. induction t as [|a t IH]; intros p; cbn [fold_left In]. { split; [lia|intros x []]. }
    assert (M : forall a b, (coord (min_point a b) d <= coord a d)%Z /\ (coord (min_point a b) d <= coord b d)%Z).
    { intros [[a1 a2] a3] [[b1 b2] b3]. cbn [min_point coord]. destruct d as [|[|d]]; lia. }
    destruct (IH (min_point p a)) as [I1 I2]. destruct (M p a) as [M1 M2]. split; [lia|].
    intros x [<-|H]; [lia|auto]. }
  destruct (G t p) as [G1 G2]. intros [<-|H]; auto.
Qed.

(** getMidPoint *)
Lemma mid_ok perm closer interval : forall cnt b, b + cnt <= length perm -> 0 < cnt ->
  exists p, b <= p < b + cnt /\ foldM (mid_step closer perm interval) (seq b cnt) None = Ok (Some (nth p perm 0)).
Proof.
  intros cnt b L C.
  destruct (foldM_seq_inv (mid_step closer perm interval)
     (fun c o => match o with None => c = b | Some j => exists p, b <= p < c /\ j = nth p perm 0 end) b cnt None) as (o & R & I); auto.
  - intros i o Hi I. unfold mid_step. rewrite (rd_ok perm i 0) by lia. cbn [obind]. destruct o as [o|].
    + destruct I as (p & Hp & ->). destruct (closer interval (nth i perm 0) (nth p perm 0)); eexists; (split; [reflexivity|]).
      * exists i. split; auto. lia.
      * exists p. split; auto. lia.
    + eexists; split; [reflexivity|]. exists i. split; auto. lia.
  - destruct o as [o|]; [|lia]. destruct I as (p & Hp & ->). eauto.
Qed.
