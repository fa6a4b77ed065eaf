(** * Lemmas about the preconditioners: the permuted matrix and its blocks *)
From Coq Require Import List Arith Bool Permutation Sorted Reals Lia Lra.
From Verif Require Import S_Dual S_Equality L_Equality6 S_Feti L_TotalFeti2.
From Verif Require Import Base S_Order M_Csx M_Dnx S_Csx S_Dnx M_Math S_Math L_Csx L_Csx2 L_Csx3 L_Dnx2 L_Math P_Math P_Math2 M_Precond S_Precond L_Precond L_Precond2.
Import ListNotations.
Local Open Scope out_scope.
Local Open Scope R_scope.

Section Entries.
  Context {T : Type}.
  Lemma values_lookup (m : csx T) i j : distinct m -> values_at m i j = match lookup m i j with Some v => [v] | None => [] end.
  Proof.
    unfold distinct, values_at, lookup. intros D. induction (entries m) as [|e l IH]; [reflexivity|]. cbn [map] in D. inversion D as [|? ? N D']; subst. cbn [filter find].
    destruct ((e_row e =? i)%nat && (e_col e =? j)%nat) eqn:E; [|now apply IH]. cbn [map option_map]. f_equal.
    enough (H : filter (fun e => (e_row e =? i)%nat && (e_col e =? j)%nat) l = []) by (now rewrite H). clear IH D D'. induction l as [|x l IH]; [reflexivity|]. cbn [filter].
    destruct ((e_row x =? i)%nat && (e_col x =? j)%nat) eqn:X.
    - exfalso. apply N. left. apply andb_true_iff in E, X. rewrite !Nat.eqb_eq in E, X. destruct e as [[? ?] ?], x as [[? ?] ?]. unfold e_row, e_col in *. cbn in *. destruct E, X. congruence.
    - apply IH. intros I. apply N. now right.
  Qed.
  Lemma at_most_one_distinct (m : csx T) : (forall i j, (length (values_at m i j) <= 1)%nat) -> distinct m.
  Proof.
    unfold distinct, values_at. intros H. induction (entries m) as [|e l IH]; [constructor|]. cbn [map]. constructor.
    - intros I. apply in_map_iff in I. destruct I as (x & E & Ix). specialize (H (e_row e) (e_col e)). rewrite map_length in H. cbn [filter] in H. rewrite !Nat.eqb_refl in H. cbn [andb length] in H.
      assert (X : In x (filter (fun e0 => (e_row e0 =? e_row e)%nat && (e_col e0 =? e_col e)%nat) l)).
      { apply filter_In. split; [easy|]. unfold e_row, e_col. rewrite E, !Nat.eqb_refl. reflexivity. }
      destruct (filter (fun e0 => (e_row e0 =? e_row e)%nat && (e_col e0 =? e_col e)%nat) l); [destruct X|cbn in H; lia].
    - apply IH. intros i j. specialize (H i j). cbn [filter] in H. destruct ((e_row e =? i)%nat && (e_col e =? j)%nat); cbn [map length] in H; lia.
  Qed.
  Lemma lookup_none (m : csx T) i j : lookup m i j = None -> forall v, ~ In (i, j, v) (entries m).
  Proof.
    unfold lookup. destruct (find _ _) eqn:E; [discriminate|]. intros _ v I. apply (find_none _ _ E) in I. unfold e_row, e_col in I. cbn in I. now rewrite !Nat.eqb_refl in I.
  Qed.
  Lemma lookup_ext (m m' : csx T) i j i' j' : distinct m -> distinct m' -> (forall v, In (i, j, v) (entries m) <-> In (i', j', v) (entries m')) -> lookup m i j = lookup m' i' j'.
  Proof.
    intros D D' H. destruct (lookup m i j) as [v|] eqn:E.
    - apply lookup_in in E. apply H in E. symmetry. now apply in_lookup.
    - destruct (lookup m' i' j') as [v|] eqn:E'; [|reflexivity]. apply lookup_in in E'. apply H in E'. apply (in_lookup _ _ _ _ D) in E'. congruence.
  Qed.
End Entries.

(** ** Sums over the stored entries *)
Lemma element0_sum (A : csx R) i j : distinct A -> Sum (entries A) (fun e => if (e_row e =? i)%nat && (e_col e =? j)%nat then e_val e else 0) = element0 A i j.
Proof.
  intros D. rewrite <- Sum_filter, <- (Sum_map e_val _ (fun v => v)). fold (values_at A i j). rewrite values_lookup by easy. unfold element0. destruct (lookup A i j); [rewrite Sum_cons, Sum_nil; lra|reflexivity].
Qed.
Lemma entries_sum (A : csx R) (f : nat -> nat -> R) : valid A -> distinct A ->
  Sum (entries A) (fun e => e_val e * f (e_row e) (e_col e)) = Sum (seq 0 (nrows A)) (fun i => Sum (seq 0 (ncols A)) (fun j => element0 A i j * f i j)).
Proof.
  intros V D. rewrite (Sum_ext (seq 0 (nrows A)) _ (fun i => Sum (seq 0 (ncols A)) (fun j => Sum (entries A) (fun e => (if (e_row e =? i)%nat && (e_col e =? j)%nat then e_val e else 0) * f i j)))).
  2: { intros i. apply Sum_ext. intros j. rewrite Sum_scal_r, element0_sum by easy. reflexivity. }
  rewrite (Sum_ext (seq 0 (nrows A)) _ (fun i => Sum (entries A) (fun e => Sum (seq 0 (ncols A)) (fun j => (if (e_row e =? i)%nat && (e_col e =? j)%nat then e_val e else 0) * f i j)))) by (intros; apply Sum_swap).
  rewrite Sum_swap. apply Sum_ext_in. intros e Ie. destruct (entry_range A e V Ie) as [H1 H2].
  rewrite (Sum_single _ (e_row e)); [|apply seq_NoDup|apply in_seq; lia|].
  - rewrite (Sum_single _ (e_col e)); [now rewrite !Nat.eqb_refl|apply seq_NoDup|apply in_seq; lia|]. intros j _ N. destruct (Nat.eqb_spec (e_col e) j); [congruence|]. rewrite andb_false_r. lra.
  - intros i _ N. apply Sum_zero. intros j _. destruct (Nat.eqb_spec (e_row e) i); [congruence|]. cbn [andb]. lra.
Qed.
(** the same for one column *)
Lemma entries_sum_col (A : csx R) c (f : nat -> R) : valid A -> distinct A -> (c < ncols A)%nat ->
  Sum (entries A) (fun e => if (e_col e =? c)%nat then e_val e * f (e_row e) else 0) = Sum (seq 0 (nrows A)) (fun i => element0 A i c * f i).
Proof.
  intros V D Hc. rewrite (Sum_ext _ _ (fun e => e_val e * (fun i j => if (j =? c)%nat then f i else 0) (e_row e) (e_col e))).
  - rewrite (entries_sum A (fun i j => if (j =? c)%nat then f i else 0) V D). apply Sum_ext. intros i. rewrite (Sum_single _ c); [now rewrite Nat.eqb_refl|apply seq_NoDup|apply in_seq; lia|].
    intros j _ N. destruct (Nat.eqb_spec j c); [easy|lra].
  - intros e. cbn beta. destruct (e_col e =? c)%nat; lra.
Qed.
Lemma entries_sum_row (A : csx R) r (f : nat -> R) : valid A -> distinct A -> (r < nrows A)%nat ->
  Sum (entries A) (fun e => if (e_row e =? r)%nat then e_val e * f (e_col e) else 0) = Sum (seq 0 (ncols A)) (fun j => element0 A r j * f j).
Proof.
  intros V D Hr. rewrite (Sum_ext _ _ (fun e => e_val e * (fun i j => if (i =? r)%nat then f j else 0) (e_row e) (e_col e))).
  - rewrite (entries_sum A (fun i j => if (i =? r)%nat then f j else 0) V D). rewrite (Sum_single _ r); [now rewrite Nat.eqb_refl|apply seq_NoDup|apply in_seq; lia|].
    intros i _ N. apply Sum_zero. intros j _. destruct (Nat.eqb_spec i r); [easy|lra].
  - intros e. cbn beta. destruct (e_row e =? r)%nat; lra.
Qed.

(** ** The permuted matrix *)
Section Permuted.
  Variables (n : nat) (s : nat -> bool) (a : nat -> nat -> R) (K : csx R).
  Hypothesis HK : stores n a K.
  Variable sort : list (nat * nat * R) -> list (nat * nat * R).
  Hypothesis Hsort : sort_contract ijv_ltb sort.
  Local Notation new := (new_order n s).
  Definition moved_a (p q : nat) : R := a (nth p new 0%nat) (nth q new 0%nat).

  Lemma new_lt p : (p < n)%nat -> (nth p new 0 < n)%nat.
  Proof. intros Hp. apply (perm_lt _ _ _ (new_order_perm n s) Hp). Qed.

  Lemma permuted : exists P, permute_csr sort K (map (position n s) (seq 0 n)) = Ok P /\ stores n moved_a P /\ ascending P.
  Proof.
    destruct HK as [V O R1 C1 U1 U D DD E SY].
    destruct (permute_csr_moves sort K (map (position n s) (seq 0 n)) V O ltac:(congruence) ltac:(rewrite R1; apply position_perm) Hsort U D) as (P & EP & VP & AP & UP & P1 & P2 & P3 & P4 & P5 & PV).
    assert (PV' : forall p q, (p < n)%nat -> (q < n)%nat -> Permutation (upper_values P p q) (upper_values K (nth p new 0%nat) (nth q new 0%nat))).
    { intros p q Hp Hq. pose proof (new_lt p Hp) as Lp. pose proof (new_lt q Hq) as Lq. specialize (PV (nth p new 0%nat) (nth q new 0%nat) ltac:(lia) ltac:(lia)).
      rewrite !L_Distributed.nth_map_seq, !position_nth in PV by easy. exact PV. }
    assert (DP : distinct P).
    { apply at_most_one_distinct. intros i j. destruct (values_at P i j) as [|v l] eqn:X; [cbn; lia|]. assert (I : In v (values_at P i j)) by (rewrite X; now left). unfold values_at in I. apply in_map_iff in I.
      destruct I as (e & <- & Ie). apply filter_In in Ie. destruct Ie as [Ie B]. apply andb_true_iff in B. rewrite !Nat.eqb_eq in B. destruct B as [<- <-].
      destruct (entry_range P e VP Ie) as [B1 B2]. pose proof (UP e Ie) as B3. rewrite <- X. rewrite P1, R1 in B1. rewrite P2, C1 in B2.
      specialize (PV' (e_row e) (e_col e) B1 B2). apply Permutation_length in PV'. unfold upper_values in PV'. rewrite Nat.min_l, Nat.max_r in PV' by easy. rewrite PV', values_lookup by easy.
      destruct (lookup K _ _); cbn; lia. }
    exists P. split; [exact EP|]. split; [|exact AP]. split; auto; try congruence.
    - intros i Hi. assert (Hn : (i < n)%nat) by lia. specialize (PV' i i Hn Hn). unfold upper_values in PV'. rewrite !Nat.min_id, !Nat.max_id in PV'.
      destruct (D (nth i new 0%nat) ltac:(rewrite R1; now apply new_lt)) as (e & Ie & Er & Ec).
      assert (X : In (e_val e) (values_at K (nth i new 0%nat) (nth i new 0%nat))) by (unfold values_at; apply in_map, filter_In; split; [easy|]; now rewrite Er, Ec, Nat.eqb_refl).
      apply (Permutation_in _ (Permutation_sym PV')) in X. unfold values_at in X. apply in_map_iff in X. destruct X as (x & _ & Ix). apply filter_In in Ix. destruct Ix as [Ix B]. apply andb_true_iff in B. rewrite !Nat.eqb_eq in B.
      exists x. tauto.
    - intros i j Hij Hj. specialize (PV' i j ltac:(lia) Hj). unfold upper_values in PV'. rewrite (Nat.min_l i j), (Nat.max_r i j) in PV' by easy. rewrite !values_lookup in PV' by easy.
      unfold moved_a. pose proof (new_lt i ltac:(lia)) as Li. pose proof (new_lt j Hj) as Lj. set (x := nth i new 0%nat) in *. set (y := nth j new 0%nat) in *.
      transitivity (element0 K (Nat.min x y) (Nat.max x y)).
      + unfold element0. destruct (lookup P i j), (lookup K (Nat.min x y) (Nat.max x y)); try (apply Permutation_length in PV'; discriminate PV'); [apply Permutation_length_1 in PV'; easy|reflexivity].
      + rewrite E by lia. destruct (Nat.le_ge_cases x y); [rewrite Nat.min_l, Nat.max_r by easy; reflexivity|rewrite Nat.min_r, Nat.max_l by easy; apply SY; lia].
    - intros i j Hi Hj. unfold moved_a. apply SY; now apply new_lt.
  Qed.
End Permuted.

(** ** Windows *)
Section Windows.
  Variables (n : nat) (a : nat -> nat -> R) (P : csx R).
  Hypothesis HP : stores n a P.
  Hypothesis HA : ascending P.
  Variable alloc : nat -> nat -> nat -> list nat * list nat * list R.
  Hypothesis Halloc : forall r c n, length (fst (fst (alloc r c n))) = (r + 1)%nat /\ length (snd (fst (alloc r c n))) = n /\ length (snd (alloc r c n)) = n.
  Variable sym : symmetry.
  Local Notation sub w cj := (sub_csr false (fun x : R => x) alloc P sym w false cj false).

  Lemma stored_distinct (A : csx R) (w : window) cj : entries A = map (fun e => (e_row e - row_start w, e_col e - col_start w, cnj false (fun x : R => x) cj (e_val e)))%nat (filter (in_window w) (entries P)) ->
    distinct A /\ (forall i j v, (row_start w + i < row_end w)%nat -> (col_start w + j < col_end w)%nat -> In (i, j, v) (entries A) <-> In (row_start w + i, col_start w + j, v)%nat (entries P)) /\
    forall e, In e (entries A) -> In (row_start w + e_row e, col_start w + e_col e, e_val e)%nat (entries P).
  Proof.
    intros E. assert (W : forall e : entry R, in_window w e = true -> (row_start w <= e_row e < row_end w)%nat /\ (col_start w <= e_col e < col_end w)%nat).
    { intros e. unfold in_window. rewrite !andb_true_iff, !Nat.leb_le, !Nat.ltb_lt. lia. }
    split; [|split].
    - unfold distinct. rewrite E, map_map. cbn [fst]. pose proof (s_distinct _ _ _ HP) as D. unfold distinct in D.
      replace (map (fun e : entry R => (e_row e - row_start w, e_col e - col_start w)%nat) (filter (in_window w) (entries P))) with (map (fun x : nat * nat => (fst x - row_start w, snd x - col_start w)%nat) (map fst (filter (in_window w) (entries P)))) by (rewrite map_map; reflexivity).
      assert (D' : NoDup (map fst (filter (in_window w) (entries P)))).
      { clear -D. induction (entries P) as [|e l IH]; [constructor|]. cbn [map] in D. inversion D as [|? ? N D']; subst. cbn [filter]. destruct (in_window w e); [|now apply IH]. cbn [map]. constructor; [|now apply IH].
        intros I. apply N. apply in_map_iff in I. destruct I as (x & Ex & Ix). apply filter_In in Ix. rewrite <- Ex. apply in_map. easy. }
      assert (I : forall x, In x (map fst (filter (in_window w) (entries P))) -> (row_start w <= fst x)%nat /\ (col_start w <= snd x)%nat).
      { intros x Ix. apply in_map_iff in Ix. destruct Ix as (e & <- & Ie). apply filter_In in Ie. destruct Ie as [_ Ie]. apply W in Ie. unfold e_row, e_col in Ie. lia. }
      revert D' I. generalize (map fst (filter (in_window w) (entries P))) as l. clear. induction l as [|x l IH]; intros D I; cbn [map]; [constructor|]. inversion D as [|? ? N D']; subst. constructor.
      + intros X. apply in_map_iff in X. destruct X as (y & Ey & Iy). apply N. destruct (I x (or_introl eq_refl)), (I y (or_intror Iy)). injection Ey as E1 E2. destruct x, y; cbn [fst snd] in *.
        replace n with n1 by lia. replace n0 with n2 by lia. exact Iy.
      + apply IH; [easy|]. intros y Iy. apply I. now right.
    - intros i j v Hi Hj. rewrite E, in_map_iff. split.
      + intros (e & X & Ie). apply filter_In in Ie. destruct Ie as [Ie We]. apply W in We. unfold cnj in X. cbn [andb] in X. injection X as X1 X2 X3. subst v.
        replace (row_start w + i)%nat with (e_row e) by lia. replace (col_start w + j)%nat with (e_col e) by lia. destruct e as [[? ?] ?]. exact Ie.
      + intros I. exists (row_start w + i, col_start w + j, v)%nat. unfold e_row, e_col, e_val, cnj. cbn [fst snd andb]. split; [repeat f_equal; lia|]. apply filter_In. split; [exact I|].
        unfold in_window, e_row, e_col. cbn [fst snd]. rewrite !andb_true_iff, !Nat.leb_le, !Nat.ltb_lt. lia.
    - intros e Ie. rewrite E in Ie. apply in_map_iff in Ie. destruct Ie as (x & <- & Ix). apply filter_In in Ix. destruct Ix as [Ix Wx]. apply W in Wx. destruct x as [[r c] v]. unfold e_row, e_col, e_val, cnj in *. cbn [fst snd andb] in *.
      replace (row_start w + (r - row_start w))%nat with r by lia. replace (col_start w + (c - col_start w))%nat with c by lia. exact Ix.
  Qed.

  (** a diagonal block *)
  Lemma diagonal_window b e : (b <= e)%nat -> (e <= n)%nat ->
    exists A sy, sub (Window b e b e) false = Ok (A, sy) /\ stores (e - b) (fun i j => a (b + i)%nat (b + j)%nat) A.
  Proof.
    intros Hb He. destruct HP as [V O R1 C1 U1 U D DD E SY].
    destruct (submatrix_sparse_is_window false (fun x : R => x) alloc P sym (Window b e b e) false V O HA) as (A & sy & EA & VA & OA & RA & CA & NA & SA & _); cbn [row_start row_end col_start col_end] in *; try lia; [exact Halloc|].
    exists A, sy. split; [exact EA|]. destruct (stored_distinct A (Window b e b e) false NA) as (D1 & D2 & D3). cbn [row_start row_end col_start col_end] in *.
    assert (SB : symmetric_block (Window b e b e) = true) by (unfold symmetric_block; cbn; now rewrite !Nat.eqb_refl). destruct (SA SB) as [UA _].
    split; auto; try congruence; try lia.
    - intros x Ix. specialize (U _ (D3 x Ix)). unfold e_row, e_col in *. cbn [fst snd] in U. lia.
    - intros i Hi. destruct (D (b + i)%nat ltac:(lia)) as (x & Ix & X1 & X2). exists (i, i, e_val x). split; [|split; reflexivity]. apply D2; [lia|lia|]. destruct x as [[? ?] ?]. unfold e_row, e_col, e_val in *. cbn [fst snd] in *. subst. exact Ix.
    - intros i j Hij Hj. rewrite <- (E (b + i)%nat (b + j)%nat) by lia. unfold element0. rewrite (lookup_ext A P i j (b + i) (b + j)); auto. intros v. apply D2; lia.
    - intros i j Hi Hj. apply SY; lia.
  Qed.

  (** a block above the diagonal *)
  Lemma upper_window k cj : (k <= n)%nat ->
    exists A sy, sub (Window 0 k k n) cj = Ok (A, sy) /\ valid A /\ ord A = OrdR /\ nrows A = k /\ ncols A = (n - k)%nat /\ distinct A /\
      forall i j, (i < k)%nat -> (j < n - k)%nat -> element0 A i j = a i (k + j)%nat.
  Proof.
    intros Hk. destruct HP as [V O R1 C1 U1 U D DD E SY].
    destruct (submatrix_sparse_is_window false (fun x : R => x) alloc P sym (Window 0 k k n) cj V O HA) as (A & sy & EA & VA & OA & RA & CA & NA & SA & _); cbn [row_start row_end col_start col_end] in *; try lia; [exact Halloc|].
    exists A, sy. split; [exact EA|]. destruct (stored_distinct A (Window 0 k k n) cj NA) as (D1 & D2 & D3). cbn [row_start row_end col_start col_end] in *.
    repeat (split; [first [assumption|lia]|]). intros i j Hi Hj. rewrite <- (E i (k + j)%nat) by lia. unfold element0. rewrite (lookup_ext A P i j i (k + j)); auto. intros v. apply (D2 i j v); lia.
  Qed.

  (** dense windows *)
  Hypothesis Hsym : unsymmetric sym = false.
  Lemma P_element i j : (i < n)%nat -> (j < n)%nat -> match element false (fun x : R => x) sym P i j with Some v => v | None => 0 end = a i j.
  Proof.
    intros Hi Hj. destruct HP as [V O R1 C1 U1 U D DD E SY]. unfold element. rewrite U1, Hsym. cbn [uplo_eqb orb].
    assert (X : forall v, mirror false (fun x : R => x) sym v = v) by (intros v; unfold mirror, cnj; destruct (is_herm sym); reflexivity).
    assert (Lw : forall i j, (j < i)%nat -> lookup P i j = None).
    { intros r c Hrc. destruct (lookup P r c) as [v|] eqn:Y; [|reflexivity]. apply lookup_in in Y. apply U in Y. unfold e_row, e_col in Y. cbn [fst snd] in Y. lia. }
    destruct (Nat.le_gt_cases i j) as [Hij|Hij].
    - destruct (Nat.eq_dec i j) as [->|N].
      + rewrite <- (E j j) by lia. unfold element0. destruct (lookup P j j); reflexivity.
      + rewrite (Lw j i) by lia. rewrite <- (E i j) by lia. unfold element0. destruct (lookup P i j); reflexivity.
    - rewrite (Lw i j) by lia. rewrite SY by lia. rewrite <- (E j i) by lia. unfold element0. destruct (lookup P j i); cbn [option_map]; [apply X|reflexivity].
  Qed.
  Lemma P_consistent : consistent false (fun x : R => x) sym P.
  Proof.
    destruct HP as [V O R1 C1 U1 U D DD E SY]. split.
    - intros e Ie. rewrite U1. cbn [in_part]. apply Nat.leb_le. now apply U.
    - intros _ i j [X| ->]; [congruence|]. destruct (lookup P j j); [|reflexivity]. cbn [option_map]. unfold mirror, cnj. destruct (is_herm sym); reflexivity.
  Qed.
  (** rows of the transposed window are its columns *)
  Lemma dense_window r0 r1 k : (r0 <= r1)%nat -> (r1 <= n)%nat -> (r0 = k /\ r1 = n) \/ (r1 <= k)%nat -> (k <= n)%nat ->
    exists A, sub_dense false (fun x : R => x) 0 P sym (Window r0 r1 k n) true false true = Ok A /\ dn_rows A = (n - k)%nat /\ dn_cols A = (r1 - r0)%nat /\
      dn_vals A = flat_map (fun b => map (fun p => a (r0 + p)%nat (k + b)%nat) (seq 0 (r1 - r0))) (seq 0 (n - k)).
  Proof.
    intros H1 H2 H3 H4. destruct HP as [V O R1 C1 U1 U D DD E SY].
    destruct (submatrix_dense_is_window false (fun x : R => x) 0 ltac:(reflexivity) P sym (Window r0 r1 k n) true false true V O HA DD) as (A & EA & A1 & A2 & A3 & A4); cbn [row_start row_end col_start col_end] in *; try lia.
    - apply P_consistent.
    - unfold present. cbn [row_start row_end col_start col_end]. right. right. destruct H3 as [[-> ->]|H3].
      + left. unfold symmetric_block. cbn. now rewrite !Nat.eqb_refl.
      + right. intros i j Hi Hj. rewrite U1. cbn [in_part]. apply Nat.leb_le. lia.
    - exists A. split; [exact EA|]. split; [exact A1|]. split; [exact A2|]. rewrite A4, A3, A1, A2. cbn [orb]. unfold row_major.
      rewrite flat_map_concat_map, concat_map, map_map, flat_map_concat_map. f_equal. apply map_ext_in. intros b Ib. apply in_seq in Ib. rewrite L_Math2.filter_full, map_map. apply map_ext_in. intros p Ip. apply in_seq in Ip.
      cbn [fst snd]. unfold window_at. cbn [row_start col_start]. rewrite <- (P_element (r0 + p) (k + b)) by lia. destruct (element _ _ _ _ _ _); reflexivity.
  Qed.
End Windows.
