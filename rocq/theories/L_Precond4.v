(** * Lemmas about the preconditioners: the loops over matrices and the domain *)
From Coq Require Import List Arith Bool ZArith Permutation Sorted Reals Lia Lra.
From Verif Require Import L_Dual3 L_Distributed S_Dual S_Equality L_Equality6 S_Feti L_TotalFeti2.
From Verif Require Import Base S_Order M_Csx M_Dnx S_Csx S_Dnx M_Math S_Math L_Csx L_Csx2 L_Csx3 L_Dnx2 L_Math L_Math2 P_Math P_Math2 M_Precond S_Precond L_Precond L_Precond2 L_Precond3.
Import ListNotations.
Local Open Scope out_scope.
Local Open Scope R_scope.

(** ** Rows of equal length *)
Section Rows.
  Context {A : Type}.
  Lemma rows_length (f : nat -> list A) m k : (forall b, (b < k)%nat -> length (f b) = m) -> length (flat_map f (seq 0 k)) = (k * m)%nat.
  Proof.
    induction k as [|k IH]; intros H; [reflexivity|]. rewrite seq_S, flat_map_app, app_length, IH by (intros; apply H; lia). cbn [flat_map Nat.add]. rewrite app_nil_r, H by lia. lia.
  Qed.
  Lemma rows_slice (f : nat -> list A) m k b : (forall b, (b < k)%nat -> length (f b) = m) -> (b < k)%nat -> slice (b * m) (b * m + m) (flat_map f (seq 0 k)) = f b.
  Proof.
    intros H Hb. replace k with (b + S (k - b - 1))%nat by lia. rewrite seq_app, flat_map_app. cbn [seq flat_map Nat.add]. apply L_Dual3.slice_mid; rewrite (rows_length f m b) by (intros; apply H; lia); [reflexivity|]. now rewrite H.
  Qed.
  Lemma rows_nth (f : nat -> list A) m k b c d : (forall b, (b < k)%nat -> length (f b) = m) -> (b < k)%nat -> (c < m)%nat -> nth (b * m + c) (flat_map f (seq 0 k)) d = nth c (f b) d.
  Proof.
    intros H Hb Hc. replace k with (b + S (k - b - 1))%nat by lia. rewrite seq_app, flat_map_app. cbn [seq flat_map Nat.add].
    pose proof (rows_length f m b ltac:(intros; apply H; lia)) as Lr. rewrite app_nth2 by lia. rewrite Lr. rewrite app_nth1 by (rewrite H by easy; lia). f_equal. lia.
  Qed.
End Rows.

(** ** Packed storage *)
Lemma packed_upper_row_major m (S : nat -> nat -> R) : packed_upper m S = map (fun ij => S (fst ij) (snd ij)) (row_major UploU m m).
Proof.
  unfold packed_upper, row_major. rewrite !flat_map_concat_map, concat_map, map_map. f_equal. apply map_ext_in. intros i I. apply in_seq in I. rewrite filter_upper, map_map by lia. reflexivity.
Qed.
Lemma packed_upper_ext m (S S' : nat -> nat -> R) : (forall i j, (i <= j)%nat -> (j < m)%nat -> S i j = S' i j) -> packed_upper m S = packed_upper m S'.
Proof.
  intros H. unfold packed_upper. rewrite !flat_map_concat_map. f_equal. apply map_ext_in. intros i I. apply in_seq in I. apply map_ext_in. intros j J. apply in_seq in J. apply H; lia.
Qed.
Lemma blas_at_packed m (S : nat -> nat -> R) i j : (i < m)%nat -> (j < m)%nat -> blas_at 0 UploU m (packed_upper m S) i j = S (Nat.min i j) (Nat.max i j).
Proof.
  intros Hi Hj. unfold blas_at. rewrite (packed_index UploU m m) by (first [right; split; reflexivity | lia | cbn [in_part]; apply Nat.leb_le; lia]). rewrite Nat2Z.id, packed_upper_row_major.
  erewrite nth_error_nth; [reflexivity|]. rewrite nth_error_map, packed_nth by (first [right; split; reflexivity | lia | cbn [in_part]; apply Nat.leb_le; lia]). reflexivity.
Qed.

Lemma pack_step (g : nat -> R) (A : list R) h l : (forall c, In c l -> (h c < length A)%nat /\ nth (h c) A 0 = g c) -> forall pre rest, (length l <= length rest)%nat ->
  foldM (fun '(vals, i) c => x <- rd A (h c) ;; vals <- wr vals i x ;; Ok (vals, (i + 1)%nat)) l (pre ++ rest, length pre) = Ok (pre ++ map g l ++ skipn (length l) rest, (length pre + length l)%nat).
Proof.
  induction l as [|c l IH]; intros H pre rest Hl; cbn [foldM map length app skipn]; [now rewrite Nat.add_0_r|]. destruct (H c (or_introl eq_refl)) as [H1 H2]. destruct rest as [|o rest]; [cbn in Hl; lia|].
  rewrite (rd_ok A _ 0) by easy. cbn [obind]. rewrite wr_ok by (rewrite app_length; cbn; lia). cbn [obind].
  assert (U : upd (pre ++ o :: rest) (length pre) (nth (h c) A 0) = (pre ++ [g c]) ++ rest) by (rewrite H2, <- app_assoc; cbn [app]; clear; induction pre as [|x pre IH]; [reflexivity|]; cbn [length app upd]; now rewrite IH).
  rewrite U. replace (length pre + 1)%nat with (length (pre ++ [g c])) by (rewrite app_length; reflexivity).
  rewrite IH; [|intros c' I; apply H; now right|cbn in Hl; lia]. rewrite !app_length, <- !app_assoc. cbn [length app]. f_equal. f_equal. lia.
Qed.
Lemma pack_ok m (A : list R) sc : length A = (m * m)%nat -> length sc = dense_nnz UploU m m ->
  exists i, foldM (pack_row false m A) (seq 0 m) (sc, 0%nat) = Ok (packed_upper m (fun r c => nth (r * m + c) A 0), i).
Proof.
  intros HA Hsc. set (S := fun r c => nth (r * m + c) A 0).
  assert (LU : forall k, (k <= m)%nat -> (length (flat_map (fun i => map (S i) (seq i (m - i))) (seq 0 k)) <= length sc)%nat).
  { intros k Hk. rewrite Hsc, <- (row_major_length UploU m m) by (right; easy). rewrite <- (map_length (fun ij => S (fst ij) (snd ij))), <- packed_upper_row_major. unfold packed_upper.
    replace (seq 0 m) with (seq 0 k ++ seq k (m - k)) by (rewrite <- (seq_app k (m - k) 0 : _ = seq 0 k ++ seq k (m - k)); f_equal; lia). rewrite flat_map_app, app_length. lia. }
  assert (G : forall k, (k <= m)%nat -> foldM (pack_row false m A) (seq 0 k) (sc, 0%nat) =
    Ok (flat_map (fun i => map (S i) (seq i (m - i))) (seq 0 k) ++ skipn (length (flat_map (fun i => map (S i) (seq i (m - i))) (seq 0 k))) sc, length (flat_map (fun i => map (S i) (seq i (m - i))) (seq 0 k)))).
  { induction k as [|k IH]; intros Hk; [reflexivity|]. rewrite seq_S, foldM_app, IH by lia. cbn [obind Nat.add foldM]. set (pre := flat_map _ (seq 0 k)) in *. unfold pack_row at 1. cbn [fst snd].
    pose proof (LU (1 + k)%nat Hk) as B. rewrite Nat.add_1_l, seq_S, flat_map_app in B. cbn [flat_map Nat.add] in B. rewrite app_nil_r, app_length, map_length, seq_length in B. fold pre in B.
    rewrite (pack_step (S k) A (fun c => (k * m + c)%nat)); [|intros c Ic; apply in_seq in Ic; split; [nia|reflexivity]|rewrite seq_length, skipn_length; lia].
    cbn [obind]. rewrite flat_map_app. cbn [flat_map]. fold pre. rewrite app_nil_r, <- app_assoc, app_length, map_length, seq_length. f_equal. f_equal. do 2 f_equal. rewrite skipn_skipn. f_equal. lia. }
  exists (length (flat_map (fun i => map (S i) (seq i (m - i))) (seq 0 m))). rewrite G by lia. f_equal. f_equal. unfold packed_upper. rewrite <- (app_nil_r (flat_map _ _)) at 3. f_equal.
  apply skipn_all2. rewrite Hsc, <- (row_major_length UploU m m) by (right; easy). rewrite <- (map_length (fun ij => S (fst ij) (snd ij))), <- packed_upper_row_major. unfold packed_upper. lia.
Qed.

(** ** Accumulation *)
Lemma fold_left_if {A} (p : A -> bool) (f : A -> R) l : forall s, fold_left (fun s e => if p e then s + f e else s) l s = s + Sum l (fun e => if p e then f e else 0).
Proof. induction l as [|x l IH]; intros s; cbn [fold_left]; [rewrite Sum_nil; lra|]. rewrite IH, Sum_cons. destruct (p x); lra. Qed.
Lemma accumulate {A} (pos : A -> nat) (f : A -> R) l : forall y, (forall e, In e l -> (pos e < length y)%nat) ->
  foldM (fun y e => o <- rd y (pos e) ;; wr y (pos e) (o + f e)) l y = Ok (map (fun i => nth i y 0 + Sum l (fun e => if (pos e =? i)%nat then f e else 0)) (seq 0 (length y))).
Proof.
  induction l as [|e l IH]; intros y H; cbn [foldM].
  - f_equal. rewrite (L_Utils.list_as_map y 0) at 1. apply map_ext. intros i. rewrite Sum_nil. lra.
  - pose proof (H e (or_introl eq_refl)) as He. rewrite (rd_ok y _ 0) by easy. cbn [obind]. rewrite wr_ok by easy. cbn [obind]. rewrite IH by (intros x Ix; rewrite upd_length; apply H; now right). rewrite upd_length. f_equal. apply map_ext_in.
    intros i Ii. apply in_seq in Ii. rewrite Sum_cons. destruct (Nat.eqb_spec (pos e) i) as [<-|N]; [rewrite nth_upd_eq by easy; lra|rewrite nth_upd_neq by easy; lra].
Qed.

(** ** Products with sparse matrices *)
Lemma first_zero (A : csx R) : valid A -> rd (ptrs A) 0 = Ok 0%nat.
Proof. intros V. pose proof (v_first A V) as E. destruct (v_alloc A V) as [L _]. rewrite (rd_ok _ 0 0%nat) by lia. now rewrite E. Qed.
Lemma csr_apply_ok (y : list R) alpha (A : csx R) x : valid A -> ord A = OrdR -> distinct A -> (nrows A <= length y)%nat -> (ncols A <= length x)%nat ->
  csr_apply Rplus Rmult y alpha A x = Ok (map (fun i => if (i <? nrows A)%nat then nth i y 0 + Sum (seq 0 (ncols A)) (fun j => element0 A i j * (alpha * nth j x 0)) else nth i y 0) (seq 0 (length y))).
Proof.
  intros V O D Hy Hx. unfold csr_apply. rewrite first_zero by easy. cbn [obind Nat.eqb negb]. replace (nrows A) with (size_primary A) at 1 by (unfold size_primary; now rewrite O).
  rewrite (entries_loop A _ (fun y e => o <- rd y (e_row e) ;; wr y (e_row e) (o + (e_val e * (alpha * nth (e_col e) x 0)))) y V).
  - rewrite accumulate by (intros e I; destruct (entry_range A e V I); lia). f_equal. apply map_ext_in. intros i Ii. apply in_seq in Ii. destruct (Nat.ltb_spec i (nrows A)) as [Hi|Hi].
    + f_equal. apply (entries_sum_row A i (fun j => alpha * nth j x 0)); auto.
    + rewrite Sum_zero; [lra|]. intros e Ie. destruct (entry_range A e V Ie). destruct (Nat.eqb_spec (e_row e) i); [lia|easy].
  - intros p s0 i e Hp E1 E2. destruct e as [j v]. cbn [fst snd] in *. rewrite O. unfold coords, e_row, e_col, e_val. cbn [fst snd].
    assert (Hj : (j < length x)%nat) by (apply nth_error_In in E1; apply (v_range A V) in E1; unfold size_secdary in E1; rewrite O in E1; lia).
    unfold rd at 2 3. rewrite E1, E2. cbn [obind]. rewrite (rd_ok x j 0) by easy. destruct (rd s0 p); cbn [obind]; auto. f_equal. lra.
Qed.
Lemma csr_applyT_ok (y : list R) alpha (A : csx R) x : valid A -> ord A = OrdR -> distinct A -> (ncols A <= length y)%nat -> (nrows A <= length x)%nat ->
  csr_applyT Rplus Rmult y alpha A x = Ok (map (fun j => if (j <? ncols A)%nat then nth j y 0 + Sum (seq 0 (nrows A)) (fun i => element0 A i j * (alpha * nth i x 0)) else nth j y 0) (seq 0 (length y))).
Proof.
  intros V O D Hy Hx. unfold csr_applyT. rewrite first_zero by easy. cbn [obind Nat.eqb negb]. replace (nrows A) with (size_primary A) at 1 by (unfold size_primary; now rewrite O).
  rewrite (entries_loop A _ (fun y e => o <- rd y (e_col e) ;; wr y (e_col e) (o + (e_val e * (alpha * nth (e_row e) x 0)))) y V).
  - rewrite accumulate by (intros e I; destruct (entry_range A e V I); lia). f_equal. apply map_ext_in. intros i Ii. apply in_seq in Ii. destruct (Nat.ltb_spec i (ncols A)) as [Hi|Hi].
    + f_equal. apply (entries_sum_col A i (fun j => alpha * nth j x 0)); auto.
    + rewrite Sum_zero; [lra|]. intros e Ie. destruct (entry_range A e V Ie). destruct (Nat.eqb_spec (e_col e) i); [lia|easy].
  - intros p s0 i e Hp E1 E2. destruct e as [j v]. cbn [fst snd] in *. rewrite O. unfold coords, e_row, e_col, e_val. cbn [fst snd].
    unfold size_primary in Hp. rewrite O in Hp.
    unfold rd at 1 3. rewrite E1, E2. cbn [obind]. rewrite (rd_ok x p 0) by lia. destruct (rd s0 j); cbn [obind]; auto. f_equal. lra.
Qed.
(** the upper triangle of a symmetric matrix *)
Lemma upper_apply_ok n a (A : csx R) x y : stores n a A -> (n <= length y)%nat -> (n <= length x)%nat ->
  upper_apply Rplus Rmult A x y = Ok (map (fun i => if (i <? n)%nat then nth i y 0 + Sum (seq 0 n) (fun j => a i j * nth j x 0) else nth i y 0) (seq 0 (length y))).
Proof.
  intros [V O R1 C1 U1 U D DD E SY] Hy Hx. unfold upper_apply. replace (nrows A) with (size_primary A) by (unfold size_primary; now rewrite O).
  rewrite (entries_loop A _ (fun y e => foldM (fun y p => o <- rd y (fst p) ;; wr y (fst p) (o + snd p))
    ((e_row e, e_val e * nth (e_col e) x 0) :: if (e_row e =? e_col e)%nat then [] else [(e_col e, e_val e * nth (e_row e) x 0)]) y) y V).
  - rewrite <- L_TotalFeti.foldM_flat. rewrite (accumulate fst snd).
    + f_equal. apply map_ext_in. intros i Ii. apply in_seq in Ii. rewrite Sum_flat_map.
      rewrite (Sum_ext _ _ (fun e => (if (e_row e =? i)%nat then e_val e * nth (e_col e) x 0 else 0) + (if (e_col e =? i)%nat then e_val e * (fun r => if (r =? i)%nat then 0 else nth r x 0) (e_row e) else 0))).
      2: { intros e. rewrite Sum_cons. cbn [fst snd]. destruct (Nat.eqb_spec (e_row e) (e_col e)) as [X|X].
           - rewrite Sum_nil, X. destruct (e_col e =? i)%nat; lra.
           - rewrite Sum_cons, Sum_nil. cbn [fst snd]. destruct (Nat.eqb_spec (e_row e) i), (Nat.eqb_spec (e_col e) i); try lra; congruence. }
      rewrite Sum_plus. destruct (Nat.ltb_spec i n) as [Hi|Hi].
      * rewrite (entries_sum_row A i (fun j => nth j x 0)) by (auto; lia). rewrite (entries_sum_col A i (fun r => if (r =? i)%nat then 0 else nth r x 0)) by (auto; lia). rewrite R1, C1, <- Sum_plus. f_equal. apply Sum_ext_in.
        assert (Lw : forall i j, (j < i)%nat -> element0 A i j = 0).
        { intros r c Hrc. unfold element0. destruct (lookup A r c) as [v|] eqn:Y; [|reflexivity]. apply lookup_in in Y. apply U in Y. unfold e_row, e_col in Y. cbn [fst snd] in Y. lia. }
        intros j Ij. apply in_seq in Ij. destruct (lt_eq_lt_dec i j) as [[H|H]|H].
        -- rewrite (E i j) by lia. rewrite (Lw j i) by easy. lra.
        -- subst j. rewrite Nat.eqb_refl, (E i i) by lia. lra.
        -- rewrite (Lw i j) by easy. rewrite (E j i) by lia. rewrite (SY i j) by lia. destruct (Nat.eqb_spec j i); [lia|lra].
      * rewrite !Sum_zero; [lra| |]; intros e Ie; destruct (entry_range A e V Ie).
        -- destruct (Nat.eqb_spec (e_col e) i); [lia|easy].
        -- destruct (Nat.eqb_spec (e_row e) i); [lia|easy].
    + intros p Ip. apply in_flat_map in Ip. destruct Ip as (e & Ie & Ip). destruct (entry_range A e V Ie). destruct Ip as [<-|Ip]; [cbn [fst]; lia|]. destruct (e_row e =? e_col e)%nat; [destruct Ip|]. destruct Ip as [<-|[]]. cbn [fst]. lia.
  - intros p s0 i e Hp E1 E2. destruct e as [j v]. cbn [fst snd] in *. rewrite O. unfold upper_entry, coords, e_row, e_col, e_val. cbn [fst snd foldM].
    unfold size_primary in Hp. rewrite O in Hp.
    assert (Hj : (j < length x)%nat) by (apply nth_error_In in E1; apply (v_range A V) in E1; unfold size_secdary in E1; rewrite O in E1; lia).
    unfold rd at 2 3. rewrite E1, E2. cbn [obind]. rewrite (rd_ok x j 0) by easy. cbn [obind]. destruct (rd s0 p); cbn [obind]; auto. destruct (wr s0 p _); cbn [obind]; auto.
    destruct (Nat.eqb_spec p j); [reflexivity|]. cbn [foldM obind fst snd]. rewrite (rd_ok x p 0) by lia. cbn [obind]. destruct (rd _ j); cbn [obind]; auto. destruct (wr _ j _); reflexivity.
Qed.
Lemma stores_ext n a b A : stores n a A -> (forall i j, (i < n)%nat -> (j < n)%nat -> a i j = b i j) -> stores n b A.
Proof.
  intros [V O R1 C1 U1 U D DD E SY] H. split; auto; intros; rewrite <- ?H by lia; auto.
Qed.
