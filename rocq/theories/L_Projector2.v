(** Lemmas about the projectors: what a rank computes, in terms of S_Projector. *)
From Coq Require Import List Arith Bool Permutation Sorted Reals Lia Lra.
From Verif Require Import Base S_Nb S_Dual M_Dual S_Equality M_Equality L_Equality6 L_Equality7 M_TotalFeti S_Feti L_TotalFeti L_TotalFeti2 M_Projector S_Projector L_Projector.
Import ListNotations.
Local Open Scope out_scope.
Local Open Scope R_scope.

Section Local.
  Variables (n : nat) (first : nat -> nat) (L : list (list nat)) (len : nat -> nat) (row : nat -> nat -> list (nat * R)).
  Hypothesis HB : entries_ok L len row.
  Variables (ksize : nat -> nat) (Rk : nat -> nat -> nat -> R).
  Local Notation G := (G len row Rk).
  Local Notation kernel_vector := (kernel_vector ksize).
  Local Notation G_of := (G_of L len row Rk).
  Local Notation all := (everything n first).

  (** the kernels of some domains *)
  Definition kidx (ds : list nat) : list (nat * nat) := flat_map (fun d => map (pair d) (seq 0 (ksize d))) ds.
  Lemma kidx_in ds d k : In (d, k) (kidx ds) <-> In d ds /\ (k < ksize d)%nat.
  Proof.
    unfold kidx. rewrite in_flat_map. split.
    - intros (d' & I & J). apply in_map_iff in J as (k' & E & K). injection E as -> ->. apply in_seq in K. split; [easy|lia].
    - intros [I K]. exists d. split; [easy|]. apply in_map, in_seq. lia.
  Qed.
  Lemma kernel_vector_idx ds w : kernel_vector ds w = map (fun p => w (fst p) (snd p)) (kidx ds).
  Proof. unfold S_Projector.kernel_vector, kidx. induction ds as [|d ds IH]; [reflexivity|]. cbn [flat_map]. rewrite map_app, IH, map_map. reflexivity. Qed.
  Lemma kernel_vector_length ds w : length (kernel_vector ds w) = length (kidx ds).
  Proof. now rewrite kernel_vector_idx, map_length. Qed.
  Lemma kernel_vector_ext ds w w' : (forall d k, In d ds -> (k < ksize d)%nat -> w d k = w' d k) -> kernel_vector ds w = kernel_vector ds w'.
  Proof. intros H. rewrite !kernel_vector_idx. apply map_ext_in. intros (d, k) I. apply kidx_in in I. now apply H. Qed.
  Lemma Sum_kidx ds f : Sum (kidx ds) f = Sum ds (fun d => Sum (seq 0 (ksize d)) (fun k => f (d, k))).
  Proof. unfold kidx. rewrite Sum_flat_map. apply Sum_ext. intros d. now rewrite Sum_map. Qed.
  Lemma kernel_nth ds w i : (i < length (kidx ds))%nat -> nth i (kernel_vector ds w) 0 = w (fst (nth i (kidx ds) (O, O))) (snd (nth i (kidx ds) (O, O))).
  Proof. intros H. rewrite kernel_vector_idx. rewrite (nth_indep _ 0 (w (fst (O, O)) (snd (O, O)))) by (now rewrite map_length). now rewrite (map_nth (fun p => w (fst p) (snd p))). Qed.
  Lemma Sum_nth {A} (l : list A) d f : Sum (seq 0 (length l)) (fun i => f (nth i l d)) = Sum l f.
  Proof.
    rewrite <- (Sum_map (fun i => nth i l d) (seq 0 (length l)) f). f_equal. apply (nth_ext _ _ d d); [now rewrite map_length, seq_length|]. intros i Hi. rewrite map_length, seq_length in Hi. now rewrite map_seq_nth.
  Qed.

  Lemma G_zero d k m : (m < length L)%nat -> ~ In d (domains L m) -> G d k m = 0.
  Proof. intros Hm N. unfold S_Projector.G. rewrite Sum_zero; [lra|]. intros j _. unfold B. rewrite (proj2 (HB m d Hm) N), Sum_nil. lra. Qed.
  Lemma G_held r d k (x : nat -> R) : In d (own first r) -> Sum (held first L r) (fun m => G d k m * x m) = G_of x d k.
  Proof.
    intros Id. unfold S_Projector.G_of, held, multiplier_list. rewrite Sum_filter. apply Sum_ext_in. intros m Im. apply in_seq in Im. destruct (touches first r (domains L m)) eqn:E; [reflexivity|].
    rewrite G_zero; [lra|lia|]. intros I. assert (X : In m (held first L r)) by (apply (own_held first L r d); auto; lia). unfold held in X. apply filter_In in X. destruct X. congruence.
  Qed.

  Section Rank.
    Variable r : nat.
    Local Notation held := (held first L r).
    Local Notation own := (own first r).
    Local Notation G_line := (G_line first L len row Rk r).
    Local Notation G_stored := (G_stored first L len row ksize Rk r).

    Lemma combine_nth_in {A} (l : list A) d : forall s p m, In (p, m) (combine (seq s (length l)) l) -> (s <= p < s + length l)%nat /\ nth (p - s) l d = m.
    Proof.
      induction l as [|a l IH]; intros s p m I; cbn [length seq combine] in I; [destruct I|]. destruct I as [E|I].
      - injection E as <- <-. cbn [length]. rewrite Nat.sub_diag. split; [lia|reflexivity].
      - destruct (IH (S s) p m I) as [H E]. cbn [length]. split; [lia|]. replace (p - s)%nat with (S (p - S s)) by lia. exact E.
    Qed.
    Lemma Sum_combine (h : nat -> R) (l : list nat) : forall s, Sum (combine (seq s (length l)) l) (fun pm => h (snd pm)) = Sum l h.
    Proof. induction l as [|a l IH]; intros s; cbn [length seq combine]; [reflexivity|]. now rewrite !Sum_cons, IH. Qed.
    Lemma domains_eqb d m : existsb (Nat.eqb d) (domains L m) = true <-> In d (domains L m).
    Proof. rewrite existsb_exists. split; [intros (x & I & E); apply Nat.eqb_eq in E; now subst|]. intros I. exists d. split; [easy|apply Nat.eqb_refl]. Qed.

    Lemma line_cols d k e : In e (G_line d k) -> (fst e < length held)%nat.
    Proof. unfold S_Projector.G_line. rewrite in_map_iff. intros ((p, m) & <- & I). apply filter_In in I as [I _]. apply (combine_nth_in _ O) in I. cbn [fst]. lia. Qed.
    Lemma line_sum d k x : In d own -> row_sum (G_line d k) (dual first L x r) = G_of x d k.
    Proof.
      intros Id. rewrite <- (G_held r d k x Id). unfold row_sum, S_Projector.G_line. rewrite Sum_map, Sum_filter. cbn [fst snd].
      rewrite <- (Sum_combine (fun m => G d k m * x m) held 0). apply Sum_ext_in. intros (p, m) I. pose proof I as I2. apply (combine_nth_in held O) in I as [Hp E]. rewrite Nat.sub_0_r in E. cbn [fst snd].
      assert (Ed : nth p (dual first L x r) 0 = x m). { unfold dual, vector. rewrite (nth_indep _ 0 (x O)) by (rewrite map_length; lia). rewrite (map_nth x). now rewrite E. }
      destruct (existsb (Nat.eqb d) (domains L m)) eqn:X; [now rewrite Ed|]. rewrite G_zero; [lra| |].
      - apply in_combine_r in I2. now apply (held_lt first L r).
      - intros Y. apply domains_eqb in Y. congruence.
    Qed.
    Lemma line_entry d k i : (i < length held)%nat -> entry_sum (G_line d k) i = G d k (nth i held O).
    Proof.
      intros Hi. unfold entry_sum, S_Projector.G_line. rewrite Sum_map, Sum_filter. cbn [fst snd]. rewrite (Sum_single _ (i, nth i held O)).
      - cbn [fst snd]. rewrite Nat.eqb_refl. destruct (existsb (Nat.eqb d) (domains L (nth i held O))) eqn:X; [reflexivity|]. rewrite G_zero; [reflexivity| |].
        + apply (held_lt first L r). now apply nth_In.
        + intros Y. apply domains_eqb in Y. congruence.
      - clear. generalize O as s. induction held as [|a l IH]; intros s; cbn [length seq combine]; constructor; [|apply IH]. intros I. apply (combine_nth_in l O) in I. lia.
      - replace (i, nth i held O) with (nth i (combine (seq 0 (length held)) held) (O, O)).
        + apply nth_In. rewrite combine_length, seq_length. lia.
        + rewrite combine_nth by (now rewrite seq_length). rewrite seq_nth by easy. reflexivity.
      - intros (p, m) I N. cbn [fst snd]. destruct (existsb (Nat.eqb d) (domains L m)); [|reflexivity]. destruct (Nat.eqb_spec p i) as [->|]; [|reflexivity]. destruct N.
        apply (combine_nth_in held O) in I as [_ <-]. now rewrite Nat.sub_0_r.
    Qed.
    Lemma G_stored_idx : G_stored = map (fun p => G_line (fst p) (snd p)) (kidx own).
    Proof. unfold S_Projector.G_stored, kidx. induction own as [|d ds IH]; [reflexivity|]. cbn [flat_map]. rewrite map_app, IH, map_map. reflexivity. Qed.
    Lemma G_stored_length : length G_stored = length (kidx own).
    Proof. now rewrite G_stored_idx, map_length. Qed.

    Lemma local_G threads dist off x out : distribution threads dist (length (kidx own)) -> (off + length (kidx own) <= length out)%nat ->
      apply_G 0 Rplus Rmult threads dist off G_stored (dual first L x r) out = Ok (put off (off + length (kidx own)) out (kernel_vector own (G_of x))).
    Proof.
      intros D Lo. rewrite (apply_G_ok threads dist (length (kidx own))); auto; [|now rewrite G_stored_length|].
      - do 2 f_equal. rewrite G_stored_idx, map_map, kernel_vector_idx. apply map_ext_in. intros (d, k) I. apply kidx_in in I. cbn [fst snd]. now apply line_sum.
      - intros rw e Ir Ie. rewrite G_stored_idx in Ir. apply in_map_iff in Ir as (p & <- & _). unfold dual, vector. rewrite map_length. now apply (line_cols _ _ _ Ie).
    Qed.

    Lemma local_Gt a alpha (y : nat -> nat -> R) :
      apply_Gt Rplus Rmult G_stored (kernel_vector own a) alpha (vector first L y r) =
      Ok (vector first L (fun r m => y r m + alpha * Sum (S_Feti.own first r) (fun d => Sum (seq 0 (ksize d)) (fun k => G d k m * a d k))) r).
    Proof.
      rewrite apply_Gt_ok.
      - unfold vector. rewrite map_length. f_equal. apply (nth_ext _ _ 0 0); [now rewrite !map_length, seq_length|]. intros i Hi. rewrite map_length, seq_length in Hi. rewrite map_seq_nth by easy.
        rewrite (nth_indep (map (y r) held) 0 (y r O)) by (now rewrite map_length). rewrite map_nth.
        rewrite (nth_indep (map _ held) 0 (y r O + alpha * Sum own (fun d => Sum (seq 0 (ksize d)) (fun k => G d k O * a d k)))) by (now rewrite map_length).
        rewrite (map_nth (fun m => y r m + alpha * Sum own (fun d => Sum (seq 0 (ksize d)) (fun k => G d k m * a d k)))). f_equal. f_equal.
        transitivity (Sum (kidx own) (fun p => G (fst p) (snd p) (nth i held O) * a (fst p) (snd p))); [|now rewrite Sum_kidx].
        rewrite <- (Sum_nth (kidx own) (O, O)), G_stored_length. apply Sum_ext_in. intros j Ij. apply in_seq in Ij.
        rewrite kernel_nth by lia. f_equal. rewrite G_stored_idx. rewrite (nth_indep _ [] (G_line (fst (O, O)) (snd (O, O)))) by (rewrite map_length; lia).
        rewrite (map_nth (fun p => G_line (fst p) (snd p))). now apply line_entry.
      - now rewrite kernel_vector_length, G_stored_length.
      - intros rw e Ir Ie. rewrite G_stored_idx in Ir. apply in_map_iff in Ir as (p & <- & _). unfold vector. rewrite map_length. now apply (line_cols _ _ _ Ie).
    Qed.

    Lemma kernel_rows_idx A ds : kernel_rows n first ksize ds A = flat_map (fun i => kernel_vector all (A (fst (nth i (kidx ds) (O, O))) (snd (nth i (kidx ds) (O, O))))) (seq 0 (length (kidx ds))).
    Proof.
      transitivity (flat_map (fun p => kernel_vector all (A (fst p) (snd p))) (kidx ds)).
      - unfold kernel_rows, kidx. induction ds as [|d ds IH]; [reflexivity|]. cbn [flat_map]. rewrite flat_map_app, IH. f_equal. rewrite !flat_map_concat_map, map_map. reflexivity.
      - generalize (kidx ds) as l. clear. intros l. rewrite !flat_map_concat_map. f_equal. apply (nth_ext _ _ [] []); [now rewrite !map_length, seq_length|]. intros i Hi. rewrite map_length in Hi. rewrite map_seq_nth by easy.
        rewrite (nth_indep _ [] (kernel_vector all (A (fst (O, O)) (snd (O, O))))) by (now rewrite map_length). now rewrite (map_nth (fun p => kernel_vector all (A (fst p) (snd p)))).
    Qed.
    Lemma local_dense threads dist off A w out : distribution threads dist (length (kidx own)) -> (off + length (kidx own) <= length out)%nat ->
      apply_dense 0 Rplus Rmult (length (kidx all)) threads dist off (kernel_rows n first ksize own A) (kernel_vector all w) out =
      Ok (put off (off + length (kidx own)) out (kernel_vector own (kernel_product n first ksize A w))).
    Proof.
      intros D Lo. assert (Lr : forall a, length (kernel_vector all (A (fst (nth a (kidx own) (O, O))) (snd (nth a (kidx own) (O, O))))) = length (kidx all)) by (intros; apply kernel_vector_length).
      rewrite (apply_dense_ok _ _ _ (length (kidx own))); auto.
      - do 2 f_equal. apply (nth_ext _ _ 0 0); [now rewrite map_length, seq_length, kernel_vector_length|]. intros i Hi. rewrite map_length, seq_length in Hi. rewrite map_seq_nth by easy. rewrite kernel_nth by easy.
        unfold kernel_product. transitivity (Sum (kidx all) (fun q => A (fst (nth i (kidx own) (O, O))) (snd (nth i (kidx own) (O, O))) (fst q) (snd q) * w (fst q) (snd q))); [|now rewrite Sum_kidx].
        rewrite <- (Sum_nth (kidx all) (O, O)).
        apply Sum_ext_in. intros j Ij. apply in_seq in Ij. rewrite kernel_rows_idx, (flat_map_nth_const _ (length (kidx all))) by (auto || lia). cbn [Nat.add]. rewrite !kernel_nth by lia. reflexivity.
      - rewrite kernel_rows_idx, (flat_map_length_const _ (length (kidx all))) by auto. now rewrite seq_length.
      - now rewrite kernel_vector_length.
    Qed.

    (** kernels *)
    Local Notation R1 := (R_stored first len ksize Rk r).
    Lemma offsets_idx ds : forall from, kernel_offsets from (map (fun d => {| nrows := ksize d; ncols := len d; vals := flat_map (fun k => map (Rk d k) (seq 0 (len d))) (seq 0 (ksize d)) |}) ds) =
      map (fun i => from + length (kidx (firstn i ds)))%nat (seq 0 (length ds)).
    Proof.
      induction ds as [|d ds IH]; intros from; [reflexivity|]. cbn [map kernel_offsets length seq firstn]. f_equal; [cbn; lia|]. rewrite IH. cbn [nrows]. rewrite <- seq_shift, map_map. apply map_ext. intros i. cbn [firstn].
      change (kidx (d :: firstn i ds)) with (map (pair d) (seq 0 (ksize d)) ++ kidx (firstn i ds)). rewrite app_length, map_length, seq_length. lia.
    Qed.
    Lemma R_column_ok d off (x : list R) j w : (j < len d)%nat -> (off + ksize d <= length x)%nat -> (forall k, (k < ksize d)%nat -> nth (off + k) x 0 = w d k) ->
      R_column 0 Rplus Rmult {| nrows := ksize d; ncols := len d; vals := flat_map (fun k => map (Rk d k) (seq 0 (len d))) (seq 0 (ksize d)) |} off x j = Ok (R_of ksize Rk w d j).
    Proof.
      intros Hj Lx Hw. unfold R_column. cbn [nrows ncols vals].
      assert (Lv : length (flat_map (fun k => map (Rk d k) (seq 0 (len d))) (seq 0 (ksize d))) = (ksize d * len d)%nat) by (rewrite (flat_map_length_const _ (len d)); [now rewrite seq_length|intros; now rewrite map_length, seq_length]).
      set (V := flat_map _ _) in *. assert (Gen : forall l s, (forall k, In k l -> (k < ksize d)%nat) ->
        foldM (fun s k => v <- rd V (k * len d + j) ;; u <- rd x (off + k) ;; Ok (s + v * u)) l s = Ok (s + Sum l (fun k => Rk d k j * w d k))).
      { induction l as [|k l IH]; intros s Hl; [cbn [foldM]; now rewrite Sum_nil, Rplus_0_r|]. assert (Hk : (k < ksize d)%nat) by (apply Hl; now left). cbn [foldM].
        rewrite (rd_ok V _ 0) by nia. cbn [obind]. rewrite (rd_ok x _ 0) by lia. cbn [obind]. rewrite IH by (intros; apply Hl; now right). rewrite Sum_cons, Hw by easy. unfold V.
        rewrite (flat_map_nth_const _ (len d)) by (auto || (intros; now rewrite map_length, seq_length)). cbn [Nat.add]. rewrite map_seq_nth by easy. f_equal. lra. }
      rewrite Gen by (intros k I; apply in_seq in I; lia). unfold R_of. f_equal. lra.
    Qed.
    Lemma firstn_kidx ds i : (i < length ds)%nat -> kidx ds = kidx (firstn i ds) ++ map (pair (nth i ds O)) (seq 0 (ksize (nth i ds O))) ++ kidx (skipn (S i) ds).
    Proof.
      revert i. induction ds as [|d ds IH]; intros i Hi; cbn [length] in Hi; [lia|]. destruct i as [|i]; [reflexivity|]. cbn [firstn skipn nth].
      change (kidx (d :: ds)) with (map (pair d) (seq 0 (ksize d)) ++ kidx ds). change (kidx (d :: firstn i ds)) with (map (pair d) (seq 0 (ksize d)) ++ kidx (firstn i ds)). rewrite <- app_assoc. f_equal. apply IH. lia.
    Qed.
    Lemma kernel_at ds w i k : (i < length ds)%nat -> (k < ksize (nth i ds O))%nat ->
      (length (kidx (firstn i ds)) + ksize (nth i ds O) <= length (kidx ds))%nat /\ nth (length (kidx (firstn i ds)) + k) (kernel_vector ds w) 0 = w (nth i ds O) k.
    Proof.
      intros Hi Hk. pose proof (firstn_kidx ds i Hi) as E. assert (Le : (length (kidx (firstn i ds)) + ksize (nth i ds O) <= length (kidx ds))%nat) by (rewrite E, !app_length, map_length, seq_length; lia).
      split; [easy|]. rewrite kernel_nth by lia. rewrite E. rewrite app_nth2 by lia. replace (length (kidx (firstn i ds)) + k - length (kidx (firstn i ds)))%nat with k by lia.
      rewrite app_nth1 by (rewrite map_length, seq_length; lia). rewrite map_seq_nth by easy. reflexivity.
    Qed.
    Lemma kernel_room ds i : (i < length ds)%nat -> (length (kidx (firstn i ds)) + ksize (nth i ds O) <= length (kidx ds))%nat.
    Proof. intros Hi. pose proof (f_equal (@length _) (firstn_kidx ds i Hi)) as E. rewrite !app_length, map_length, seq_length in E. lia. Qed.

    Lemma local_R a : apply_R 0 Rplus Rmult R1 (kernel_vector own a) = Ok (map (dense len (R_of ksize Rk a)) own).
    Proof.
      unfold apply_R, R_stored. rewrite offsets_idx. cbn [Nat.add].
      set (K := fun d => {| nrows := ksize d; ncols := len d; vals := flat_map (fun k => map (Rk d k) (seq 0 (len d))) (seq 0 (ksize d)) |}).
      assert (E : combine (map K own) (map (fun i => length (kidx (firstn i own))) (seq 0 (length own))) = map (fun i => (K (nth i own O), length (kidx (firstn i own)))) (seq 0 (length own))).
      { apply (nth_ext _ _ (K O, O) (K O, O)); [rewrite combine_length, !map_length, seq_length; lia|]. intros i Hi. rewrite combine_length, !map_length, seq_length in Hi.
        rewrite combine_nth by (now rewrite !map_length, seq_length). rewrite !map_seq_nth by lia. rewrite (map_nth K). reflexivity. }
      rewrite E.
      assert (F : forall l acc, (forall i, In i l -> (i < length own)%nat) ->
        foldM (fun out Ro => v <- R_domain 0 Rplus Rmult (fst Ro) (snd Ro) (kernel_vector own a) ;; Ok (out ++ [v])) (map (fun i => (K (nth i own O), length (kidx (firstn i own)))) l) acc =
        Ok (acc ++ map (fun i => dense len (R_of ksize Rk a) (nth i own O)) l)).
      { induction l as [|i l IH]; intros acc Hl; cbn [map foldM]; [now rewrite app_nil_r|]. assert (Hi : (i < length own)%nat) by (apply Hl; now left). cbn [fst snd].
        assert (Rd : R_domain 0 Rplus Rmult (K (nth i own O)) (length (kidx (firstn i own))) (kernel_vector own a) = Ok (dense len (R_of ksize Rk a) (nth i own O))).
        { unfold R_domain. cbn [ncols K]. rewrite (foldM_append _ (R_of ksize Rk a (nth i own O))); [reflexivity|]. intros acc' j Ij. apply in_seq in Ij. unfold K. rewrite (R_column_ok _ _ _ _ a).
          - reflexivity.
          - lia.
          - rewrite kernel_vector_length. now apply kernel_room.
          - intros k Hk. now apply kernel_at. }
        rewrite Rd. cbn [obind]. rewrite IH by (intros; apply Hl; now right). now rewrite <- app_assoc. }
      rewrite F by (intros i I; apply in_seq in I; lia). cbn [app]. f_equal. apply (nth_ext _ _ [] []); [now rewrite !map_length, seq_length|]. intros i Hi. rewrite map_length, seq_length in Hi. rewrite map_seq_nth by easy.
      rewrite (nth_indep _ [] (dense len (R_of ksize Rk a) O)) by (now rewrite map_length). now rewrite (map_nth (dense len (R_of ksize Rk a))).
    Qed.
  End Rank.
End Local.
