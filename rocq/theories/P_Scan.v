(** * Properties of scans and all-to-all: C28, C70 *)
From Coq Require Import ZArith List Bool Lia.
From Verif Require Import Base L_Utils L_Balance M_Utils M_Distribute M_Exchange M_Scan S_Scan L_Exchange L_Sd.
Import ListNotations.
Local Open Scope Z_scope.
Local Open Scope out_scope.

Lemma fit_ok ty z : representable ty z -> fit ty z = Ok z.
Proof.
  destruct ty as [W|W]; cbn [representable fit]; intros H.
  - now rewrite Z.mod_small.
  - destruct (Z.leb_spec (- 2 ^ (W - 1)) z), (Z.ltb_spec z (2 ^ (W - 1))); auto; lia.
Qed.
Lemma fit_defined ty x y : defined_sum ty x y -> exists w, fit ty (x + y) = Ok w.
Proof. destruct ty as [W|W]; intros H; [eexists; reflexivity|]. exists (x + y). now apply fit_ok. Qed.

Lemma sum_below_S vals i : (i < length vals)%nat -> sum_below vals (S i) = sum_below vals i + nth i vals 0.
Proof.
  unfold sum_below. revert i. induction vals as [|v vals IH]; intros i Hi; cbn in Hi; [lia|].
  destruct i as [|i]; [cbn; lia|]. cbn [nth].
  change (fold_right Z.add 0 (firstn (S (S i)) (v :: vals))) with (v + fold_right Z.add 0 (firstn (S i) vals)).
  change (fold_right Z.add 0 (firstn (S i) (v :: vals))) with (v + fold_right Z.add 0 (firstn i vals)). rewrite IH by lia. lia.
Qed.
Lemma sum_below_0 vals : sum_below vals 0 = 0.
Proof. reflexivity. Qed.
Lemma sum_below_cons v vals i : sum_below (v :: vals) (S i) = v + sum_below vals i.
Proof. reflexivity. Qed.

Lemma mpi_sums_ok ty vals : forall acc, (forall i, (i < length vals)%nat -> representable ty (acc + sum_below vals i)) ->
  mpi_sums ty acc vals = Ok (map (fun i => acc + sum_below vals i) (seq 0 (length vals))).
Proof.
  induction vals as [|x vals IH]; intros acc H; auto. cbn [mpi_sums]. destruct vals as [|y vals].
  - cbn. now rewrite Z.add_0_r.
  - pose proof (H 1%nat ltac:(cbn; lia)) as H1. rewrite sum_below_cons, sum_below_0, Z.add_0_r in H1. rewrite (fit_ok _ _ H1). cbn [obind]. rewrite IH.
    + cbn [obind]. change (length (x :: y :: vals)) with (S (length (y :: vals))). rewrite <- (cons_seq (length (y :: vals)) 0).
      rewrite <- (seq_shift (length (y :: vals)) 0). cbn [map]. rewrite sum_below_0, Z.add_0_r, map_map. do 2 f_equal.
      apply map_ext. intros i. rewrite (sum_below_cons x). lia.
    + intros i Hi. specialize (H (S i) ltac:(cbn in *; lia)). rewrite (sum_below_cons x) in H. now rewrite <- Z.add_assoc.
Qed.

Lemma last_map_seq (f : nat -> Z) n d : last (map f (seq 0 (S n))) d = f n.
Proof. rewrite seq_S, map_app. cbn [map Nat.add]. apply last_last. Qed.

(** C28: every rank gets the sum of the lower ranks and the global sum *)
Theorem exscan_sums ty u vals : (forall i, (i <= length vals)%nat -> representable ty (sum_below vals i)) ->
  ((1 < length vals)%nat -> defined_sum ty u (nth 0 vals 0)) ->
  exscan ty u vals = Ok (map (fun i => (sum_below vals i, sum_below vals (length vals))) (seq 0 (length vals))).
Proof.
  intros H H0. destruct vals as [|v [|w vals]]; [reflexivity|cbn; now rewrite Z.add_0_r|].
  unfold exscan, mpi_exscan. rewrite mpi_sums_ok.
  2:{ intros i Hi. specialize (H (S i) ltac:(cbn in *; lia)). now rewrite sum_below_cons in H. }
  cbn [obind combine map_out]. unfold add_rank at 1. cbn [fst snd].
  destruct (fit_defined ty u v) as (x & Ex). { apply H0. cbn. lia. } rewrite Ex. cbn [obind].
  assert (E : map_out (add_rank ty) (combine (map (fun i => v + sum_below (w :: vals) i) (seq 0 (length (w :: vals)))) (w :: vals)) =
              Ok (map (fun i => sum_below (v :: w :: vals) (S (S i))) (seq 0 (length (w :: vals))))).
  { rewrite (map_out_nth (add_rank ty) (fun x => fst x + snd x)).
    - f_equal. apply nth_ext with (d := 0) (d' := 0); [rewrite !map_length, combine_length, map_length, !seq_length; lia|].
      intros k Hk. rewrite map_length, combine_length, map_length, seq_length in Hk. rewrite Nat.min_id in Hk.
      rewrite (nth_map_seq (fun i => sum_below (v :: w :: vals) (S (S i)))) by auto.
      rewrite (nth_indep _ 0 (fst (0, 0) + snd (0, 0))) by (rewrite map_length, combine_length, map_length, seq_length; lia).
      rewrite (map_nth (fun x => fst x + snd x)), combine_nth by (now rewrite map_length, seq_length). cbn [fst snd].
      rewrite (nth_map_seq (fun i => v + sum_below (w :: vals) i)) by auto. rewrite (sum_below_cons v), sum_below_S by auto. lia.
    - intros (a, b) Hin. unfold add_rank. cbn [fst snd]. apply (In_nth _ _ (0, 0)) in Hin. destruct Hin as (k & Hk & E).
      rewrite combine_length, map_length, seq_length, Nat.min_id in Hk. rewrite combine_nth in E by (now rewrite map_length, seq_length).
      rewrite (nth_map_seq (fun i => v + sum_below (w :: vals) i)) in E by auto. injection E as <- <-. apply fit_ok.
      specialize (H (S (S k)) ltac:(cbn in *; lia)). rewrite (sum_below_cons v), sum_below_S in H by auto. now rewrite <- Z.add_assoc. }
  rewrite E. cbn [obind]. set (n := length vals). cbn [length]. fold n.
  assert (EL : last (x :: map (fun i => sum_below (v :: w :: vals) (S (S i))) (seq 0 (S n))) 0 = sum_below (v :: w :: vals) (S (S n))).
  { transitivity (last (map (fun i => sum_below (v :: w :: vals) (S (S i))) (seq 0 (S n))) 0); [|now rewrite last_map_seq].
    rewrite <- cons_seq. reflexivity. }
  rewrite EL. rewrite <- (cons_seq (S n) 0). cbn [map]. rewrite sum_below_0. do 2 f_equal.
  rewrite map_map, <- seq_shift, map_map. apply map_ext. intros i. now rewrite (sum_below_cons v).
Qed.

Example exscan_sums_ex : exscan (Signed 32) 77 [3; 0; 5] = Ok [(0, 8); (3, 8); (3, 8)].
Proof. apply (exscan_sums (Signed 32) 77 [3; 0; 5]); [|cbn; lia]. intros i Hi. cbn in Hi. do 4 (destruct i as [|i]; [cbn; lia|]). lia. Qed.

(** rank 0 adds its value to a variable that MPI_Exscan leaves as it was; the sum is not used but it can overflow *)
Theorem exscan_rank0_overflow_refuted :
  ~ (forall ty vals, (forall i, (i <= length vals)%nat -> representable ty (sum_below vals i)) -> exists r, exscan ty (nth 0 vals 0) vals = Ok r).
Proof.
  intros H. destruct (H (Signed 32) [2 ^ 30; 0]) as (r & E).
  - intros i Hi. cbn in Hi. do 3 (destruct i as [|i]; [cbn; lia|]). lia.
  - vm_compute in E. discriminate.
Qed.

Theorem exscan_vec_sums ty m u offsets :
  (forall c i, (c < m)%nat -> (i <= length offsets)%nat -> representable ty (sum_below (map (fun o => nth c o 0) offsets) i)) ->
  (forall c, (c < m)%nat -> (1 < length offsets)%nat -> defined_sum ty (nth c u 0) (nth c (nth 0 offsets []) 0)) ->
  exscan_vec ty m u offsets =
    Ok (map (fun i => (map (fun c => sum_below (map (fun o => nth c o 0) offsets) i) (seq 0 m),
                       map (fun c => sum_below (map (fun o => nth c o 0) offsets) (length offsets)) (seq 0 m))) (seq 0 (length offsets))).
Proof.
  intros H H0. unfold exscan_vec.
  rewrite (map_out_nth _ (fun c => map (fun i => (sum_below (map (fun o => nth c o 0) offsets) i, sum_below (map (fun o => nth c o 0) offsets) (length offsets))) (seq 0 (length offsets)))).
  - cbn [obind]. f_equal. apply map_ext_in. intros i Hi. apply in_seq in Hi. rewrite !map_map.
    f_equal; apply map_ext; intros c;
      rewrite (nth_map_seq (fun i => (sum_below (map (fun o => nth c o 0) offsets) i, sum_below (map (fun o => nth c o 0) offsets) (length offsets)))) by lia; auto.
  - intros c Hc. apply in_seq in Hc. rewrite exscan_sums.
    + now rewrite map_length.
    + rewrite map_length. intros i Hi. apply H; [lia|auto].
    + rewrite map_length. intros Hl. specialize (H0 c ltac:(lia) Hl). destruct offsets as [|o offsets]; [cbn in Hl; lia|]. exact H0.
Qed.
Example exscan_vec_sums_ex : exscan_vec (Unsigned 64) 2 [5; 5] [[1; 10]; [2; 20]] = Ok [([0; 0], [3; 30]); ([1; 10], [3; 30])].
Proof. apply (exscan_vec_sums (Unsigned 64) 2 [5; 5] [[1; 10]; [2; 20]]); [|cbn; auto].
  intros c i Hc Hi. cbn in Hi. do 2 (destruct c as [|c]; [do 3 (destruct i as [|i]; [cbn; lia|]); lia|]). lia. Qed.

(** C28: the boundaries of the ranks *)
Theorem get_distribution_sums ty u sizes : (0 < length sizes)%nat -> (forall i, (i <= length sizes)%nat -> representable ty (sum_below sizes i)) ->
  ((1 < length sizes)%nat -> defined_sum ty u (nth 0 sizes 0)) ->
  get_distribution ty u sizes = Ok (map (sum_below sizes) (seq 0 (length sizes + 1))).
Proof.
  intros Hn H H0. unfold get_distribution. rewrite exscan_sums by auto. cbn [obind]. rewrite map_map. cbn [fst].
  set (n := length sizes) in *. rewrite (map_out_nth (add_rank ty) (fun x => fst x + snd x)).
  - cbn [obind]. rewrite Nat.add_1_r, seq_S, map_app. do 2 f_equal. cbn [map Nat.add]. f_equal.
    assert (E : map (fun x => fst x + snd x) (combine (map (fun x => sum_below sizes x) (seq 0 n)) sizes) = map (fun i => sum_below sizes (S i)) (seq 0 n)).
    { apply nth_ext with (d := 0) (d' := 0); [rewrite !map_length, combine_length, map_length, !seq_length; fold n; lia|].
      intros k Hk. rewrite map_length, combine_length, map_length, seq_length in Hk. fold n in Hk.
      rewrite (nth_map_seq (fun i => sum_below sizes (S i))) by lia.
      rewrite (nth_indep _ 0 (fst (0, 0) + snd (0, 0))) by (rewrite map_length, combine_length, map_length, seq_length; fold n; lia).
      rewrite (map_nth (fun x => fst x + snd x)), combine_nth by (now rewrite map_length, seq_length). cbn [fst snd].
      rewrite (nth_map_seq (sum_below sizes)) by lia. rewrite sum_below_S by (fold n; lia). auto. }
    rewrite E. destruct n as [|n']; [lia|]. now rewrite last_map_seq.
  - intros (a, b) Hin. unfold add_rank. cbn [fst snd]. apply (In_nth _ _ (0, 0)) in Hin. destruct Hin as (k & Hk & E).
    rewrite combine_length, map_length, seq_length in Hk. fold n in Hk. rewrite combine_nth in E by (now rewrite map_length, seq_length).
    rewrite (nth_map_seq (sum_below sizes)) in E by lia. injection E as <- <-. apply fit_ok.
    rewrite <- sum_below_S by (fold n; lia). apply H. lia.
Qed.
Example get_distribution_sums_ex : get_distribution (Signed 32) 0 [3; 0; 5] = Ok [0; 3; 3; 8].
Proof. apply (get_distribution_sums (Signed 32) 0 [3; 0; 5]); [cbn; lia| |cbn; lia]. intros i Hi. cbn in Hi. do 4 (destruct i as [|i]; [cbn; lia|]). lia. Qed.

(** C70 *)
Lemma displacements_nth sizes : forall disp k, (k < length sizes)%nat ->
  nth k (displacements sizes disp) 0%nat = (disp + fold_right Nat.add 0 (firstn k sizes))%nat.
Proof.
  induction sizes as [|s sizes IH]; intros disp k Hk; cbn in Hk; [lia|]. destruct k as [|k]; cbn [displacements nth firstn fold_right]; [lia|].
  rewrite IH by lia. lia.
Qed.
Lemma displacements_length sizes : forall disp, length (displacements sizes disp) = length sizes.
Proof. induction sizes as [|s sizes IH]; intros; cbn; auto. Qed.
Lemma len_concat_firstn {T} (l : list (list T)) k : length (concat (firstn k l)) = fold_right Nat.add 0%nat (firstn k (map (@length T) l)).
Proof. revert k; induction l as [|x l IH]; intros [|k]; cbn; auto. rewrite app_length, IH. auto. Qed.
Lemma slice_concat {T} (l : list (list T)) k : (k < length l)%nat ->
  slice (length (concat (firstn k l))) (length (concat (firstn k l)) + length (nth k l [])) (concat l) = nth k l [].
Proof.
  revert k. induction l as [|x l IH]; intros k Hk; cbn in Hk; [lia|]. destruct k as [|k]; cbn [firstn concat nth length].
  - cbn [Nat.add]. unfold slice. rewrite Nat.sub_0_r. cbn [skipn]. rewrite firstn_app, firstn_all, Nat.sub_diag. cbn. apply app_nil_r.
  - rewrite app_length. specialize (IH k ltac:(lia)). unfold slice in *.
    rewrite skipn_app. rewrite skipn_all2 by lia. cbn [app].
    replace (length x + length (concat (firstn k l)) - length x)%nat with (length (concat (firstn k l))) by lia.
    etransitivity; [|exact IH]. f_equal. lia.
Qed.

Theorem all_to_all_v_delivers {T} limit n (d : nat -> nat -> list T) (rb : nat -> list T) r : (r < n)%nat ->
  (forall i, (i < n)%nat -> (length (concat (map (d i) (seq 0 n))) <= limit)%nat) ->
  length (rb r) = length (concat (map (fun i => d i r) (seq 0 n))) ->
  all_to_all_v limit n (fun i => concat (map (d i) (seq 0 n))) rb (fun i => map (fun j => length (d i j)) (seq 0 n)) (fun i => map (fun j => length (d j i)) (seq 0 n)) r
    = Ok (Some (concat (map (fun i => d i r) (seq 0 n)))).
Proof.
  intros Hr HL HB. unfold all_to_all_v. assert (existsb (fun i => (limit <? length (concat (map (d i) (seq 0 n))))%nat) (seq 0 n) = false) as ->.
  { destruct (existsb _ _) eqn:E; auto. apply existsb_exists in E. destruct E as (i & Hi & E). apply in_seq in Hi. apply Nat.ltb_lt in E. specialize (HL i ltac:(lia)). lia. }
  set (got := map (fun i => d i r) (seq 0 n)) in *.
  match goal with |- obind (foldM ?f _ _) _ = _ => destruct (foldM_inv f (fun pre acc => acc = concat (firstn (length pre) got) ++ skipn (length (concat (firstn (length pre) got))) (rb r)) (seq 0 n) (rb r)) as (x & E & Hx) end.
  - reflexivity.
  - intros pre i post acc Es ->. assert (Hi : (i = length pre /\ i < n)%nat).
    { pose proof (f_equal (@length nat) Es) as El. rewrite seq_length, app_length in El. cbn in El.
      pose proof (f_equal (fun l => nth (length pre) l 0%nat) Es) as E. cbn beta in E. rewrite app_nth2, Nat.sub_diag in E by lia. cbn [nth] in E. rewrite seq_nth in E by lia. lia. }
    destruct Hi as (Ei & Hi). rewrite <- Ei. unfold a2av_from.
    assert (Lg : length got = n) by (unfold got; now rewrite map_length, seq_length).
    rewrite (rd_ok _ r 0%nat) by (rewrite map_length, seq_length; lia). cbn [obind].
    rewrite (rd_ok (displacements _ _) r 0%nat) by (rewrite displacements_length, map_length, seq_length; lia). cbn [obind].
    rewrite (rd_ok (map (fun j => length (d j r)) (seq 0 n)) i 0%nat) by (rewrite map_length, seq_length; lia). cbn [obind].
    rewrite (rd_ok (displacements _ _) i 0%nat) by (rewrite displacements_length, map_length, seq_length; lia). cbn [obind].
    rewrite !displacements_nth by (rewrite map_length, seq_length; lia). cbn [Nat.add].
    rewrite (nth_map_seq (fun j => length (d i j))) by lia. rewrite (nth_map_seq (fun j => length (d j r))) by lia. rewrite Nat.eqb_refl.
    replace (map (fun j => length (d i j)) (seq 0 n)) with (map (@length T) (map (d i) (seq 0 n))) by now rewrite map_map.
    replace (map (fun j => length (d j r)) (seq 0 n)) with (map (@length T) got) by (unfold got; now rewrite map_map).
    rewrite <- !len_concat_firstn.
    assert (Nr : nth r (map (d i) (seq 0 n)) [] = d i r) by now rewrite (nth_map_seq (d i)).
    assert (Ng : nth i got [] = d i r) by (unfold got; now rewrite (nth_map_seq (fun i => d i r))).
    assert (B1 : (length (concat (firstn r (map (d i) (seq 0 n)))) + length (d i r) <= length (concat (map (d i) (seq 0 n))))%nat).
    { rewrite <- (firstn_skipn r (map (d i) (seq 0 n))) at 2. rewrite concat_app, app_length.
      assert (r < length (map (d i) (seq 0 n)))%nat by (rewrite map_length, seq_length; lia).
      rewrite <- Nr. clear - H. revert H. generalize (map (d i) (seq 0 n)). intros l. revert r. induction l as [|x l IH]; intros [|r] H; cbn in H; try lia; cbn [nth skipn firstn concat length].
      - rewrite app_length. lia.
      - rewrite !app_length. specialize (IH r ltac:(lia)). lia. }
    assert (B2 : (length (concat (firstn i got)) + length (d i r) <= length (rb r))%nat).
    { rewrite HB, <- Ng. clear - Hi Lg. rewrite <- Lg in Hi. revert i Hi. clear Lg. induction got as [|x l IH]; intros [|i] H; cbn in H; try lia; cbn [nth skipn firstn concat length].
      - rewrite app_length. lia.
      - rewrite !app_length. specialize (IH i ltac:(lia)). lia. }
    unfold load_at. destruct (Nat.leb_spec (length (concat (firstn r (map (d i) (seq 0 n)))) + length (d i r)) (length (concat (map (d i) (seq 0 n))))); [|lia].
    cbn [obind].
    assert (Sl : slice (length (concat (firstn r (map (d i) (seq 0 n))))) (length (concat (firstn r (map (d i) (seq 0 n)))) + length (d i r)) (concat (map (d i) (seq 0 n))) = d i r)
      by (rewrite <- Nr; apply slice_concat; rewrite map_length, seq_length; lia).
    rewrite Sl.
    unfold store_at. rewrite Nat.leb_refl. cbn [andb]. rewrite app_length, skipn_length.
    destruct (Nat.leb_spec (length (concat (firstn i got)) + length (d i r)) (length (concat (firstn i got)) + (length (rb r) - length (concat (firstn i got))))); [|lia].
    eexists. split; [reflexivity|]. rewrite app_length. cbn [length]. rewrite <- Ei. unfold put.
    assert (Ef : firstn (i + 1) got = firstn i got ++ [d i r]).
    { rewrite <- Ng. clear - Hi Lg. rewrite <- Lg in Hi. revert i Hi. clear Lg. induction got as [|x l IH]; intros [|i] H; cbn in H; try lia; cbn; auto. f_equal. apply IH. lia. }
    rewrite Ef, concat_app. cbn [concat]. rewrite app_nil_r, app_length, <- !app_assoc. f_equal; [|f_equal].
    + rewrite firstn_app, firstn_all, Nat.sub_diag. cbn. apply app_nil_r.
    + rewrite skipn_app, skipn_all2 by lia. cbn [app]. rewrite skipn_skipn. f_equal. lia.
  - rewrite E. cbn [obind]. rewrite Hx, seq_length. do 2 f_equal.
    assert (Lg : length got = n) by (unfold got; now rewrite map_length, seq_length). rewrite <- Lg, firstn_all, skipn_all2 by lia. apply app_nil_r.
Qed.
Example all_to_all_v_delivers_ex : let d := fun i j => repeat (10 * i + j)%nat (i + j)%nat in
  all_to_all_v 9 2 (fun i => concat (map (d i) (seq 0 2))) (fun i => repeat 0%nat (2 * i + 1)%nat) (fun i => map (fun j => length (d i j)) (seq 0 2)) (fun i => map (fun j => length (d j i)) (seq 0 2)) 1
    = Ok (Some [1; 11; 11]%nat).
Proof. intros d. apply (all_to_all_v_delivers 9 2 d); [lia| |reflexivity]. intros i Hi. do 2 (destruct i as [|i]; [cbn; lia|]). lia. Qed.

Print Assumptions exscan_sums.
Print Assumptions exscan_rank0_overflow_refuted.
Print Assumptions exscan_vec_sums.
Print Assumptions get_distribution_sums.
Print Assumptions all_to_all_v_delivers.
