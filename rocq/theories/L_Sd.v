(** * Lemmas: records stored in threaded arrays *)
From Coq Require Import ZArith List Bool Arith Lia Permutation.
From Verif Require Import Base S_Order S_Containers M_Utils M_Packing S_Packing M_Containers
  L_Merge L_Utils L_Packing L_Balance L_Balance2 L_Tarray.
Import ListNotations.

Lemma map_out_nth {A B} (f : A -> outcome B) (g : A -> B) l :
  (forall a, In a l -> f a = Ok (g a)) -> map_out f l = Ok (map g l).
Proof.
  induction l; intros H; simpl; auto. rewrite H by (now left). cbn [obind]. rewrite IHl by (intros; apply H; now right). auto.
Qed.

Lemma slice_S {B} b e (l : list B) d : b < e <= length l -> slice b e l = nth b l d :: slice (S b) e l.
Proof.
  intros H. rewrite (slice_app b (S b) e) by lia. replace (slice b (S b) l) with [nth b l d]; auto.
  apply list_ext with (d := d); [rewrite slice_length by lia; cbn [length]; lia|]. intros i Hi. simpl in Hi. destruct i; [|lia].
  rewrite nth_slice by lia. simpl. now rewrite Nat.add_0_r.
Qed.

Section Records.
Context {A : Type}.
Implicit Types records : list (list A).

(** position of record [i] in the data *)
Definition pos records i : nat := length (concat (firstn i records)).

Lemma pos_0 records : pos records 0 = 0.
Proof. reflexivity. Qed.
Lemma firstn_S {B} n (l : list B) d : n < length l -> firstn (S n) l = firstn n l ++ [nth n l d].
Proof. revert l; induction n; intros [|a l] H; simpl in *; try lia; auto. f_equal. apply IHn. lia. Qed.
Lemma pos_S records i : i < length records -> pos records (S i) = pos records i + length (nth i records []).
Proof.
  intros H. unfold pos. rewrite (firstn_S i records []) by auto. rewrite concat_app, app_length. simpl. now rewrite app_nil_r.
Qed.
Lemma pos_all records : pos records (length records) = length (concat records).
Proof. unfold pos. now rewrite firstn_all. Qed.
Lemma pos_mono records i j : i <= j -> pos records i <= pos records j.
Proof.
  intros H. replace j with (i + (j - i)) by lia. generalize (j - i). intros k. unfold pos. clear.
  revert records; induction i; intros [|r rs]; simpl; try lia. rewrite !app_length. specialize (IHi rs). lia.
Qed.
Lemma pos_le records i : pos records i <= length (concat records).
Proof.
  destruct (Nat.le_gt_cases i (length records)).
  - rewrite <- pos_all. now apply pos_mono.
  - unfold pos. rewrite firstn_all2 by lia. lia.
Qed.
Lemma record_slice records i : i < length records ->
  slice (pos records i) (pos records (S i)) (concat records) = nth i records [].
Proof.
  intros H. assert (E := parts_slice records i H). rewrite !parts_distribution_nth in E by lia.
  replace (i + 1) with (S i) in E by lia. exact E.
Qed.

Lemma ends_length' off records : length (ends off records) = length records.
Proof. revert off; induction records; simpl; intros; auto. Qed.
Lemma boundaries_length records : length (boundaries records) = S (length records).
Proof. simpl. now rewrite ends_length'. Qed.
Lemma ends_nth' off records i : i < length records -> nth i (ends off records) 0%Z = (off + Z.of_nat (pos records (S i)))%Z.
Proof.
  revert off i; induction records as [|r rs IH]; intros off i H; simpl in H; [lia|].
  destruct i.
  - cbn [ends nth]. unfold pos. simpl. now rewrite app_nil_r.
  - cbn [ends nth]. rewrite IH by lia. unfold pos. simpl. rewrite !app_length. lia.
Qed.
Lemma boundaries_nth records i : i <= length records -> nth i (boundaries records) 0%Z = Z.of_nat (pos records i).
Proof.
  intros H. unfold boundaries. destruct i; [reflexivity|]. cbn [nth]. rewrite ends_nth' by lia. lia.
Qed.
Lemma rdZ_boundaries records i : (0 <= i <= Z.of_nat (length records))%Z ->
  rdZ (boundaries records) i = Ok (Z.of_nat (pos records (Z.to_nat i))).
Proof.
  intros H. unfold rdZ. destruct (Z.ltb_spec i 0); [lia|].
  rewrite (rd_ok _ _ 0%Z) by (rewrite boundaries_length; lia). rewrite boundaries_nth by lia. auto.
Qed.

(** the iterator that points to record [i] *)
Definition it_at records (i : nat) : iter :=
  mkIter (Some (Z.of_nat i)) (Z.of_nat (length records)) (Z.of_nat (pos records i))
    (Z.of_nat (pos records (if i =? length records then i else S i))).

Lemma it_move_gen records i e k : i <= length records -> (0 <= Z.of_nat i + k <= Z.of_nat (length records))%Z ->
  it_move (boundaries records) (mkIter (Some (Z.of_nat i)) (Z.of_nat (length records)) (Z.of_nat (pos records i)) e) k =
  Ok (it_at records (Z.to_nat (Z.of_nat i + k))).
Proof.
  intros Hi Hk. unfold it_move. cbn [it_element it_end it_b it_e].
  rewrite rdZ_boundaries by lia. cbn [obind]. rewrite rdZ_boundaries by lia. cbn [obind]. rewrite Nat2Z.id.
  set (j := Z.to_nat (Z.of_nat i + k)). assert (Ej : (Z.of_nat i + k = Z.of_nat j)%Z) by (unfold j; lia).
  rewrite Ej. unfold it_at.
  destruct (Z.eqb_spec (Z.of_nat j) (Z.of_nat (length records))) as [E|E]; cbn [negb].
  - assert (j = length records) by lia. rewrite (proj2 (Nat.eqb_eq _ _)) by auto. do 2 f_equal; lia.
  - assert (Hj : j < length records) by lia. rewrite (proj2 (Nat.eqb_neq _ _)) by lia.
    rewrite rdZ_boundaries by lia. cbn [obind].
    replace (Z.to_nat (Z.of_nat j + 1)) with (S j) by lia. do 2 f_equal; lia.
Qed.
Lemma it_nonuniform_ok records k : (0 <= k <= Z.of_nat (length records))%Z ->
  it_nonuniform (boundaries records) k (Z.of_nat (length (boundaries records)) - 1) = Ok (it_at records (Z.to_nat k)).
Proof.
  intros H. unfold it_nonuniform. rewrite boundaries_length.
  replace (Z.of_nat (S (length records)) - 1)%Z with (Z.of_nat (length records)) by lia.
  rewrite (it_move_gen records 0); [f_equal; f_equal; lia|lia|lia].
Qed.
Lemma it_at_move records i k : i <= length records -> (0 <= Z.of_nat i + k <= Z.of_nat (length records))%Z ->
  it_move (boundaries records) (it_at records i) k = Ok (it_at records (Z.to_nat (Z.of_nat i + k))).
Proof. intros. now apply it_move_gen. Qed.

Lemma it_at_deref records i : i < length records -> it_deref (concat records) (it_at records i) = Ok (nth i records []).
Proof.
  intros H. unfold it_deref, it_at. cbn [it_b it_e]. rewrite (proj2 (Nat.eqb_neq _ _)) by lia.
  assert (H1 := pos_S records i H). assert (H2 := pos_le records (S i)).
  rewrite (proj2 (Z.leb_le _ _)), (proj2 (Z.leb_le _ _)), (proj2 (Z.leb_le _ _)) by lia. cbn [andb].
  rewrite !Nat2Z.id, record_slice; auto.
Qed.

Lemma it_loop_ok records : forall n lo hi fuel, hi = lo + n -> hi <= length records -> n <= fuel ->
  it_loop fuel (boundaries records) (concat records) (it_at records lo) (it_at records hi) = Ok (slice lo hi records).
Proof.
  induction n; intros lo hi fuel E H Hf.
  - subst. rewrite Nat.add_0_r, slice_nil.
    destruct fuel; cbn [it_loop]; unfold it_eq; cbn [it_at it_element it_b]; rewrite !Z.eqb_refl; reflexivity.
  - destruct fuel; [lia|]. cbn [it_loop].
    replace (it_eq (it_at records lo) (it_at records hi)) with false.
    + rewrite it_at_deref by lia. cbn [obind]. rewrite it_at_move by lia. cbn [obind].
      replace (Z.to_nat (Z.of_nat lo + 1)) with (S lo) by lia.
      rewrite (IHn (S lo) hi fuel) by lia. cbn [obind]. f_equal.
      now rewrite (slice_S lo hi records []) by lia.
    + unfold it_eq. cbn [it_at it_element]. rewrite (proj2 (Z.eqb_neq _ _)) by lia. auto.
Qed.

(** index of the first record of thread [t] when [d] distributes the boundaries *)
Definition first_record (d : list nat) (t : nat) : nat := nth t d 0 - 1.

Lemma inititerators_ok records (eb : tarray Z) (ed : tarray A) :
  ta_list eb = boundaries records ->
  length (ta_distribution eb) = length (ta_distribution ed) -> 1 <= length (ta_distribution ed) ->
  (forall t, 1 <= t < length (ta_distribution eb) -> 1 <= nth t (ta_distribution eb) 0 <= S (length records)) ->
  nth 0 (ta_distribution eb) 0 = 0 ->
  inititerators eb ed = Ok (map (fun t => it_at records (first_record (ta_distribution eb) t)) (seq 0 (length (ta_distribution eb)))).
Proof.
  intros Hb Hl H1 Hd H0. unfold inititerators. rewrite Hb, it_nonuniform_ok by lia. cbn [obind].
  rewrite (map_out_nth _ (fun t => it_at records (first_record (ta_distribution eb) t))).
  - cbn [obind]. unfold ta_threads. rewrite <- Hl in *. destruct (length (ta_distribution eb)) as [|n]; [lia|].
    replace (S n - 1) with n by lia. cbn [seq map]. unfold first_record at 2. rewrite H0. reflexivity.
  - intros t Ht. apply in_seq in Ht. unfold ta_threads in Ht. rewrite (rd_ok _ _ 0) by lia. cbn [obind].
    assert (B := Hd t ltac:(lia)). rewrite it_at_move by lia. unfold first_record. do 2 f_equal. lia.
Qed.

Lemma sd_nonuniform_iterate records (eb : tarray Z) (ed : tarray A) :
  ta_list eb = boundaries records -> ta_list ed = concat records ->
  length (ta_distribution eb) = length (ta_distribution ed) ->
  distribution_of (S (length records)) (ta_distribution eb) -> 1 <= nth 1 (ta_distribution eb) 0 ->
  exists s, sd_nonuniform eb ed = Ok s /\ sd_eb s = eb /\ sd_ed s = ed /\ sd_edatasize s = (-1)%Z /\
    length (sd_iter s) = length (ta_distribution eb) /\
    forall t fuel, t + 1 < length (ta_distribution eb) -> length records <= fuel ->
      sd_iterate fuel s t = Ok (slice (first_record (ta_distribution eb) t) (first_record (ta_distribution eb) (t + 1)) records).
Proof.
  intros Hb Hdt Hl Hd H1. pose proof Hd as (H2 & Hm & H0 & Hla). unfold sd_nonuniform.
  assert (B : forall t, 1 <= t < length (ta_distribution eb) -> 1 <= nth t (ta_distribution eb) 0 <= S (length records)).
  { intros t Ht. assert (Q := dist_bounds _ _ 1 t Hd ltac:(lia)). lia. }
  rewrite (inititerators_ok records) by (auto; try lia; destruct (ta_distribution eb); auto).
  cbn [obind]. eexists. split; [reflexivity|]. cbn. repeat split; auto; [now rewrite map_length, seq_length|].
  intros t fuel Ht Hf. unfold sd_iterate. cbn [sd_iter sd_eb sd_ed].
  rewrite (rd_ok _ t (it_at records 0)) by (rewrite map_length, seq_length; lia).
  rewrite (rd_ok _ (t + 1) (it_at records 0)) by (rewrite map_length, seq_length; lia). cbn [obind].
  rewrite (nth_map_seq (fun t => it_at records (first_record (ta_distribution eb) t))) by lia.
  rewrite (nth_map_seq (fun t => it_at records (first_record (ta_distribution eb) t))) by lia. cbn [Nat.add].
  rewrite Hb, Hdt.
  assert (Q := dist_bounds _ _ t (t + 1) Hd ltac:(lia)). assert (Q1 := B (t + 1) ltac:(lia)).
  unfold first_record. apply it_loop_ok with (n := (nth (t + 1) (ta_distribution eb) 0 - 1) - (nth t (ta_distribution eb) 0 - 1)); lia.
Qed.

(** ** records of a fixed size *)
Definition itu (es i : nat) : iter := mkIter None 0 (Z.of_nat (es * i)) (Z.of_nat (es * S i)).

Lemma pos_uniform records es i : Forall (fun r => length r = es) records -> i <= length records -> pos records i = es * i.
Proof.
  intros F. revert i. induction F; intros i Hi; simpl in Hi.
  - destruct i; [unfold pos; simpl; lia|lia].
  - destruct i; [unfold pos; simpl; lia|]. assert (E := IHF i ltac:(lia)). unfold pos in *. simpl. rewrite app_length. lia.
Qed.

Lemma it_loop_uniform records es : es > 0 -> Forall (fun r => length r = es) records ->
  forall n lo hi fuel, hi = lo + n -> hi <= length records -> n <= fuel ->
  it_loop fuel [] (concat records) (itu es lo) (itu es hi) = Ok (slice lo hi records).
Proof.
  intros He F. induction n; intros lo hi fuel E H Hf.
  - subst. rewrite Nat.add_0_r. replace (slice lo lo records) with (@nil (list A)) by (now rewrite slice_nil).
    destruct fuel; cbn [it_loop]; unfold it_eq; cbn [itu it_element it_b]; rewrite Z.eqb_refl; reflexivity.
  - destruct fuel; [lia|]. cbn [it_loop].
    replace (it_eq (itu es lo) (itu es hi)) with false.
    + assert (P1 := pos_uniform records es lo F ltac:(lia)). assert (P2 := pos_uniform records es (S lo) F ltac:(lia)).
      assert (P3 := pos_le records (S lo)).
      unfold it_deref. cbn [itu it_b it_e]. rewrite (proj2 (Z.leb_le _ _)), (proj2 (Z.leb_le _ _)), (proj2 (Z.leb_le _ _)) by nia. cbn [andb].
      rewrite !Nat2Z.id. rewrite <- P1, <- P2. rewrite record_slice by lia. cbn [obind].
      unfold it_move. cbn [itu it_element it_end it_b it_e obind].
      match goal with |- context [mkIter None 0 ?x ?y] => replace (mkIter None 0 x y) with (itu es (S lo))
        by (unfold itu; f_equal; nia) end.
      rewrite (IHn (S lo) hi fuel) by lia. cbn [obind]. f_equal.
      now rewrite (slice_S lo hi records []) by lia.
    + unfold it_eq. cbn [itu it_element it_b andb]. symmetry. apply Z.eqb_neq. nia.
Qed.

Lemma inititerators_uniform_ok es (ed : tarray A) (r : nat -> nat) : es > 0 -> 1 <= length (ta_distribution ed) ->
  (forall t, t < length (ta_distribution ed) -> nth t (ta_distribution ed) 0 = es * r t) ->
  nth 0 (ta_distribution ed) 0 = 0 ->
  inititerators_uniform (Z.of_nat es) ed = Ok (map (fun t => itu es (r t)) (seq 0 (length (ta_distribution ed)))).
Proof.
  intros He Hl Hd H0. unfold inititerators_uniform.
  rewrite (map_out_nth _ (fun t => itu es (r t))).
  - cbn [obind]. unfold ta_threads. assert (Q := Hd 0 ltac:(lia)). destruct (length (ta_distribution ed)) as [|n]; [lia|].
    replace (S n - 1) with n by lia. cbn [seq map]. do 2 f_equal. unfold it_uniform, itu. rewrite H0 in Q.
    assert (r 0 = 0) by nia. rewrite H. f_equal; lia.
  - intros t Ht. apply in_seq in Ht. unfold ta_threads in Ht. rewrite (rd_ok _ _ 0) by lia. cbn [obind].
    rewrite (proj2 (Z.eqb_neq _ _)) by lia. rewrite Hd by lia.
    rewrite Nat2Z.inj_mul, (Z.mul_comm (Z.of_nat es)), Z.div_mul by lia. unfold it_move, it_uniform, itu. cbn. do 2 f_equal; nia.
Qed.

Lemma sd_uniform_iterate records es (ed : tarray A) (r : nat -> nat) : es > 0 ->
  Forall (fun x => length x = es) records -> ta_list ed = concat records ->
  2 <= length (ta_distribution ed) -> r 0 = 0 ->
  (forall t, t < length (ta_distribution ed) -> nth t (ta_distribution ed) 0 = es * r t) ->
  (forall i j, i <= j < length (ta_distribution ed) -> r i <= r j <= length records) ->
  exists s, sd_uniform (Z.of_nat es) ed = Ok s /\ sd_eb s = ta_empty /\ sd_ed s = ed /\ sd_edatasize s = Z.of_nat es /\
    length (sd_iter s) = length (ta_distribution ed) /\
    forall t fuel, t + 1 < length (ta_distribution ed) -> length records <= fuel ->
      sd_iterate fuel s t = Ok (slice (r t) (r (t + 1)) records).
Proof.
  intros He F Hd Hl H0 Hr Hm. unfold sd_uniform.
  rewrite (inititerators_uniform_ok es ed r) by (auto; try lia; rewrite Hr, H0 by lia; lia).
  cbn [obind]. eexists. split; [reflexivity|]. cbn. repeat split; auto; [now rewrite map_length, seq_length|].
  intros t fuel Ht Hf. unfold sd_iterate. cbn [sd_iter sd_eb sd_ed].
  rewrite (rd_ok _ t (itu 0 0)) by (rewrite map_length, seq_length; lia).
  rewrite (rd_ok _ (t + 1) (itu 0 0)) by (rewrite map_length, seq_length; lia). cbn [obind].
  rewrite (nth_map_seq (fun t => itu es (r t))), (nth_map_seq (fun t => itu es (r t))) by lia. cbn [Nat.add].
  rewrite Hd. change (ta_list ta_empty) with (@nil Z).
  assert (Q := Hm t (t + 1) ltac:(lia)).
  apply it_loop_uniform with (n := r (t + 1) - r t); auto; lia.
Qed.

(** ** permuting *)
Lemma nth_selected records permutation i : i < length permutation ->
  nth i (selected records permutation) [] = nth (Z.to_nat (nth i permutation 0%Z)) records [].
Proof.
  intros H. unfold selected. rewrite (nth_indep _ [] ((fun p => nth (Z.to_nat p) records []) 0%Z)) by (now rewrite map_length).
  now rewrite (map_nth (fun p => nth (Z.to_nat p) records [])).
Qed.

Lemma permuteUniform_loop records es permutation : Forall (fun r => length r = es) records -> valid_indices records permutation ->
  forall n b acc, b + n <= length permutation ->
  foldM (permuteUniform_step (concat records) (Z.of_nat es) permutation) (seq b n) acc =
  Ok (acc ++ concat (slice b (b + n) (selected records permutation))).
Proof.
  intros F Hp. unfold valid_indices in Hp. induction n; intros b acc H; cbn [seq foldM].
  - rewrite Nat.add_0_r, slice_nil. simpl. now rewrite app_nil_r.
  - unfold permuteUniform_step at 1. rewrite (rd_ok _ _ 0%Z) by lia. cbn [obind].
    set (p := nth b permutation 0%Z). assert (Hpb : (0 <= p < Z.of_nat (length records))%Z) by (rewrite Forall_forall in Hp; apply Hp, nth_In; lia).
    assert (P1 := pos_uniform records es (Z.to_nat p) F ltac:(lia)).
    assert (P2 := pos_uniform records es (S (Z.to_nat p)) F ltac:(lia)). assert (P3 := pos_le records (S (Z.to_nat p))).
    unfold range. rewrite (proj2 (Z.leb_le _ _)), (proj2 (Z.leb_le _ _)), (proj2 (Z.leb_le _ _)) by nia. cbn [andb obind].
    replace (Z.to_nat (Z.of_nat es * p)) with (pos records (Z.to_nat p)) by nia.
    replace (Z.to_nat (Z.of_nat es * (p + 1))) with (pos records (S (Z.to_nat p))) by nia.
    rewrite record_slice by lia. rewrite IHn by lia. f_equal. rewrite <- app_assoc. f_equal.
    rewrite (slice_S b (b + S n) _ []) by (unfold selected; rewrite map_length; lia).
    cbn [concat]. rewrite nth_selected by lia. replace (b + S n) with (S b + n) by lia. reflexivity.
Qed.

Lemma permuteNonUniform_loop records permutation : valid_indices records permutation ->
  forall n b pb pd, 1 <= b -> b - 1 + n <= length permutation ->
  foldM (permuteNonUniform_step (boundaries records) (concat records) permutation) (seq b n) (pb, pd) =
  Ok (pb ++ ends (last pb 0%Z) (slice (b - 1) (b - 1 + n) (selected records permutation)),
      pd ++ concat (slice (b - 1) (b - 1 + n) (selected records permutation))).
Proof.
  intros Hp. unfold valid_indices in Hp. induction n; intros b pb pd Hb H; cbn [seq foldM].
  - rewrite Nat.add_0_r, slice_nil. simpl. now rewrite !app_nil_r.
  - unfold permuteNonUniform_step at 1. rewrite (proj2 (Nat.eqb_neq _ _)) by lia. rewrite (rd_ok _ _ 0%Z) by lia. cbn [obind].
    set (p := nth (b - 1) permutation 0%Z). assert (Hpb : (0 <= p < Z.of_nat (length records))%Z) by (rewrite Forall_forall in Hp; apply Hp, nth_In; lia).
    rewrite rdZ_boundaries by lia. cbn [obind]. rewrite rdZ_boundaries by lia. cbn [obind].
    replace (Z.to_nat (p + 1)) with (S (Z.to_nat p)) by lia.
    assert (P1 := pos_S records (Z.to_nat p) ltac:(lia)). assert (P3 := pos_le records (S (Z.to_nat p))).
    unfold range. rewrite (proj2 (Z.leb_le _ _)), (proj2 (Z.leb_le _ _)), (proj2 (Z.leb_le _ _)) by lia. cbn [andb obind].
    rewrite !Nat2Z.id, record_slice by lia.
    set (v := (match pb with [] => _ | _ => _ end)%Z).
    assert (Ev : v = (last pb 0 + Z.of_nat (length (nth (Z.to_nat p) records [])))%Z) by (unfold v; destruct pb; [simpl|]; lia).
    rewrite IHn by lia. rewrite last_last. rewrite <- !app_assoc. replace (S b - 1) with (S (b - 1)) by lia.
    rewrite (slice_S (b - 1) (b - 1 + S n) _ []) by (unfold selected; rewrite map_length; lia).
    rewrite nth_selected by lia. fold p. cbn [ends concat app]. replace (b - 1 + S n) with (S (b - 1) + n) by lia.
    rewrite <- Ev. reflexivity.
Qed.

Lemma split_by_length {B} d (l : list B) : length (split_by d l) = length d - 1.
Proof. unfold split_by. now rewrite map_length, seq_length. Qed.
Lemma split_by_nth {B} d (l : list B) t : t + 1 < length d -> nth t (split_by d l) [] = slice (nth t d 0) (nth (t + 1) d 0) l.
Proof. intros H. unfold split_by. rewrite (nth_map_seq (fun t => slice (nth t d 0) (nth (t + 1) d 0) l)) by lia. reflexivity. Qed.
Lemma split_by_firstn {B} d n (l : list B) k : distribution_of n d -> k < length d ->
  concat (firstn k (split_by d l)) = firstn (nth k d 0) l.
Proof.
  intros Hd Hk. induction k.
  - destruct Hd as (_ & _ & H0 & _). replace (nth 0 d 0) with (hd 0 d) by now destruct d. rewrite H0. reflexivity.
  - rewrite (firstn_S k _ []) by (rewrite split_by_length; lia). rewrite concat_app, IHk by lia. rewrite split_by_nth by lia.
    cbn [concat]. rewrite app_nil_r.
    assert (Q := dist_bounds d n k (k + 1) Hd ltac:(lia)). replace (S k) with (k + 1) by lia.
    replace (firstn (nth k d 0) l) with (slice 0 (nth k d 0) l) by (unfold slice; simpl; now rewrite Nat.sub_0_r).
    rewrite <- slice_app by lia. unfold slice. simpl. now rewrite Nat.sub_0_r.
Qed.
Lemma split_by_concat {B} d n (l : list B) : distribution_of n d -> concat (split_by d l) = firstn n l.
Proof.
  intros Hd. pose proof Hd as (H2 & Hm & H0 & Hl). rewrite <- (firstn_all (split_by d l)), split_by_length.
  rewrite (split_by_firstn d n) by (auto; lia). f_equal. rewrite <- Hl. symmetry. apply last_nth. destruct d; simpl in *; [lia|discriminate].
Qed.

Lemma concat_map_concat (l : list (list (list A))) : concat (map (@concat A) l) = concat (concat l).
Proof. induction l; simpl; auto. rewrite concat_app. now f_equal. Qed.

(** ** boundaries assembled from threads *)
Lemma add_offsets_ends : forall (l : list (list (list A))) off,
  add_offsets off (map (ends 0) l) = map (fun t => ends (off + elements_before l t) (nth t l [])) (seq 0 (length l)).
Proof.
  induction l as [|p l IH]; intros off; auto. cbn [map add_offsets length seq]. f_equal.
  - unfold elements_before. simpl. rewrite Z.add_0_r. clear. 
    assert (G : forall o, map (fun v => (v + off)%Z) (ends o p) = ends (o + off) p).
    { induction p; intros o; simpl; auto. f_equal; [lia|]. rewrite IHp. f_equal. lia. }
    rewrite G. now rewrite Z.add_0_l.
  - rewrite IH, <- seq_shift, map_map. apply map_ext. intros t. cbn [nth]. f_equal.
    replace (last (ends 0 p) 0)%Z with (size p).
    + unfold elements_before. cbn [firstn concat]. rewrite concat_app, app_length. unfold size. lia.
    + destruct p as [|r p]; [reflexivity|]. rewrite (ends_last 0 (r :: p) 0%Z) by discriminate. lia.
Qed.
Lemma add_offsets_tb (p : list (list A)) l :
  add_offsets 0 ((0%Z :: ends 0 p) :: map (ends 0) l) = thread_boundaries (p :: l).
Proof.
  cbn [add_offsets]. rewrite add_offsets_ends. unfold thread_boundaries. cbn [length seq map]. f_equal.
  - cbn [nth Nat.eqb app map]. f_equal. unfold elements_before. simpl.
    rewrite <- (map_id (ends 0 p)) at 2. apply map_ext. intros; lia.
  - rewrite <- seq_shift, map_map. apply map_ext. intros t. cbn [nth Nat.eqb app]. f_equal.
    replace (last (0%Z :: ends 0 p) 0)%Z with (size p).
    + unfold elements_before. cbn [firstn concat]. rewrite concat_app, app_length. unfold size. lia.
    + destruct p as [|r p]; [reflexivity|]. rewrite last_cons_ne by (simpl; discriminate). rewrite ends_last by discriminate. lia.
Qed.

Lemma tb_firstn (parts : list (list (list A))) k : k <= length parts ->
  concat (firstn k (thread_boundaries parts)) = match k with O => [] | _ => boundaries (concat (firstn k parts)) end.
Proof.
  induction k; intros H; [reflexivity|]. rewrite (firstn_S k _ []) by (rewrite tb_length; lia). rewrite concat_app, IHk by lia.
  cbn [concat]. rewrite app_nil_r, tb_nth by lia. rewrite (firstn_S k parts []) by lia. rewrite concat_app. cbn [concat]. rewrite app_nil_r.
  unfold boundaries. rewrite ends_app. unfold elements_before, size.
  destruct k; [reflexivity|]. rewrite (proj2 (Nat.eqb_neq _ _)) by lia. reflexivity.
Qed.
Lemma tb_concat (parts : list (list (list A))) : parts <> [] -> concat (thread_boundaries parts) = boundaries (concat parts).
Proof.
  intros H. rewrite <- (firstn_all (thread_boundaries parts)), tb_length, tb_firstn by lia. rewrite firstn_all.
  destruct parts; [congruence|reflexivity].
Qed.
Lemma tb_distribution (parts : list (list (list A))) t : t <= length parts ->
  nth t (parts_distribution (thread_boundaries parts)) 0 = match t with O => 0 | _ => S (length (concat (firstn t parts))) end.
Proof.
  intros H. rewrite parts_distribution_nth by (now rewrite tb_length). rewrite tb_firstn by auto.
  destruct t; auto. now rewrite boundaries_length.
Qed.

(** both arrays built from thread-local parts *)
Lemma from_parts_holds memb memd schedb schedd esz (parts : list (list (list A))) : parts <> [] ->
  good_memory 8 memb 0 -> good_memory esz memd 0 ->
  parallel_order (length parts) schedb -> parallel_order (length parts) schedd ->
  exists eb ed, ta_from_parts 8 memb schedb (thread_boundaries parts) 0 = Ok eb /\
    ta_from_parts esz memd schedd (map (@concat A) parts) 0 = Ok ed /\
    holds_variable eb ed (concat parts) /\
    forall t, t <= length parts -> nth t (record_distribution (ta_distribution eb)) 0 = length (concat (firstn t parts)).
Proof.
  intros Hne Gb Gd Sb Sd.
  destruct (from_parts_ok 8 memb schedb (thread_boundaries parts) 0 Gb) as (eb & Eb & Lb & Sb' & Db).
  { intros E. assert (Q := tb_length parts). rewrite E in Q. destruct parts; [congruence|discriminate]. }
  { now rewrite tb_length. }
  destruct (from_parts_ok esz memd schedd (map (@concat A) parts) 0 Gd) as (ed & Ed & Ld & Sd' & Dd).
  { destruct parts; [congruence|discriminate]. }
  { now rewrite map_length. }
  exists eb, ed. split; auto. split; auto.
  assert (Lc : length (concat (thread_boundaries parts)) = S (length (concat parts))) by (rewrite tb_concat, boundaries_length; auto).
  assert (NE : thread_boundaries parts <> []).
  { intros E. assert (Q := tb_length parts). rewrite E in Q. destruct parts; [congruence|discriminate]. }
  split.
  - unfold holds_variable. rewrite Lb, Ld, Sb', Db, Dd, Lc, tb_concat, concat_map_concat by auto.
    rewrite !parts_distribution_length, tb_length, map_length. repeat split; auto.
    + assert (Q := parts_distribution_ok (thread_boundaries parts) NE). apply Q.
    + apply (parts_distribution_ok (thread_boundaries parts) NE).
    + assert (Q := parts_distribution_ok (thread_boundaries parts) NE). destruct Q as (_ & _ & _ & Q). rewrite Q. auto.
    + rewrite tb_distribution by (destruct parts; simpl; [congruence|lia]). lia.
  - intros t Ht. unfold record_distribution. rewrite Db. change 0 with (pred 0) at 1. rewrite map_nth.
    rewrite tb_distribution by auto. destruct t; reflexivity.
Qed.

Lemma record_distribution_length d : length (record_distribution d) = length d.
Proof. apply map_length. Qed.
Lemma record_distribution_nth d t : nth t (record_distribution d) 0 = nth t d 0 - 1.
Proof. unfold record_distribution. change 0 with (pred 0) at 1. rewrite map_nth. lia. Qed.
Lemma record_distribution_ok n d : distribution_of (S n) d -> distribution_of n (record_distribution d).
Proof.
  intros (H2 & Hm & H0 & Hl). unfold distribution_of. rewrite record_distribution_length. repeat split; auto.
  - intros i j Hij. rewrite record_distribution_length in Hij. rewrite !record_distribution_nth. assert (Q := Hm i j Hij). lia.
  - destruct d; auto. simpl in *. lia.
  - rewrite last_nth by (destruct d; simpl in *; [lia|discriminate]). rewrite record_distribution_length, record_distribution_nth.
    rewrite <- last_nth by (destruct d; simpl in *; [lia|discriminate]). lia.
Qed.

Lemma holds_variable_visits (eb : tarray Z) (ed : tarray A) records : holds_variable eb ed records ->
  exists its, inititerators eb ed = Ok its /\
   forall es, visits (mkSd eb ed es its) (split_by (record_distribution (ta_distribution eb)) records).
Proof.
  intros (Hb & Hd & Hs & Hl & D & H1).
  destruct (sd_nonuniform_iterate records eb ed) as (s & E & E1 & E2 & E3 & E4 & V); auto.
  unfold sd_nonuniform in E. destruct (inititerators eb ed) as [its| |]; cbn [obind] in E; try discriminate.
  inversion E; subst s. clear E. exists its. split; auto. intros es. cbn in *. unfold visits. cbn [sd_iter].
  pose proof D as (H2 & _).
  rewrite split_by_length, record_distribution_length. split; [lia|].
  intros t fuel Ht Hf. assert (Dr := record_distribution_ok _ _ D).
  rewrite split_by_nth by (rewrite record_distribution_length; lia). rewrite !record_distribution_nth.
  rewrite (split_by_concat _ _ _ Dr), firstn_all in Hf.
  apply (V t fuel); [lia|auto].
Qed.

Lemma holds_uniform_visits es (ed : tarray A) d records : holds_uniform es ed d records ->
  exists its, inititerators_uniform (Z.of_nat es) ed = Ok its /\
   visits (mkSd ta_empty ed (Z.of_nat es) its) (split_by d records).
Proof.
  intros (He & F & Hd & D & Ed). pose proof D as (H2 & Hm & H0 & Hl).
  assert (Ld : length (ta_distribution ed) = length d) by (rewrite Ed; apply map_length).
  assert (Nd : forall t, t < length d -> nth t (ta_distribution ed) 0 = es * nth t d 0).
  { intros t Ht. rewrite Ed. rewrite (nth_indep _ 0 (es * 0)) by (now rewrite map_length).
    now rewrite (map_nth (fun r => es * r)). }
  destruct (sd_uniform_iterate records es ed (fun t => nth t d 0)) as (s & E & E1 & E2 & E3 & E4 & V); auto; try lia.
  - destruct d; auto.
  - intros t Ht. apply Nd. lia.
  - intros i j Hij. apply (dist_bounds d _ i j D). lia.
  - unfold sd_uniform in E. destruct (inititerators_uniform (Z.of_nat es) ed) as [its| |]; cbn [obind] in E; try discriminate.
    inversion E; subst s. clear E. exists its. split; auto. unfold visits. cbn [sd_iter] in *.
    rewrite split_by_length. split; [lia|]. intros t fuel Ht Hf. rewrite split_by_nth by lia.
    rewrite (split_by_concat _ _ _ D), firstn_all in Hf. apply V; [lia|auto].
Qed.

(** ** permute, variable-size records *)
Lemma permuteNonUniform_core esz memb memd schedb schedd (s : sd A) records permutation pd dd n :
  good_memory 8 memb 0 -> good_memory esz memd 0 ->
  holds_variable (sd_eb s) (sd_ed s) records -> valid_indices records permutation ->
  2 <= length pd -> parallel_order (length pd - 1) schedb -> parallel_order (length pd - 1) schedd ->
  (if last pd 0 <? S (length records) then match pd with [] => [] | d0 :: rest => d0 :: map S rest end else pd) = dd ->
  distribution_of n (record_distribution dd) -> length dd = length pd -> (forall t, 1 <= t < length dd -> 1 <= nth t dd 0) ->
  n <= length permutation ->
  exists s', permuteNonUniform esz memb memd schedb schedd s permutation pd = Ok s' /\
    holds_variable (sd_eb s') (sd_ed s') (firstn n (selected records permutation)) /\
    visits s' (split_by (record_distribution dd) (selected records permutation)).
Proof.
  intros Gb Gd (Hb & Hd & Hs & Hl & D & H1) Hp H2 Sb Sd Edd Dr Ldd Hpos Hn.
  pose proof D as (D2 & _ & _ & Dl).
  destruct pd as [|d0 [|d1 rest]] eqn:Epd; simpl in H2; try lia. rewrite <- Epd in *. clear H2.
  assert (H2 : 2 <= length pd) by (rewrite Epd; simpl; lia).
  set (sel := selected records permutation) in *. set (rd_ := record_distribution dd) in *.
  assert (Lrd : length rd_ = length dd) by apply record_distribution_length.
  set (parts := split_by rd_ sel). assert (Lp : length parts = length pd - 1) by (unfold parts; rewrite split_by_length; lia).
  assert (Pne : parts <> []) by (destruct parts; simpl in *; [lia|discriminate]).
  destruct (from_parts_holds memb memd schedb schedd esz parts Pne Gb Gd) as (eb & ed & Eb & Ed & Hv & Hrd);
    [now rewrite Lp..|].
  assert (Cp : concat parts = firstn n sel) by (apply split_by_concat; auto).
  assert (Lsel : length sel = length permutation) by apply map_length.
  rewrite Cp in Hv. destruct (holds_variable_visits eb ed _ Hv) as (its & Ei & Vi).
  assert (EW : permuteNonUniform esz memb memd schedb schedd s permutation pd = Ok (mkSd eb ed (sd_edatasize s) its)).
  { unfold permuteNonUniform. rewrite Hb, Hd.
    destruct (ta_distribution (sd_eb s)) as [|e0 er] eqn:Ee; [simpl in D2; lia|]. rewrite <- Ee in *. rewrite Dl.
    rewrite Epd in Edd. rewrite Epd. rewrite Edd. rewrite <- Epd.
    rewrite (map_out_nth _ (fun t => ((if t =? 0 then [0%Z] else []) ++ ends 0 (nth t parts []), concat (nth t parts [])))).
    - cbn [obind]. rewrite !map_map. cbn [fst snd].
      replace (map (fun t => concat (nth t parts [])) (seq 0 (length pd - 1))) with (map (@concat A) parts).
      2:{ apply list_ext with (d := concat []); [now rewrite !map_length, seq_length, Lp|]. intros i Hi. rewrite map_length in Hi.
          rewrite map_nth.
          rewrite (nth_map_seq (fun t => concat (nth t parts []))) by lia. reflexivity. }
      replace (map (fun t => (if t =? 0 then [0%Z] else []) ++ ends 0 (nth t parts [])) (seq 0 (length pd - 1)))
        with (match parts with [] => [] | p :: l => (0%Z :: ends 0 p) :: map (ends 0) l end).
      + destruct parts as [|p l] eqn:Ep; [congruence|]. rewrite add_offsets_tb. rewrite Eb. cbn [obind]. rewrite Ed. cbn [obind].
        rewrite Ei. cbn [obind]. reflexivity.
      + destruct parts as [|p l] eqn:Ep; [congruence|]. simpl in Lp. rewrite <- Lp. cbn [seq map]. f_equal.
        rewrite <- seq_shift, map_map. apply list_ext with (d := @ends A 0 []); [now rewrite !map_length, seq_length|].
        intros i Hi. rewrite map_length in Hi. rewrite map_nth.
        rewrite (nth_map_seq (fun t => (if S t =? 0 then [0%Z] else []) ++ ends 0 (nth (S t) (p :: l) []))) by lia. reflexivity.
    - intros t Ht. apply in_seq in Ht.
      assert (B := dist_bounds rd_ n t (t + 1) Dr ltac:(lia)). unfold rd_ in B. rewrite !record_distribution_nth in B. fold rd_ in B.
      assert (P1 := Hpos (t + 1) ltac:(lia)).
      assert (Et : nth t parts [] = slice (nth t dd 0 - 1) (nth (t + 1) dd 0 - 1) sel).
      { unfold parts. rewrite split_by_nth by lia. unfold rd_. now rewrite !record_distribution_nth. }
      assert (Z0 : nth 0 dd 0 - 1 = 0).
      { destruct Dr as (_ & _ & Z & _). unfold rd_, record_distribution in Z. destruct dd; simpl in *; lia. }
      destruct (Nat.eqb_spec t 0) as [T0|T0]; cbn [obind].
      + subst t. rewrite (rd_ok _ _ 0) by lia. cbn [obind]. rewrite permuteNonUniform_loop by (auto; lia).
        rewrite Et, Z0. reflexivity.
      + rewrite (rd_ok _ t 0), (rd_ok _ (t + 1) 0) by lia. cbn [obind]. assert (P0 := Hpos t ltac:(lia)).
        rewrite permuteNonUniform_loop by (auto; lia). rewrite Et. fold sel. cbn [app last].
        replace (nth t dd 0 - 1 + (nth (t + 1) dd 0 - nth t dd 0)) with (nth (t + 1) dd 0 - 1) by lia. reflexivity. }
  eexists. split; [exact EW|]. cbn [sd_eb sd_ed]. split; [exact Hv|].
  assert (Le : length (ta_distribution eb) = S (length parts)).
  { pose proof Eb as Q. unfold ta_from_parts in Q.
    destruct (from_parts_ok 8 memb schedb (thread_boundaries parts) 0 Gb) as (eb' & Eb' & _ & _ & Db).
    - intros E. assert (X := tb_length parts). rewrite E in X. destruct parts; [congruence|discriminate].
    - rewrite tb_length. now rewrite Lp.
    - rewrite Eb in Eb'. inversion Eb'; subst eb'. rewrite Db, parts_distribution_length, tb_length. auto. }
  assert (Er : record_distribution (ta_distribution eb) = rd_).
  { apply list_ext with (d := 0).
    - rewrite record_distribution_length. lia.
    - intros i Hi. rewrite record_distribution_length in Hi. rewrite Hrd by lia. unfold parts.
      rewrite (split_by_firstn rd_ n) by (auto; lia). rewrite firstn_length.
      assert (Q := dist_bounds rd_ n i i Dr ltac:(lia)). lia. }
  destruct (Vi (sd_edatasize s)) as (V1 & V2). rewrite Er in V1, V2. rewrite split_by_length in V1, V2.
  rewrite (split_by_concat _ _ _ Dr), firstn_firstn, Nat.min_id in V2.
  unfold visits. unfold parts. rewrite split_by_length. split; [exact V1|]. intros t fuel Ht Hf.
  rewrite (split_by_concat _ _ _ Dr) in Hf.
  rewrite V2 by auto. f_equal. rewrite !split_by_nth by lia.
  assert (Q := dist_bounds rd_ n t (t + 1) Dr ltac:(lia)). unfold slice.
  rewrite skipn_firstn_comm, firstn_firstn. f_equal. lia.
Qed.

(** the distribution counts records *)
Lemma permuteNonUniform_ok esz memb memd schedb schedd (s : sd A) records permutation d n :
  good_memory 8 memb 0 -> good_memory esz memd 0 ->
  holds_variable (sd_eb s) (sd_ed s) records -> valid_indices records permutation ->
  distribution_of n d -> n <= length records -> n <= length permutation ->
  parallel_order (length d - 1) schedb -> parallel_order (length d - 1) schedd ->
  exists s', permuteNonUniform esz memb memd schedb schedd s permutation d = Ok s' /\
    holds_variable (sd_eb s') (sd_ed s') (firstn n (selected records permutation)) /\
    visits s' (split_by d (selected records permutation)).
Proof.
  intros Gb Gd Hv Hp Hd Hn Hn' Sb Sd. pose proof Hd as (H2 & Hm & H0 & Hl).
  destruct d as [|d0 rest] eqn:Ed; [simpl in H2; lia|]. rewrite <- Ed in *.
  assert (Hd0 : d0 = 0) by (subst d; auto).
  assert (Er : record_distribution (d0 :: map S rest) = d).
  { subst d d0. unfold record_distribution. simpl. f_equal. rewrite map_map. simpl. apply map_id. }
  destruct (permuteNonUniform_core esz memb memd schedb schedd s records permutation d (d0 :: map S rest) n) as (s' & E & H & V);
    auto.
  - rewrite Hl. rewrite (proj2 (Nat.ltb_lt _ _)) by lia. subst d. reflexivity.
  - now rewrite Er.
  - subst d. simpl. now rewrite map_length.
  - intros t Ht. destruct t; [lia|]. cbn [nth]. cbn [length] in Ht. rewrite map_length in Ht.
    rewrite (nth_indep _ 0 (S 0)) by (rewrite map_length; lia). rewrite map_nth. lia.
  - exists s'. rewrite Er in V. auto.
Qed.

(** the distribution counts boundaries *)
Lemma permuteNonUniform_boundary_ok esz memb memd schedb schedd (s : sd A) records permutation d n :
  good_memory 8 memb 0 -> good_memory esz memd 0 ->
  holds_variable (sd_eb s) (sd_ed s) records -> valid_indices records permutation ->
  distribution_of (S n) d -> 1 <= nth 1 d 0 -> length records <= n -> n <= length permutation ->
  parallel_order (length d - 1) schedb -> parallel_order (length d - 1) schedd ->
  exists s', permuteNonUniform esz memb memd schedb schedd s permutation d = Ok s' /\
    holds_variable (sd_eb s') (sd_ed s') (firstn n (selected records permutation)) /\
    visits s' (split_by (record_distribution d) (selected records permutation)).
Proof.
  intros Gb Gd Hv Hp Hd H1 Hn Hn' Sb Sd. pose proof Hd as (H2 & Hm & H0 & Hl).
  apply permuteNonUniform_core; auto.
  - rewrite Hl. rewrite (proj2 (Nat.ltb_ge _ _)) by lia. reflexivity.
  - now apply record_distribution_ok.
  - intros t Ht. assert (Q := dist_bounds d _ 1 t Hd ltac:(lia)). lia.
Qed.

Lemma permuteUniform_ok esz mem sched (s : sd A) es d0 records permutation d n :
  good_memory esz mem 0 -> sd_eb s = ta_empty -> sd_edatasize s = Z.of_nat es ->
  holds_uniform es (sd_ed s) d0 records -> valid_indices records permutation ->
  distribution_of n d -> n <= length permutation -> parallel_order (length d - 1) sched ->
  exists s', permuteUniform esz mem sched s permutation d = Ok s' /\
    sd_eb s' = ta_empty /\ sd_edatasize s' = Z.of_nat es /\
    holds_uniform es (sd_ed s') d (firstn n (selected records permutation)) /\
    visits s' (split_by d (selected records permutation)).
Proof.
  intros G Eb Es (He & F & Hd & D & Ed) Hp Dn Hn Sd. pose proof Dn as (H2 & Hm & H0 & Hl).
  set (sel := selected records permutation) in *. set (parts := split_by d sel).
  assert (Lp : length parts = length d - 1) by apply split_by_length.
  assert (Cp : concat parts = firstn n sel) by (apply split_by_concat; auto).
  assert (Lsel : length sel = length permutation) by apply map_length.
  assert (Fsel : Forall (fun r => length r = es) sel).
  { unfold sel, selected. apply Forall_map. unfold valid_indices in Hp. rewrite Forall_forall in *. intros p Hin. apply F. apply nth_In.
    assert (Q := Hp p Hin). lia. }
  destruct (from_parts_ok esz mem sched (map (@concat A) parts) 0 G) as (ed & Ee & Le & Se & De).
  { destruct parts; simpl in *; [lia|discriminate]. }
  { now rewrite map_length, Lp. }
  assert (U : holds_uniform es ed d (firstn n sel)).
  { unfold holds_uniform. split; auto. split; [|split; [|split]].
    - rewrite Forall_forall in *. intros x Hx. apply Fsel. rewrite <- (firstn_skipn n sel). apply in_or_app. auto.
    - now rewrite Le, concat_map_concat, Cp.
    - rewrite firstn_length, Nat.min_l by lia. auto.
    - rewrite De. apply list_ext with (d := es * 0).
      + rewrite parts_distribution_length, !map_length. lia.
      + intros i Hi. rewrite parts_distribution_length, map_length in Hi.
        rewrite (map_nth (fun r => es * r)). rewrite Nat.mul_0_r. rewrite parts_distribution_nth by (rewrite map_length; lia).
        rewrite firstn_map, concat_map_concat. unfold parts. rewrite (split_by_firstn d n) by (auto; lia).
        assert (Q := dist_bounds d n i i Dn ltac:(lia)).
        apply (pos_uniform sel es (nth i d 0)); auto. lia. }
  destruct (holds_uniform_visits es ed d _ U) as (its & Ei & Vi).
  assert (EW : permuteUniform esz mem sched s permutation d = Ok (mkSd ta_empty ed (Z.of_nat es) its)).
  { unfold permuteUniform. rewrite Hd, Es, Eb.
    rewrite (map_out_nth _ (fun t => concat (nth t parts []))).
    - cbn [obind]. replace (map (fun t => concat (nth t parts [])) (seq 0 (length d - 1))) with (map (@concat A) parts).
      2:{ apply list_ext with (d := concat []); [now rewrite !map_length, seq_length, Lp|]. intros i Hi. rewrite map_length in Hi.
          rewrite map_nth. rewrite (nth_map_seq (fun t => concat (nth t parts []))) by lia. reflexivity. }
      rewrite Ee. cbn [obind]. rewrite Ei. reflexivity.
    - intros t Ht. apply in_seq in Ht. assert (Q := dist_bounds d n t (t + 1) Dn ltac:(lia)).
      rewrite (rd_ok _ t 0), (rd_ok _ (t + 1) 0) by lia. cbn [obind].
      rewrite permuteUniform_loop by (auto; lia). cbn [app]. fold sel. unfold parts. rewrite split_by_nth by lia.
      do 3 f_equal. lia. }
  exists (mkSd ta_empty ed (Z.of_nat es) its). split; [exact EW|]. split; [reflexivity|]. split; [reflexivity|].
  split; [exact U|]. destruct Vi as (V1 & V2). rewrite split_by_length in V1, V2.
  rewrite (split_by_concat _ _ _ Dn), firstn_firstn, Nat.min_id in V2.
  unfold visits. try (unfold parts). rewrite split_by_length. split; [exact V1|]. intros t fuel Ht Hf.
  rewrite (split_by_concat _ _ _ Dn) in Hf.
  rewrite V2 by auto. f_equal. rewrite !split_by_nth by lia.
  assert (Q := dist_bounds d n t (t + 1) Dn ltac:(lia)). unfold slice.
  rewrite skipn_firstn_comm, firstn_firstn. f_equal. lia.
Qed.
End Records.
