(** * Lemmas on the sparsity pattern of a domain: the rows without duplicates *)
From Coq Require Import List Arith Bool Lia Sorted Permutation.
From Verif Require Import Base S_Order S_Assembly M_Assembly M_Utils L_Utils L_Dual2 L_TotalFeti L_Numbering L_Pattern.
Import ListNotations.
Local Open Scope out_scope.

Lemma slice_sub {A} (d : A) b e b' e' (x y : list A) : length x = length y -> b <= b' -> e' <= e -> e <= length x -> slice b e x = slice b e y -> slice b' e' x = slice b' e' y.
Proof.
  intros L Hb He Hl E. destruct (Nat.le_gt_cases b' e') as [Q|Q]; [|unfold slice; replace (e' - b') with 0 by lia; auto].
  apply nth_ext with (d := d) (d' := d). { rewrite !slice_length; lia. }
  intros i Hi. rewrite slice_length in Hi by lia. rewrite !nth_slice by lia.
  pose proof (f_equal (fun l => nth (b' - b + i) l d) E) as N; cbn beta in N. rewrite !nth_slice in N by lia. replace (b + (b' - b + i)) with (b' + i) in N by lia. auto.
Qed.

Lemma unique_loop b e data : b < e <= length data ->
  exists cur u, foldM unique_step (seq (b + 1) (e - (b + 1))) (data, b) = Ok (cur, u) /\ length cur = length data /\ b <= u < e /\
    slice b (u + 1) cur = compress Nat.eqb (slice b e data) /\
    slice 0 b cur = slice 0 b data /\ slice e (length data) cur = slice e (length data) data.
Proof.
  intros H.
  destruct (foldM_seq_inv unique_step (fun d (s : list nat * nat) =>
    length (fst s) = length data /\ b <= snd s < d /\ slice 0 b (fst s) = slice 0 b data /\
    slice b (S (snd s)) (fst s) = compress Nat.eqb (slice b d data) /\
    slice d (length data) (fst s) = slice d (length data) data) (b + 1) (e - (b + 1)) (data, b)) as ([cur u] & E & L & Hu & O & K & R).
  - cbn [fst snd]. repeat split; auto; try lia.
    replace (b + 1) with (S b) by lia. rewrite (slice_one 0) by lia. reflexivity.
  - intros d [cur u] Hd (L & Hu & O & K & R); cbn [fst snd] in *. unfold unique_step.
    rewrite !(rd_ok cur _ 0) by lia. cbn [obind].
    assert (Ev : nth d cur 0 = nth d data 0).
    { pose proof (f_equal (fun l => nth 0 l 0) R) as N; cbn beta in N; rewrite !nth_slice, Nat.add_0_r in N by lia; auto. }
    assert (Hns : slice b d data <> []).
    { intros Hc. apply (f_equal (@length nat)) in Hc. rewrite slice_length in Hc by lia. simpl in Hc. lia. }
    assert (Eu : nth u cur 0 = last (slice b d data) 0).
    { rewrite <- (compress_last Nat.ltb Nat.eqb 0 Nat.eqb_eq) by auto. rewrite <- K. rewrite (slice_snoc 0) by lia. rewrite last_last. reflexivity. }
    assert (Rd : slice (S d) (length data) cur = slice (S d) (length data) data) by (apply (slice_sub 0 d (length data)); auto; lia).
    rewrite Eu, Ev.
    destruct (last (slice b d data) 0 =? nth d data 0) eqn:Ee.
    + eexists; split; [reflexivity|]; cbn [fst snd]. repeat split; auto; try lia.
      rewrite (slice_snoc 0 b d data), (compress_snoc Nat.eqb 0 Nat.eqb_eq) by (auto; lia). rewrite Ee. exact K.
    + rewrite wr_ok by lia. cbn [obind]. eexists; split; [reflexivity|]; cbn [fst snd].
      rewrite upd_length. replace (u + 1) with (S u) by lia. repeat split; auto; try lia.
      * rewrite upd_put by lia. rewrite slice_put_before by lia. exact O.
      * rewrite (slice_snoc 0) by (rewrite upd_length; lia). rewrite nth_upd, Nat.eqb_refl by lia.
        rewrite upd_put by lia. rewrite slice_put_before by lia. rewrite K.
        rewrite (slice_snoc 0 b d data), (compress_snoc Nat.eqb 0 Nat.eqb_eq) by (auto; lia). now rewrite Ee.
      * rewrite upd_put by lia. rewrite slice_put_after by (cbn [length]; lia). exact Rd.
  - cbn [fst snd] in *. replace (b + 1 + (e - (b + 1))) with e in * by lia. exists cur, u; split; auto. replace (u + 1) with (S u) by lia. repeat split; auto; lia.
Qed.

Lemma unique_row_ok sort begin indices fin n b e : sort_contract Nat.ltb sort -> n < length begin -> n < length fin -> nth n begin 0 = b -> nth n fin 0 = e -> b < e <= length indices ->
  exists cur, unique_row sort begin (indices, fin) n = Ok (cur, upd fin n (b + length (compress Nat.eqb (sort (slice b e indices))))) /\ length cur = length indices /\
    slice b (b + length (compress Nat.eqb (sort (slice b e indices)))) cur = compress Nat.eqb (sort (slice b e indices)) /\
    slice 0 b cur = slice 0 b indices /\ slice e (length indices) cur = slice e (length indices) indices /\ b + length (compress Nat.eqb (sort (slice b e indices))) <= e.
Proof.
  intros SC H1 H2 E1 E2 H. unfold unique_row. rewrite (rd_ok begin _ 0), (rd_ok fin _ 0) by auto; cbn [obind]. rewrite E1, E2.
  rewrite (proj2 (Nat.ltb_ge e b)), (proj2 (Nat.ltb_ge (length indices) e)) by lia. cbn [orb].
  assert (Ls : length (sort (slice b e indices)) = e - b). { rewrite <- (Permutation_length (proj1 (SC (slice b e indices)))), slice_length; lia. }
  set (data := put b e indices (sort (slice b e indices))).
  assert (Ld : length data = length indices) by (apply put_length; auto; lia).
  destruct (unique_loop b e data) as (cur & u & E & L & Hu & K & O & R); [lia|].
  rewrite E; cbn [obind]. rewrite wr_ok by auto; cbn [obind].
  assert (Es : slice b e data = sort (slice b e indices)) by (apply slice_put_same; auto; lia). rewrite Es in K.
  assert (Lk : u + 1 = b + length (compress Nat.eqb (sort (slice b e indices)))). { rewrite <- K, slice_length by lia; lia. }
  exists cur. rewrite <- Lk. split; auto. split; [congruence|]. split; auto. split. { rewrite O. apply slice_put_before; lia. } split; [|lia].
  rewrite Ld in R; rewrite R. unfold data. apply slice_put_after; auto; lia.
Qed.

Section Rows.
  Variables (cnt : list nat) (P : list (nat * nat)) (sort : list nat -> list nat).
  Local Notation size := (length cnt).
  Local Notation B i := (list_sum (firstn i cnt)).
  Hypothesis fits : forall i, length (at_pos i P) <= nth i cnt 0.
  Hypothesis rows_ok : forall x, In x P -> fst x < size.
  Hypothesis nonempty : forall i, i < size -> at_pos i P <> [].
  Hypothesis SC : sort_contract Nat.ltb sort.
  Definition prow (i : nat) : list nat := compress Nat.eqb (sort (at_pos i P)).
  Definition begins : list nat := offsets 0 (cnt ++ [0]).
  Lemma begins_length : length begins = size + 1.
  Proof. unfold begins; rewrite offsets_length, app_length; auto. Qed.
  Lemma begins_nth i : i <= size -> nth i begins 0 = B i.
  Proof. intros H; unfold begins. rewrite offsets_nth by (rewrite app_length; simpl; lia). rewrite firstn_app. replace (i - size) with 0 by lia. simpl; rewrite app_nil_r; auto. Qed.

  Lemma prow_in i j : In j (prow i) <-> In (i, j) P.
  Proof. unfold prow; rewrite (compress_in Nat.ltb Nat.eqb 0 Nat.eqb_eq). rewrite <- at_pos_in. split; apply Permutation_in; [apply Permutation_sym|]; apply SC. Qed.
  Lemma prow_ne i : i < size -> prow i <> [].
  Proof. intros H; unfold prow. intros E. pose proof (proj1 (compress_nil Nat.ltb Nat.eqb 0 Nat.eqb_eq _) E) as E'; clear E. apply (nonempty i H). apply Permutation_nil. rewrite <- E'. apply Permutation_sym, SC. Qed.
  Lemma prow_sorted i : StronglySorted lt (prow i).
  Proof.
    unfold prow. generalize (proj2 (SC (at_pos i P))). generalize (sort (at_pos i P)). induction l as [|a l IH]; intros H; [constructor|]. destruct l as [|b t]; [repeat constructor|].
    apply StronglySorted_inv in H. destruct H as [Hs Hf]. rewrite compress_cons. destruct (a =? b) eqn:E; [apply IH; exact Hs|].
    constructor; [apply IH; exact Hs|]. apply Forall_forall. intros x Hx. pose proof (proj1 (compress_in Nat.ltb Nat.eqb 0 Nat.eqb_eq _ _) Hx) as Hx'; clear Hx; rename Hx' into Hx. rewrite Forall_forall in Hf.
    assert (Hab : a <= b). { pose proof (Hf b (or_introl eq_refl)) as Q. unfold le_of in Q. apply Nat.ltb_ge in Q; auto. }
    apply Nat.eqb_neq in E. destruct Hx as [->|Hx]; [lia|]. apply StronglySorted_inv in Hs. destruct Hs as [_ Hs]. rewrite Forall_forall in Hs. specialize (Hs x Hx). unfold le_of in Hs; apply Nat.ltb_ge in Hs; lia.
  Qed.

  Definition rows_state (n : nat) (indices fin : list nat) : Prop :=
    length indices = B size /\ length fin = size + 1 /\
    forall i, i < size -> let r := if i <? n then prow i else at_pos i P in nth i fin 0 = B i + length r /\ slice (B i) (B i + length r) indices = r /\ length r <= nth i cnt 0.
  Lemma unique_all indices fin : buckets cnt P indices fin -> exists indices' fin', foldM (unique_row sort begins) (seq 0 size) (indices, fin) = Ok (indices', fin') /\ rows_state size indices' fin'.
  Proof.
    intros I. destruct (foldM_seq_inv (unique_row sort begins) (fun n st => rows_state n (fst st) (snd st)) 0 size (indices, fin)) as ([i' f'] & E & H).
    - destruct I as [I1 I2 I3 I4]. split; [|split]; auto. intros i Hi; cbn [fst snd Nat.ltb Nat.leb]. cbv zeta. rewrite <- I3 by auto. repeat split; auto.
    - intros n [ix fn] Hn (S1 & S2 & S3); cbn [fst snd] in *. assert (Hn' : n < size) by lia.
      pose proof (S3 n Hn') as (F & R & C). rewrite Nat.ltb_irrefl in *. pose proof (nonempty n Hn') as NE.
      assert (0 < length (at_pos n P)) by (destruct (at_pos n P); [congruence | simpl; lia]).
      pose proof (sum_firstn_S cnt n Hn') as Hs. pose proof (sum_firstn_mono cnt (S n) size ltac:(lia)) as Hm.
      destruct (unique_row_ok sort begins ix fn n (B n) (B n + length (at_pos n P))) as (cur & E & L & K & O & Q & Le); auto; try lia.
      { rewrite begins_length; lia. } { rewrite begins_nth; lia. }
      rewrite R in *. fold (prow n) in *. eexists; split; [exact E|]; cbn [fst snd]. split; [congruence|]. split; [rewrite upd_length; auto|].
      intros i Hi; cbv zeta. rewrite nth_upd by lia. pose proof (sum_firstn_S cnt i Hi) as Hs'. pose proof (sum_firstn_mono cnt (S i) size ltac:(lia)) as Hm'.
      destruct (Nat.eqb_spec n i).
      + subst i. rewrite (proj2 (Nat.ltb_lt n (S n))) by lia. repeat split; auto. lia.
      + pose proof (S3 i Hi) as T; cbv zeta in T. replace (i <? S n) with (i <? n); [|destruct (Nat.ltb_spec i n), (Nat.ltb_spec i (S n)); auto; lia].
        destruct T as (T1 & T2 & T3). repeat split; auto. transitivity (slice (B i) (B i + length (if i <? n then prow i else at_pos i P)) ix); [|exact T2].
        destruct (Nat.lt_ge_cases i n) as [W|W].
        * pose proof (sum_firstn_mono cnt (S i) n ltac:(lia)). apply (slice_sub 0 0 (B n)); auto; lia.
        * pose proof (sum_firstn_mono cnt (S n) i ltac:(lia)). apply (slice_sub 0 (B n + length (at_pos n P)) (length ix)); auto; lia.
    - exists i', f'; split; auto.
  Qed.
End Rows.
