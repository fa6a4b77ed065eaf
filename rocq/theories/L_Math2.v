(** * Lemmas about the packed storage of dense matrices *)
From Coq Require Import List Bool Arith ZArith Permutation Sorted Lia.
From Verif Require Import Base S_Order M_Csx M_Dnx M_Math S_Csx S_Dnx S_Math L_Utils L_Csx L_Csx2 L_Csx3 L_Dnx2 L_Math.
Import ListNotations.
Local Open Scope out_scope.

Lemma row_major_in shape nr nc i j : In (i, j) (row_major shape nr nc) <-> i < nr /\ j < nc /\ in_part shape i j = true.
Proof.
  unfold row_major. rewrite in_flat_map. split.
  - intros (a & Ha & Hx). apply in_map_iff in Hx. destruct Hx as (b & E & Hb). inversion E; subst. apply filter_In in Hb. rewrite in_seq in *. destruct Hb. split; [lia|]. split; [lia|auto].
  - intros (H1 & H2 & H3). exists i. split; [apply in_seq; lia|]. apply in_map. apply filter_In. split; auto. apply in_seq; lia.
Qed.

Lemma row_major_nodup shape nr nc : NoDup (row_major shape nr nc).
Proof.
  unfold row_major. generalize 0 at 2. induction nr as [|nr IH]; intros s; cbn [seq flat_map]; [constructor|].
  assert (G : forall x, In x (flat_map (fun i => map (pair i) (filter (in_part shape i) (seq 0 nc))) (seq (S s) nr)) -> s < fst x).
  { intros x Hx. apply in_flat_map in Hx. destruct Hx as (a & Ha & Hx). apply in_map_iff in Hx. destruct Hx as (b & <- & _). apply in_seq in Ha. cbn. lia. }
  specialize (IH (S s)). revert IH G. generalize (flat_map (fun i => map (pair i) (filter (in_part shape i) (seq 0 nc))) (seq (S s) nr)).
  intros l IH G. assert (ND : NoDup (filter (in_part shape s) (seq 0 nc))) by (apply NoDup_filter, seq_NoDup).
  induction ND as [|a r Ha ND IHr]; cbn [map app]; auto. constructor; auto.
  intros Hi. apply in_app_or in Hi. destruct Hi as [Hi|Hi].
  - apply in_map_iff in Hi. destruct Hi as (b & E & Hb). inversion E; subst. auto.
  - apply G in Hi. cbn in Hi. lia.
Qed.

(** packed position as a natural number *)
Definition packed (shape : uplo) (n i j : nat) : nat :=
  match shape with
  | UploU => length (flat_map (fun i => map (pair i) (filter (in_part UploU i) (seq 0 n))) (seq 0 i)) + (j - i)
  | _ => i * n + j
  end.

Lemma filter_upper i n : i <= n -> filter (in_part UploU i) (seq 0 n) = seq i (n - i).
Proof.
  intros H. replace n with (i + (n - i)) at 1 by lia. rewrite seq_app, filter_app. cbn [Nat.add].
  assert (A : forall l, (forall x, In x l -> x < i) -> filter (in_part UploU i) l = []).
  { induction l as [|x l IH]; auto. intros Hl. cbn [filter in_part]. destruct (Nat.leb_spec i x); [specialize (Hl x (or_introl eq_refl)); lia|].
    apply IH. intros; apply Hl; right; auto. }
  assert (B : forall l, (forall x, In x l -> i <= x) -> filter (in_part UploU i) l = l).
  { induction l as [|x l IH]; auto. intros Hl. cbn [filter in_part]. destruct (Nat.leb_spec i x); [|specialize (Hl x (or_introl eq_refl)); lia].
    f_equal. apply IH. intros; apply Hl; right; auto. }
  rewrite A by (intros x Hx; apply in_seq in Hx; lia). rewrite B by (intros x Hx; apply in_seq in Hx; lia). reflexivity.
Qed.

Lemma filter_full i n : filter (in_part UploNone i) (seq 0 n) = seq 0 n.
Proof. induction (seq 0 n) as [|x l IH]; auto. cbn [filter in_part]. now rewrite IH. Qed.

Lemma upper_rows n i : i <= n ->
  2 * length (flat_map (fun i => map (pair i) (filter (in_part UploU i) (seq 0 n))) (seq 0 i)) + i * i = 2 * i * n + i.
Proof.
  induction i; intros H; [reflexivity|]. rewrite seq_S, flat_map_app, app_length. cbn [Nat.add flat_map].
  rewrite app_nil_r, map_length, filter_upper by lia. rewrite seq_length. specialize (IHi ltac:(lia)). nia.
Qed.

Lemma full_rows n i : length (flat_map (fun i => map (pair i) (filter (in_part UploNone i) (seq 0 n))) (seq 0 i)) = i * n.
Proof.
  induction i; [reflexivity|]. rewrite seq_S, flat_map_app, app_length. cbn [Nat.add flat_map].
  rewrite app_nil_r, map_length, filter_full, seq_length. lia.
Qed.

Definition packable (shape : uplo) (nr nc : nat) : Prop := shape = UploNone \/ (shape = UploU /\ nr = nc).

(** the packed position is the place in the row-major enumeration *)
Lemma packed_nth shape nr nc i j : packable shape nr nc -> i < nr -> j < nc -> in_part shape i j = true ->
  nth_error (row_major shape nr nc) (packed shape nc i j) = Some (i, j).
Proof.
  intros HP Hi Hj Hp. unfold row_major. replace nr with (i + S (nr - i - 1)) at 1 by lia. rewrite seq_app, flat_map_app. cbn [Nat.add seq flat_map].
  destruct HP as [->|[-> E]]; unfold packed.
  - rewrite nth_error_app2; rewrite full_rows; [|lia]. rewrite nth_error_app1 by (rewrite map_length, filter_full, seq_length; lia).
    rewrite filter_full, nth_error_map. replace (i * nc + j - i * nc) with j by lia.
    rewrite (nth_error_nth' (seq 0 nc) 0) by (rewrite seq_length; lia). rewrite seq_nth by lia. reflexivity.
  - cbn [in_part] in Hp. apply Nat.leb_le in Hp. rewrite nth_error_app2 by lia.
    rewrite nth_error_app1 by (rewrite map_length, filter_upper, seq_length by lia; lia).
    rewrite filter_upper by lia. rewrite nth_error_map.
    match goal with |- context [nth_error _ ?k] => replace k with (j - i) by lia end.
    rewrite (nth_error_nth' (seq i (nc - i)) 0) by (rewrite seq_length; lia). rewrite seq_nth by lia. cbn [option_map]. do 2 f_equal. lia.
Qed.

Lemma packed_index shape nr nc i j : packable shape nr nc -> i < nr -> j < nc -> in_part shape i j = true ->
  dense_index shape (Z.of_nat i) (Z.of_nat j) (Z.of_nat nc) = Z.of_nat (packed shape nc i j).
Proof.
  intros HP Hi Hj Hp. destruct HP as [->|[-> E]]; unfold dense_index, packed; [lia|].
  cbn [in_part] in Hp. apply Nat.leb_le in Hp. pose proof (upper_rows nc i ltac:(lia)) as H.
  set (k := length _) in *. apply (f_equal Z.of_nat) in H. rewrite !Nat2Z.inj_add, !Nat2Z.inj_mul in H.
  assert (D : (Z.of_nat i * (Z.of_nat i - 1) / 2 = Z.of_nat i * Z.of_nat nc - Z.of_nat k)%Z).
  { symmetry; apply Z.div_unique_exact; [lia|]. change (Z.of_nat 2) with 2%Z in H. nia. }
  rewrite D. lia.
Qed.

Lemma row_major_length shape nr nc : packable shape nr nc -> length (row_major shape nr nc) = dense_nnz shape nr nc.
Proof.
  intros HP. unfold row_major, dense_nnz. destruct HP as [->|[-> E]]; [apply full_rows|]. subst nr.
  pose proof (upper_rows nc nc ltac:(lia)) as H. set (k := length _) in *. apply (f_equal Z.of_nat) in H.
  rewrite !Nat2Z.inj_add, !Nat2Z.inj_mul in H. change (Z.of_nat 2) with 2%Z in H.
  assert (Q : (Z.quot (Z.of_nat nc * Z.of_nat nc - Z.of_nat nc) 2 = Z.of_nat k - Z.of_nat nc)%Z).
  { rewrite Z.quot_div_nonneg by nia. symmetry. apply Z.div_unique_exact; [lia|]. nia. }
  rewrite Q. lia.
Qed.

Lemma packed_lt shape nr nc i j : packable shape nr nc -> i < nr -> j < nc -> in_part shape i j = true ->
  packed shape nc i j < dense_nnz shape nr nc.
Proof.
  intros. rewrite <- row_major_length by auto. apply nth_error_Some. rewrite packed_nth by auto. discriminate.
Qed.

Lemma packed_inj shape nr nc i j i' j' : packable shape nr nc -> i < nr -> j < nc -> in_part shape i j = true ->
  i' < nr -> j' < nc -> in_part shape i' j' = true -> packed shape nc i j = packed shape nc i' j' -> i = i' /\ j = j'.
Proof.
  intros HP A1 A2 A3 B1 B2 B3 E. pose proof (packed_nth shape nr nc i j HP A1 A2 A3) as X.
  rewrite E, (packed_nth shape nr nc i' j' HP B1 B2 B3) in X. inversion X. auto.
Qed.

(** an array written by assignments to packed positions *)
Lemma packed_assign {T} shape nr nc (zero : T) (want : nat -> nat -> option T) (L : list (nat * nat * T)) : packable shape nr nc ->
  (forall x, In x L -> fst (fst x) < nr /\ snd (fst x) < nc /\ in_part shape (fst (fst x)) (snd (fst x)) = true /\
                       want (fst (fst x)) (snd (fst x)) = Some (snd x)) ->
  (forall i j v, i < nr -> j < nc -> in_part shape i j = true -> want i j = Some v -> exists x, In x L /\ fst (fst x) = i /\ snd (fst x) = j) ->
  foldM (fun v x => wrz v (dense_index shape (Z.of_nat (fst (fst x))) (Z.of_nat (snd (fst x))) (Z.of_nat nc)) (snd x)) L (repeat zero (dense_nnz shape nr nc)) =
  Ok (map (fun ij => match want (fst ij) (snd ij) with Some v => v | None => zero end) (row_major shape nr nc)).
Proof.
  intros HP H1 H2.
  rewrite (foldM_ext_in _ (fun v x => wr v (packed shape nc (fst (fst x)) (snd (fst x))) (snd x))).
  2:{ intros s x Hx. destruct (H1 x Hx) as (A & B & C & _). rewrite (packed_index shape nr) by auto. unfold wrz.
      destruct (Z.ltb_spec (Z.of_nat (packed shape nc (fst (fst x)) (snd (fst x)))) 0); [lia|]. now rewrite Nat2Z.id. }
  destruct (assign_ok (fun x : nat * nat * T => packed shape nc (fst (fst x)) (snd (fst x))) snd L (repeat zero (dense_nnz shape nr nc))) as (v' & E & Lv & N1 & N2).
  { intros x Hx. destruct (H1 x Hx) as (A & B & C & _). rewrite repeat_length. apply packed_lt; auto. }
  rewrite E. f_equal. apply list_ext_error. intros k. destruct (le_lt_dec (dense_nnz shape nr nc) k) as [K|K].
  { rewrite (proj2 (nth_error_None v' k)) by (rewrite Lv, repeat_length; auto). symmetry. apply nth_error_None. rewrite map_length, row_major_length; auto. }
  destruct (nth_error (row_major shape nr nc) k) as [[i j]|] eqn:Ek.
  2:{ apply nth_error_None in Ek. rewrite row_major_length in Ek by auto. lia. }
  rewrite nth_error_map, Ek. cbn [option_map fst snd].
  pose proof (nth_error_In _ _ Ek) as In. apply row_major_in in In. destruct In as (I1 & I2 & I3).
  assert (EP : packed shape nc i j = k).
  { pose proof (packed_nth shape nr nc i j HP I1 I2 I3) as P. rewrite <- P in Ek.
    symmetry. apply (proj1 (NoDup_nth_error (row_major shape nr nc)) (row_major_nodup shape nr nc)); auto. rewrite row_major_length; auto. }
  destruct (want i j) as [v|] eqn:W.
  - destruct (H2 i j v I1 I2 I3 W) as (x & Hx & X1 & X2). pose proof (N2 x Hx) as N. cbv beta in N. rewrite X1, X2, EP in N.
    destruct (H1 x Hx) as (_ & _ & _ & WX). rewrite X1, X2, W in WX. inversion WX; subst v. apply N.
    intros y Hy Ey. destruct (H1 y Hy) as (Y1 & Y2 & Y3 & Y4).
    destruct (packed_inj shape nr nc _ _ _ _ HP Y1 Y2 Y3 I1 I2 I3 ltac:(congruence)) as [Z1 Z2]. rewrite Z1, Z2, W in Y4. congruence.
  - rewrite N1. { rewrite nth_error_repeat; auto. }
    intros y Hy Ey. destruct (H1 y Hy) as (Y1 & Y2 & Y3 & Y4).
    destruct (packed_inj shape nr nc _ _ _ _ HP Y1 Y2 Y3 I1 I2 I3 ltac:(congruence)) as [Z1 Z2]. rewrite Z1, Z2, W in Y4. discriminate.
Qed.
