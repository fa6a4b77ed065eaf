(** Lemmas about the projectors: loops of a rank. *)
From Coq Require Import List Arith Bool Permutation Sorted Reals Lia Lra.
From Verif Require Import Base S_Nb S_Dual M_Dual S_Equality M_Equality L_Equality6 L_Equality7 M_TotalFeti S_Feti L_TotalFeti L_TotalFeti2 M_Projector S_Projector.
Import ListNotations.
Local Open Scope out_scope.
Local Open Scope nat_scope.

(* ---- threads -------------------------------------------------------------------------- *)
Lemma distribution_ok chunk threads size old : 0 < chunk -> 0 < threads -> old <> [] -> nth 0 old 0 = 0 ->
  exists dist, kernel_distribution chunk threads size old = Ok dist /\ distribution threads dist size.
Proof.
  intros Hc Ht No H0. unfold kernel_distribution. set (tsize := Nat.max (size / chunk) 1). set (d0 := resize (threads + 1) old 0).
  assert (L0 : length d0 = threads + 1) by (unfold d0, resize; rewrite app_length, firstn_length, repeat_length; lia).
  assert (Z0 : nth 0 d0 0 = 0).
  { unfold d0, resize. destruct old as [|a old]; [congruence|]. replace (threads + 1) with (S threads) by lia. cbn in *. exact H0. }
  assert (G : forall k, k <= threads -> exists d, foldM (thread_step chunk size tsize) (seq 1 k) d0 = Ok d /\ length d = threads + 1 /\ nth 0 d 0 = 0 /\
    (forall i, i < k -> nth i d 0 <= nth (i + 1) d 0) /\ (forall i, i <= k -> nth i d 0 <= size)).
  { induction k as [|k IH]; intros Hk.
    - exists d0. split; [reflexivity|]. repeat split; auto; intros i Hi; [lia|]. assert (i = 0) as -> by lia. lia.
    - destruct (IH ltac:(lia)) as (d & E & Ld & Zd & Md & Bd). rewrite seq_S, foldM_app, E. cbn [obind foldM]. unfold thread_step. replace (1 + k - 1) with k by lia.
      rewrite (rd_ok d k 0) by lia. cbn [obind]. rewrite wr_ok by lia. cbn [obind]. set (v := Nat.min _ size).
      exists (upd d (1 + k) v). split; [reflexivity|]. rewrite upd_length. split; [easy|].
      assert (V : nth k d 0 <= v <= size).
      { pose proof (Bd k (le_n _)). unfold v. destruct (size mod chunk <? k); split; try lia. }
      split; [rewrite nth_upd by lia; cbn [Nat.eqb Nat.add]; exact Zd|]. split.
      + intros i Hi. rewrite !nth_upd by lia. destruct (Nat.eqb_spec (1 + k) i); [lia|]. destruct (Nat.eqb_spec (1 + k) (i + 1)).
        * replace i with k by lia. lia.
        * apply Md. lia.
      + intros i Hi. rewrite nth_upd by lia. destruct (Nat.eqb_spec (1 + k) i); [lia|]. apply Bd. lia. }
  destruct (G threads (le_n _)) as (d & E & Ld & Zd & Md & Bd). rewrite E. cbn [obind]. rewrite wr_ok by lia. rewrite Ld. replace (threads + 1 - 1) with threads by lia.
  eexists. split; [reflexivity|]. split; [now rewrite upd_length|]. split; [|split].
  - rewrite nth_upd by lia. destruct (Nat.eqb_spec threads 0); [lia|exact Zd].
  - intros i Hi. rewrite !nth_upd by lia. destruct (Nat.eqb_spec threads i); [lia|]. destruct (Nat.eqb_spec threads (i + 1)); [apply Bd; lia|now apply Md].
  - rewrite nth_upd by lia. now rewrite Nat.eqb_refl.
Qed.

Lemma distribution_rows threads dist size : distribution threads dist size ->
  flat_map (fun t => seq (nth t dist 0) (nth (t + 1) dist 0 - nth t dist 0)) (seq 0 threads) = seq 0 size.
Proof.
  intros (Ld & Z & M & E). subst size. assert (G : forall k, k <= threads -> flat_map (fun t => seq (nth t dist 0) (nth (t + 1) dist 0 - nth t dist 0)) (seq 0 k) = seq 0 (nth k dist 0)).
  { induction k as [|k IH]; intros Hk; [now rewrite Z|]. rewrite seq_S, flat_map_app, IH by lia. cbn [flat_map Nat.add]. rewrite app_nil_r. specialize (M k ltac:(lia)).
    replace (S k) with (k + 1) by lia. replace (nth (k + 1) dist 0) with (nth k dist 0 + (nth (k + 1) dist 0 - nth k dist 0)) at 2 by lia. now rewrite seq_app. }
  now apply G.
Qed.
(** loops over the rows of all threads *)
Lemma threads_loop {S} (g : S -> nat -> outcome S) threads dist size : distribution threads dist size ->
  forall s, foldM (fun s t => foldM g (seq (nth t dist 0) (nth (t + 1) dist 0 - nth t dist 0)) s) (seq 0 threads) s = foldM g (seq 0 size) s.
Proof. intros D s. rewrite <- (distribution_rows _ _ _ D). now rewrite foldM_flat. Qed.
Lemma foldM_shift {S} (g : S -> nat -> outcome S) b : forall k s, foldM (fun s i => g s (b + i)) (seq 0 k) s = foldM g (seq b k) s.
Proof.
  intros k s. assert (E : seq b k = map (fun i => b + i) (seq 0 k)).
  { clear. revert b. induction k as [|k IH]; intros b; [reflexivity|]. cbn [seq map]. rewrite Nat.add_0_r. f_equal. rewrite IH, (IH 1), map_map. apply map_ext. intros; lia. }
  rewrite E. clear E. revert s. induction (seq 0 k) as [|a l IH]; intros s; [reflexivity|]. cbn [map foldM]. destruct (g s (b + a)); cbn [obind]; auto.
Qed.

(** a loop that writes a range *)
Lemma write_range {T} (f : list T -> nat -> outcome (list T)) base val N out : base + N <= length out ->
  (forall v i, i < N -> length v = length out -> f v i = Ok (upd v (base + i) (val i))) ->
  foldM f (seq 0 N) out = Ok (put base (base + N) out (map val (seq 0 N))).
Proof.
  intros HL H. assert (G : forall k, k <= N -> foldM f (seq 0 k) out = Ok (put base (base + k) out (map val (seq 0 k)))).
  { induction k as [|k IH]; intros Hk.
    - cbn [seq foldM map]. unfold put. rewrite Nat.add_0_r. cbn [app]. now rewrite firstn_skipn.
    - rewrite seq_S, foldM_app, IH by lia. cbn [obind foldM Nat.add].
      assert (Lp : length (put base (base + k) out (map val (seq 0 k))) = length out) by (unfold put; rewrite !app_length, firstn_length, map_length, seq_length, skipn_length; lia).
      rewrite H by (easy || lia). cbn [obind]. f_equal. unfold put. rewrite map_app. cbn [map].
      destruct (skipn (base + k) out) as [|a t] eqn:E. { assert (length (skipn (base + k) out) = 0) by (now rewrite E). rewrite skipn_length in *. lia. }
      assert (Et : skipn (base + S k) out = t).
      { replace (base + S k) with (1 + (base + k)) by lia. clear - E. revert out E. induction (base + k) as [|m IHm]; intros out E; [cbn in E; subst; reflexivity|]. destruct out; [discriminate|]. cbn in E. apply IHm in E. exact E. }
      rewrite Et. clear - HL Hk. assert (U : forall (l : list T) v, upd (l ++ a :: t) (length l) v = l ++ v :: t) by (induction l as [|b l IH]; intros v; cbn; [reflexivity|now rewrite IH]).
      rewrite app_assoc. replace (base + k) with (length (firstn base out ++ map val (seq 0 k))) by (rewrite app_length, firstn_length, map_length, seq_length; lia).
      rewrite U, <- !app_assoc. reflexivity. }
  now apply G.
Qed.
Lemma put_length {T} base (out new : list T) : base + length new <= length out -> length (put base (base + length new) out new) = length out.
Proof. intros H. unfold put. rewrite !app_length, firstn_length, skipn_length. lia. Qed.
Lemma put_slice {T} base (out new : list T) : base + length new <= length out -> slice base (base + length new) (put base (base + length new) out new) = new.
Proof.
  intros H. unfold slice, put. rewrite skipn_app, firstn_length. replace (base - Nat.min base (length out)) with 0 by lia. cbn [skipn].
  rewrite skipn_all2 by (rewrite firstn_length; lia). cbn [app]. replace (base + length new - base) with (length new) by lia. rewrite firstn_app, Nat.sub_diag. cbn [firstn]. now rewrite firstn_all, app_nil_r.
Qed.
Lemma put_all {T} (out new : list T) : length out = length new -> put 0 (0 + length new) out new = new.
Proof. intros H. unfold put. cbn [firstn app Nat.add]. rewrite <- H, skipn_all. apply app_nil_r. Qed.

Local Open Scope R_scope.
(* ---- products ------------------------------------------------------------------------- *)
Definition row_sum (row : list (nat * R)) (x : list R) : R := Sum row (fun e => snd e * nth (fst e) x 0).
Lemma apply_G_ok threads dist size offset (rows : list (list (nat * R))) x out : distribution threads dist size -> size = length rows -> (offset + size <= length out)%nat ->
  (forall row e, In row rows -> In e row -> (fst e < length x)%nat) ->
  apply_G 0 Rplus Rmult threads dist offset rows x out = Ok (put offset (offset + size) out (map (fun row => row_sum row x) rows)).
Proof.
  intros D Es Lo Hc. unfold apply_G. pose proof D as (Ld & _ & _ & _).
  rewrite (foldM_ext_in _ (fun out t => foldM (G_row 0 Rplus Rmult offset rows x) (seq (nth t dist 0%nat) (nth (t + 1) dist 0%nat - nth t dist 0%nat)) out)).
  2: { intros s t It. apply in_seq in It. unfold thread_rows. rewrite (rd_ok dist t 0%nat), (rd_ok dist (t + 1) 0%nat) by lia. reflexivity. }
  rewrite (threads_loop _ _ _ _ D).
  rewrite (write_range _ offset (fun i => row_sum (nth i rows []) x)); [|easy|].
  - do 2 f_equal. apply (nth_ext _ _ 0 0); [now rewrite !map_length, seq_length|]. intros i Hi. rewrite map_length, seq_length in Hi. rewrite map_seq_nth by easy.
    rewrite (nth_indep _ 0 (row_sum [] x)) by (rewrite map_length; lia). now rewrite (map_nth (fun row => row_sum row x)).
  - intros v i Hi Lv. unfold G_row. rewrite (Nat.add_comm i offset). rewrite wr_ok by lia. cbn [obind]. rewrite (rd_ok rows i []) by lia. cbn [obind].
    assert (Hr : forall e, In e (nth i rows []) -> (fst e < length x)%nat) by (intros e Ie; apply (Hc (nth i rows [])); [apply nth_In; lia|easy]).
    revert Hr. unfold row_sum. generalize (nth i rows []) as row.
    assert (Gen : forall row (u : list R) a, length u = length v -> (forall e, In e row -> (fst e < length x)%nat) ->
      foldM (fun out e => o <- rd out (offset + i) ;; v <- rd x (fst e) ;; wr out (offset + i) (o + snd e * v)) row (upd u (offset + i) a) = Ok (upd u (offset + i) (a + Sum row (fun e => snd e * nth (fst e) x 0)))).
    { induction row as [|e row IH]; intros u a Lu Hr; [cbn [foldM]; now rewrite Sum_nil, Rplus_0_r|]. cbn [foldM]. rewrite (rd_ok _ (offset + i)%nat 0) by (rewrite upd_length; lia). cbn [obind].
      rewrite (rd_ok x (fst e) 0) by (apply Hr; now left). cbn [obind]. rewrite wr_ok by (rewrite upd_length; lia). cbn [obind]. rewrite nth_upd by lia. rewrite Nat.eqb_refl.
      replace (upd (upd u (offset + i) a) (offset + i) (a + snd e * nth (fst e) x 0)) with (upd u (offset + i) (a + snd e * nth (fst e) x 0)).
      - rewrite IH by (easy || intros; apply Hr; now right). rewrite Sum_cons. do 2 f_equal. lra.
      - clear. revert i. generalize offset. intros o i. generalize (o + i)%nat. induction u as [|b u IHu]; intros [|m]; cbn; congruence. }
    intros row Hr. rewrite Gen by easy. do 2 f_equal. lra.
Qed.

Lemma row_product_ok ncols (a x : list R) base : (base + ncols <= length a)%nat -> (ncols <= length x)%nat ->
  row_product 0 Rplus Rmult ncols a base x = Ok (Sum (seq 0 ncols) (fun j => nth (base + j) a 0 * nth j x 0)).
Proof.
  intros La Lx. unfold row_product. assert (G : forall l s, (forall j, In j l -> (j < ncols)%nat) ->
    foldM (fun s j => v <- rd a (base + j) ;; w <- rd x j ;; Ok (s + v * w)) l s = Ok (s + Sum l (fun j => nth (base + j) a 0 * nth j x 0))).
  { induction l as [|j l IH]; intros s Hl; [cbn [foldM]; now rewrite Sum_nil, Rplus_0_r|]. cbn [foldM]. assert (j < ncols)%nat by (apply Hl; now left).
    rewrite (rd_ok a _ 0), (rd_ok x _ 0) by lia. cbn [obind]. rewrite IH by (intros; apply Hl; now right). rewrite Sum_cons. f_equal. lra. }
  rewrite G by (intros j Ij; apply in_seq in Ij; lia). f_equal. lra.
Qed.
Lemma apply_dense_ok ncols threads dist size offset (a x out : list R) : distribution threads dist size -> (offset + size <= length out)%nat -> (size * ncols <= length a)%nat -> (ncols <= length x)%nat ->
  apply_dense 0 Rplus Rmult ncols threads dist offset a x out = Ok (put offset (offset + size) out (map (fun r => Sum (seq 0 ncols) (fun j => nth (r * ncols + j) a 0 * nth j x 0)) (seq 0 size))).
Proof.
  intros D Lo La Lx. unfold apply_dense. pose proof D as (Ld & _ & _ & _).
  rewrite (foldM_ext_in _ (fun out t => foldM (fun out r => v <- row_product 0 Rplus Rmult ncols a (r * ncols) x ;; wr out (offset + r) v) (seq (nth t dist 0%nat) (nth (t + 1) dist 0%nat - nth t dist 0%nat)) out)).
  2: { intros s t It. apply in_seq in It. unfold inverse_rows. rewrite (rd_ok dist t 0%nat), (rd_ok dist (t + 1) 0%nat) by lia. cbn [obind]. etransitivity; [|apply foldM_shift]. apply foldM_ext_in. intros s' i _.
       replace (ncols * nth t dist 0 + i * ncols)%nat with ((nth t dist 0 + i) * ncols)%nat by lia. replace (nth t dist 0 + offset + i)%nat with (offset + (nth t dist 0 + i))%nat by lia. reflexivity. }
  rewrite (threads_loop _ _ _ _ D). apply write_range; [easy|]. intros v r Hr Lv. rewrite row_product_ok by nia. cbn [obind]. apply wr_ok. lia.
Qed.

Lemma apply_Gt_ok (rows : list (list (nat * R))) x alpha out : length x = length rows -> (forall row e, In row rows -> In e row -> (fst e < length out)%nat) ->
  apply_Gt Rplus Rmult rows x alpha out = Ok (map (fun j => nth j out 0 + alpha * Sum (seq 0 (length rows)) (fun r => entry_sum (nth r rows []) j * nth r x 0)) (seq 0 (length out))).
Proof.
  intros Lx Hc. unfold apply_Gt. assert (G : forall l u, (forall r, In r l -> (r < length rows)%nat) -> length u = length out ->
    foldM (Gt_row Rplus Rmult rows x alpha) l u = Ok (map (fun j => nth j u 0 + alpha * Sum l (fun r => entry_sum (nth r rows []) j * nth r x 0)) (seq 0 (length out)))).
  { induction l as [|r l IH]; intros u Hl Lu; cbn [foldM].
    - f_equal. apply (nth_ext _ _ 0 0); [now rewrite map_length, seq_length|]. intros j Hj. rewrite map_seq_nth by lia. rewrite Sum_nil. lra.
    - assert (Hr : (r < length rows)%nat) by (apply Hl; now left). unfold Gt_row at 1. rewrite (rd_ok rows r []) by easy. cbn [obind].
      change (fun (out : list R) (e : nat * R) => o <- rd out (fst e);; v <- rd x r;; wr out (fst e) (o + alpha * snd e * v)) with (fun (out : list R) (e : nat * R) => bt_row Rplus Rmult alpha x out (r, e)).
      rewrite <- foldM_pairs, bt_row_fold by (lia || (apply Forall_forall; intros e Ie; rewrite Lu; apply (Hc (nth r rows [])); [now apply nth_In|easy])). cbn [obind].
      rewrite IH; [|intros; apply Hl; now right|now rewrite map_length, seq_length]. f_equal. apply map_ext_in. intros j Ij. apply in_seq in Ij. rewrite map_seq_nth by lia. rewrite Sum_cons. lra. }
  apply G; [intros r Ir; apply in_seq in Ir; lia|easy].
Qed.
