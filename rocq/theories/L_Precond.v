(** * Lemmas about the preconditioners: numbers of the degrees of freedom, gather and scatter *)
From Coq Require Import List Arith Bool Permutation Sorted Lia.
From Verif Require Import Base S_Order M_Csx M_Dnx S_Csx S_Dnx M_Math S_Math L_Csx L_Math L_Equality L_Equality2 L_Distributed M_Precond.
Import ListNotations.
Local Open Scope out_scope.

Definition flags (n : nat) (s : nat -> bool) : list nat := map (fun j => if s j then 1 else 0) (seq 0 n).

Lemma upd_map_seq {A} (f : nat -> A) n i v : i < n -> upd (map f (seq 0 n)) i v = map (fun j => if j =? i then v else f j) (seq 0 n).
Proof.
  intros Hi. apply (nth_ext _ _ v v); [now rewrite upd_length, !map_length|]. rewrite upd_length, map_length, seq_length. intros j Hj.
  rewrite (nth_map_seq (fun j => if j =? i then v else f j)) by easy. destruct (Nat.eqb_spec j i) as [->|N].
  - apply nth_upd_eq. now rewrite map_length, seq_length.
  - rewrite nth_upd_neq by congruence. now rewrite nth_map_seq.
Qed.
Lemma rd_map_seq {A} (f : nat -> A) n i : i < n -> rd (map f (seq 0 n)) i = Ok (f i).
Proof. intros Hi. rewrite (rd_ok _ _ (f i)) by (now rewrite map_length, seq_length). now rewrite nth_map_seq. Qed.
Lemma wr_map_seq {A} (f : nat -> A) n i v : i < n -> wr (map f (seq 0 n)) i v = Ok (map (fun j => if j =? i then v else f j) (seq 0 n)).
Proof. intros Hi. rewrite wr_ok by (now rewrite map_length, seq_length). now rewrite upd_map_seq. Qed.

Lemma mark_ok n cols : (forall c, In c cols -> c < n) -> mark n cols = Ok (flags n (fun j => existsb (Nat.eqb j) cols)).
Proof.
  intros H. unfold mark.
  assert (G : forall cols f, (forall c, In c cols -> c < n) -> foldM (fun p c => wr p c 1) cols (map f (seq 0 n)) = Ok (map (fun j => if existsb (Nat.eqb j) cols then 1 else f j) (seq 0 n))).
  { clear. induction cols as [|c cols IH]; intros f H; [reflexivity|]. cbn [foldM]. rewrite wr_map_seq by (apply H; now left). cbn [obind]. rewrite IH by (intros; apply H; now right).
    f_equal. apply map_ext. intros j. cbn [existsb]. destruct (existsb (Nat.eqb j) cols); [now rewrite orb_true_r|]. rewrite orb_false_r. reflexivity. }
  replace (repeat 0 n) with (map (fun _ : nat => 0) (seq 0 n)); [now apply G|]. clear. induction n as [|n IH]; [reflexivity|]. cbn [seq map repeat]. rewrite <- IH, <- seq_shift, map_map. reflexivity.
Qed.

Lemma find_indices_ok n s : find_indices (flags n s) = Ok (filter s (seq 0 n)).
Proof.
  unfold find_indices. replace (length (flags n s)) with n by (unfold flags; now rewrite map_length, seq_length).
  assert (G : forall k, k <= n -> foldM (fun ix i => x <- rd (flags n s) i ;; Ok (if x =? 1 then ix ++ [i] else ix)) (seq 0 k) [] = Ok (filter s (seq 0 k))).
  { induction k as [|k IH]; intros Hk; [reflexivity|]. rewrite seq_S, foldM_app, IH by lia. cbn [obind foldM Nat.add]. unfold flags. rewrite rd_map_seq by lia. cbn [obind].
    rewrite filter_app. cbn [filter]. destruct (s k); cbn [Nat.eqb]; [reflexivity|now rewrite app_nil_r]. }
  now apply G.
Qed.

(** the number of marked ones below [i] *)
Definition cnt (s : nat -> bool) (i : nat) : nat := length (filter s (seq 0 i)).
Definition position (n : nat) (s : nat -> bool) (i : nat) : nat := if s i then n - cnt s n + cnt s i else cnt (fun i => negb (s i)) i.

Lemma cnt_S s i : cnt s (S i) = cnt s i + (if s i then 1 else 0).
Proof. unfold cnt. rewrite seq_S, filter_app, app_length. cbn [filter Nat.add]. destruct (s i); reflexivity. Qed.
Lemma cnt_both s n : cnt s n + cnt (fun i => negb (s i)) n = n.
Proof. induction n as [|n IH]; [reflexivity|]. rewrite !cnt_S. destruct (s n); cbn [negb]; lia. Qed.
Lemma cnt_numbers s n : map (cnt s) (filter s (seq 0 n)) = seq 0 (cnt s n).
Proof.
  induction n as [|n IH]; [reflexivity|]. rewrite cnt_S, seq_S, filter_app, map_app, IH. cbn [filter Nat.add]. destruct (s n); cbn [map].
  - rewrite Nat.add_1_r, seq_S. reflexivity.
  - now rewrite app_nil_r, Nat.add_0_r.
Qed.

Lemma number_ok n s : number n (filter s (seq 0 n)) (flags n s) = Ok (map (position n s) (seq 0 n)).
Proof.
  unfold number. replace (length (flags n s)) with n by (unfold flags; now rewrite map_length, seq_length). change (length (filter s (seq 0 n))) with (cnt s n).
  assert (G : forall k, k <= n -> foldM number_step (seq 0 k) (flags n s, 0, n - cnt s n) =
    Ok (map (fun i => if i <? k then position n s i else if s i then 1 else 0) (seq 0 n), cnt (fun i => negb (s i)) k, n - cnt s n + cnt s k)).
  { induction k as [|k IH]; intros Hk.
    - cbn [seq foldM]. f_equal. f_equal. unfold cnt; cbn; lia.
    - rewrite seq_S, foldM_app, IH by lia. cbn [obind foldM Nat.add]. unfold number_step. rewrite rd_map_seq by lia. cbn [obind]. rewrite Nat.ltb_irrefl, !cnt_S. unfold position at 1.
      destruct (s k) eqn:E; cbn [Nat.eqb negb]; rewrite wr_map_seq by lia; cbn [obind]; apply f_equal; (apply f_equal2; [apply f_equal2; [|lia]|lia]); apply map_ext; intros i;
        (destruct (Nat.eqb_spec i k) as [->|N]; [destruct (Nat.ltb_spec k (S k)); [|lia]; unfold position; now rewrite E|]);
        destruct (Nat.ltb_spec i k), (Nat.ltb_spec i (S k)); try lia; reflexivity. }
  rewrite G by lia. cbn [obind]. f_equal. apply map_ext_in. intros i Hi. apply in_seq in Hi. destruct (Nat.ltb_spec i n); [reflexivity|lia].
Qed.

Lemma filter_both (s : nat -> bool) l : Permutation (filter (fun i => negb (s i)) l ++ filter s l) l.
Proof.
  induction l as [|a l IH]; [constructor|]. cbn [filter]. destruct (s a); cbn [negb].
  - apply Permutation_sym, Permutation_cons_app, Permutation_sym, IH.
  - cbn [app]. now constructor.
Qed.

(** the new order: first the interior, then the surface *)
Definition new_order (n : nat) (s : nat -> bool) : list nat := filter (fun i => negb (s i)) (seq 0 n) ++ filter s (seq 0 n).
Lemma new_order_perm n s : is_perm (new_order n s) n.
Proof. apply filter_both. Qed.
Lemma map_add_seq c m : map (fun x => c + x) (seq 0 m) = seq c m.
Proof. induction m as [|m IH]; [reflexivity|]. rewrite !seq_S, map_app, IH. reflexivity. Qed.
Lemma position_order n s : map (position n s) (new_order n s) = seq 0 n.
Proof.
  unfold new_order. rewrite map_app. pose proof (cnt_both s n) as E.
  rewrite (map_ext_in (position n s) (cnt (fun i => negb (s i))) (filter (fun i => negb (s i)) (seq 0 n))).
  2: { intros i I. apply filter_In in I. destruct I as [_ I]. unfold position. destruct (s i); [discriminate|reflexivity]. }
  rewrite (map_ext_in (position n s) (fun i => n - cnt s n + cnt s i) (filter s (seq 0 n))).
  2: { intros i I. apply filter_In in I. destruct I as [_ I]. unfold position. now rewrite I. }
  rewrite cnt_numbers, <- (map_map (cnt s) (fun c => n - cnt s n + c)), cnt_numbers, map_add_seq. replace (n - cnt s n) with (cnt (fun i => negb (s i)) n) by lia.
  replace n with (cnt (fun i => negb (s i)) n + cnt s n) at 4 by lia. rewrite seq_app. reflexivity.
Qed.
Lemma position_nth n s i : i < n -> position n s (nth i (new_order n s) 0) = i.
Proof.
  intros Hi. pose proof (perm_length _ _ (new_order_perm n s)) as Lo. transitivity (nth i (seq 0 n) 0); [|now rewrite seq_nth].
  rewrite <- (position_order n s). symmetry. apply nth_map. lia.
Qed.
Lemma position_perm n s : is_perm (map (position n s) (seq 0 n)) n.
Proof.
  unfold is_perm. rewrite <- (position_order n s) at 2. apply Permutation_map, Permutation_sym, new_order_perm.
Qed.

Lemma surface_first_ok n cols s : (forall c, In c cols -> c < n) -> (forall j, j < n -> s j = existsb (Nat.eqb j) cols) ->
  surface_first n cols = Ok (filter s (seq 0 n), map (position n s) (seq 0 n)).
Proof.
  intros H Hs. unfold surface_first. rewrite mark_ok by easy. cbn [obind].
  replace (flags n (fun j => existsb (Nat.eqb j) cols)) with (flags n s) by (unfold flags; apply map_ext_in; intros j I; apply in_seq in I; rewrite Hs by lia; reflexivity).
  rewrite find_indices_ok. cbn [obind]. now rewrite number_ok.
Qed.

(** ** Gather and scatter *)
Lemma ss_lt (ix : list nat) : StronglySorted lt ix -> forall a b, a < b -> b < length ix -> nth a ix 0 < nth b ix 0.
Proof.
  induction 1 as [|x l Hl IH Hx]; intros a b Hab Hb; [cbn in Hb; lia|]. destruct b as [|b]; [lia|]. cbn [length] in Hb. destruct a as [|a]; cbn [nth].
  - rewrite Forall_forall in Hx. apply Hx. apply nth_In. lia.
  - apply IH; lia.
Qed.
Section Move.
  Context {T : Type} (zero : T).
  Variable ix : list nat.
  Hypothesis Hs : StronglySorted lt ix.

  Lemma ix_lt a b : a < b -> b < length ix -> nth a ix 0 < nth b ix 0.
  Proof. apply ss_lt, Hs. Qed.
  Lemma ix_ge a : a < length ix -> a <= nth a ix 0.
  Proof. induction a as [|a IH]; intros Ha; [lia|]. pose proof (ix_lt a (S a) ltac:(lia) Ha). lia. Qed.

  Lemma gather_ok v : (forall i, In i ix -> i < length v) ->
    gather ix v = Ok (map (fun i => nth i v zero) ix ++ skipn (length ix) v).
  Proof.
    intros Hv. unfold gather.
    assert (Lv : length ix <= length v).
    { destruct (Nat.eq_dec (length ix) 0) as [->|N]; [lia|]. pose proof (ix_ge (length ix - 1) ltac:(lia)). specialize (Hv (nth (length ix - 1) ix 0) ltac:(apply nth_In; lia)). lia. }
    assert (G : forall k, k <= length ix -> foldM (fun v i => j <- rd ix i ;; x <- rd v j ;; wr v i x) (seq 0 k) v = Ok (map (fun i => nth i v zero) (firstn k ix) ++ skipn k v)).
    { induction k as [|k IH]; intros Hk; [reflexivity|]. rewrite seq_S, foldM_app, IH by lia. cbn [obind foldM Nat.add].
      assert (Lf : length (map (fun i => nth i v zero) (firstn k ix)) = k) by (rewrite map_length, firstn_length; lia).
      rewrite (rd_ok ix k 0) by lia. cbn [obind]. set (j := nth k ix 0). assert (Hj : k <= j) by (apply ix_ge; lia). assert (Hj2 : j < length v) by (apply Hv, nth_In; lia).
      rewrite (rd_ok _ _ zero) by (rewrite app_length, Lf, skipn_length; lia). cbn [obind]. rewrite app_nth2 by lia. rewrite Lf, wr_ok by (rewrite app_length, Lf, skipn_length; lia). f_equal.
      replace (nth (j - k) (skipn k v) zero) with (nth j v zero) by (rewrite <- (firstn_skipn k v) at 1; rewrite app_nth2; rewrite firstn_length; [f_equal; lia|lia]).
      rewrite (firstn_S ix k 0) by lia. rewrite map_app, <- app_assoc. cbn [map app].
      destruct (skipn k v) as [|y l] eqn:E; [apply (f_equal (@length T)) in E; rewrite skipn_length in E; cbn in E; lia|].
      assert (E' : skipn (S k) v = l) by (replace (S k) with (1 + k) by lia; rewrite <- skipn_skipn, E; reflexivity). rewrite E'. cbn [obind]. f_equal.
      fold j. generalize (nth j v zero). clear -Lf. revert Lf. generalize (map (fun i => nth i v zero) (firstn k ix)) as p. intros p <- z. induction p as [|a p IH]; cbn; [reflexivity|]. f_equal. exact IH. }
    rewrite G by lia. now rewrite firstn_all.
  Qed.

  Lemma scatter_ok y : (forall i, In i ix -> i < length y) ->
    exists w, scatter ix y = Ok w /\ length w = length y /\ forall a, a < length ix -> nth (nth a ix 0) w zero = nth a y zero.
  Proof.
    intros Hy. unfold scatter.
    assert (Ly : length ix <= length y).
    { destruct (Nat.eq_dec (length ix) 0) as [->|N]; [lia|]. pose proof (ix_ge (length ix - 1) ltac:(lia)). specialize (Hy (nth (length ix - 1) ix 0) ltac:(apply nth_In; lia)). lia. }
    assert (G : forall k, k <= length ix -> exists w, foldM (fun v i => j <- rd ix i ;; x <- rd v i ;; wr v j x) (rev (seq k (length ix - k))) y = Ok w /\ length w = length y /\
      (forall a, a < k -> nth a w zero = nth a y zero) /\ forall a, k <= a < length ix -> nth (nth a ix 0) w zero = nth a y zero).
    { intros k. remember (length ix - k) as t eqn:Et. revert k Et. induction t as [|t IH]; intros k Et Hk.
      - exists y. repeat split; auto. intros a Ha. lia.
      - destruct (IH (S k) ltac:(lia) ltac:(lia)) as (w & E & Lw & W1 & W2). cbn [seq rev]. rewrite foldM_app, E. cbn [obind foldM].
        assert (Hk' : k < length ix) by lia. pose proof (ix_ge k Hk') as Hg. assert (Hl : nth k ix 0 < length y) by (apply Hy, nth_In; lia).
        rewrite (rd_ok ix k 0) by lia. cbn [obind]. rewrite (rd_ok w k zero) by lia. cbn [obind]. rewrite wr_ok by lia. cbn [obind].
        exists (upd w (nth k ix 0) (nth k w zero)). split; [reflexivity|]. split; [now rewrite upd_length|]. split.
        + intros a Ha. rewrite nth_upd_neq by lia. apply W1. lia.
        + intros a Ha. destruct (Nat.eq_dec a k) as [->|N].
          * rewrite nth_upd_eq by lia. apply W1. lia.
          * pose proof (ix_lt k a ltac:(lia) ltac:(lia)). rewrite nth_upd_neq by lia. apply W2. lia. }
    destruct (G 0 ltac:(lia)) as (w & E & Lw & _ & W). rewrite Nat.sub_0_r in E. exists w. split; [exact E|]. split; [easy|]. intros a Ha. apply W. lia.
  Qed.
End Move.
