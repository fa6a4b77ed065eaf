(** * Lemmas: balancing thread-local data *)
From Coq Require Import ZArith List Bool Arith Lia.
From Verif Require Import Base S_Order S_Containers M_Utils M_Packing M_Containers L_Merge.
Import ListNotations.

Definition total {A} (data : list (list A)) : nat := length (concat data).

Lemma nth_upd_default {A} (l : list A) i j v d : i < length l ->
  nth j (upd l i v) d = if i =? j then v else nth j l d.
Proof. apply nth_upd. Qed.

Lemma list_ext {A} (l1 l2 : list A) d : length l1 = length l2 ->
  (forall i, i < length l1 -> nth i l1 d = nth i l2 d) -> l1 = l2.
Proof. intros. apply nth_ext with (d := d) (d' := d); auto. Qed.

Lemma nth_skipn {A} n (l : list A) i d : nth i (skipn n l) d = nth (n + i) l d.
Proof. revert l; induction n; intros [|a l]; simpl; auto. now destruct i. Qed.

Lemma nth_firstn_lt {A} n (l : list A) i d : i < n -> nth i (firstn n l) d = nth i l d.
Proof. revert l i; induction n; intros [|a l] i H; try lia; auto. destruct i; simpl; auto. apply IHn. lia. Qed.

Lemma concat_upd {A} (l : list (list A)) i v : i < length l ->
  concat (upd l i v) = concat (firstn i l) ++ v ++ concat (skipn (S i) l).
Proof.
  revert i; induction l; intros i H; simpl in H; [lia|]. destruct i; simpl; auto.
  rewrite IHl by lia. now rewrite <- app_assoc.
Qed.
Lemma concat_split {A} (l : list (list A)) i : i < length l ->
  concat l = concat (firstn i l) ++ nth i l [] ++ concat (skipn (S i) l).
Proof.
  revert i; induction l; intros i H; simpl in H; [lia|]. destruct i; simpl; auto.
  rewrite (IHl i) by lia. now rewrite <- app_assoc.
Qed.

Lemma concat_nils {A} (l : list (list A)) : (forall i, i < length l -> nth i l [] = []) -> concat l = [].
Proof.
  induction l; intros H; auto. simpl. assert (H0 : a = []) by (apply (H 0); simpl; lia). rewrite H0. simpl. apply IHl.
  intros i Hi. apply (H (S i)). simpl; lia.
Qed.

(** the concatenation of a list whose threads strictly between t and tt are empty *)
Lemma concat_gap {A} (l : list (list A)) t tt : t < tt < length l ->
  (forall k, t < k < tt -> nth k l [] = []) ->
  concat l = concat (firstn t l) ++ nth t l [] ++ nth tt l [] ++ concat (skipn (S tt) l).
Proof.
  intros H Hk. rewrite (concat_split l t) by lia. do 2 f_equal.
  assert (L : length (skipn (S t) l) = length l - S t) by apply skipn_length.
  rewrite (concat_split (skipn (S t) l) (tt - S t)) by lia.
  rewrite skipn_skipn. replace (S (tt - S t) + S t) with (S tt) by lia.
  rewrite (concat_nils (firstn (tt - S t) (skipn (S t) l))).
  - cbn [app]. f_equal. rewrite nth_skipn. f_equal. lia.
  - intros i Hi. rewrite firstn_length, L in Hi.
    assert (E : nth i (firstn (tt - S t) (skipn (S t) l)) [] = nth (S t + i) l []).
    { change (firstn (tt - S t) (skipn (S t) l)) with (slice (S t) tt l). apply nth_slice. lia. }
    rewrite E. apply Hk. lia.
Qed.

Lemma firstn_upd_ge {A} (l : list A) i n v : n <= i -> firstn n (upd l i v) = firstn n l.
Proof. revert i n; induction l; intros i n H; destruct i, n; simpl; auto; try lia. f_equal. apply IHl; lia. Qed.
Lemma skipn_upd_lt {A} (l : list A) i n v : i < n -> skipn n (upd l i v) = skipn n l.
Proof. revert i n; induction l; intros i n H; destruct i, n; simpl; auto; try lia. apply IHl; lia. Qed.

Section Fixed.
Context {A : Type}.

Lemma fill_fixed_ok need t : forall fuel tt (data : list (list A)),
  t < tt <= length data -> length data <= fuel + tt -> 
  (forall k, t < k < tt -> nth k data [] = []) ->
  need <= length (nth t data [] ++ concat (skipn (S t) data)) ->
  exists data', fill_fixed fuel need t tt data = Ok data' /\
    length data' = length data /\ concat data' = concat data /\
    (forall k, k < t -> nth k data' [] = nth k data []) /\ need <= length (nth t data' []).
Proof.
  induction fuel as [|fuel IH]; intros tt data Htt Hf Hk Hn; cbn [fill_fixed]; rewrite (rd_ok _ _ []) by lia; cbn [obind];
    destruct (Nat.ltb_spec (length (nth t data [])) need) as [Hlt|Hge]; try (exists data; repeat split; auto; lia).
  - exfalso. assert (tt = length data) by lia. subst.
    rewrite (concat_nils (skipn (S t) data)), app_nil_r in Hn; [lia|].
    intros i Hi. rewrite skipn_length in Hi. rewrite nth_skipn. apply Hk. lia.
  - assert (Htl : tt < length data).
    { destruct (Nat.eq_dec tt (length data)); [|lia]. exfalso. subst.
      rewrite (concat_nils (skipn (S t) data)), app_nil_r in Hn; [lia|].
      intros i Hi. rewrite skipn_length in Hi. rewrite nth_skipn. apply Hk. lia. }
    rewrite (rd_ok _ tt []) by lia. cbn [obind].
    assert (U : forall a b, exists data2,
       obind (wr data t a) (fun data => obind (wr data tt b) (fun data => fill_fixed fuel need t (tt + 1) data)) =
       fill_fixed fuel need t (tt + 1) data2 /\ data2 = upd (upd data t a) tt b).
    { intros a b. eexists. split; [|reflexivity]. rewrite wr_ok by lia. cbn [obind]. rewrite wr_ok by (rewrite upd_length; lia). reflexivity. }
    assert (G : forall a b, a ++ b = nth t data [] ++ nth tt data [] ->
      length a >= need \/ b = [] ->
      exists data', fill_fixed fuel need t (tt + 1) (upd (upd data t a) tt b) = Ok data' /\
      length data' = length data /\ concat data' = concat data /\
      (forall k, k < t -> nth k data' [] = nth k data []) /\ need <= length (nth t data' [])).
    { intros a b Eab Hab. set (d2 := upd (upd data t a) tt b).
      assert (L2 : length d2 = length data) by (unfold d2; now rewrite !upd_length).
      assert (N2 : forall k, nth k d2 [] = if tt =? k then b else if t =? k then a else nth k data []).
      { intros. unfold d2. rewrite nth_upd by (rewrite upd_length; lia). destruct (tt =? k); auto. rewrite nth_upd by lia. reflexivity. }
      assert (C2 : concat d2 = concat data).
      { unfold d2. rewrite (concat_gap (upd _ _ _) t tt); [|rewrite !upd_length; lia|].
        - fold d2. rewrite !N2, Nat.eqb_refl. destruct (Nat.eqb_spec tt t); [lia|]. rewrite Nat.eqb_refl.
          unfold d2. rewrite !firstn_upd_ge by lia. rewrite !skipn_upd_lt by lia.
          rewrite (concat_gap data t tt) by (auto; lia).
          f_equal. rewrite !app_assoc. f_equal. exact Eab.
        - fold d2. intros k Hk2. rewrite N2. destruct (Nat.eqb_spec tt k); [lia|]. destruct (Nat.eqb_spec t k); [lia|]. apply Hk. lia. }
      assert (need <= length (nth t d2 [] ++ concat (skipn (S t) d2))).
      { rewrite (concat_split d2 t), (concat_split data t) in C2 by lia.
        assert (E : concat (firstn t d2) = concat (firstn t data)).
        { unfold d2. now rewrite !firstn_upd_ge by lia. }
        rewrite E in C2. apply app_inv_head in C2. now rewrite C2. }
      destruct Hab as [Hab|Hb].
      - exists d2.
        assert (E : nth t d2 [] = a). { rewrite N2. destruct (Nat.eqb_spec tt t); [lia|]. now rewrite Nat.eqb_refl. }
        repeat split; auto.
        + destruct fuel; cbn [fill_fixed]; rewrite (rd_ok _ _ []) by lia; cbn [obind]; rewrite E;
            destruct (Nat.ltb_spec (length a) need); try lia; reflexivity.
        + intros k Hkk. rewrite N2. destruct (Nat.eqb_spec tt k); [lia|]. destruct (Nat.eqb_spec t k); [lia|]. auto.
        + rewrite E. lia.
      - destruct (IH (tt + 1) d2) as (data' & E & L & C & Hpre & Hlen); try lia.
        + intros k Hkk. rewrite N2. destruct (Nat.eqb_spec tt k); [auto|]. destruct (Nat.eqb_spec t k); [lia|]. apply Hk. lia.
        + exists data'. repeat split; auto; try lia; try congruence.
          intros k Hkk. rewrite Hpre by lia. rewrite N2. destruct (Nat.eqb_spec tt k); [lia|]. destruct (Nat.eqb_spec t k); [lia|]. auto. }
    destruct (Nat.ltb_spec (need - length (nth t data [])) (length (nth tt data []))) as [Hd|Hd].
    + destruct (U (nth t data [] ++ firstn (need - length (nth t data [])) (nth tt data []))
                  (skipn (need - length (nth t data [])) (nth tt data []))) as (d2 & -> & ->).
      apply G.
      * rewrite <- app_assoc, firstn_skipn. reflexivity.
      * left. rewrite app_length, firstn_length. lia.
    + destruct (U (nth t data [] ++ nth tt data []) []) as (d2 & -> & ->).
      apply G; auto. now rewrite app_nil_r.
Qed.

(** total demand of the threads [t, n) *)
Definition demand (esize : nat) (dist : list nat) (b e : nat) : nat := esize * (nth e dist 0 - nth b dist 0).

Lemma prefix_demand esize dist (data : list (list A)) t n :
  t <= length data -> length data + 1 <= length dist -> mono_list dist ->
  (forall k, k < t -> length (nth k data []) = demand esize dist k (S k)) ->
  n <= t -> length (concat (firstn n data)) = demand esize dist 0 n.
Proof.
  intros Ht Hd Hm Hpre.
  assert (M : forall i j, i <= j <= length data -> nth i dist 0 <= nth j dist 0) by (intros; apply Hm; lia).
  induction n; intros Hn.
  - unfold demand. simpl. rewrite Nat.sub_diag. lia.
  - assert (G : forall n (l : list (list A)), n < length l -> firstn (S n) l = firstn n l ++ [nth n l []]).
    { clear. induction n; intros [|a l] H; simpl in *; try lia; auto. f_equal. apply IHn. lia. }
    rewrite G by lia. rewrite concat_app, app_length. simpl. rewrite app_nil_r, IHn, Hpre by lia.
    unfold demand. pose proof (M 0 n). pose proof (M n (S n)). rewrite <- Nat.mul_add_distr_l. f_equal. lia.
Qed.

Lemma balance_fixed_step_ok esize dist (data : list (list A)) t :
  t < length data -> length data + 1 <= length dist -> mono_list dist ->
  (forall k, k < t -> length (nth k data []) = demand esize dist k (S k)) ->
  length (concat data) = demand esize dist 0 (length data) ->
  exists data', balance_fixed_step esize dist data t = Ok data' /\
    length data' = length data /\ concat data' = concat data /\
    (forall k, k <= t -> length (nth k data' []) = demand esize dist k (S k)).
Proof.
  intros Ht Hd Hm Hpre Htot. unfold balance_fixed_step.
  rewrite (rd_ok dist t 0), (rd_ok dist (t + 1) 0) by lia. cbn [obind].
  replace (t + 1) with (S t) by lia. fold (demand esize dist t (S t)). set (need := demand esize dist t (S t)).
  assert (M : forall i j, i <= j <= length data -> nth i dist 0 <= nth j dist 0) by (intros; apply Hm; lia).
  assert (Hp : forall n, n <= t -> length (concat (firstn n data)) = demand esize dist 0 n).
  { intros n Hn. apply prefix_demand with (t := t); auto; lia. }
  assert (Hsup : need <= length (nth t data [] ++ concat (skipn (S t) data))).
  { rewrite (concat_split data t) in Htot by lia. rewrite app_length, Hp in Htot by lia.
    unfold need, demand in *. pose proof (M 0 t). pose proof (M t (S t)). pose proof (M (S t) (length data)).
    assert (esize * (nth (S t) dist 0 - nth t dist 0) + esize * (nth t dist 0 - nth 0 dist 0) <= esize * (nth (length data) dist 0 - nth 0 dist 0)); [|lia].
    rewrite <- Nat.mul_add_distr_l. apply Nat.mul_le_mono_l. lia. }
  destruct (fill_fixed_ok need t (length data) (S t) data) as (d1 & E1 & L1 & C1 & P1 & N1); try lia; auto.
  rewrite E1. cbn [obind]. rewrite (rd_ok _ t []) by lia. cbn [obind].
  destruct (Nat.ltb_spec need (length (nth t d1 []))) as [Hlt|Hge].
  - assert (St : S t < length data).
    { destruct (Nat.eq_dec (S t) (length data)) as [E|]; [|lia]. exfalso.
      rewrite <- C1, (concat_split d1 t) in Htot by lia. rewrite app_length, app_length in Htot.
      rewrite (skipn_all2 d1) in Htot by lia. simpl in Htot.
      assert (EF : firstn t d1 = firstn t data).
      { apply list_ext with (d := []); rewrite !firstn_length; [lia|]. intros i Hi.
        rewrite !nth_firstn_lt by lia. apply P1. lia. }
      rewrite EF, Hp in Htot by lia. rewrite E in *. unfold need, demand in *.
      pose proof (M 0 t). pose proof (M t (S t)). rewrite <- E in *.
      assert (esize * (nth (S t) dist 0 - nth 0 dist 0) = esize * (nth t dist 0 - nth 0 dist 0) + esize * (nth (S t) dist 0 - nth t dist 0)) by (rewrite <- Nat.mul_add_distr_l; f_equal; lia).
      lia. }
    rewrite (rd_ok _ (S t) []) by lia. cbn [obind]. rewrite wr_ok by lia. cbn [obind]. rewrite wr_ok by (rewrite upd_length; lia).
    eexists. split; [reflexivity|]. rewrite !upd_length. split; [lia|].
    set (d2 := upd (upd d1 (S t) _) t _).
    assert (N2 : forall k, nth k d2 [] = if t =? k then firstn need (nth t d1 []) else if S t =? k then skipn need (nth t d1 []) ++ nth (S t) d1 [] else nth k d1 []).
    { intros. unfold d2. rewrite nth_upd by (rewrite upd_length; lia). destruct (t =? k); auto. rewrite nth_upd by lia. reflexivity. }
    split.
    + rewrite (concat_gap d2 t (S t)); [|unfold d2; rewrite !upd_length; lia|intros; lia].
      rewrite !N2, Nat.eqb_refl. destruct (Nat.eqb_spec t (S t)); [lia|]. rewrite Nat.eqb_refl.
      unfold d2. rewrite !firstn_upd_ge by lia. rewrite !skipn_upd_lt by lia.
      rewrite <- C1, (concat_gap d1 t (S t)) by (try lia; intros; lia).
      f_equal. rewrite !app_assoc, firstn_skipn. reflexivity.
    + intros k Hk. rewrite N2. destruct (Nat.eqb_spec t k) as [<-|].
      * rewrite firstn_length. fold need. lia.
      * destruct (Nat.eqb_spec (S t) k); [lia|]. rewrite P1 by lia. apply Hpre. lia.
  - exists d1. repeat split; auto. intros k Hk. destruct (Nat.eq_dec k t) as [->|].
    + fold need. lia.
    + rewrite P1 by lia. apply Hpre. lia.
Qed.

Lemma balance_fixed_ok esize dist (data : list (list A)) :
  length dist = length data + 1 -> mono_list dist ->
  length (concat data) = esize * (last dist 0 - hd 0 dist) ->
  exists data', balance_fixed esize data dist = Ok data' /\
    length data' = length data /\ concat data' = concat data /\
    (forall t, t < length data -> length (nth t data' []) = esize * (nth (t + 1) dist 0 - nth t dist 0)).
Proof.
  intros Hl Hm Htot. unfold balance_fixed.
  destruct (foldM_seq_inv (balance_fixed_step esize dist)
    (fun t d => length d = length data /\ concat d = concat data /\
       (forall k, k < t -> length (nth k d []) = demand esize dist k (S k))) 0 (length data) data) as (d & E & L & C & P).
  - repeat split; auto. intros; lia.
  - intros t d Ht (L & C & P).
    destruct (balance_fixed_step_ok esize dist d t) as (d' & E & L' & C' & P'); try lia; auto.
    + rewrite C, Htot, L. unfold demand. f_equal. f_equal.
      * rewrite last_nth by (destruct dist; simpl in *; [lia|discriminate]). f_equal. lia.
      * now destruct dist.
    + exists d'. repeat split; auto; try lia; try congruence. intros; apply P'; lia.
  - exists d. repeat split; auto. intros t Ht. rewrite P by lia. unfold demand. now replace (t + 1) with (S t) by lia.
Qed.
End Fixed.
