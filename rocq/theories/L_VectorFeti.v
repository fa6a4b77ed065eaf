(** * Lemmas for vectors torn to domains: one rank *)
From Coq Require Import List Arith Bool Lia Sorted Permutation.
From Verif Require Import Base S_Assembly M_Assembly L_Numbering L_Pattern L_Pattern5 M_Distributed S_Distributed L_Distributed L_Distributed2 M_VectorFeti S_VectorFeti.
Import ListNotations.
Local Open Scope out_scope.

Lemma nth_error_nth_iff {A} (l : list A) i x d : nth_error l i = Some x <-> i < length l /\ nth i l d = x.
Proof.
  split.
  - intros H. split; [apply nth_error_Some; congruence | apply nth_error_nth; auto].
  - intros [H <-]. apply nth_error_nth'; auto.
Qed.
Lemma list_eq_nth {A} (l l' : list A) d : length l = length l' -> (forall i, i < length l -> nth i l d = nth i l' d) -> l = l'.
Proof. apply nth_ext. Qed.
Lemma filter_all {A} (f : A -> bool) l : (forall x, In x l -> f x = true) -> filter f l = l.
Proof. induction l as [|a l IH]; intros H; cbn; auto. rewrite (H a) by (left; auto). f_equal. apply IH. intros x Hx; apply H; right; auto. Qed.

Section Rank.
  Variables (dofs : nat) (t : torn) (f : feti).
  Hypothesis dofs_pos : 0 < dofs.
  Hypothesis ok : torn_ok dofs t.
  Hypothesis dec : decomposed dofs t f.
  Notation K := (t_size dofs t).
  Notation own := (t_own t).
  Notation ds := (t_domains dofs t).
  Notation ks := (t_dofs dofs t).

  Definition loc (d k : nat) : nat := index_of k (ks d).
  Definition row (k : nat) : list dindex := map (fun d => (d, if own d then Some (loc d k) else None)) (ds k).
  Lemma rows_eq : f_rows f = map row (seq 0 K).
  Proof.
    destruct dec as (N & E & ->). destruct ok as [o1 o2]. destruct (fill_decomposition_ok dofs (t_begin t) (t_end t) (t_ndoms t) (t_surface t) dofs_pos o1 o2) as (N' & E' & _ & _ & R).
    rewrite E in E'. injection E' as ->. cbn [f_rows]. rewrite R. reflexivity.
  Qed.
  Lemma rows_length : length (f_rows f) = K.
  Proof. rewrite rows_eq, map_length, seq_length. auto. Qed.
  Lemma rd_row k : k < K -> rd (f_rows f) k = Ok (row k).
  Proof. intros H. rewrite (rd_ok _ _ []) by (rewrite rows_length; auto). rewrite rows_eq. rewrite nth_map_seq; auto. Qed.
  Lemma begin_eq : f_begin f = t_begin t. Proof. destruct dec as (N & _ & ->). auto. Qed.
  Lemma mine_eq d i : mine f (d, i) = own d.
  Proof. destruct dec as (N & _ & ->). unfold mine, is_my, t_own. auto. Qed.
  Lemma own_iff d : own d = true <-> t_begin t <= d < t_end t.
  Proof. unfold t_own. rewrite andb_true_iff, Nat.leb_le, Nat.ltb_lt. tauto. Qed.
  Lemma counted_rows : combine (seq 0 (length (f_rows f))) (f_rows f) = map (fun k => (k, row k)) (seq 0 K).
  Proof. rewrite rows_length, rows_eq. apply combine_self. Qed.
  Lemma row_length k : length (row k) = length (ds k).
  Proof. apply map_length. Qed.
  Lemma ds_nodup k : NoDup (ds k).
  Proof. unfold t_domains, dof_domains. destruct ok as [o _]. rewrite Forall_forall in o. destruct (Nat.lt_ge_cases (k / dofs) (length (t_ndoms t))); [apply o, nth_In; auto | rewrite nth_overflow by auto; constructor]. Qed.
  Lemma ks_in d k : In k (ks d) <-> k < K /\ In d (ds k).
  Proof. apply domain_dofs_in. Qed.
  Lemma ks_nodup d : NoDup (ks d).
  Proof. apply domain_dofs_nodup. Qed.

  Context {T : Type} (zero : T) (add mul : T -> T -> T) (div : T -> nat -> T).
  Implicit Types doms : list (list T).
  Definition cval doms (d k : nat) : T := nth (loc d k) (nth (d - t_begin t) doms []) zero.

  Lemma copy_in_iff doms d k x : is_domains dofs t doms -> copy_in dofs t doms d k x <-> own d = true /\ In k (ks d) /\ x = cval doms d k.
  Proof.
    intros [L I]. unfold copy_in. rewrite own_iff. split.
    - intros (O & i & E1 & E2). split; auto. split; [eapply nth_error_In; eauto|]. unfold cval, loc. rewrite (index_of_nth k _ i) by (auto; apply ks_nodup). symmetry. apply nth_error_nth; auto.
    - intros (O & H & ->). split; auto. exists (loc d k). split; [apply index_of_in; auto|]. apply nth_error_nth'. rewrite I by auto. apply index_of_lt; auto.
  Qed.
  Lemma copies_eq doms k : is_domains dofs t doms -> k < K -> copies dofs t doms k = map (fun d => cval doms d k) (filter own (ds k)).
  Proof.
    intros [L I] Hk. unfold copies. assert (H : forall d, In d (ds k) -> In d (ds k)) by auto. revert H. generalize (ds k) at 1 3 4. intros l H.
    induction l as [|d l IH]; cbn; auto. rewrite IH by (intros; apply H; right; auto). destruct (own d) eqn:O; cbn; auto.
    apply own_iff in O. assert (Kd : In k (ks d)) by (apply ks_in; split; auto; apply H; left; auto).
    pose proof (at_pos_nth zero (ks d) (nth (d - t_begin t) doms []) (ks_nodup d) (I d O) (loc d k)) as A. unfold at_pos in A.
    pose proof (index_of_in _ _ Kd) as E. pose proof (index_of_lt _ _ Kd) as E'. fold (loc d k) in E, E'. rewrite (nth_error_nth _ _ 0 E) in A. rewrite A by auto. reflexivity.
  Qed.

  Lemma get_copy_ok doms d k : is_domains dofs t doms -> own d = true -> In k (ks d) -> get_copy f doms (d, Some (loc d k)) = Ok (cval doms d k).
  Proof.
    intros [L I] O H. apply own_iff in O. unfold get_copy. cbn [fst snd]. rewrite begin_eq. rewrite (rd_ok _ _ []) by lia. cbn [obind]. rewrite (rd_ok _ _ zero); auto.
    rewrite I by auto. apply index_of_lt; auto.
  Qed.
  Lemma set_copy_ok doms d k x : is_domains dofs t doms -> own d = true -> In k (ks d) -> exists doms', set_copy f doms (d, Some (loc d k)) x = Ok doms' /\ is_domains dofs t doms' /\
    forall e j, own e = true -> In j (ks e) -> cval doms' e j = if (e =? d) && (j =? k) then x else cval doms e j.
  Proof.
    intros [L I] O H. pose proof O as O'. apply own_iff in O'. unfold set_copy. cbn [fst snd]. rewrite begin_eq. rewrite (rd_ok _ _ []) by lia. cbn [obind].
    pose proof (index_of_lt _ _ H) as Hl. fold (loc d k) in Hl. rewrite wr_ok by (rewrite I by auto; auto). cbn [obind]. rewrite wr_ok by lia. eexists. split; [reflexivity|]. split.
    - split; [rewrite upd_length; auto|]. intros e He. destruct (Nat.eq_dec e d) as [->|Ne].
      + rewrite nth_upd_eq by lia. rewrite upd_length. auto.
      + rewrite nth_upd_neq by lia. auto.
    - intros e j He Hj. apply own_iff in He. unfold cval. destruct (Nat.eqb_spec e d) as [->|Ne]; cbn [andb].
      + rewrite nth_upd_eq by lia. destruct (Nat.eqb_spec j k) as [->|Nj].
        * apply nth_upd_eq. rewrite I; auto.
        * apply nth_upd_neq. intros C. apply Nj. pose proof (index_of_in _ _ Hj) as E1. pose proof (index_of_in _ _ H) as E2. fold (loc d j) in E1. fold (loc d k) in E2. congruence.
      + rewrite nth_upd_neq by lia. auto.
  Qed.

  (** loops that set the copies *)
  Lemma set_copies_ok c x k doms : is_domains dofs t doms -> k < K -> c = Ok x -> exists doms', set_copies f c (row k) doms = Ok doms' /\ is_domains dofs t doms' /\
    forall e j, own e = true -> In j (ks e) -> cval doms' e j = if j =? k then x else cval doms e j.
  Proof.
    intros D Hk ->. unfold set_copies, row.
    assert (G : forall l doms0, is_domains dofs t doms0 -> (forall d, In d l -> In d (ds k)) -> exists doms',
      foldM (fun doms di => if mine f di then x <- Ok x ;; set_copy f doms di x else Ok doms) (map (fun d => (d, if own d then Some (loc d k) else None)) l) doms0 = Ok doms' /\ is_domains dofs t doms' /\
      forall e j, own e = true -> In j (ks e) -> cval doms' e j = if (j =? k) && memb e l then x else cval doms0 e j).
    { induction l as [|d l IH]; intros doms0 D0 Hl.
      - exists doms0. split; auto. split; auto. intros. cbn. rewrite andb_false_r. auto.
      - cbn [map foldM]. rewrite mine_eq. destruct (own d) eqn:O; cbn [obind].
        + destruct (set_copy_ok doms0 d k x D0 O) as (d1 & E1 & D1 & H1); [apply ks_in; split; auto; apply Hl; left; auto|]. rewrite E1. cbn [obind].
          destruct (IH d1 D1) as (d2 & E2 & D2 & H2); [intros; apply Hl; right; auto|]. exists d2. split; auto. split; auto. intros e j He Hj. rewrite H2, H1 by auto.
          unfold memb. cbn [existsb]. destruct (j =? k), (e =? d); cbn; auto. destruct (existsb (Nat.eqb e) l); auto.
        + destruct (IH doms0 D0) as (d2 & E2 & D2 & H2); [intros; apply Hl; right; auto|]. exists d2. split; auto. split; auto. intros e j He Hj. rewrite H2 by auto.
          unfold memb. cbn [existsb]. destruct (Nat.eqb_spec e d) as [->|]; [congruence|]. auto. }
    destruct (G (ds k) doms D) as (d' & E & D' & H); auto. exists d'. split; auto. split; auto. intros e j He Hj. rewrite H by auto. destruct (Nat.eqb_spec j k) as [->|]; auto.
    cbn [andb]. replace (memb e (ds k)) with true; auto. symmetry. apply memb_in. apply ks_in in Hj. tauto.
  Qed.
  Lemma set_loop (g : list (list T) -> nat -> outcome (list (list T))) (c : nat -> outcome T) (x : nat -> T) n doms : is_domains dofs t doms -> n <= K ->
    (forall k doms, k < n -> g doms k = set_copies f (c k) (row k) doms) -> (forall k, k < n -> c k = Ok (x k)) -> exists doms', foldM g (seq 0 n) doms = Ok doms' /\ is_domains dofs t doms' /\
    forall e j, own e = true -> In j (ks e) -> cval doms' e j = if j <? n then x j else cval doms e j.
  Proof.
    intros D. induction n as [|n IH]; intros Hn Hg Hc.
    - exists doms. cbn. auto.
    - destruct IH as (d1 & E1 & D1 & H1); [lia|intros; apply Hg; lia|intros; apply Hc; lia|]. rewrite seq_snoc, foldM_app, E1. cbn [obind foldM Nat.add]. rewrite Hg by lia.
      destruct (set_copies_ok (c n) (x n) n d1 D1) as (d2 & E2 & D2 & H2); [lia|apply Hc; lia|]. rewrite E2. cbn [obind]. exists d2. split; auto. split; auto. intros e j He Hj. rewrite H2, H1 by auto.
      destruct (Nat.eqb_spec j n) as [->|]; [rewrite (proj2 (Nat.ltb_lt n (S n))) by lia; auto|].
      destruct (Nat.ltb_spec j n), (Nat.ltb_spec j (S n)); auto; lia.
  Qed.
  Lemma foldM_map_seq {A S} (g : S -> A -> outcome S) (h : nat -> A) l : forall s, foldM g (map h l) s = foldM (fun s k => g s (h k)) l s.
  Proof. induction l as [|a l IH]; intros s; cbn; auto. destruct (g s (h a)); cbn; auto. Qed.

  Lemma copy_to_ok cluster doms : length cluster = K -> is_domains dofs t doms -> exists doms', copy_to_domains f cluster doms = Ok doms' /\ is_domains dofs t doms' /\
    forall d k x, copy_in dofs t doms' d k x -> nth_error cluster k = Some x.
  Proof.
    intros L D. unfold copy_to_domains. rewrite counted_rows, foldM_map_seq. cbn [fst snd].
    destruct (set_loop (fun doms k => set_copies f (rd cluster k) (row k) doms) (rd cluster) (fun k => nth k cluster zero) K doms D (le_n _)) as (d' & E & D' & H); auto.
    { intros k Hk. apply rd_ok. lia. }
    exists d'. split; auto. split; auto. intros d k x C. apply copy_in_iff in C; auto. destruct C as (O & Hk & ->). rewrite H by auto. apply ks_in in Hk.
    rewrite (proj2 (Nat.ltb_lt k K)) by tauto. apply nth_error_nth'. lia.
  Qed.
  Lemma split_to_ok cluster doms : length cluster = K -> is_domains dofs t doms -> exists doms', split_to_domains div f cluster doms = Ok doms' /\ is_domains dofs t doms' /\
    forall d k x, copy_in dofs t doms' d k x -> exists c, nth_error cluster k = Some c /\ x = div c (length (ds k)).
  Proof.
    intros L D. unfold split_to_domains. rewrite counted_rows, foldM_map_seq. cbn [fst snd].
    destruct (set_loop (fun doms k => set_copies f (c <- rd cluster k ;; Ok (div c (length (row k)))) (row k) doms) (fun k => c <- rd cluster k ;; Ok (div c (length (row k))))
      (fun k => div (nth k cluster zero) (length (ds k))) K doms D (le_n _)) as (d' & E & D' & H); auto.
    { intros k Hk. rewrite (rd_ok _ _ zero) by lia. cbn. rewrite row_length. auto. }
    exists d'. split; auto. split; auto. intros d k x C. apply copy_in_iff in C; auto. destruct C as (O & Hk & ->). rewrite H by auto. apply ks_in in Hk.
    rewrite (proj2 (Nat.ltb_lt k K)) by tauto. exists (nth k cluster zero). split; auto. apply nth_error_nth'. lia.
  Qed.
  Lemma set_from_ok output doms : length output <= K -> is_domains dofs t doms -> exists doms', set_from f output doms = Ok doms' /\ is_domains dofs t doms' /\
    forall d k x, copy_in dofs t doms' d k x -> (k < length output /\ nth_error output k = Some x) \/ (length output <= k /\ copy_in dofs t doms d k x).
  Proof.
    intros L D. unfold set_from.
    destruct (set_loop (fun doms i => row <- rd (f_rows f) i ;; set_copies f (rd output i) row doms) (rd output) (fun k => nth k output zero) (length output) doms D L) as (d' & E & D' & H); auto.
    { intros k doms0 Hk. rewrite rd_row by lia. auto. }
    { intros k Hk. apply rd_ok. lia. }
    exists d'. split; auto. split; auto. intros d k x C. apply copy_in_iff in C; auto. destruct C as (O & Hk & ->). rewrite H by auto.
    destruct (Nat.ltb_spec k (length output)); [left; split; auto; apply nth_error_nth'; auto | right; split; auto; apply copy_in_iff; auto].
  Qed.

  (** loops that read the copies *)
  Lemma first_copy_ok doms k : is_domains dofs t doms -> k < K -> first_copy f doms (row k) = Ok (hd_error (copies dofs t doms k)).
  Proof.
    intros D Hk. rewrite copies_eq by auto. unfold row. assert (H : forall d, In d (ds k) -> In d (ds k)) by auto. revert H. generalize (ds k) at 1 3 4. intros l H.
    induction l as [|d l IH]; cbn [map first_copy filter hd_error]; auto. rewrite mine_eq. destruct (own d) eqn:O.
    - rewrite get_copy_ok; auto. apply ks_in. split; auto. apply H; left; auto.
    - apply IH. intros; apply H; right; auto.
  Qed.
  Lemma write_loop (g : list T -> nat -> outcome (list T)) (w : nat -> T -> T) n (v : list T) : n <= length v ->
    (forall k v', k < n -> length v' = length v -> g v' k = Ok (upd v' k (w k (nth k v' zero)))) -> exists v', foldM g (seq 0 n) v = Ok v' /\ length v' = length v /\
    forall j, j < length v -> nth j v' zero = if j <? n then w j (nth j v zero) else nth j v zero.
  Proof.
    induction n as [|n IH]; intros Hn Hg.
    - exists v. cbn. auto.
    - destruct IH as (v1 & E1 & L1 & H1); [lia|intros; apply Hg; lia|]. rewrite seq_snoc, foldM_app, E1. cbn [obind foldM Nat.add]. rewrite Hg by lia. cbn [obind].
      eexists. split; [reflexivity|]. split; [rewrite upd_length; auto|]. intros j Hj. destruct (Nat.eq_dec j n) as [->|Ne].
      + rewrite nth_upd_eq by lia. rewrite H1 by auto. rewrite Nat.ltb_irrefl. rewrite (proj2 (Nat.ltb_lt n (S n))) by lia. auto.
      + rewrite nth_upd_neq by lia. rewrite H1 by auto. destruct (Nat.ltb_spec j n), (Nat.ltb_spec j (S n)); auto; lia.
  Qed.
  Lemma upd_self (v : list T) k : upd v k (nth k v zero) = v.
  Proof. revert k; induction v as [|a v IH]; intros [|k]; cbn; auto. f_equal; auto. Qed.

  Lemma copy_from_ok doms cluster : length cluster = K -> is_domains dofs t doms -> exists cluster', copy_from_domains f doms cluster = Ok cluster' /\ length cluster' = K /\
    forall k, k < K -> nth_error cluster' k = match copies dofs t doms k with [] => nth_error cluster k | x :: _ => Some x end.
  Proof.
    intros L D. unfold copy_from_domains. rewrite counted_rows, foldM_map_seq. cbn [fst snd].
    destruct (write_loop (fun cluster k => c <- first_copy f doms (row k) ;; match c with Some v => wr cluster k v | None => Ok cluster end)
      (fun k o => match copies dofs t doms k with [] => o | x :: _ => x end) K cluster) as (v' & E & L' & H); [lia| |].
    { intros k v Hk Lv. rewrite first_copy_ok by auto. cbn [obind]. destruct (copies dofs t doms k); cbn [hd_error]; [rewrite upd_self; auto | apply wr_ok; lia]. }
    exists v'. split; auto. split; [lia|]. intros k Hk. rewrite (nth_error_nth' v' zero) by lia. rewrite H by lia. rewrite (proj2 (Nat.ltb_lt k K)) by auto.
    destruct (copies dofs t doms k); auto. symmetry. apply nth_error_nth'. lia.
  Qed.
  Lemma store_to_ok doms output : length output <= K -> is_domains dofs t doms -> exists output', store_to f doms output = Ok output' /\ length output' = length output /\
    forall k, k < length output -> nth_error output' k = match copies dofs t doms k with [] => nth_error output k | x :: _ => Some x end.
  Proof.
    intros L D. unfold store_to.
    destruct (write_loop (fun output k => row <- rd (f_rows f) k ;; c <- first_copy f doms row ;; match c with Some v => wr output k v | None => Ok output end)
      (fun k o => match copies dofs t doms k with [] => o | x :: _ => x end) (length output) output) as (v' & E & L' & H); [lia| |].
    { intros k v Hk Lv. rewrite rd_row by lia. cbn [obind]. rewrite first_copy_ok by (auto; lia). cbn [obind]. destruct (copies dofs t doms k); cbn [hd_error]; [rewrite upd_self; auto | apply wr_ok; lia]. }
    exists v'. split; auto. split; [lia|]. intros k Hk. rewrite (nth_error_nth' v' zero) by lia. rewrite H by lia. rewrite (proj2 (Nat.ltb_lt k _)) by eauto.
    destruct (copies dofs t doms k); auto. symmetry. apply nth_error_nth'. lia.
  Qed.
  Lemma add_to_ok alpha doms cluster : length cluster <= K -> is_domains dofs t doms -> exists cluster', add_to add mul f alpha doms cluster = Ok cluster' /\ length cluster' = length cluster /\
    forall k c, nth_error cluster k = Some c -> nth_error cluster' k = Some (match copies dofs t doms k with [] => c | x :: _ => add c (mul alpha x) end).
  Proof.
    intros L D. unfold add_to.
    destruct (write_loop (fun cluster k => row <- rd (f_rows f) k ;; c <- first_copy f doms row ;; match c with Some v => o <- rd cluster k ;; wr cluster k (add o (mul alpha v)) | None => Ok cluster end)
      (fun k o => match copies dofs t doms k with [] => o | x :: _ => add o (mul alpha x) end) (length cluster) cluster) as (v' & E & L' & H); [lia| |].
    { intros k v Hk Lv. rewrite rd_row by lia. cbn [obind]. rewrite first_copy_ok by (auto; lia). cbn [obind].
      destruct (copies dofs t doms k); cbn [hd_error]; [rewrite upd_self; auto | rewrite (rd_ok _ _ zero) by lia; cbn [obind]; apply wr_ok; lia]. }
    exists v'. split; auto. split; [lia|]. intros k c Hk. apply (nth_error_nth_iff _ _ _ zero) in Hk. destruct Hk as [Hk <-].
    rewrite (nth_error_nth' v' zero) by lia. rewrite H by lia. rewrite (proj2 (Nat.ltb_lt k _)) by eauto. auto.
  Qed.

  Lemma sum_local_ok doms cluster : length cluster = K -> is_domains dofs t doms ->
    sum_local zero add f doms cluster = Ok (map (fun k => fold_left add (copies dofs t doms k) zero) (seq 0 K)).
  Proof.
    intros L D. unfold sum_local. rewrite counted_rows, foldM_map_seq. cbn [fst snd].
    assert (LZ : length (map (fun _ : T => zero) cluster) = K) by (rewrite map_length; auto).
    destruct (write_loop (fun cluster k => foldM (fun cluster di => if mine f di then v <- get_copy f doms di ;; o <- rd cluster k ;; wr cluster k (add o v) else Ok cluster) (row k) cluster)
      (fun k o => fold_left add (copies dofs t doms k) o) K (map (fun _ => zero) cluster)) as (v' & E & L' & H); [lia| |].
    { intros k v Hk Lv. rewrite copies_eq by auto. unfold row. assert (S : forall d, In d (ds k) -> In d (ds k)) by auto. revert S v Lv. generalize (ds k) at 1 3 4. intros l S.
      induction l as [|d l IH]; intros v Lv; cbn [map foldM filter fold_left].
      - rewrite upd_self; auto.
      - rewrite mine_eq. destruct (own d) eqn:O; cbn [obind].
        + rewrite get_copy_ok by (auto; apply ks_in; split; auto; apply S; left; auto). cbn [obind]. rewrite (rd_ok _ _ zero) by lia. cbn [obind]. rewrite wr_ok by lia. cbn [obind].
          rewrite IH by (try (intros; apply S; right; auto); rewrite upd_length; auto). rewrite nth_upd_eq by lia. cbn [map fold_left]. f_equal. apply (list_eq_nth _ _ zero); rewrite !upd_length; auto.
          intros i Hi. destruct (Nat.eq_dec i k) as [->|]; [rewrite !nth_upd_eq by (rewrite ?upd_length; lia); auto | rewrite !nth_upd_neq by auto; auto].
        + apply IH; auto. intros; apply S; right; auto. }
    rewrite E. f_equal. apply (list_eq_nth _ _ zero); [rewrite map_length, seq_length; lia|]. intros j Hj. rewrite L', LZ in Hj. rewrite H by lia. rewrite nth_map_seq by auto.
    rewrite (proj2 (Nat.ltb_lt j K)) by auto. f_equal. rewrite (nth_map _ _ _ _ zero) by lia. auto.
  Qed.
  Lemma divide_ok cluster : length cluster = K -> divide_local div f cluster = Ok (map (fun x : nat * T => div (snd x) (length (ds (fst x)))) (combine (seq 0 K) cluster)).
  Proof.
    intros L. unfold divide_local. rewrite counted_rows, foldM_map_seq. cbn [fst snd].
    destruct (write_loop (fun cluster k => v <- rd cluster k ;; wr cluster k (div v (length (row k)))) (fun k o => div o (length (ds k))) K cluster) as (v' & E & L' & H); [lia| |].
    { intros k v Hk Lv. rewrite (rd_ok _ _ zero) by lia. cbn [obind]. rewrite wr_ok by lia. rewrite row_length. auto. }
    rewrite E. f_equal. apply (list_eq_nth _ _ zero); [rewrite map_length, combine_length, seq_length; lia|]. intros j Hj. rewrite H by lia. rewrite (proj2 (Nat.ltb_lt j K)) by lia.
    rewrite (nth_map _ _ _ _ (0, zero)) by (rewrite combine_length, seq_length; lia). rewrite combine_nth by (rewrite seq_length; lia). rewrite seq_nth by lia. auto.
  Qed.
End Rank.
