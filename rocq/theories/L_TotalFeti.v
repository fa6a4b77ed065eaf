(** Lemmas about the dual operators: products with B and its transpose on a rank. *)
From Coq Require Import List Arith Bool Permutation Sorted Reals Lia Lra.
From Verif Require Import Base S_Dual M_Dual S_Equality M_Equality L_Equality6 L_Equality7 M_TotalFeti S_Feti.
Import ListNotations.
Local Open Scope out_scope.
Local Open Scope R_scope.

Lemma foldM_flat {S A B} (g : S -> B -> outcome S) (h : A -> list B) l : forall s, foldM g (flat_map h l) s = foldM (fun s a => foldM g (h a) s) l s.
Proof. induction l as [|a l IH]; intros s; cbn [flat_map foldM]; [reflexivity|]. rewrite foldM_app. destruct (foldM g (h a) s); cbn [obind]; auto. Qed.
Lemma foldM_ext_in {S A} (f g : S -> A -> outcome S) l : (forall s a, In a l -> f s a = g s a) -> forall s, foldM f l s = foldM g l s.
Proof. induction l as [|a l IH]; intros H s; cbn [foldM]; [reflexivity|]. rewrite H by (now left). destruct (g s a); cbn [obind]; auto. apply IH. intros; apply H; now right. Qed.
Lemma foldM_pairs {S A B} (f : S -> A * B -> outcome S) a l : forall s, foldM f (map (pair a) l) s = foldM (fun s b => f s (a, b)) l s.
Proof. induction l as [|b l IH]; intros s; cbn [map foldM]; [reflexivity|]. destruct (f s (a, b)); cbn [obind]; auto. Qed.
(** a loop that appends one element *)
Lemma foldM_append {A B} (f : list B -> A -> outcome (list B)) (g : A -> B) l : (forall acc a, In a l -> f acc a = Ok (acc ++ [g a])) -> forall acc, foldM f l acc = Ok (acc ++ map g l).
Proof.
  induction l as [|a l IH]; intros H acc; cbn [foldM map]; [now rewrite app_nil_r|]. rewrite H by (now left). cbn [obind]. rewrite IH by (intros; apply H; now right).
  rewrite <- app_assoc. reflexivity.
Qed.

Section Rank.
  Variables (n : nat) (first : nat -> nat) (L : list (list nat)) (len : nat -> nat) (row : nat -> nat -> list (nat * R)).
  Hypothesis HB : entries_ok L len row.
  Variable r : nat.
  Local Notation held := (held first L r).
  Local Notation own := (own first r).
  Local Notation st := (stored first L len row r).
  Local Notation B := (B row).

  Lemma held_lt m : In m held -> (m < length L)%nat.
  Proof. unfold S_Dual.held. rewrite filter_In, in_seq. lia. Qed.
  Lemma own_held d m : In d own -> (m < length L)%nat -> In d (domains L m) -> In m held.
  Proof.
    intros Hd Hm I. unfold S_Dual.held. apply filter_In. split; [apply in_seq; lia|]. unfold touches. apply existsb_exists. exists d. split; [easy|].
    unfold S_Feti.own, own_domains in Hd. apply in_seq in Hd. rewrite andb_true_iff, Nat.leb_le, Nat.ltb_lt. lia.
  Qed.
  Lemma own_nth {A} (f : nat -> A) d x : In d own -> nth (d - first r) (map f own) x = f d.
  Proof.
    intros I. unfold S_Feti.own, own_domains in *. apply in_seq in I. rewrite (nth_indep _ x (f 0%nat)) by (rewrite map_length, seq_length; lia). rewrite map_nth, seq_nth by lia. f_equal. lia.
  Qed.
  Lemma own_rd {A} (f : nat -> A) d : In d own -> rd (map f own) (d - first r) = Ok (f d).
  Proof.
    intros I. rewrite (rd_ok _ _ (f d)); [now rewrite own_nth|]. unfold S_Feti.own, own_domains in *. apply in_seq in I. rewrite map_length, seq_length. lia.
  Qed.
  Lemma own_seq : seq 0 (length own) = map (fun d => (d - first r)%nat) own.
  Proof.
    unfold S_Feti.own, own_domains. rewrite seq_length. apply (nth_ext _ _ O O); [now rewrite map_length, !seq_length|]. intros i Hi. rewrite seq_length in Hi.
    rewrite seq_nth by easy. rewrite (nth_indep _ O (first r - first r)%nat) by (now rewrite map_length, seq_length). rewrite (map_nth (fun d => (d - first r)%nat)), seq_nth by easy. lia.
  Qed.

  (** the rows of a domain as the loops see them: multipliers that do not touch the domain have no entries *)
  Lemma stored_flat d : flat_map (fun x => map (pair (fst x)) (snd x)) (stored_rows first L row r d) = flat_map (fun y => map (pair (fst y)) (row (snd y) d)) (combine (seq 0 (length held)) held).
  Proof.
    unfold stored_rows. assert (G : forall l : list (nat * nat), (forall pm, In pm l -> (snd pm < length L)%nat) ->
      flat_map (fun x : nat * list (nat * R) => map (pair (fst x)) (snd x)) (map (fun pm => (fst pm, row (snd pm) d)) (filter (fun pm => existsb (Nat.eqb d) (domains L (snd pm))) l))
      = flat_map (fun y => map (pair (fst y)) (row (snd y) d)) l).
    { induction l as [|pm l IH]; intros H; cbn [filter map flat_map]; [reflexivity|]. rewrite <- IH by (intros; apply H; now right).
      destruct (existsb (Nat.eqb d) (domains L (snd pm))) eqn:E; [reflexivity|]. rewrite (proj2 (HB (snd pm) d (H pm (or_introl eq_refl)))); [reflexivity|].
      intros I. assert (X : existsb (Nat.eqb d) (domains L (snd pm)) = true) by (apply existsb_exists; exists d; split; [easy|apply Nat.eqb_refl]). congruence. }
    apply G. intros (p, m) I. apply in_combine_r in I. now apply held_lt.
  Qed.
  Lemma row_range m d : In m held -> Forall (fun e => (fst e < len d)%nat) (row m d).
  Proof. intros I. apply Forall_forall. intros e Ie. now apply (HB m d (held_lt m I)). Qed.

  Lemma B_not_held m d j : In d own -> (m < length L)%nat -> ~ In m held -> B m d j = 0.
  Proof. intros Id Hm Nm. unfold S_Feti.B. rewrite (proj2 (HB m d Hm)); [reflexivity|]. intros I. apply Nm. now apply (own_held d). Qed.
  Lemma Sum_held d (f : nat -> R) j : In d own -> Sum held (fun m => B m d j * f m) = Sum (multiplier_list L) (fun m => B m d j * f m).
  Proof.
    intros Id. unfold S_Dual.held, multiplier_list. rewrite Sum_filter. apply Sum_ext_in. intros m I. destruct (touches first r (domains L m)) eqn:E; [reflexivity|].
    rewrite B_not_held; [lra|easy|apply in_seq in I; lia|]. unfold S_Dual.held. rewrite filter_In. intros [_ X]. congruence.
  Qed.

  Lemma apply_Bt_ok d x alpha : In d own ->
    apply_Bt 0 Rplus Rmult st (d - first r) (len d) (dual first L x r) alpha = Ok (map (fun j => alpha * Bt_of L row x d j) (seq 0 (len d))).
  Proof.
    intros Id. unfold apply_Bt. cbn [B1 stored]. rewrite own_rd by easy. cbn [obind].
    rewrite (foldM_ext_in _ (fun out row => foldM (bt_row Rplus Rmult alpha (dual first L x r)) (map (pair (fst row)) (snd row)) out)) by (intros; now rewrite foldM_pairs).
    rewrite <- foldM_flat, stored_flat. unfold dual, vector.
    pose proof (bt_rows_ok alpha (fun m => row m d) x held [] (repeat 0 (len d))) as P. cbn [length app] in P. rewrite P.
    - rewrite repeat_length. f_equal. apply map_ext. intros j. rewrite nth_repeat, Rplus_0_l. f_equal. unfold Bt_of. rewrite <- Sum_held by easy. reflexivity.
    - intros m I. rewrite repeat_length. now apply row_range.
  Qed.

  Definition part (ds : list nat) (u : nat -> nat -> R) (m : nat) : R := Sum ds (fun d => Sum (seq 0 (len d)) (fun j => B m d j * u d j)).

  Lemma dense_length u d : length (dense len u d) = len d.
  Proof. unfold dense. now rewrite map_length, seq_length. Qed.
  Lemma dense_nth u d j : (j < len d)%nat -> nth j (dense len u d) 0 = u d j.
  Proof. intros. unfold dense. now apply map_seq_nth. Qed.

  Lemma apply_B_gen ds in_ u : incl ds own -> length in_ = length own -> (forall d, In d ds -> nth (d - first r) in_ [] = dense len u d) ->
    forall f, foldM (fun out d => b <- rd (B1 st) d ;; x <- rd in_ d ;;
                        foldM (fun out row => foldM (fun out e => b_row Rplus Rmult x out (fst row, e)) (snd row) out) b out) (map (fun d => (d - first r)%nat) ds) (map f held)
      = Ok (map (fun m => f m + part ds u m) held).
  Proof.
    intros Hds Li Hin. induction ds as [|d ds IH]; intros f; cbn [map foldM].
    - f_equal. apply map_ext. intros m. unfold part. rewrite Sum_nil. lra.
    - assert (Id : In d own) by (apply Hds; now left). cbn [B1 stored]. rewrite own_rd by easy. cbn [obind].
      rewrite (rd_ok in_ _ []) by (rewrite Li; unfold S_Feti.own, own_domains in *; apply in_seq in Id; rewrite seq_length; lia). cbn [obind].
      rewrite Hin by (now left).
      rewrite (foldM_ext_in _ (fun out row => foldM (b_row Rplus Rmult (dense len u d)) (map (pair (fst row)) (snd row)) out)) by (intros; now rewrite foldM_pairs).
      rewrite <- foldM_flat, stored_flat.
      pose proof (b_rows_ok (dense len u d) (fun m => row m d) held) as P. specialize (P ltac:(intros; rewrite dense_length; now apply row_range) [] (map f held) (map_length _ _)).
      cbn [length app] in P. rewrite P. cbn [obind]. rewrite plus2_map. cbn [B1 stored] in IH. rewrite IH.
      + f_equal. apply map_ext_in. intros m Im. unfold part. rewrite Sum_cons, <- Rplus_assoc. f_equal. f_equal.
        rewrite <- (entry_sum_dot (row m d) (len d) (fun j => nth j (dense len u d) 0)) by (now apply row_range). apply Sum_ext_in. intros j Ij. apply in_seq in Ij. rewrite dense_nth by lia. reflexivity.
      + intros a Ia. apply Hds. now right.
      + intros a Ia. apply Hin. now right.
  Qed.
  Lemma zero_vector : repeat 0 (length held) = map (fun _ => 0) held.
  Proof. induction held as [|a l IH]; [reflexivity|]. cbn. now rewrite IH. Qed.
  Lemma apply_B_ok ds in_ u : incl ds own -> length in_ = length own -> (forall d, In d ds -> nth (d - first r) in_ [] = dense len u d) ->
    apply_B 0 Rplus Rmult st (map (fun d => (d - first r)%nat) ds) in_ = Ok (map (part ds u) held).
  Proof.
    intros H1 H2 H3. unfold apply_B. cbn [lambdas stored]. rewrite zero_vector. change (B1 (stored first L len row r)) with (B1 st).
    rewrite (apply_B_gen ds in_ u H1 H2 H3). f_equal. apply map_ext. intros. lra.
  Qed.
  Lemma Kn_length : length (Kn st) = length own.
  Proof. cbn [Kn stored]. now rewrite map_length. Qed.
  Lemma apply_B_all u : apply_B 0 Rplus Rmult st (seq 0 (length (Kn st))) (map (dense len u) own) = Ok (map (part own u) held).
  Proof.
    rewrite Kn_length, own_seq. apply apply_B_ok; [apply incl_refl|now rewrite map_length|]. intros d I. now rewrite own_nth.
  Qed.

  Lemma all_Btx_ok x : all_Btx 0 1 Rplus Rmult st (dual first L x r) = Ok (map (dense len (Bt_of L row x)) own).
  Proof.
    unfold all_Btx. rewrite Kn_length, own_seq. rewrite (foldM_append _ (fun k => dense len (Bt_of L row x) (k + first r))).
    - cbn [app]. rewrite map_map. f_equal. apply map_ext_in. intros d I. f_equal. unfold S_Feti.own, own_domains in I. apply in_seq in I. lia.
    - intros acc a I. apply in_map_iff in I as (d & <- & Id). unfold domain_Btx. cbn [Kn stored]. change (rd (map len (own_domains first r)) (d - first r)) with (rd (map len own) (d - first r)).
      rewrite own_rd by easy. cbn [obind]. rewrite apply_Bt_ok by easy. cbn [obind]. do 3 f_equal.
      replace (d - first r + first r)%nat with d by (unfold S_Feti.own, own_domains in Id; apply in_seq in Id; lia). unfold dense. apply map_ext. intros j. lra.
  Qed.

  Variable kplus : nat -> nat -> nat -> R.
  Variable solve : nat -> list R -> list R.
  Hypothesis HS : solves first len kplus r solve.
  Lemma dense_ext u v d : (forall j, (j < len d)%nat -> u d j = v d j) -> dense len u d = dense len v d.
  Proof. intros H. unfold dense. apply map_ext_in. intros j I. apply in_seq in I. apply H. lia. Qed.
  Lemma solve_ok d v : In d own -> solve (d - first r)%nat (dense len v d) = dense len (Kplus_of len kplus v) d.
  Proof.
    intros I. rewrite HS by (easy || apply dense_length). apply dense_ext. intros j Hj. unfold Kplus_of. apply Sum_ext_in. intros i Ii. apply in_seq in Ii. rewrite dense_nth by lia. reflexivity.
  Qed.
  Lemma solve_all_ok v : solve_all solve (map (dense len v) own) = map (dense len (Kplus_of len kplus v)) own.
  Proof.
    unfold solve_all. rewrite map_length, own_seq.
    assert (G : forall l, incl l own -> map (fun dv => solve (fst dv) (snd dv)) (combine (map (fun d => (d - first r)%nat) l) (map (dense len v) l)) = map (dense len (Kplus_of len kplus v)) l).
    { induction l as [|d l IH]; intros Hl; [reflexivity|]. cbn [map combine fst snd]. rewrite solve_ok by (apply Hl; now left). rewrite IH by (intros a Ia; apply Hl; now right). reflexivity. }
    apply G, incl_refl.
  Qed.

  Lemma implicit_ok x : implicit_apply 0 1 Rplus Rmult st solve (dual first L x r) = Ok (map (part own (Kplus_of len kplus (Bt_of L row x))) held).
  Proof. unfold implicit_apply. rewrite all_Btx_ok. cbn [obind]. rewrite solve_all_ok. apply apply_B_all. Qed.

  Lemma implicit_filter_ok x ds old : incl ds own -> length old = length own ->
    implicit_apply_filter 0 1 Rplus Rmult st solve (map (fun d => (d - first r)%nat) ds) old (dual first L x r) = Ok (map (part ds (Kplus_of len kplus (Bt_of L row x))) held).
  Proof.
    intros Hds Lo. unfold implicit_apply_filter. rewrite all_Btx_ok. cbn [obind]. set (v := Kplus_of len kplus (Bt_of L row x)).
    assert (G : forall l y, incl l own -> length y = length own -> exists y', solve_filter solve (map (fun d => (d - first r)%nat) l) (map (dense len (Bt_of L row x)) own) y = Ok y' /\ length y' = length own /\
      (forall d, In d l -> nth (d - first r) y' [] = dense len v d) /\ (forall d, In d own -> nth (d - first r) y [] = dense len v d -> nth (d - first r) y' [] = dense len v d)).
    { induction l as [|d l IH]; intros y Hl Ly.
      - exists y. cbn. repeat split; auto. intros ? [].
      - assert (Id : In d own) by (apply Hl; now left). unfold solve_filter. cbn [map foldM]. rewrite own_rd by easy. cbn [obind].
        assert (Ld : (d - first r < length y)%nat) by (rewrite Ly; unfold S_Feti.own, own_domains in *; apply in_seq in Id; rewrite seq_length; lia).
        rewrite wr_ok by easy. cbn [obind]. rewrite solve_ok by easy. destruct (IH (upd y (d - first r) (dense len v d))) as (y' & E1 & E2 & E3 & E4); [intros a Ia; apply Hl; now right|now rewrite upd_length|].
        exists y'. split; [exact E1|]. split; [exact E2|]. split.
        + intros a [<-|Ia]; [|now apply E3]. apply E4; [easy|]. rewrite nth_upd by easy. now rewrite Nat.eqb_refl.
        + intros a Ia Ea. apply E4; [easy|]. rewrite nth_upd by easy. destruct (Nat.eqb_spec (d - first r) (a - first r)) as [Eq|]; [|exact Ea]. f_equal.
          unfold S_Feti.own, own_domains in *. apply in_seq in Ia, Id. lia. }
    destruct (G ds old Hds Lo) as (y & E1 & E2 & E3 & _). rewrite E1. cbn [obind]. now apply apply_B_ok.
  Qed.

  Lemma rhs_ok f : dual_rhs 0 Rplus Rmult st solve (map (dense len f) own) = Ok (map (part own (Kplus_of len kplus f)) held).
  Proof. unfold dual_rhs. rewrite solve_all_ok. apply apply_B_all. Qed.

  Lemma to_primal_ok f x : to_primal 0 1 Rplus Rmult Ropp st solve (map (dense len f) own) (dual first L x r) =
    Ok (map (dense len (Kplus_of len kplus (fun d j => f d j - Bt_of L row x d j))) own).
  Proof.
    unfold to_primal. rewrite all_Btx_ok. cbn [obind]. f_equal. rewrite <- solve_all_ok. f_equal.
    induction own as [|d l IH]; [reflexivity|]. cbn [map combine]. rewrite IH. f_equal. cbn [fst snd]. unfold axpy, dense. clear. induction (seq 0 (len d)) as [|j l IH]; [reflexivity|].
    cbn [map combine fst snd]. rewrite IH. f_equal. lra.
  Qed.
End Rank.
