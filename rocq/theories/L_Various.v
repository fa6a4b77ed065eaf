(** * Lemmas: messages to various targets *)
From Coq Require Import List Arith Lia Bool Permutation Sorted.
From Verif Require Import Base S_Order L_Utils L_Coll L_Coll2 L_Balance M_Nb S_Nb L_Nb M_Exchange L_Exchange.
Import ListNotations.
Local Open Scope out_scope.

Lemma nat_order : strict_total_order Nat.ltb Nat.eqb.
Proof.
  constructor; [constructor| |].
  - intros a b. rewrite Nat.ltb_lt, Nat.ltb_ge. lia.
  - unfold le_of. intros a b c. rewrite !Nat.ltb_ge. lia.
  - unfold le_of. intros a b. rewrite !Nat.ltb_ge. lia.
  - intros a b. apply Nat.eqb_eq.
Qed.

Lemma key_order (k : nat -> nat) : strict_weak_order (fun i j => k i <? k j).
Proof.
  constructor.
  - intros a b. rewrite Nat.ltb_lt, Nat.ltb_ge. lia.
  - unfold le_of. intros a b c. rewrite !Nat.ltb_ge. lia.
Qed.

Lemma sorted_keys (k : nat -> nat) l : sorted (fun i j => k i <? k j) l -> sorted Nat.ltb (map k l).
Proof.
  induction 1 as [|x l S IH F]; [constructor|]. cbn [map]. constructor; auto. apply Forall_forall. intros y Hy. apply in_map_iff in Hy.
  destruct Hy as (z & <- & Hz). rewrite Forall_forall in F. apply (F z Hz).
Qed.
Lemma sorted_strict l : NoDup l -> sorted Nat.ltb l -> strictly_sorted Nat.ltb l.
Proof.
  induction l as [|x l IH]; intros N S; [constructor|]. inversion N; inversion S; subst. constructor; [apply IH; auto|].
  apply Forall_forall. intros y Hy. rewrite Forall_forall in H6. specialize (H6 y Hy). unfold le_of in H6. apply Nat.ltb_ge in H6. apply Nat.ltb_lt.
  assert (x <> y) by (intros ->; tauto). lia.
Qed.
Lemma seq_strict a n : strictly_sorted Nat.ltb (seq a n).
Proof.
  revert a. induction n as [|n IH]; intros a; cbn; constructor; [apply IH|]. apply Forall_forall. intros y Hy. apply in_seq in Hy. apply Nat.ltb_lt. lia.
Qed.
Lemma filter_strict q l : strictly_sorted Nat.ltb l -> strictly_sorted Nat.ltb (filter q l).
Proof.
  induction 1 as [|x l S IH F]; cbn; [constructor|]. destruct (q x); auto. constructor; auto. apply Forall_forall. intros y Hy. apply filter_In in Hy.
  rewrite Forall_forall in F. apply F. tauto.
Qed.

(** two sorts of the same distinct numbers are equal *)
Lemma sorted_same l u : NoDup u -> sorted Nat.ltb l -> Permutation l u -> strictly_sorted Nat.ltb u -> l = u.
Proof.
  intros N S P U. apply (ssorted_unique Nat.ltb Nat.eqb nat_order); auto.
  - apply sorted_strict; auto. eapply Permutation_NoDup; [symmetry; eauto|auto].
  - intros x. split; apply Permutation_in; [|symmetry]; auto.
Qed.

Section Swap.
  Context {T : Type}.
  Local Notation buf := (list T).
  Variables (perm : list nat) (tmp rb : list buf).
  Hypothesis Np : NoDup perm.
  Hypothesis Rp : forall p, In p perm -> p < length tmp.
  Hypothesis Lp : length perm = length tmp.
  Hypothesis Lr : length rb = length tmp.

  Lemma swap_ok : exists tmp', foldM (swap_in perm) (seq 0 (length perm)) (rb, tmp) = Ok (map (fun p => nth p tmp []) perm, tmp').
  Proof.
    destruct (foldM_inv (swap_in perm) (fun pre st => length (fst st) = length tmp /\ length (snd st) = length tmp /\
      (forall x, x < length pre -> nth x (fst st) [] = nth (nth x perm 0) tmp []) /\
      (forall y, ~ In y (firstn (length pre) perm) -> nth y (snd st) [] = nth y tmp [])) (seq 0 (length perm)) (rb, tmp)) as (st & E & L1 & L2 & H1 & H2).
    - cbn. repeat split; auto. lia.
    - intros pre a post [r t] El (L1 & L2 & H1 & H2). cbn [fst snd] in *.
      assert (a = length pre) as ->.
      { pose proof (f_equal (fun l => nth (length pre) l 0) El) as E. cbn beta in E. rewrite app_nth2, Nat.sub_diag in E by lia. cbn [nth] in E.
        assert (length pre < length perm) by (apply (f_equal (@length nat)) in El; rewrite seq_length, app_length in El; cbn in El; lia).
        rewrite seq_nth in E by auto. lia. }
      assert (Hp : length pre < length perm) by (apply (f_equal (@length nat)) in El; rewrite seq_length, app_length in El; cbn in El; lia).
      set (p := nth (length pre) perm 0). assert (In p perm) as Ip by (apply nth_In; auto).
      pose proof (Rp p Ip). unfold swap_in. cbn [fst snd]. rewrite (rd_ok perm _ 0) by auto. cbn [obind]. fold p.
      rewrite (rd_ok r _ []) by lia. cbn [obind]. rewrite (rd_ok t p []) by lia. cbn [obind].
      rewrite (wr_ok r (length pre)) by lia. cbn [obind]. rewrite (wr_ok t p) by lia. cbn [obind].
      eexists. split; [reflexivity|]. cbn [fst snd]. rewrite !upd_length. split; auto. split; auto. rewrite app_length. cbn [length]. split.
      + intros x Hx. destruct (Nat.eq_dec x (length pre)) as [->|D].
        * rewrite nth_upd_eq by lia. apply H2.
          intros Hin. apply (In_nth _ _ 0) in Hin. destruct Hin as (z & Hz & Ez). rewrite firstn_length in Hz.
          rewrite (L_Balance.nth_firstn_lt) in Ez by lia. assert (z = length pre); [|lia]. apply (proj1 (NoDup_nth perm 0) Np); auto; lia.
        * rewrite nth_upd_neq by auto. apply H1. lia.
      + intros y Hy. assert (y <> p).
        { intros ->. apply Hy. rewrite Nat.add_1_r. apply (In_nth_error) in Ip.
          unfold p. rewrite <- (L_Balance.nth_firstn_lt (S (length pre)) perm (length pre) 0) by lia. apply nth_In. rewrite firstn_length. lia. }
        rewrite nth_upd_neq by auto. apply H2. intros Hin. apply Hy.
        rewrite <- (firstn_skipn (length pre) (firstn (length pre + 1) perm)), firstn_firstn. apply in_or_app. left. replace (Nat.min (length pre) (length pre + 1)) with (length pre) by lia. auto.
    - rewrite E. exists (snd st). do 2 f_equal. destruct st as [r t]. cbn [fst snd] in *. f_equal. apply nth_ext with (d := []) (d' := []).
      + rewrite map_length. lia.
      + intros x Hx. rewrite seq_length in H1. rewrite H1 by lia. rewrite (nth_indep (map (fun p => nth p tmp []) perm) [] (nth 0 tmp [])) by (rewrite map_length; lia).
        now rewrite (map_nth (fun p => nth p tmp []) perm 0).
  Qed.
End Swap.

Lemma map_nth_seq {B} (l : list B) d : map (fun k => nth k l d) (seq 0 (length l)) = l.
Proof. apply nth_ext with (d := d) (d' := d); [now rewrite map_length, seq_length|]. intros k Hk. rewrite map_length, seq_length in Hk. now rewrite (nth_map_seq (fun k => nth k l d)). Qed.

Lemma order_ok {T} sort (rb : list (list T)) (f : nat -> list T) u L :
  (forall ltb, strict_weak_order ltb -> sort_contract ltb (sort ltb)) -> strictly_sorted Nat.ltb u -> NoDup u -> Permutation L (map (fun j => (j, f j)) u) ->
  order_by_source sort rb (map snd L, map fst L) = Ok (map f u, u).
Proof.
  intros HS U N P. unfold order_by_source. cbn [fst snd]. set (src := map fst L).
  assert (Ps : Permutation src u). { unfold src. rewrite (Permutation_map fst P), map_fst_pair. auto. }
  assert (Ns : NoDup src) by (eapply Permutation_NoDup; [symmetry; eauto|auto]).
  set (perm := sort (fun i j => nth i src 0 <? nth j src 0) (seq 0 (length src))).
  destruct (HS (fun i j => nth i src 0 <? nth j src 0) (key_order (fun i => nth i src 0)) (seq 0 (length src))) as (Pp & Sp). fold perm in Pp, Sp.
  assert (Ek : map (fun i => nth i src 0) perm = u).
  { apply sorted_same; auto; [apply (sorted_keys (fun i => nth i src 0)); auto|].
    rewrite <- Ps. rewrite <- (Permutation_map _ Pp). now rewrite map_nth_seq. }
  assert (Lt : length (map snd L) = length src) by (unfold src; now rewrite !map_length).
  destruct (swap_ok perm (map snd L) (resize (length (map snd L)) rb [])) as (tmp' & E).
  - eapply Permutation_NoDup; [apply Pp|apply seq_NoDup].
  - intros p Hp. apply (Permutation_in p (Permutation_sym Pp)) in Hp. apply in_seq in Hp. lia.
  - rewrite <- (Permutation_length Pp), seq_length. auto.
  - apply L_Coll2.resize_len.
  - rewrite E. cbn [obind fst]. do 2 f_equal.
    + rewrite <- Ek, map_map. apply map_ext_in. intros p Hp. apply (Permutation_in p (Permutation_sym Pp)) in Hp. apply in_seq in Hp.
      assert (In (nth p L (0, [])) (map (fun j => (j, f j)) u)) as Hin. { eapply Permutation_in; [apply P|]. apply nth_In. unfold src in Hp. rewrite map_length in Hp. lia. }
      apply in_map_iff in Hin. destruct Hin as (j & Ej & _). rewrite (map_nth snd L (0, []) p : nth p (map snd L) [] = _). unfold src.
      rewrite (map_nth fst L (0, []) p : nth p (map fst L) 0 = _). rewrite <- Ej. auto.
    + destruct (HS Nat.ltb (sto_swo _ _ nat_order) src) as (P1 & S1). apply sorted_same; auto. rewrite <- Ps. symmetry. auto.
Qed.

(** ** Counters *)
Lemma msg_counter_ok size targets : Forall (fun t => t < size) targets ->
  exists c, msg_counter size targets = Ok c /\ length c = size /\ forall r, r < size -> nth r c 0 = if existsb (Nat.eqb r) targets then 1 else 0.
Proof.
  intros F. unfold msg_counter.
  destruct (foldM_inv (fun c t => wr c t 1) (fun pre c => length c = size /\ forall r, r < size -> nth r c 0 = if existsb (Nat.eqb r) pre then 1 else 0)
    targets (repeat 0 size)) as (c & E & L & H).
  - rewrite repeat_length. split; auto. intros r Hr. cbn. apply nth_repeat.
  - intros pre t post c Et (L & H). rewrite Forall_forall in F. assert (t < size) by (apply F; rewrite Et; apply in_or_app; right; left; auto).
    rewrite wr_ok by lia. eexists. split; [reflexivity|]. rewrite upd_length. split; auto. intros r Hr. rewrite existsb_app. cbn [existsb].
    destruct (Nat.eq_dec r t) as [->|D].
    + rewrite nth_upd_eq by lia. rewrite Nat.eqb_refl. cbn. now rewrite orb_true_r.
    + rewrite nth_upd_neq by auto. rewrite H by auto. destruct (Nat.eqb_spec r t); [tauto|]. cbn [orb]. now rewrite orb_false_r.
  - eauto.
Qed.

Lemma count_filter (q : nat -> bool) l : fold_right Nat.add 0 (map (fun j => if q j then 1 else 0) l) = length (filter q l).
Proof. induction l as [|x l IH]; cbn; auto. destruct (q x); cbn; lia. Qed.
