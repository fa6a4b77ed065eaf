(** * Lemmas on the global numbers of nodes: all ranks *)
From Coq Require Import List Arith Bool Lia Sorted Permutation.
From Verif Require Import Base S_Order M_Utils M_Distributed S_Distributed M_DistMatrix M_NodeInfo S_NodeInfo L_Utils L_Equality L_TotalFeti L_Csx2 L_Fill2 L_Numbering L_Distributed L_DistMatrix L_VectorFeti L_DistApply L_DistApply2 L_NodeInfo L_NodeInfo2 L_NodeInfo3.
Import ListNotations.
Local Open Scope out_scope.

Lemma ss_nodup' l : StronglySorted lt l -> NoDup l.
Proof. induction 1 as [|a l S IH F]; constructor; auto. rewrite Forall_forall in F. intros C. specialize (F _ C). lia. Qed.
Lemma ss_app_l {A} (R : A -> A -> Prop) a b : StronglySorted R (a ++ b) -> StronglySorted R a.
Proof. induction a as [|x a IH]; intros S; constructor; apply StronglySorted_inv in S; destruct S as [S F]; auto. apply Forall_app in F. tauto. Qed.
Lemma ss_app_r {A} (R : A -> A -> Prop) a b : StronglySorted R (a ++ b) -> StronglySorted R b.
Proof. induction a as [|x a IH]; intros S; auto. apply IH. apply StronglySorted_inv in S. tauto. Qed.
Lemma ss_map_in {A B} (R : A -> A -> Prop) (Q : B -> B -> Prop) (f : A -> B) l : StronglySorted R l -> (forall a b, In a l -> In b l -> R a b -> Q (f a) (f b)) -> StronglySorted Q (map f l).
Proof.
  induction 1 as [|a l S IH F]; intros H; cbn [map]; constructor; [apply IH; intros; apply H; auto; right; auto|]. rewrite Forall_forall in *. intros y Hy. apply in_map_iff in Hy. destruct Hy as (b & <- & Hb). apply H; auto; [left; auto|right; auto].
Qed.
Lemma filter_map_swap {A B} (p : B -> bool) (g : A -> B) l : filter p (map g l) = map g (filter (fun x => p (g x)) l).
Proof. induction l as [|a l IH]; auto. cbn [map filter]. destruct (p (g a)); cbn [map]; congruence. Qed.
Lemma find_rank_map (f : nat -> nat) l k : NoDup (map f l) -> k < length l -> find_rank (f (nth k l 0)) (map f l) = k.
Proof. intros N H. rewrite <- (nth_map f l k 0 0) by auto. apply find_rank_nth; auto. rewrite map_length; auto. Qed.
Lemma numbers_eq s off own j (f : nat -> nat) : NoDup (map f own) -> numbers s off own j = map (fun x => off + find_rank x (map f own)) (map f (filter (fun n => mem j (ranks_of s n)) own)).
Proof.
  intros N. unfold numbers. rewrite map_map. assert (E : filter (fun n => mem j (ranks_of s n)) own = map (fun k => nth k own 0) (filter (fun k => mem j (ranks_of s (nth k own 0))) (seq 0 (length own)))) by (rewrite <- (filter_map_swap (fun n => mem j (ranks_of s n))); f_equal; apply list_as_map; auto).
  rewrite E, map_map. apply map_ext_in. intros k Hk. apply filter_In in Hk. destruct Hk as [Hk _]. apply in_seq in Hk. rewrite find_rank_map by (auto; lia). auto.
Qed.
Lemma find_rank_lt l x y : StronglySorted lt l -> In x l -> In y l -> x < y -> find_rank x l < find_rank y l.
Proof. intros S Hx Hy L. pose proof (find_rank_mono l x y S Hx Hy ltac:(lia)). destruct (Nat.eq_dec (find_rank x l) (find_rank y l)) as [E|]; [|lia]. apply find_rank_inj in E; auto. lia. Qed.

Section All.
  Context (nb : list (list nat)) (ss : list node_store) (SN : shared_nodes nb ss) (ORD : ordered_ranks ss).
  Let P := length ss.
  Let nbr r := nth r nb [].
  Let st r := nth r ss no_store.
  Let ids r := ns_ids (st r).
  Context (m : nat) (R : nat -> nat -> list nat).
  Hypothesis (RS : forall r i, r < P -> i < m -> StronglySorted lt (R r i)) (RV : forall r i, r < P -> i < m -> valid_nodes (st r) (R r i)).
  Hypothesis (AG : forall i r t x, i < m -> r < P -> In x (map (id_of (st r)) (R r i)) -> t < P -> In x (ids t) -> In x (map (id_of (st t)) (R t i))).
  Let H r i := firstn (leading (ns_nhalo (st r)) (R r i)) (R r i).
  Let O r i := skipn (leading (ns_nhalo (st r)) (R r i)) (R r i).
  Let own r n := owner_of (st r) n.
  Let off r i := list_sum (map (fun t => length (O t i)) (seq 0 r)).
  Let GN i o x := off o i + find_rank x (map (id_of (st o)) (O o i)).
  Let gn r i n := GN i (own r n) (id_of (st r) n).

  Lemma split_eq r i : H r i ++ O r i = R r i.
  Proof. apply firstn_skipn. Qed.
  Lemma H_in r i n : r < P -> i < m -> (In n (H r i) <-> In n (R r i) /\ own r n < r).
  Proof.
    intros Hr Hi. destruct (leading_split (ns_nhalo (st r)) (R r i) (RS r i Hr Hi)) as (_ & L & G). rewrite <- split_eq, in_app_iff. fold (H r i) in L. fold (O r i) in G.
    assert (V : In n (H r i) \/ In n (O r i) -> n < length (ids r)) by (rewrite <- in_app_iff, split_eq; apply RV; auto). split.
    - intros Q. split; auto. apply (halo_iff _ ORD); auto.
    - intros [[Q|Q] Q']; auto. specialize (G n Q). apply (halo_iff _ ORD) in Q'; auto. fold (st r) in Q'. lia.
  Qed.
  Lemma O_in r i n : r < P -> i < m -> (In n (O r i) <-> In n (R r i) /\ own r n = r).
  Proof.
    intros Hr Hi. destruct (leading_split (ns_nhalo (st r)) (R r i) (RS r i Hr Hi)) as (_ & L & G). rewrite <- split_eq, in_app_iff. fold (H r i) in L. fold (O r i) in G.
    assert (V : In n (H r i) \/ In n (O r i) -> n < length (ids r)) by (rewrite <- in_app_iff, split_eq; apply RV; auto). split.
    - intros Q. split; auto. apply (own_iff _ _ SN ORD); auto.
    - intros [[Q|Q] Q']; auto. specialize (L n Q). apply (own_iff _ _ SN ORD) in Q'; auto. fold (st r) in Q'. lia.
  Qed.
  Lemma R_owner r i n : r < P -> i < m -> In n (R r i) -> own r n <= r /\ In (own r n) (ranks_of (st r) n) /\ own r n < P /\ In (id_of (st r) n) (ids (own r n)).
  Proof.
    intros Hr Hi Hn. assert (V : n < length (ids r)) by (apply (RV r i); auto). destruct (owner_le r (st r) (rk_len _ _ SN r Hr) (rk_sorted _ _ SN r Hr) (rk_self _ _ SN r Hr) n V) as [Q1 Q2]. split; auto. split; auto. apply (rk_iff _ _ SN r n) in Q2; auto.
  Qed.
  (** nodes with one owner are ordered by IDs *)
  Lemma ids_sorted r l o : r < P -> StronglySorted lt l -> valid_nodes (st r) l -> (forall n, In n l -> own r n = o) -> StronglySorted lt (map (id_of (st r)) l).
  Proof.
    intros Hr S V Ho. apply (ss_map_in lt); auto. intros a b Ha Hb L. destruct (on_order _ _ (ORD r Hr) a b) as [C|[_ C]]; [split; auto; apply V; auto| |auto].
    fold (st r) in C. fold (own r a) in C. fold (own r b) in C. rewrite !Ho in C by auto. lia.
  Qed.
  Lemma H_sorted r i : r < P -> i < m -> StronglySorted lt (H r i).
  Proof. intros Hr Hi. apply (ss_app_l _ _ (O r i)). rewrite split_eq. apply RS; auto. Qed.
  Lemma O_sorted r i : r < P -> i < m -> StronglySorted lt (O r i).
  Proof. intros Hr Hi. apply (ss_app_r _ (H r i)). rewrite split_eq. apply RS; auto. Qed.
  Lemma O_ids r i : r < P -> i < m -> StronglySorted lt (map (id_of (st r)) (O r i)).
  Proof. intros Hr Hi. apply (ids_sorted r _ r); auto; [apply O_sorted; auto|intros n Hn; apply O_in in Hn; auto; apply (RV r i); tauto|intros n Hn; apply O_in in Hn; tauto]. Qed.
  (** the node of the region on its owner *)
  Lemma on_owner r i n : r < P -> i < m -> In n (R r i) -> In (id_of (st r) n) (map (id_of (st (own r n))) (O (own r n) i)).
  Proof.
    intros Hr Hi Hn. destruct (R_owner r i n Hr Hi Hn) as (_ & _ & Lo & Ho). pose proof (AG i r (own r n) (id_of (st r) n) Hi Hr (in_map _ _ _ Hn) Lo Ho) as C. apply in_map_iff in C. destruct C as (k & Ek & Hk). apply in_map_iff. exists k. split; auto. apply O_in; auto. split; auto.
    apply (same_owner _ _ SN (own r n) r k n); auto; [apply (RV _ i); auto|apply (RV _ i); auto].
  Qed.
  Lemma key r j i : j < r -> r < P -> i < m -> map (id_of (st j)) (filter (fun n => mem r (ranks_of (st j) n)) (O j i)) = map (id_of (st r)) (filter (fun n => j =? own r n) (H r i)).
  Proof.
    intros L Hr Hi. assert (Hj : j < P) by lia. apply ss_ext.
    - apply (ids_sorted j _ j); auto; [apply ss_filter, O_sorted; auto| |]; intros n Hn; apply filter_In in Hn; destruct Hn as [Hn _]; apply O_in in Hn; auto; [apply (RV j i); tauto|tauto].
    - apply (ids_sorted r _ j); auto; [apply ss_filter, H_sorted; auto| |]; intros n Hn; apply filter_In in Hn; destruct Hn as [Hn E]; [apply H_in in Hn; auto; apply (RV r i); tauto|apply Nat.eqb_eq in E; auto].
    - intros x. rewrite !in_map_iff. split; intros (n & E & Hn); apply filter_In in Hn; destruct Hn as [Hn Q].
      + apply O_in in Hn; auto. destruct Hn as [Hn Ho]. apply mem_iff in Q. assert (V : n < length (ids j)) by (apply (RV j i); auto). apply (rk_iff _ _ SN j n r) in Q; auto. destruct Q as [_ Q].
        pose proof (AG i j r _ Hi Hj (in_map _ _ _ Hn) Hr Q) as C. apply in_map_iff in C. destruct C as (k & Ek & Hk). exists k. split; [rewrite <- E; auto|].
        assert (Ok' : own r k = j). { transitivity (own j n); auto. apply (same_owner _ _ SN r j k n); auto. apply (RV r i); auto. } apply filter_In. split; [apply H_in; auto; split; auto; lia|apply Nat.eqb_eq; auto].
      + apply Nat.eqb_eq in Q. apply H_in in Hn; auto. destruct Hn as [Hn Ho]. assert (V : n < length (ids r)) by (apply (RV r i); auto). pose proof (on_owner r i n Hr Hi Hn) as C. rewrite <- Q in C. apply in_map_iff in C. destruct C as (k & Ek & Hk). exists k. split; [congruence|].
        apply filter_In. split; auto. apply mem_iff. apply O_in in Hk; auto. apply (rk_iff _ _ SN j k r); auto; [apply (RV j i); tauto|]. split; auto. fold (st j). rewrite Ek. apply nth_In; auto.
  Qed.
  Lemma numbers_sent r j i : j < r -> r < P -> i < m -> numbers (st j) (off j i) (O j i) r = map (gn r i) (filter (fun n => j =? own r n) (H r i)).
  Proof.
    intros L Hr Hi. rewrite (numbers_eq _ _ _ _ (id_of (st j))) by (apply ss_nodup', O_ids; auto; lia). rewrite key by auto. rewrite map_map. apply map_ext_in. intros n Hn. apply filter_In in Hn. destruct Hn as [_ E]. apply Nat.eqb_eq in E. unfold gn, GN. rewrite <- E. auto.
  Qed.
  Lemma lower_ok r i : r < P -> i < m -> lower_part r (fun j i => numbers (st j) (off j i) (O j i) r) i (nbr r) = map (gn r i) (H r i).
  Proof.
    intros Hr Hi. unfold lower_part. erewrite flat_map_ext_in'. 2:{ intros j Hj. apply filter_In in Hj. destruct Hj as [_ Q]. apply Nat.ltb_lt in Q. apply numbers_sent; auto. }
    transitivity (map (gn r i) (flat_map (fun j => filter (fun n => j =? own r n) (H r i)) (filter (fun j => j <? r) (nbr r)))).
    - generalize (filter (fun j => j <? r) (nbr r)). intros l. induction l as [|a l IH]; auto. cbn [flat_map]. rewrite map_app. congruence.
    - f_equal. apply by_keys.
      + apply ss_filter, (nb_sorted _ _ SN); auto.
      + rewrite <- (map_id (H r i)). apply (ss_map_in lt); [apply H_sorted; auto|]. intros a b Ha Hb L. apply H_in in Ha, Hb; auto. destruct (on_order _ _ (ORD r Hr) a b) as [C|[C _]]; [split; auto; apply (RV r i); tauto| |]; fold (st r) in C; fold (own r a) in C; fold (own r b) in C; lia.
      + intros n Hn. apply H_in in Hn; auto. destruct Hn as [Hn Q]. destruct (R_owner r i n Hr Hi Hn) as (_ & Q1 & _). apply filter_In. split; [|apply Nat.ltb_lt; auto]. apply (rk_nb _ _ SN r Hr n); auto; [apply (RV r i); auto|lia].
  Qed.
  Lemma own_gn r i : r < P -> i < m -> map (gn r i) (O r i) = seq (off r i) (length (O r i)).
  Proof.
    intros Hr Hi. rewrite (list_as_map (O r i) 0 _ eq_refl) at 1. rewrite map_map. transitivity (map (fun k => off r i + k) (seq 0 (length (O r i)))).
    - apply map_ext_in. intros k Hk. apply in_seq in Hk. unfold gn, GN. assert (Hin : In (nth k (O r i) 0) (O r i)) by (apply nth_In; lia). apply O_in in Hin; auto. destruct Hin as [_ ->]. rewrite find_rank_map; auto; [apply ss_nodup', O_ids; auto|lia].
    - generalize (off r i) as b. generalize (length (O r i)) as n. clear. intros n b. revert b. assert (Q : forall a b, map (fun k => b + k) (seq a n) = seq (b + a) n). { induction n as [|n IH]; intros a b; auto. cbn [seq map]. rewrite IH. f_equal. f_equal. lia. } intros b. rewrite Q, Nat.add_0_r. auto.
  Qed.

  Definition final r i : region_info :=
    {| ri_info := {| u_nhalo := length (H r i); u_position := map (gn r i) (R r i); u_offset := off r i; u_size := length (O r i) |}; ri_total := off P i |}.
  Lemma copied_final r i : r < P -> i < m -> copied r (nbr r) (fun j i => numbers (st j) (off j i) (O j i) r) i (own_numbers (length (H r i)) (length (O r i)) (off r i, off P i)) = final r i.
  Proof.
    intros Hr Hi. unfold copied, own_numbers, final. cbn [ri_info ri_total u_nhalo u_position u_offset u_size fst snd]. rewrite lower_ok by auto. repeat f_equal. rewrite skipn_app. rewrite skipn_all2 by (rewrite repeat_length, map_length; auto). rewrite repeat_length, map_length, Nat.sub_diag. cbn [skipn app]. rewrite <- own_gn by auto. rewrite <- map_app, split_eq. auto.
  Qed.
  Lemma counts_ok r i : count_nodes (st r) (R r i) = (length (H r i), length (O r i)).
  Proof.
    unfold count_nodes. f_equal; [|unfold O; rewrite skipn_length; auto]. unfold H. rewrite firstn_length. symmetry. apply Nat.min_l. generalize (R r i). clear. induction l as [|a l IH]; cbn [leading]; auto. destruct (a <? _); cbn [length]; lia.
  Qed.
  Lemma compute_ok : compute_node_info (map nbr (seq 0 P)) (map st (seq 0 P)) (map (fun r => map (R r) (seq 0 m)) (seq 0 P)) = Ok (map (fun r => map (final r) (seq 0 m)) (seq 0 P)).
  Proof.
    unfold compute_node_info. rewrite map_length, seq_length. cbv zeta.
    assert (Ec : map (fun x : node_store * list (list nat) => map (count_nodes (fst x)) (snd x)) (combine (map st (seq 0 P)) (map (fun r => map (R r) (seq 0 m)) (seq 0 P))) = map (fun r => map (fun i => (length (H r i), length (O r i))) (seq 0 m)) (seq 0 P)).
    { rewrite combine_map, map_map. cbn [fst snd]. apply map_ext. intros r. rewrite map_map. apply map_ext. intros i. apply counts_ok. }
    rewrite Ec. clear Ec. rewrite (combine_self (fun r => map (fun i => (length (H r i), length (O r i))) (seq 0 m))). rewrite (map_map _ (fun x : nat * list (nat * nat) => _)). cbn [fst snd].
    rewrite (map_ext_in _ (fun r => map (fun i => own_numbers (length (H r i)) (length (O r i)) (off r i, off P i)) (seq 0 m)) (seq 0 P)).
    2:{ intros r Hr. apply in_seq in Hr. rewrite map_length, seq_length, combine_self, map_map. apply map_ext_in. intros i Hi. apply in_seq in Hi. cbn [fst snd]. f_equal. unfold exscan_at. rewrite !map_map.
        rewrite (map_ext_in _ (fun t => length (O t i)) (seq 0 P)). 2:{ intros t Ht. rewrite map_map. rewrite nth_map_seq by lia. auto. } rewrite firstn_map, firstn_seq by lia. auto. }
    rewrite !combine_map.
    rewrite (mapM_map _ _ (fun r => (map (fun j => flat_map (fun i => block (numbers (st r) (off r i) (O r i) j)) (seq 0 m)) (nbr r), map (fun j => list_sum (map (fun i => length (filter (fun n => j =? own r n) (H r i))) (seq 0 m))) (nbr r)))).
    2:{ intros r Hr. apply in_seq in Hr. assert (Hr' : r < P) by lia. rewrite (map_ext (R r) (fun i => H r i ++ O r i)) by (intros; symmetry; apply split_eq).
        apply (info_send_ok r (nbr r) (st r) (nb_sorted _ _ SN r Hr') (nb_self _ _ SN r Hr') (rk_len _ _ SN r Hr') (rk_sorted _ _ SN r Hr') (rk_nb _ _ SN r Hr') (rk_self _ _ SN r Hr')).
        - intros i Hi. rewrite split_eq. apply RV; auto.
        - intros i n Hi Hn. apply H_in in Hn; tauto.
        - intros i n Hi Hn. apply O_in in Hn; tauto. }
    cbn [obind]. rewrite combine_map, !map_map. cbn [fst snd].
    rewrite (map_ext (fun r => map (fun c => repeat 0 (c + length (map (R r) (seq 0 m)))) (map (fun j => list_sum (map (fun i => length (filter (fun n => j =? own r n) (H r i))) (seq 0 m))) (nbr r)))
      (fun r => map (fun j => repeat 0 (list_sum (map (fun i => length (filter (fun n => j =? own r n) (H r i))) (seq 0 m)) + m)) (nbr r))) by (intros r; rewrite map_map, map_length, seq_length; auto).
    set (F := fun r j => flat_map (fun i => block (numbers (st r) (off r i) (O r i) j)) (seq 0 m)). set (U := fun r j => repeat 0 (list_sum (map (fun i => length (filter (fun n => j =? own r n) (H r i))) (seq 0 m)) + m)).
    assert (LU : forall r j, r < P -> In j (nbr r) -> j < r -> length (U r j) = length (F j r)).
    { intros r j Hr Hj L. unfold U, F. rewrite repeat_length.
        assert (Q : forall l, (forall i, In i l -> i < m) -> list_sum (map (fun i => length (filter (fun n => j =? own r n) (H r i))) l) + length l = length (flat_map (fun i => block (numbers (st j) (off j i) (O j i) r)) l)).
        { induction l as [|i l IH]; intros Hl; auto. cbn [map flat_map list_sum fold_right length]. rewrite app_length, <- IH by (intros; apply Hl; right; auto). rewrite block_length, numbers_sent by (auto; apply Hl; left; auto). rewrite map_length. fold (list_sum (map (fun i => length (filter (fun n => j =? own r n) (H r i))) l)). lia. }
        rewrite <- Q by (intros i Hi; apply in_seq in Hi; lia). rewrite seq_length. auto. }
    pose proof (receive_lower_all _ _ SN F U LU) as RL. match goal with |- obind ?x _ = _ => change x with (receive_lower (map (fun r => nth r nb []) (seq 0 (length ss))) (map (fun r => map (F r) (nth r nb [])) (seq 0 (length ss))) (map (fun r => map (U r) (nth r nb [])) (seq 0 (length ss)))) end.
    rewrite RL. clear RL.
    cbn [obind]. rewrite !combine_map, combine_self. apply mapM_map. intros r Hr. apply in_seq in Hr. assert (Hr' : r < P) by lia.
    fold (nbr r).
    rewrite (copy_regions_ok r (nbr r) (st r) (nb_sorted _ _ SN r Hr') (rk_len _ _ SN r Hr') m (fun j i => numbers (st j) (off j i) (O j i) r)).
    - f_equal. apply map_ext_in. intros i Hi. apply in_seq in Hi. apply copied_final; auto; lia.
    - intros i Hi. rewrite lower_ok by auto. unfold own_numbers. cbn [ri_info u_position]. rewrite app_length, repeat_length, map_length. lia.
  Qed.

  (** ** the numbers *)
  Lemma off_S r i : off (S r) i = off r i + length (O r i).
  Proof. unfold off. rewrite seq_S, map_app, list_sum_app. cbn [map list_sum fold_right Nat.add]. lia. Qed.
  Lemma off_mono r t i : r <= t -> off r i <= off t i.
  Proof. induction 1; auto. rewrite off_S. lia. Qed.
  Lemma gn_range r i n : r < P -> i < m -> In n (R r i) -> off (own r n) i <= gn r i n < off (own r n) i + length (O (own r n) i).
  Proof. intros Hr Hi Hn. pose proof (on_owner r i n Hr Hi Hn) as C. unfold gn, GN. apply find_rank_in in C. destruct C as [C _]. rewrite map_length in C. lia. Qed.
  Lemma range_unique i p r t : off r i <= p < off r i + length (O r i) -> off t i <= p < off t i + length (O t i) -> r = t.
  Proof.
    intros H1 H2. destruct (Nat.lt_trichotomy r t) as [L|[L|L]]; auto; [pose proof (off_mono (S r) t i L) as Q|pose proof (off_mono (S t) r i L) as Q]; rewrite off_S in Q; lia.
  Qed.
  Lemma gn_same r t i a b : r < P -> t < P -> i < m -> In a (R r i) -> In b (R t i) -> (gn r i a = gn t i b <-> id_of (st r) a = id_of (st t) b).
  Proof.
    intros Hr Ht Hi Ha Hb. split.
    - intros E. pose proof (gn_range r i a Hr Hi Ha) as Q1. pose proof (gn_range t i b Ht Hi Hb) as Q2. rewrite E in Q1. assert (Eo := range_unique i _ _ _ Q1 Q2). unfold gn, GN in E. rewrite Eo in E. apply (find_rank_inj (map (id_of (st (own t b))) (O (own t b) i))); [|apply on_owner; auto|lia]. rewrite <- Eo. apply on_owner; auto.
    - intros E. unfold gn. rewrite E. f_equal. unfold own. apply (same_owner _ _ SN); auto; apply (RV _ i); auto.
  Qed.
  Lemma find_range i p : p < off P i -> exists r, r < P /\ off r i <= p < off r i + length (O r i).
  Proof.
    assert (Q : forall n, p < off n i -> exists r, r < n /\ off r i <= p < off r i + length (O r i)); [|apply Q].
    induction n as [|n IH]; intros L; [cbn in L; lia|]. destruct (Nat.lt_ge_cases p (off n i)) as [C|C]; [destruct (IH C) as (r & Hr & Q); exists r; split; auto|exists n; rewrite off_S in L; auto].
  Qed.
  Lemma final_numbered i : i < m -> numbered_region nb ss (map (fun r => R r i) (seq 0 P)) (map (fun r => final r i) (seq 0 P)).
  Proof.
    intros Hi. set (rg := map (fun r => R r i) (seq 0 P)). set (infos := map (fun r => final r i) (seq 0 P)).
    assert (Er : forall r, r < P -> nth r rg [] = R r i) by (intros; unfold rg; rewrite nth_map_seq; auto).
    assert (Ei : forall r, r < P -> nth r infos no_rinfo = final r i) by (intros; unfold infos; rewrite nth_map_seq; auto).
    assert (Eu : forall r, r < P -> nth r (map ri_info infos) no_info = ri_info (final r i)) by (intros; change no_info with (ri_info no_rinfo); rewrite map_nth; f_equal; auto).
    assert (Eh : forall r, halo_nodes (ri_info (final r i)) = map (gn r i) (H r i)). { intros r. unfold halo_nodes, final. cbn [ri_info u_nhalo u_position]. rewrite <- split_eq, map_app, firstn_app, map_length, Nat.sub_diag. cbn [firstn]. rewrite app_nil_r. apply firstn_all2. rewrite map_length; auto. }
    assert (Len : length infos = P) by (unfold infos; rewrite map_length, seq_length; auto).
    assert (Num : forall r k, r < P -> k < length (R r i) -> number infos r k = gn r i (nth k (R r i) 0)) by (intros r k Hr Hk; unfold number; rewrite Ei by auto; cbn [final ri_info u_position]; apply nth_map; auto).
    assert (Lh : forall r, length (H r i) <= length (R r i)) by (intros; rewrite <- split_eq, app_length; lia).
    constructor.
    - auto.
    - constructor; rewrite ?map_length, ?Len.
      + apply (sn_length _ _ SN).
      + intros r Hr. rewrite !Eu by lia. cbn [final ri_info u_offset u_size]. apply off_S.
      + intros r Hr. rewrite Eu, Eh by auto. cbn [final ri_info u_nhalo u_position]. rewrite map_length. split; auto. apply (ss_map_in lt); [apply H_sorted; auto|].
        intros a b Ha Hb L. apply H_in in Ha, Hb; auto. destruct Ha as [Ha _], Hb as [Hb _]. assert (Ra := gn_range r i a Hr Hi Ha). assert (Rb := gn_range r i b Hr Hi Hb).
        destruct (on_order _ _ (ORD r Hr) a b) as [C|[C C']]; [split; auto; apply (RV r i); auto| |]; fold (st r) in C; fold (own r a) in C; fold (own r b) in C.
        * assert (Q := off_mono (S (own r a)) (own r b) i ltac:(lia)). rewrite off_S in Q. lia.
        * fold (st r) in C'. unfold gn, GN. rewrite <- C. apply Nat.add_lt_mono_l. apply find_rank_lt; auto; [apply O_ids; auto; apply (R_owner r i a); auto|apply on_owner; auto|rewrite C; apply on_owner; auto].
      + intros r p Hr Hp. rewrite Eu, Eh in Hp by auto. apply in_map_iff in Hp. destruct Hp as (n & <- & Hn). apply H_in in Hn; auto. destruct Hn as [Hn Q]. exists (own r n). split; auto. destruct (R_owner r i n Hr Hi Hn) as (_ & Q1 & Q2 & _). split.
        * rewrite Eu by auto. unfold owns. cbn [final ri_info u_offset u_size]. apply gn_range; auto.
        * apply (rk_nb _ _ SN r Hr n); auto; [apply (RV r i); auto|lia].
      + apply (sn_increasing _ _ SN).
      + apply (sn_symmetric _ _ SN).
    - intros u Hu. apply in_map_iff in Hu. destruct Hu as (r & <- & Hr). apply in_seq in Hr. rewrite Eh. cbn [final ri_info u_position u_offset u_size]. rewrite <- own_gn by (auto; lia). rewrite <- map_app, split_eq. auto.
    - intros r Hr. rewrite Ei, Er by auto. cbn [final ri_info u_position]. apply map_length.
    - intros r t k l Hr Ht Hk Hl. rewrite !Er in * by auto. rewrite !Num by auto. unfold region_id. rewrite !Er by auto. apply gn_same; auto; apply nth_In; auto.
    - intros r k Hr Hk t Ht. rewrite !Er in * by auto. rewrite Ei, Num by auto. unfold owns, region_owner. cbn [final ri_info u_offset u_size]. rewrite Er by auto. pose proof (gn_range r i (nth k (R r i) 0) Hr Hi (nth_In _ _ Hk)) as Q. split; [intros Q'; apply (range_unique i _ _ _ Q' Q)|intros ->; auto].
    - intros u Hu p. apply in_map_iff in Hu. destruct Hu as (r0 & <- & Hr0). cbn [final ri_total]. split.
      + intros L. destruct (find_range i p L) as (r & Hr & Q). exists r, (length (H r i) + (p - off r i)). assert (LR : length (H r i) + (p - off r i) < length (R r i)) by (rewrite <- (split_eq r i), app_length; lia).
        split; auto. rewrite Er by auto. split; auto. rewrite Num by auto. rewrite <- (nth_map (gn r i) (R r i) _ 0 0) by auto. rewrite <- split_eq, map_app, app_nth2 by (rewrite map_length; lia). rewrite map_length, own_gn by auto. rewrite seq_nth by lia. lia.
      + intros (r & k & Hr & Hk & <-). rewrite Er in Hk by auto. rewrite Num by auto. pose proof (gn_range r i (nth k (R r i) 0) Hr Hi (nth_In _ _ Hk)) as Q. destruct (R_owner r i _ Hr Hi (nth_In _ 0 Hk)) as (_ & _ & Q2 & _). pose proof (off_mono (S (own r (nth k (R r i) 0))) P i Q2) as Q3. rewrite off_S in Q3. lia.
  Qed.
End All.
