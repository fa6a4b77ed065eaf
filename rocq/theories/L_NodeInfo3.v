(** * Lemmas on the synchronization of regions and on the global numbers: all ranks *)
From Coq Require Import List Arith Bool Lia Sorted Permutation.
From Verif Require Import Base S_Order M_Utils M_Distributed S_Distributed M_DistMatrix M_NodeInfo S_NodeInfo L_Utils L_Equality L_TotalFeti L_Csx2 L_Fill2 L_Numbering L_Distributed L_DistMatrix L_VectorFeti L_DistApply L_DistApply2 L_NodeInfo L_NodeInfo2.
Import ListNotations.
Local Open Scope out_scope.

Lemma flat_map_map {A B C} (f : B -> list C) (g : A -> B) l : flat_map f (map g l) = flat_map (fun x => f (g x)) l.
Proof. induction l; simpl; congruence. Qed.
Lemma flat_map_ext_in' {A B} (f g : A -> list B) l : (forall x, In x l -> f x = g x) -> flat_map f l = flat_map g l.
Proof. induction l as [|a l IH]; intros H; simpl; auto. rewrite H, IH; auto; [intros; apply H; right; auto|left; auto]. Qed.
Lemma nth_firstn_lt' {A} n (l : list A) i d : i < n -> nth i (firstn n l) d = nth i l d.
Proof. revert l i. induction n; intros l i H; [lia|]. destruct l; auto. destruct i; auto. cbn [firstn nth]. apply IHn. lia. Qed.
Lemma nth_skipn' {A} n (l : list A) i d : nth i (skipn n l) d = nth (n + i) l d.
Proof. revert l. induction n; intros l; auto. destruct l; [destruct i; auto|]. apply IHn. Qed.
Lemma NoDup_app_l' {A} (a b : list A) : NoDup (a ++ b) -> NoDup a.
Proof. induction a as [|x a IH]; intros H; constructor; apply NoDup_cons_iff in H; destruct H as [H1 H2]; auto. intros C; apply H1, in_or_app; auto. Qed.
Lemma leading_split b l : StronglySorted lt l -> leading b l <= length l /\ (forall x, In x (firstn (leading b l) l) -> x < b) /\ (forall x, In x (skipn (leading b l) l) -> b <= x).
Proof.
  induction 1 as [|a l S IH F]; cbn [leading]; [repeat split; simpl; auto; tauto|]. destruct (Nat.ltb_spec a b) as [L|L].
  - destruct IH as (H1 & H2 & H3). cbn [length firstn skipn]. repeat split; [lia| |auto]. intros x [->|Hx]; auto.
  - cbn [firstn skipn length]. repeat split; [lia|intros x []|]. rewrite Forall_forall in F. intros x [->|Hx]; auto. specialize (F x Hx). lia.
Qed.
Lemma sort_strict sortby l : sorts sortby -> NoDup l -> StronglySorted lt (sortby Nat.ltb l) /\ forall x, In x (sortby Nat.ltb l) <-> In x l.
Proof.
  intros SORT N. destruct (SORT _ nat_swo l) as [Pm S]. split; [|intros x; split; apply Permutation_in; auto; apply Permutation_sym; auto].
  apply (Permutation_NoDup Pm) in N. unfold sorted in S. revert S N. generalize (sortby Nat.ltb l). clear. induction 1 as [|a l S IH F]; intros N; constructor; apply NoDup_cons_iff in N; destruct N as [Na N]; auto.
  rewrite Forall_forall in *. intros y Hy. specialize (F y Hy). unfold le_of in F. apply Nat.ltb_ge in F. destruct (Nat.eq_dec a y) as [->|]; [tauto|lia].
Qed.
(** a list sorted by keys is the concatenation of its parts *)
Lemma by_keys {A} (f : A -> nat) ks : StronglySorted lt ks -> forall l, StronglySorted (fun a b => f a <= f b) l -> (forall a, In a l -> In (f a) ks) -> flat_map (fun k => filter (fun a => k =? f a) l) ks = l.
Proof.
  induction 1 as [|k ks S IH F]; intros l Sl Hk.
  - destruct l as [|a l]; auto. destruct (Hk a); left; auto.
  - cbn [flat_map]. rewrite Forall_forall in F.
    assert (E1 : filter (fun a => k =? f a) l ++ filter (fun a => negb (k =? f a)) l = l).
    { clear IH. induction Sl as [|a l Sl IHl Fl]; auto. cbn [filter]. destruct (Nat.eqb_spec k (f a)) as [E|E]; cbn [negb app]; [f_equal; apply IHl; intros; apply Hk; right; auto|].
      assert (Z : filter (fun a => k =? f a) l = []).
      { assert (Q : forall b, In b l -> (k =? f b) = false). { intros b Hb. apply Nat.eqb_neq. rewrite Forall_forall in Fl. specialize (Fl b Hb). destruct (Hk a (or_introl eq_refl)) as [C|C]; [congruence|]. specialize (F _ C). lia. }
        clear -Q. induction l as [|b l IH]; auto. cbn [filter]. rewrite Q by (left; auto). apply IH. intros; apply Q; right; auto. }
      rewrite Z in *. cbn [app] in *. f_equal. apply IHl. intros; apply Hk; right; auto. }
    transitivity (filter (fun a => k =? f a) l ++ filter (fun a => negb (k =? f a)) l); [|exact E1]. f_equal. rewrite <- (IH (filter (fun a => negb (k =? f a)) l)).
    + apply flat_map_ext_in'. intros j Hj. clear -F Hj. induction l as [|a l IH]; auto. cbn [filter]. destruct (Nat.eqb_spec j (f a)) as [E|E], (Nat.eqb_spec k (f a)) as [E'|E']; cbn [negb filter]; auto.
      * specialize (F j Hj). lia.
      * rewrite (proj2 (Nat.eqb_eq _ _)) by auto. f_equal; auto.
      * rewrite (proj2 (Nat.eqb_neq _ _)) by auto. auto.
    + apply ss_filter; auto.
    + intros a Ha. apply filter_In in Ha. destruct Ha as [Ha Q]. apply negb_true_iff, Nat.eqb_neq in Q. destruct (Hk a Ha); [congruence|auto].
Qed.

Section All.
  Context (nb : list (list nat)) (ss : list node_store) (SN : shared_nodes nb ss).
  Let P := length ss.
  Let nbr r := nth r nb [].
  Let st r := nth r ss no_store.
  Let ids r := ns_ids (st r).

  Lemma st_in r : r < P -> In (st r) ss.
  Proof. intros; apply nth_In; auto. Qed.
  Lemma nb_sorted r : r < P -> StronglySorted lt (nbr r).
  Proof. apply (sn_increasing _ _ SN). Qed.
  Lemma nb_self r : r < P -> ~ In r (nbr r).
  Proof. intros H C. destruct (sn_symmetric _ _ SN r r H C) as (_ & N & _). auto. Qed.
  Lemma nb_sym r j : r < P -> In j (nbr r) -> j < P /\ j <> r /\ In r (nbr j).
  Proof. apply (sn_symmetric _ _ SN). Qed.
  Lemma ids_nodup r : r < P -> NoDup (ids r).
  Proof. intros H. apply (sn_ids _ _ SN (st r)). apply st_in; auto. Qed.
  Lemma rk_len r : r < P -> length (ns_ranks (st r)) = length (ns_ids (st r)).
  Proof. intros H. apply (sn_ids _ _ SN (st r)). apply st_in; auto. Qed.
  Lemma rk_sorted r : r < P -> forall n, n < length (ns_ids (st r)) -> StronglySorted lt (ranks_of (st r) n).
  Proof. intros H n. apply (sn_sorted _ _ SN), st_in; auto. Qed.
  Lemma rk_iff r n t : r < P -> n < length (ids r) -> (In t (ranks_of (st r) n) <-> t < P /\ In (id_of (st r) n) (ids t)).
  Proof. intros H Hn. apply (sn_ranks _ _ SN); auto. apply st_in; auto. Qed.
  Lemma rk_nb r : r < P -> forall n t, n < length (ns_ids (st r)) -> In t (ranks_of (st r) n) -> t <> r -> In t (nbr r).
  Proof. intros H n t. apply (sn_neighbours _ _ SN); auto. Qed.
  Lemma id_in r n : n < length (ids r) -> In (id_of (st r) n) (ids r).
  Proof. intros. apply nth_In; auto. Qed.
  Lemma rk_self r : r < P -> forall n, n < length (ns_ids (st r)) -> In r (ranks_of (st r) n).
  Proof. intros H n Hn. apply rk_iff; auto. split; auto. apply id_in; auto. Qed.
  Lemma id_inj r m n : r < P -> m < length (ids r) -> n < length (ids r) -> id_of (st r) m = id_of (st r) n -> m = n.
  Proof. intros H Hm Hn E. apply (proj1 (NoDup_nth (ids r) 0) (ids_nodup r H)); auto. Qed.
  Lemma same_ranks r t m n : r < P -> t < P -> m < length (ids r) -> n < length (ids t) -> id_of (st r) m = id_of (st t) n -> ranks_of (st r) m = ranks_of (st t) n.
  Proof. intros Hr Ht Hm Hn E. apply ss_ext; [apply rk_sorted; auto|apply rk_sorted; auto|]. intros x. rewrite !rk_iff by auto. rewrite E. tauto. Qed.
  Lemma same_owner r t m n : r < P -> t < P -> m < length (ids r) -> n < length (ids t) -> id_of (st r) m = id_of (st t) n -> owner_of (st r) m = owner_of (st t) n.
  Proof. intros. unfold owner_of. f_equal. eapply same_ranks; eauto. Qed.
  Lemma ids_nodup_map r l : r < P -> NoDup l -> valid_nodes (st r) l -> NoDup (map (id_of (st r)) l).
  Proof.
    intros H N V. induction N as [|a l Na N IH]; cbn [map]; constructor; [|apply IH; intros x Hx; apply V; right; auto].
    intros C. apply in_map_iff in C. destruct C as (b & E & Hb). apply id_inj in E; [subst; auto|auto|apply V; right; auto|apply V; left; auto].
  Qed.

  Lemma exchange_all {A} (F : nat -> nat -> list A) : exchange (map nbr (seq 0 P)) (map (fun r => map (F r) (nbr r)) (seq 0 P)) = Ok (map (fun r => map (fun j => F j r) (nbr r)) (seq 0 P)).
  Proof.
    unfold exchange. rewrite map_length, seq_length. rewrite combine_self. apply mapM_map. intros r Hr. apply in_seq in Hr. cbn [fst snd]. apply mapM_ok. intros j Hj.
    destruct (nb_sym r j ltac:(lia) Hj) as (Lj & _ & Hs). unfold sent. rewrite (rd_ok _ _ []) by (rewrite map_length, seq_length; auto). cbn [obind].
    rewrite (rd_ok _ _ []) by (rewrite map_length, seq_length; auto). cbn [obind]. rewrite !nth_map_seq by auto. apply (rd_map_rank (F j)); auto.
  Qed.
  Lemma receive_lower_all {A} (F O : nat -> nat -> list A) : (forall r j, r < P -> In j (nbr r) -> j < r -> length (O r j) = length (F j r)) ->
    receive_lower (map nbr (seq 0 P)) (map (fun r => map (F r) (nbr r)) (seq 0 P)) (map (fun r => map (O r) (nbr r)) (seq 0 P))
    = Ok (map (fun r => map (fun j => if j <? r then F j r else O r j) (nbr r)) (seq 0 P)).
  Proof.
    intros L. unfold receive_lower. rewrite map_length, seq_length, combine_map, combine_self. apply mapM_map. intros r Hr. apply in_seq in Hr. cbn [fst snd]. rewrite combine_self. apply mapM_map. intros j Hj. cbn [fst snd].
    destruct (Nat.ltb_spec j r) as [Q|Q]; auto. destruct (nb_sym r j ltac:(lia) Hj) as (Lj & _ & Hs). unfold sent. rewrite (rd_ok _ _ []) by (rewrite map_length, seq_length; auto). cbn [obind].
    rewrite (rd_ok _ _ []) by (rewrite map_length, seq_length; auto). cbn [obind]. rewrite !nth_map_seq by auto. rewrite (rd_map_rank (F j)) by auto. cbn [obind]. rewrite L, Nat.eqb_refl by (auto; lia). auto.
  Qed.

  Hypothesis (ORD : ordered_ranks ss).
  Lemma halo_iff r n : r < P -> n < length (ids r) -> (n < ns_nhalo (st r) <-> owner_of (st r) n < r).
  Proof. intros H. apply (proj2 (on_halo _ _ (ORD r H))). Qed.
  Lemma halo_le r : r < P -> ns_nhalo (st r) <= length (ids r).
  Proof. intros H. apply (proj1 (on_halo _ _ (ORD r H))). Qed.
  Lemma own_iff r n : r < P -> n < length (ids r) -> (ns_nhalo (st r) <= n <-> owner_of (st r) n = r).
  Proof.
    intros H Hn. pose proof (halo_iff r n H Hn). destruct (owner_le r (st r) (rk_len r H) (rk_sorted r H) (rk_self r H) n Hn). lia.
  Qed.

  (** ** the local number of an ID *)
  Lemma find_node_ok r j x : r < P -> j < P -> j <> r -> In x (ids r) -> In x (ids j) -> find_node (j <? r) (st r) x < length (ids r) /\ id_of (st r) (find_node (j <? r) (st r) x) = x.
  Proof.
    intros Hr Hj Ne Hx Hxj. pose proof (In_nth _ _ 0 Hx) as (n & Hn & En). change (id_of (st r) n = x) in En. pose proof (halo_le r Hr) as Hh. pose proof (ids_nodup r Hr) as N.
    assert (HF : n < ns_nhalo (st r) -> find_rank x (firstn (ns_nhalo (st r)) (ns_ids (st r))) = n).
    { intros L. assert (Nf : NoDup (firstn (ns_nhalo (st r)) (ns_ids (st r)))). { fold (ids r). rewrite <- (firstn_skipn (ns_nhalo (st r)) (ids r)) in N. apply NoDup_app_l' in N. auto. }
      rewrite <- (find_rank_nth _ Nf n) by (rewrite firstn_length; fold (ids r); lia). f_equal. rewrite nth_firstn_lt' by auto. auto. }
    unfold find_node. destruct (Nat.ltb_spec j r) as [L|L].
    - assert (Q : n < ns_nhalo (st r)). { apply halo_iff; auto. assert (Hin : In j (ranks_of (st r) n)) by (apply rk_iff; auto; rewrite En; auto). pose proof (rk_sorted r Hr n Hn) as S. unfold owner_of.
        destruct (ranks_of (st r) n) as [|a l]; [destruct Hin|]. cbn [hd]. destruct Hin as [->|Hin]; auto. apply StronglySorted_inv in S. destruct S as [_ F]. rewrite Forall_forall in F. specialize (F _ Hin). lia. }
      rewrite HF by auto. auto.
    - set (own := skipn (ns_nhalo (st r)) (ns_ids (st r))). assert (Lo : length own = length (ids r) - ns_nhalo (st r)) by (unfold own; rewrite skipn_length; auto).
      assert (So : StronglySorted lt own).
      { assert (Q : forall k l, k < l < length own -> nth k own 0 < nth l own 0).
        { intros k l Hkl. unfold own. rewrite !nth_skipn'. fold (ids r). assert (O1 : owner_of (st r) (ns_nhalo (st r) + k) = r) by (apply own_iff; auto; lia). assert (O2 : owner_of (st r) (ns_nhalo (st r) + l) = r) by (apply own_iff; auto; lia).
          destruct (on_order _ _ (ORD r Hr) (ns_nhalo (st r) + k) (ns_nhalo (st r) + l)) as [C|[_ C]]; [fold (st r); fold (ids r); lia|fold (st r) in C; lia|exact C]. }
        clear -Q. induction own as [|a l IH]; constructor; [apply IH; intros k l' H; apply (Q (S k) (S l')); simpl; lia|]. apply Forall_forall. intros y Hy. apply (In_nth _ _ 0) in Hy. destruct Hy as (i & Hi & <-). apply (Q 0 (S i)). simpl; lia. }
      assert (HL : In x own -> lower_bound own x = find_rank x own). { intros H. pose proof (find_rank_in x own H) as [F1 F2]. apply lower_bound_at; [lia| |intros; lia]. intros i Hi. rewrite <- F2. apply ss_nth; auto. }
      destruct (Nat.lt_ge_cases n (ns_nhalo (st r))) as [Q|Q].
      + assert (Nx : ~ In x own). { intros C. apply (In_nth _ _ 0) in C. destruct C as (k & Hk & Ek). unfold own in Ek. rewrite nth_skipn' in Ek. assert (n = ns_nhalo (st r) + k); [|lia]. apply (id_inj r); auto; [lia|]. unfold id_of at 2. rewrite Ek. auto. }
        destruct ((lower_bound own x <? length own) && (nth (lower_bound own x) own 0 =? x)) eqn:E; [|rewrite HF by auto; auto].
        apply andb_true_iff in E. destruct E as [E1 E2]. apply Nat.ltb_lt in E1. apply Nat.eqb_eq in E2. exfalso; apply Nx. rewrite <- E2. apply nth_In; auto.
      + assert (Hxo : In x own). { replace x with (nth (n - ns_nhalo (st r)) own 0); [apply nth_In; lia|]. unfold own. rewrite nth_skipn'. replace (ns_nhalo (st r) + (n - ns_nhalo (st r))) with n by lia. auto. }
        rewrite HL by auto. destruct (find_rank_in x own Hxo) as [F1 F2]. rewrite (proj2 (Nat.ltb_lt _ _)) by auto. rewrite F2, Nat.eqb_refl. cbn [andb]. split; [lia|]. rewrite <- F2 at 2. unfold own. rewrite nth_skipn'. auto.
  Qed.

  Context (m : nat) (R : nat -> nat -> list nat).
  Hypothesis (RS : forall r i, r < P -> i < m -> StronglySorted lt (R r i)) (RV : forall r i, r < P -> i < m -> valid_nodes (st r) (R r i)).

  (** ** synchronization *)
  Section Sync.
    Context (sortby : (nat -> nat -> bool) -> list nat -> list nat) (SORT : sorts sortby).
    Let cm r j i := common sortby (st r) j (R r i).
    Lemma cm_ok r j i : r < P -> i < m -> StronglySorted lt (cm r j i) /\ forall x, In x (cm r j i) <-> exists n, In n (R r i) /\ In j (ranks_of (st r) n) /\ id_of (st r) n = x.
    Proof.
      intros H Hi. unfold cm, common. assert (N : NoDup (map (id_of (st r)) (with_rank (st r) j (R r i)))).
      { apply ids_nodup_map; auto; [apply NoDup_filter, ss_nodup, RS; auto|]. intros n Hn. apply filter_In in Hn. apply (RV r i); tauto. }
      destruct (sort_strict sortby _ SORT N) as [S I]. split; auto. intros x. rewrite I, in_map_iff. unfold with_rank. split.
      - intros (n & E & Hn). apply filter_In in Hn. destruct Hn as [Hn Hm]. apply mem_iff in Hm. eauto.
      - intros (n & Hn & Hm & E). exists n. split; auto. apply filter_In. split; auto. apply mem_iff; auto.
    Qed.
    Lemma synchronize_ok : exists out, synchronize_region_nodes sortby (map nbr (seq 0 P)) (map st (seq 0 P)) (map (fun r => map (R r) (seq 0 m)) (seq 0 P)) = Ok out /\ length out = P /\
      forall r, r < P -> length (nth r out []) = m /\ forall i, i < m -> StronglySorted lt (nth i (nth r out []) []) /\ valid_nodes (st r) (nth i (nth r out []) []) /\
        forall n, n < length (ids r) -> (In n (nth i (nth r out []) []) <-> exists t, t < P /\ In (id_of (st r) n) (map (id_of (st t)) (R t i))).
    Proof.
      unfold synchronize_region_nodes. rewrite map_length, seq_length, !combine_map, combine_self.
      erewrite (mapM_map _ _ (fun r => map (fun j => flat_map (fun i => block (cm r j i)) (seq 0 m)) (nbr r))).
      2:{ intros r Hr. apply in_seq in Hr. rewrite (send_regions_ok sortby r (nbr r) (st r) (nb_sorted r ltac:(lia)) (nb_self r ltac:(lia)) (rk_len r ltac:(lia)) (rk_sorted r ltac:(lia)) (rk_nb r ltac:(lia))).
          - f_equal. apply map_ext. intros j. rewrite flat_map_map. reflexivity.
          - intros nodes Hn. apply in_map_iff in Hn. destruct Hn as (i & <- & Hi). apply in_seq in Hi. apply RV; lia. }
      cbn [obind]. rewrite (exchange_all (fun r j => flat_map (fun i => block (cm r j i)) (seq 0 m))). cbn [obind]. rewrite !combine_map, combine_self.
      destruct (mapM_exists (fun x : nat * (list nat * (node_store * (list (list nat) * (list (list nat) * list (list nat))))) => let '(r, (ns, (s, (rg, (sb, rb))))) := x in receive_regions sortby r ns s rg sb rb)
        (fun r => (r, (nbr r, (st r, (map (R r) (seq 0 m), (map (fun j => flat_map (fun i => block (cm r j i)) (seq 0 m)) (nbr r), map (fun j => flat_map (fun i => block (cm j r i)) (seq 0 m)) (nbr r)))))))
        (fun r out => length out = m /\ forall i, i < m -> StronglySorted lt (nth i out []) /\ valid_nodes (st r) (nth i out []) /\ forall n, n < length (ids r) -> (In n (nth i out []) <-> exists t, t < P /\ In (id_of (st r) n) (map (id_of (st t)) (R t i))))
        [] (seq 0 P)) as (out & E & L & H).
      - intros r Hr. apply in_seq in Hr. assert (Hr' : r < P) by lia.
        destruct (receive_regions_ok sortby SORT r (nbr r) (st r) (nb_sorted r Hr') (rk_len r Hr') m (fun j i => cm r j i) (fun j i => cm j r i)) with (R := R r) as (out & E & L & H).
        + intros j i Hj Hi. apply cm_ok; auto.
        + intros j i Hj Hi. apply cm_ok; auto. apply nb_sym in Hj; tauto.
        + intros i Hi. apply RS; auto.
        + exists out. split; auto. split; auto. intros i Hi. destruct (H i Hi) as [S I]. split; auto.
          assert (NW : forall n, In n (flat_map (news r (st r) (fun j i => cm r j i) (fun j i => cm j r i) i) (nbr r)) ->
            n < length (ids r) /\ exists j k, j < P /\ In k (R j i) /\ id_of (st j) k = id_of (st r) n).
          { intros n Hn. apply in_flat_map in Hn. destruct Hn as (j & Hj & Hn). destruct (nb_sym r j Hr' Hj) as (Lj & Nj & _). unfold news in Hn. apply in_map_iff in Hn. destruct Hn as (x & En & Hx).
            apply filter_In in Hx. destruct Hx as [Hx _]. apply (cm_ok j r i Lj Hi) in Hx. destruct Hx as (k & Hk & Hrk & Ek). assert (Vk : k < length (ids j)) by (apply (RV j i); auto). apply (rk_iff j k r Lj Vk) in Hrk. rewrite Ek in Hrk.
            destruct (find_node_ok r j x Hr' Lj Nj) as [F1 F2]; [tauto|rewrite <- Ek; apply id_in; auto|]. rewrite En in F1, F2. split; auto. exists j, k. repeat split; auto; congruence. }
          split; [intros n Hn; apply I in Hn; destruct Hn as [Hn|Hn]; [apply (RV r i); auto|apply NW; auto]|].
          intros n Hn. rewrite I. split.
          * intros [Hi'|Hi']; [exists r; split; auto; apply in_map; auto|]. destruct (NW n Hi') as (_ & j & k & Lj & Hk & Ek). exists j. split; auto. rewrite <- Ek. apply in_map; auto.
          * intros (t & Lt & Ht). apply in_map_iff in Ht. destruct Ht as (k & Ek & Hk). assert (Vk : k < length (ids t)) by (apply (RV t i); auto). destruct (Nat.eq_dec t r) as [->|Ne]; [left; apply id_inj in Ek; auto; subst; auto|].
            destruct (mem (id_of (st r) n) (cm r t i)) eqn:M.
            -- left. apply mem_iff in M. apply (cm_ok r t i Hr' Hi) in M. destruct M as (n' & Hn' & _ & En'). apply id_inj in En'; auto; [subst; auto|apply (RV r i); auto].
            -- right. apply in_flat_map. exists t. assert (Tn : In t (ranks_of (st r) n)) by (apply rk_iff; auto; split; auto; rewrite <- Ek; apply id_in; auto). split; [apply (rk_nb r Hr' n); auto|].
               unfold news. apply in_map_iff. exists (id_of (st r) n). destruct (find_node_ok r t (id_of (st r) n) Hr' Lt Ne) as [F1 F2]; [apply id_in; auto|rewrite <- Ek; apply id_in; auto|]. split; [apply (id_inj r); auto|].
               apply filter_In. rewrite M. split; auto. apply cm_ok; auto. exists k. repeat split; auto. apply rk_iff; auto. split; auto. rewrite Ek. apply id_in; auto.
      - exists out. rewrite seq_length in L. split; auto. split; auto. intros r Hr. apply H. rewrite (nth_error_nth' _ 0) by (rewrite seq_length; auto). rewrite seq_nth by auto. auto.
    Qed.
  End Sync.
End All.
