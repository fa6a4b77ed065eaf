(** * Lemmas on the links of nodes: sorted local links, records *)
From Coq Require Import List Arith Bool Lia Sorted Permutation.
From Verif Require Import Base S_Order M_Utils M_Distributed M_DistMatrix M_DistApply M_NodeInfo S_NodeInfo M_Links S_Links L_Sort L_Merge L_DistApply L_Equality L_Equality2 L_TotalFeti L_Csx2 L_Fill2 L_Distributed L_DistMatrix L_NodeInfo L_NodeInfo3 L_NodeInfo4 L_NodeInfo5 L_Links L_Links2 L_Links3.
From Verif Require P_Utils.
Import ListNotations.
Local Open Scope out_scope.

Lemma flat_map_concat {A B} (f : A -> list B) ll : flat_map f (concat ll) = flat_map (flat_map f) ll.
Proof. induction ll as [|l ll IH]; auto. cbn [concat flat_map]. rewrite flat_map_app, IH. auto. Qed.
Lemma count_map (f : nat -> nat) l x : (forall y, In y l -> f y = f x -> y = x) -> count_occ Nat.eq_dec (map f l) (f x) = count_occ Nat.eq_dec l x.
Proof.
  induction l as [|a l IH]; intros H; auto. cbn [map count_occ]. rewrite IH by (intros; apply H; auto; right; auto). destruct (Nat.eq_dec (f a) (f x)) as [Q|Q], (Nat.eq_dec a x) as [Q'|Q']; auto.
  - destruct Q'. apply H; auto. left; auto.
  - subst. destruct Q; auto.
Qed.
Lemma group_element n i l : map snd (filter (fun a : nat * nat => n =? fst a) (map (fun k => (k, i)) l)) = repeat i (count_occ Nat.eq_dec l n).
Proof.
  induction l as [|a l IH]; auto. cbn [map filter count_occ fst]. destruct (Nat.eqb_spec n a) as [->|Ne]; [destruct (Nat.eq_dec a a); [|congruence]|destruct (Nat.eq_dec a n); [congruence|]]; cbn [map snd repeat]; rewrite IH; auto.
Qed.

Section Rank.
  Context (rank : nat) (nb : list nat) (m : rank_mesh) (o : rank_order) (sortp : list (nat * nat) -> list (nat * nat)).
  Let s := rm_nodes m.
  Let N := length (ns_ids s).
  Let nd t := nth t (rm_ndist m) 0.
  Let T := length (rm_ndist m) - 1.
  Hypothesis (Snb : StronglySorted lt nb) (Nself : ~ In rank nb).
  Hypothesis (Lr : length (ns_ranks s) = N) (Srk : forall n, n < N -> StronglySorted lt (ranks_of s n)) (Hnb : forall n t, n < N -> In t (ranks_of s n) -> t <> rank -> In t nb).
  Hypothesis (Sid : StronglySorted lt (ns_ids s)) (TP : thread_parts N (rm_ndist m)).
  Hypothesis (Hv : forall e, In e (concat (rm_elements m)) -> valid_nodes s (snd e)).
  Hypothesis (Hs : sort_contract pair_ltb sortp) (AO : any_order m o).

  Lemma id_lt i j : i < j < N -> id_of s i < id_of s j.
  Proof. intros H. apply (L_Distributed.ss_nth _ Sid). auto. Qed.
  Lemma id_eq i j : i < N -> j < N -> id_of s i = id_of s j -> i = j.
  Proof. intros Hi Hj H. destruct (Nat.lt_trichotomy i j) as [Q|[Q|Q]]; auto; [pose proof (id_lt i j)|pose proof (id_lt j i)]; lia. Qed.

  Lemma local_links n : n < N -> map snd (filter (fun a : nat * nat => n =? fst a) (flat_map thread_links (rm_elements m))) = links_to (rank_elements m) (id_of s n).
  Proof.
    intros Hn. unfold thread_links. rewrite <- flat_map_concat. rewrite filter_flat_map, map_flat_map. unfold links_to, rank_elements. rewrite flat_map_map. apply flat_map_ext_in'. intros e He. cbn [fst snd]. rewrite group_element. f_equal. fold s.
    symmetry. apply count_map. intros y Hy Q. apply id_eq; auto. apply (Hv e He y Hy).
  Qed.
  Lemma link_local_ok : exists E, (forall n, n < N -> StronglySorted le (E n) /\ Permutation (E n) (links_to (rank_elements m) (id_of s n))) /\
    link_local sortp o rank nb m = Ok (grouped (id_of s) E (seq 0 N), map (fun j => to_send m E j (seq 0 N)) nb).
  Proof.
    unfold link_local. rewrite fill_links_ok by apply AO. cbn [obind]. set (L := flat_map thread_links (rm_elements m)).
    assert (Ld : length (nodes_distribution (rm_elements m)) = S (length (rm_elements m))) by (unfold nodes_distribution; rewrite map_length, seq_length; auto).
    assert (Nd : forall t, t <= length (rm_elements m) -> nth t (nodes_distribution (rm_elements m)) 0 = length (flat_map thread_links (firstn t (rm_elements m)))) by (intros t Ht; unfold nodes_distribution; rewrite L_Distributed.nth_map_seq by lia; auto).
    assert (Ne : nodes_distribution (rm_elements m) <> []) by (unfold nodes_distribution; discriminate).
    assert (La : last (nodes_distribution (rm_elements m)) 0 = length L). { rewrite L_Merge.last_nth, Ld by auto. cbn [Nat.sub]. rewrite Nat.sub_0_r, Nd, firstn_all by auto. auto. }
    destruct (P_Utils.sortWithInplaceMerge_sorts _ pair_ltb sortp pair_swo Hs (ro_sort o) (ro_merge o) L (nodes_distribution (rm_elements m))) as (out & Eo & Lo & Po & So & _).
    - rewrite Ld. cbn [Nat.sub]. rewrite Nat.sub_0_r. apply AO.
    - apply AO.
    - auto.
    - intros i j Hij. rewrite Ld in Hij. rewrite !Nd by lia. rewrite !(firstn_as_map _ []) by lia. rewrite !flat_map_map. replace j with (i + (j - i)) by lia. rewrite seq_app, flat_map_app, app_length. lia.
    - rewrite La. auto.
    - rewrite Eo. cbn [obind]. rewrite La in So. assert (H0 : hd 0 (nodes_distribution (rm_elements m)) = 0) by reflexivity. rewrite H0 in So. rewrite <- Lo, slice_whole in So.
      set (E := fun n => map snd (filter (fun a : nat * nat => n =? fst a) out)). exists E.
      assert (Hout : out = grouped (fun n => n) E (seq 0 N)).
      { apply regroup; auto; [intros; lia|]. intros a Ha. exists (fst a). split; auto. apply (Permutation_in _ (Permutation_sym Po)) in Ha. unfold L in Ha. apply in_flat_map in Ha. destruct Ha as (es & Hes & Ha). apply in_flat_map in Ha. destruct Ha as (e & He & Ha).
        apply in_map_iff in Ha. destruct Ha as (n & <- & Hn). cbn [fst]. apply (Hv e); auto. apply in_concat. exists es. auto. }
      split.
      + intros n Hn. split; [apply sorted_group; auto|]. rewrite <- local_links by auto. apply perm_group, Permutation_sym, Po.
      + pose proof (thread_begins_ok m E Lr TP) as TB. pose proof (link_threads_ok rank nb m E Snb Nself Lr Srk Hnb Sid TP (ro_send o) (ao_send _ _ AO)) as LT. pose proof (join_buffers_ok nb m E Lr TP) as JB.
        fold s in TB, LT, JB. fold N in TB, LT, JB. fold T in TB, LT, JB. rewrite <- Hout in TB, LT. fold T. rewrite TB. cbn [obind]. rewrite LT. cbn [obind]. rewrite JB. auto.
  Qed.

  (** ** the records of merged links *)
  Section Records.
    Context (G : nat -> list nat) (Hlast : 0 < N -> G (N - 1) <> []).
    Let M := grouped (id_of s) G (seq 0 N).
    Lemma lm_pos n : n < N -> pos G n < length M.
    Proof.
      intros Hn. unfold M. rewrite grouped_pos. replace N with (S (N - 1)) by lia. rewrite pos_S. pose proof (pos_mono G n (N - 1) ltac:(lia)). specialize (Hlast ltac:(lia)). destruct (G (N - 1)); [congruence|]. cbn [length]. lia.
    Qed.
    Lemma record_node_ok n bs data : n < N -> record_node (ns_ids s) M (pos G n, bs, data) n = Ok (pos G (S n), bs ++ [pos G (S n)], data ++ G n).
    Proof.
      intros Hn. unfold record_node. pose proof (lm_pos n Hn) as Lp. rewrite (proj2 (Nat.ltb_lt _ _)) by auto.
      set (pre := grouped (id_of s) G (seq 0 n)). set (mid := map (pair (id_of s n)) (G n)). set (post := grouped (id_of s) G (seq (S n) (N - S n))).
      assert (EM : M = pre ++ mid ++ post) by (unfold M; rewrite (grouped_split _ G n N); auto).
      assert (Lpre : length pre = pos G n) by apply grouped_pos. assert (Lmid : length mid = length (G n)) by apply map_length.
      assert (Hpost : forall x, In x post -> id_of s n < fst x). { intros x Hx. apply grouped_in in Hx. destruct Hx as (k & Hk & -> & _). apply in_seq in Hk. apply id_lt. lia. }
      rewrite (rd_ok _ _ (0, 0)) by auto. cbn [obind]. rewrite (rd_ok _ _ 0) by auto. cbn [obind]. fold (id_of s n).
      rewrite EM. rewrite <- Lpre. rewrite app_nth2, Nat.sub_diag by lia.
      destruct (G n) as [|g gs] eqn:Eg.
      - assert (Em : mid = []) by auto. rewrite Em. cbn [app]. destruct post as [|x r] eqn:Ep. { exfalso. rewrite EM, Em, !app_length in Lp. cbn [length] in Lp. lia. }
        cbn [nth]. pose proof (Hpost x (or_introl eq_refl)). rewrite (proj2 (Nat.eqb_neq _ _)) by lia. cbn [obind]. rewrite pos_S, Eg, app_nil_r, Lpre. cbn [length]. rewrite Nat.add_0_r. auto.
      - unfold mid at 1 3. cbn [map app nth fst]. rewrite Nat.eqb_refl.
        change ((id_of s n, g) :: map (pair (id_of s n)) gs) with mid.
        rewrite (forward_ok (fun y => fst y =? id_of s n) pre mid post).
        + cbn [obind]. assert (Sl : slice (length pre) (length pre + length mid) (pre ++ mid ++ post) = mid).
          { unfold slice. rewrite skipn_app, skipn_all, Nat.sub_diag. cbn [app skipn]. replace (length pre + length mid - length pre) with (length mid + 0) by lia. rewrite firstn_app_2. cbn [firstn]. apply app_nil_r. }
          rewrite Sl. rewrite pos_S, Eg, Lpre, Lmid. do 2 f_equal. f_equal. unfold mid. rewrite map_map. cbn [snd]. apply map_id.
        + intros x Hx. apply in_map_iff in Hx. destruct Hx as (e & <- & _). apply Nat.eqb_refl.
        + intros x r Ex. apply Nat.eqb_neq. assert (id_of s n < fst x); [|lia]. apply Hpost. rewrite Ex. left; auto.
        + rewrite !app_length. lia.
    Qed.
    Lemma record_nodes_ok k : forall n bs data, n + k <= N -> foldM (record_node (ns_ids s) M) (seq n k) (pos G n, bs, data) = Ok (pos G (n + k), bs ++ map (fun i => pos G (S i)) (seq n k), data ++ flat_map G (seq n k)).
    Proof.
      induction k as [|k IH]; intros n bs data H; cbn [seq foldM]; [cbn; rewrite Nat.add_0_r, !app_nil_r; auto|]. rewrite record_node_ok by lia. cbn [obind]. rewrite IH by lia. cbn [map flat_map]. rewrite <- !app_assoc. do 2 f_equal. f_equal. f_equal. lia.
    Qed.
    Lemma record_thread_ok t : t < T -> record_thread m M t = Ok ((if (t =? 0) && (0 <? N) then [0] else []) ++ map (fun i => pos G (S i)) (range m t), flat_map G (range m t)).
    Proof.
      intros Ht. unfold record_thread. rewrite !(rd_nd m Lr TP) by (fold T; lia). cbn [obind]. assert (Hm : nd t <= nd (t + 1)) by (apply (nd_mono m Lr TP); fold T; lia). assert (Hl : nd (t + 1) <= N) by (apply (nd_le m Lr TP); fold T; lia).
      unfold range. change (nth t (rm_ndist m) 0) with (nd t) in *; change (nth (t + 1) (rm_ndist m) 0) with (nd (t + 1)) in *. destruct (Nat.eqb_spec (nd t) (nd (t + 1))) as [Q|Q].
      - replace (nd (t + 1) - nd t) with 0 by lia. cbn [seq map flat_map]. rewrite app_nil_r. destruct (Nat.eqb_spec t 0) as [->|]; auto. destruct (Nat.ltb_spec 0 N) as [L|L]; auto.
        destruct TP as (_ & _ & _ & _ & H). specialize (H L). cbn in Q. pose proof (nd_first m TP). unfold nd in *. lia.
      - assert (Hlt : nd t < N) by lia. rewrite (rd_ok _ _ 0) by exact Hlt. cbn [obind]. fold s. fold (id_of s (nd t)).
        assert (L0 : lower_link M 0 (id_of s (nd t)) = pos G (nd t)).
        { change 0 with (pos G 0). apply grouped_lower; [lia| |]; intros k Hk; [apply id_lt; lia|]. destruct (Nat.eq_dec (nd t) k) as [->|]; auto. pose proof (id_lt (nd t) k). lia. }
        rewrite L0. rewrite record_nodes_ok by lia. cbn [obind app]. do 2 f_equal. f_equal. rewrite (proj2 (Nat.ltb_lt 0 N)) by lia. rewrite andb_true_r. auto.
    Qed.
    Lemma records_ok parts : mapM (record_thread m M) (seq 0 T) = Ok parts -> concat (map fst parts) = (if 0 <? N then [0] else []) ++ map (fun i => pos G (S i)) (seq 0 N) /\ concat (map snd parts) = flat_map G (seq 0 N).
    Proof.
      rewrite (mapM_ok _ (fun t => ((if (t =? 0) && (0 <? N) then [0] else []) ++ map (fun i => pos G (S i)) (range m t), flat_map G (range m t)))) by (intros t Ht; apply in_seq in Ht; apply record_thread_ok; lia).
      intros H. injection H as <-. rewrite !map_map. cbn [fst snd]. rewrite <- !flat_map_concat_map.
      destruct (T_pos m Lr TP) as [T1 _]. fold T in T1. assert (R : flat_map (range m) (seq 0 T) = seq 0 N) by (rewrite (ranges_concat m Lr TP T (Nat.le_refl _)); f_equal; apply (nd_last m Lr TP)). split.
      - rewrite <- R. rewrite map_flat_map. destruct T as [|k]; [lia|]. cbn [seq flat_map Nat.eqb andb]. rewrite <- app_assoc. f_equal. f_equal. apply flat_map_ext_in'. intros t Ht. apply in_seq in Ht. destruct t; [lia|]. auto.
      - rewrite <- R. rewrite <- flat_map_concat_map || idtac. clear. induction (seq 0 T) as [|t l IH]; auto. cbn [flat_map]. rewrite flat_map_app, IH. auto.
    Qed.
    Lemma linked_ok parts es : mapM (record_thread m M) (seq 0 T) = Ok parts -> (forall n, n < N -> StronglySorted le (G n) /\ Permutation (G n) (links_to es (id_of s n))) ->
      linked_nodes es s (concat (map fst parts), concat (map snd parts)).
    Proof.
      intros H HG. destruct (records_ok parts H) as [-> ->]. unfold linked_nodes. cbn [fst snd]. fold N.
      assert (Eq : 0 < N -> (if 0 <? N then [0] else []) ++ map (fun i => pos G (S i)) (seq 0 N) = map (pos G) (seq 0 (S N))).
      { intros L. rewrite (proj2 (Nat.ltb_lt _ _)) by auto. cbn [seq map app]. f_equal. rewrite <- seq_shift, map_map. auto. }
      split.
      - intros Ne. assert (L : 0 < N) by (unfold N; destruct (ns_ids s); [congruence|cbn; lia]). rewrite Eq by auto. split; [rewrite map_length, seq_length; auto|]. split; [auto|]. rewrite L_Merge.last_nth by discriminate. rewrite map_length, seq_length. rewrite L_Distributed.nth_map_seq by lia. unfold pos. do 3 f_equal. lia.
      - split; [intros Z; unfold N; rewrite Z; auto|]. intros n Hn. exists (G n). split; [|apply HG; auto]. rewrite Eq by lia. unfold record. cbn [fst snd]. rewrite (rd_ok _ _ 0) by (rewrite map_length, seq_length; lia). cbn [obind]. rewrite (rd_ok _ _ 0) by (rewrite map_length, seq_length; lia). cbn [obind].
        rewrite !L_Distributed.nth_map_seq by lia. cbn [Nat.add]. replace (n + 1) with (S n) by lia. fold (pos G N). pose proof (pos_mono G (S n) N ltac:(lia)) as Hp. rewrite pos_S in Hp.
        rewrite (proj2 (Nat.ltb_ge _ _)) by (rewrite pos_S; lia). rewrite (proj2 (Nat.ltb_ge _ _)) by (rewrite pos_S; exact Hp). cbn [orb]. f_equal.
        unfold slice. rewrite pos_S. replace (pos G n + length (G n) - pos G n) with (length (G n) + 0) by lia. replace N with (n + S (N - S n)) by lia. rewrite seq_app, flat_map_app. cbn [seq flat_map Nat.add]. unfold pos. rewrite skipn_app, skipn_all, Nat.sub_diag. cbn [app skipn]. rewrite firstn_app_2. cbn [firstn]. apply app_nil_r.
    Qed.
  End Records.
End Rank.
