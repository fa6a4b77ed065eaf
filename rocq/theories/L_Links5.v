(** * Lemmas on the links of nodes: exchange and merge *)
From Coq Require Import List Arith Bool Lia Sorted Permutation.
From Verif Require Import Base S_Order M_Utils M_Distributed M_DistMatrix M_DistApply M_NodeInfo S_NodeInfo M_Links S_Links L_Sort L_Merge L_DistApply L_Equality L_Equality2 L_TotalFeti L_Csx2 L_Fill2 L_Distributed L_DistMatrix L_NodeInfo L_NodeInfo3 L_NodeInfo4 L_NodeInfo5 L_Links L_Links2 L_Links3 L_Links4.
From Verif Require P_Utils L_Trees.
Import ListNotations.
Local Open Scope out_scope.

Lemma choose {A} (d : A) (Q : nat -> A -> Prop) P : (forall r, r < P -> exists a, Q r a) -> exists f, forall r, r < P -> Q r (f r).
Proof.
  induction P as [|P IH]; intros H; [exists (fun _ => d); intros; lia|]. destruct IH as (f & Hf); [intros; apply H; lia|]. destruct (H P ltac:(lia)) as (a & Ha).
  exists (fun r => if r =? P then a else f r). intros r Hr. destruct (Nat.eqb_spec r P) as [->|]; auto. apply Hf. lia.
Qed.
Lemma perm_flat_map_in {A B} (f g : A -> list B) l : (forall a, In a l -> Permutation (f a) (g a)) -> Permutation (flat_map f l) (flat_map g l).
Proof. induction l as [|a l IH]; intros H; cbn [flat_map]; auto. apply Permutation_app; [apply H; left; auto|apply IH; intros; apply H; right; auto]. Qed.
Lemma perm_sub {B} (f : nat -> list B) a b : NoDup a -> NoDup b -> incl a b -> (forall j, In j b -> ~ In j a -> f j = []) -> Permutation (flat_map f a) (flat_map f b).
Proof.
  intros Na Nb H Hf. assert (Pb : Permutation b (a ++ filter (fun j => negb (mem j a)) b)).
  { apply NoDup_Permutation; auto.
    - apply L_Trees.nodup_app; auto; [apply NoDup_filter; auto|]. intros x Hx C. apply filter_In in C. destruct C as [_ C]. apply negb_true_iff, mem_false in C. auto.
    - intros x. rewrite in_app_iff, filter_In, negb_true_iff, mem_false. split; [intros Hx; destruct (in_dec Nat.eq_dec x a); auto|intros [Hx|Hx]; [apply H; auto|tauto]]. }
  apply (Permutation_flat_map f) in Pb. rewrite flat_map_app in Pb. rewrite (flat_map_nil f (filter _ _)), app_nil_r in Pb; [apply Permutation_sym; auto|].
  intros j Hj. apply filter_In in Hj. destruct Hj as [Hj C]. apply negb_true_iff, mem_false in C. auto.
Qed.
Lemma links_to_none es x : (forall e, In e es -> ~ In x (snd e)) -> links_to es x = [].
Proof. intros H. unfold links_to. apply flat_map_nil. intros e He. specialize (H e He). apply (count_occ_not_In Nat.eq_dec) in H. rewrite H. auto. Qed.
Lemma links_to_flat {A} (f : A -> list (nat * list nat)) l x : links_to (flat_map f l) x = flat_map (fun a => links_to (f a) x) l.
Proof. unfold links_to. induction l as [|a l IH]; auto. cbn [flat_map]. rewrite flat_map_app, IH. auto. Qed.
Lemma links_to_in es x e : In e es -> In x (snd e) -> In (fst e) (links_to es x).
Proof. intros He Hx. apply in_flat_map. exists e. split; auto. apply (count_occ_In Nat.eq_dec) in Hx. destruct (count_occ Nat.eq_dec (snd e) x); [lia|left; auto]. Qed.
Lemma links_to_iff es x i : In i (links_to es x) <-> exists nodes, In (i, nodes) es /\ In x nodes.
Proof.
  split.
  - intros H. apply in_flat_map in H. destruct H as ((i', nodes) & He & Hi). cbn [fst snd] in Hi. assert (Hc : count_occ Nat.eq_dec nodes x > 0) by (destruct (count_occ Nat.eq_dec nodes x); [destruct Hi|lia]). apply count_occ_In in Hc. apply repeat_spec in Hi. subst. exists nodes; auto.
  - intros (nodes & He & Hx). apply (links_to_in es x (i, nodes)); auto.
Qed.

(** ** the appended links *)
Definition bounds {A} (l : list A) (rb : list (list A)) : list nat := map (fun k => length l + length (concat (firstn k rb))) (seq 0 (S (length rb))).
Lemma append_ok {A} (rb : list (list A)) : forall l bs, fold_left (fun st rb => let '(links, bs) := st in (links ++ rb, bs ++ [length (links ++ rb)])) rb (l, bs) = (l ++ concat rb, bs ++ map (fun k => length l + length (concat (firstn k rb))) (seq 1 (length rb))).
Proof.
  induction rb as [|b rb IH]; intros l bs; cbn [fold_left length seq map concat]; [rewrite !app_nil_r; auto|]. rewrite IH. rewrite <- !app_assoc. cbn [app]. do 3 f_equal; [cbn [firstn concat]; rewrite app_nil_r, app_length; auto|].
  rewrite <- (seq_shift (length rb) 1), map_map. apply map_ext. intros k. cbn [firstn concat]. rewrite !app_length. lia.
Qed.
Lemma bounds_length {A} (l : list A) rb : length (bounds l rb) = S (length rb).
Proof. unfold bounds. rewrite map_length, seq_length. auto. Qed.
Lemma bounds_nth {A} (l : list A) rb k : k <= length rb -> nth k (bounds l rb) 0 = length l + length (concat (firstn k rb)).
Proof. intros H. unfold bounds. rewrite L_Distributed.nth_map_seq by lia. auto. Qed.
Lemma concat_split {A} (rb : list (list A)) k : k < length rb -> concat rb = concat (firstn k rb) ++ nth k rb [] ++ concat (skipn (S k) rb).
Proof. revert k. induction rb as [|b rb IH]; intros k H; [cbn in H; lia|]. destruct k; [auto|]. cbn [concat firstn nth skipn]. rewrite (IH k) at 1 by (cbn in H; lia). rewrite <- app_assoc. auto. Qed.
Lemma bounds_slice {A} (l : list A) rb k : k < length rb -> slice (nth k (bounds l rb) 0) (nth (k + 1) (bounds l rb) 0) (l ++ concat rb) = nth k rb [].
Proof.
  intros H. rewrite !bounds_nth by lia. replace (k + 1) with (S k) by lia. rewrite (L_Equality2.firstn_S rb k []) by lia. rewrite concat_app. cbn [concat]. rewrite app_nil_r, app_length. rewrite (concat_split rb k) by auto. rewrite (app_assoc l).
  assert (La : length l + length (concat (firstn k rb)) = length (l ++ concat (firstn k rb))) by (rewrite app_length; auto). rewrite Nat.add_assoc, La. generalize (l ++ concat (firstn k rb)) (nth k rb []) (concat (skipn (S k) rb)). intros a b c.
  unfold slice. rewrite skipn_app, skipn_all, Nat.sub_diag. cbn [app skipn]. replace (length a + length b - length a) with (length b + 0) by lia. rewrite firstn_app_2. cbn [firstn]. apply app_nil_r.
Qed.
Lemma merge_links sched (l : list (nat * nat)) rb : (forall i n, parallel_order n (sched i n)) -> sorted pair_ltb l -> (forall b, In b rb -> sorted pair_ltb b) ->
  exists out, mergeAppendedData pair_ltb sched (l ++ concat rb) (0 :: bounds l rb) = Ok out /\ Permutation (l ++ concat rb) out /\ sorted pair_ltb out.
Proof.
  intros Hs Sl Sb. assert (Hd : hd 0 (bounds l rb) = length l) by (unfold bounds; cbn; lia). assert (Hn : bounds l rb <> []) by (unfold bounds; discriminate).
  assert (Hl : last (bounds l rb) 0 = length (l ++ concat rb)). { rewrite L_Merge.last_nth, bounds_length by auto. cbn [Nat.sub]. rewrite Nat.sub_0_r, bounds_nth, firstn_all, app_length by auto. auto. }
  destruct (P_Utils.mergeAppendedData_sorts _ pair_ltb pair_swo sched (l ++ concat rb) 0 (bounds l rb)) as (out & Eo & Lo & Po & So & _); auto.
  - intros i j Hij. rewrite bounds_length in Hij. rewrite !bounds_nth by lia. replace j with (i + (j - i)) by lia. clear. generalize (j - i). intros d. assert (Q : length (concat (firstn i rb)) <= length (concat (firstn (i + d) rb))); [|lia].
    revert rb. induction i as [|i IH]; intros rb; cbn [Nat.add firstn concat length]; [lia|]. destruct rb as [|b rb]; auto. cbn [concat]. rewrite !app_length. specialize (IH rb). lia.
  - lia.
  - rewrite Hd. unfold slice. rewrite Nat.sub_0_r. cbn [skipn]. rewrite firstn_app, firstn_all, Nat.sub_diag. cbn [firstn]. rewrite app_nil_r. auto.
  - intros t Ht. rewrite bounds_length in Ht. rewrite bounds_slice by lia. apply Sb, nth_In. lia.
  - exists out. split; auto. split; auto. rewrite Hl, <- Lo, slice_whole in So. auto.
Qed.

Definition no_order : rank_order := {| ro_fill := []; ro_sort := []; ro_merge := fun _ _ => []; ro_send := []; ro_join := fun _ _ => [] |}.

Lemma forall2_nth {A B} (R : A -> B -> Prop) l l' a b : Forall2 R l l' -> forall r, r < length l -> R (nth r l a) (nth r l' b).
Proof. induction 1 as [|x y l l' H F IH]; intros r Hr; [cbn in Hr; lia|]. destruct r; cbn [nth]; auto. apply IH. cbn in Hr. lia. Qed.
Lemma forall2_len {A B} (R : A -> B -> Prop) l l' : Forall2 R l l' -> length l' = length l.
Proof. induction 1; cbn [length]; auto. Qed.

Section Ranks.
  Context (sortp : list (nat * nat) -> list (nat * nat)) (os : list rank_order) (nb : list (list nat)) (ms : list rank_mesh).
  Hypothesis (Hs : sort_contract pair_ltb sortp) (LM : linked_mesh nb ms) (AO : Forall2 any_order ms os).
  Let P := length ms.
  Definition mm (r : nat) : rank_mesh := nth r ms no_mesh.
  Definition nbr (r : nat) : list nat := nth r nb [].
  Definition size (r : nat) : nat := length (ns_ids (rm_nodes (mm r))).

  Lemma mm_in r : r < P -> In (mm r) ms.
  Proof. apply nth_In. Qed.
  Lemma st_in r : r < P -> In (rm_nodes (mm r)) (map rm_nodes ms).
  Proof. intros H. apply in_map, mm_in; auto. Qed.
  Lemma st_nth r : r < P -> nth r (map rm_nodes ms) no_store = rm_nodes (mm r).
  Proof. intros H. rewrite (nth_indep _ no_store (rm_nodes no_mesh)) by (rewrite map_length; auto). apply map_nth. Qed.
  Lemma ord_nth r : r < P -> any_order (mm r) (nth r os no_order).
  Proof. intros H. apply forall2_nth; auto. Qed.
  Lemma ids_lt r i j : r < P -> i < j < size r -> id_of (rm_nodes (mm r)) i < id_of (rm_nodes (mm r)) j.
  Proof. intros Hr. apply (id_lt (mm r)). apply (lm_ids _ _ LM), mm_in; auto. Qed.
  Lemma ids_eq r i j : r < P -> i < size r -> j < size r -> id_of (rm_nodes (mm r)) i = id_of (rm_nodes (mm r)) j -> i = j.
  Proof. intros Hr. apply (id_eq (mm r)); [apply (sn_ids _ _ (lm_shared _ _ LM) _ (st_in r Hr))|]. apply (lm_ids _ _ LM), mm_in; auto. Qed.
  Lemma id_in r n : n < size r -> In (id_of (rm_nodes (mm r)) n) (ns_ids (rm_nodes (mm r))).
  Proof. intros H. apply nth_In. auto. Qed.
  Lemma has_rank r n t : r < P -> n < size r -> (In t (ranks_of (rm_nodes (mm r)) n) <-> t < P /\ In (id_of (rm_nodes (mm r)) n) (ns_ids (rm_nodes (mm t)))).
  Proof.
    intros Hr Hn. rewrite (sn_ranks _ _ (lm_shared _ _ LM) (rm_nodes (mm r)) n t (st_in r Hr) Hn). rewrite map_length. fold P. split; intros [Ht H]; split; auto; [rewrite st_nth in H by auto|rewrite st_nth by auto]; auto.
  Qed.
  Lemma nbr_ok r n t : r < P -> n < size r -> In t (ranks_of (rm_nodes (mm r)) n) -> t <> r -> In t (nbr r).
  Proof. intros Hr Hn. pose proof (sn_neighbours _ _ (lm_shared _ _ LM) r n t) as H. rewrite map_length, (st_nth r Hr) in H. apply H; auto. Qed.
  Lemma nbr_sym r j : r < P -> In j (nbr r) -> j < P /\ j <> r /\ In r (nbr j).
  Proof. intros Hr. pose proof (sn_symmetric _ _ (lm_shared _ _ LM) r j) as H. rewrite map_length in H. apply H; auto. Qed.
  Lemma nbr_sorted r : r < P -> StronglySorted lt (nbr r).
  Proof. intros Hr. apply (sn_increasing _ _ (lm_shared _ _ LM)). rewrite map_length. auto. Qed.
  Lemma no_links r x : r < P -> ~ In x (ns_ids (rm_nodes (mm r))) -> links_to (rank_elements (mm r)) x = [].
  Proof.
    intros Hr H. apply links_to_none. intros e He Hx. apply H. unfold rank_elements in He. apply in_map_iff in He. destruct He as (e' & <- & He). cbn [snd] in Hx. apply in_map_iff in Hx. destruct Hx as (n & <- & Hn). apply id_in. apply (lm_valid _ _ LM _ e' (mm_in r Hr) He n Hn).
  Qed.

  Definition links_of (E : nat -> nat -> list nat) (r : nat) := grouped (id_of (rm_nodes (mm r))) (E r) (seq 0 (size r)).
  Definition sent_to (E : nat -> nat -> list nat) (r j : nat) := to_send (mm r) (E r) j (seq 0 (size r)).
  Lemma locals_ok : exists E, (forall r, r < P -> forall n, n < size r -> StronglySorted le (E r n) /\ Permutation (E r n) (links_to (rank_elements (mm r)) (id_of (rm_nodes (mm r)) n))) /\
    forall r, r < P -> link_local sortp (nth r os no_order) r (nbr r) (mm r) = Ok (links_of E r, map (sent_to E r) (nbr r)).
  Proof.
    destruct (choose (fun _ => []) (fun r E => (forall n, n < size r -> StronglySorted le (E n) /\ Permutation (E n) (links_to (rank_elements (mm r)) (id_of (rm_nodes (mm r)) n))) /\
      link_local sortp (nth r os no_order) r (nbr r) (mm r) = Ok (grouped (id_of (rm_nodes (mm r))) E (seq 0 (size r)), map (fun j => to_send (mm r) E j (seq 0 (size r))) (nbr r))) P) as (E & H).
    - intros r Hr. apply link_local_ok; auto.
      + apply nbr_sorted; auto.
      + intros C. destruct (nbr_sym r r Hr C) as (_ & C' & _). auto.
      + apply (sn_ids _ _ (lm_shared _ _ LM) _ (st_in r Hr)).
      + intros n Hn. apply (sn_sorted _ _ (lm_shared _ _ LM) _ _ (st_in r Hr) Hn).
      + intros n t Hn. apply nbr_ok; auto.
      + apply (lm_ids _ _ LM), mm_in; auto.
      + apply (lm_threads _ _ LM), mm_in; auto.
      + intros e. apply (lm_valid _ _ LM), mm_in; auto.
      + apply ord_nth; auto.
    - exists E. split; intros r Hr; apply (H r Hr).
  Qed.

  Section Merged.
    Context (E : nat -> nat -> list nat) (HE : forall r, r < P -> forall n, n < size r -> StronglySorted le (E r n) /\ Permutation (E r n) (links_to (rank_elements (mm r)) (id_of (rm_nodes (mm r)) n))).
    Lemma sent_sorted r j : r < P -> sorted pair_ltb (sent_to E r j).
    Proof.
      intros Hr. unfold sent_to, to_send. apply (grouped_sorted _ _ (size r)); [intros; apply ids_lt; auto|apply ss_filter, ss_seq|intros n Hn; apply filter_In in Hn; destruct Hn as [Hn _]; apply in_seq in Hn; lia|intros; apply HE; auto].
    Qed.
    Lemma links_sorted r : r < P -> sorted pair_ltb (links_of E r).
    Proof. intros Hr. unfold links_of. apply (grouped_sorted _ _ (size r)); [intros; apply ids_lt; auto|apply ss_seq|intros n Hn; apply in_seq in Hn; lia|intros; apply HE; auto]. Qed.
    Lemma sent_group r j n : r < P -> j < P -> n < size r ->
      Permutation (map snd (filter (fun a : nat * nat => id_of (rm_nodes (mm r)) n =? fst a) (sent_to E j r))) (links_to (rank_elements (mm j)) (id_of (rm_nodes (mm r)) n)).
    Proof.
      intros Hr Hj Hn. unfold sent_to, to_send. rewrite group_of_grouped. set (x := id_of (rm_nodes (mm r)) n).
      destruct (in_dec Nat.eq_dec x (ns_ids (rm_nodes (mm j)))) as [Hx|Hx].
      - destruct (In_nth _ _ 0 Hx) as (k & Hk & Ek). fold (id_of (rm_nodes (mm j)) k) in Ek. rewrite <- Ek. rewrite (only_one (id_of (rm_nodes (mm j))) (E j) _ k).
        + apply HE; auto.
        + apply NoDup_filter, seq_NoDup.
        + apply filter_In. split; [apply in_seq; unfold size; lia|]. apply mem_iff. apply has_rank; auto. split; auto. rewrite Ek. apply id_in; auto.
        + intros k' Hk' Q. apply filter_In in Hk'. destruct Hk' as [Hk' _]. apply in_seq in Hk'. apply (ids_eq j); auto. lia.
      - rewrite no_links by auto. rewrite flat_map_nil; auto. intros k Hk. apply filter_In in Hk. destruct Hk as [Hk _]. apply in_seq in Hk. destruct (Nat.eqb_spec x (id_of (rm_nodes (mm j)) k)) as [Q|]; auto. exfalso. apply Hx. rewrite Q. apply id_in. lia.
    Qed.
    Lemma links_group r n : r < P -> n < size r -> map snd (filter (fun a : nat * nat => id_of (rm_nodes (mm r)) n =? fst a) (links_of E r)) = E r n.
    Proof.
      intros Hr Hn. unfold links_of. rewrite group_of_grouped. apply only_one; [apply seq_NoDup|apply in_seq; lia|]. intros k Hk Q. apply in_seq in Hk. apply (ids_eq r); auto. lia.
    Qed.
    Lemma all_group r n : r < P -> n < size r ->
      Permutation (map snd (filter (fun a : nat * nat => id_of (rm_nodes (mm r)) n =? fst a) (links_of E r ++ concat (map (fun j => sent_to E j r) (nbr r))))) (links_to (mesh_elements ms) (id_of (rm_nodes (mm r)) n)).
    Proof.
      intros Hr Hn. rewrite filter_app, map_app, links_group by auto. rewrite <- flat_map_concat_map, filter_flat_map, map_flat_map.
      unfold mesh_elements. rewrite links_to_flat. rewrite (flat_map_nth (fun m => links_to (rank_elements m) (id_of (rm_nodes (mm r)) n)) ms no_mesh). fold P.
      apply (Permutation_trans (l' := flat_map (fun j => links_to (rank_elements (mm j)) (id_of (rm_nodes (mm r)) n)) (r :: nbr r))).
      - cbn [flat_map]. apply Permutation_app; [apply HE; auto|]. apply perm_flat_map_in. intros j Hj. apply sent_group; auto. apply (nbr_sym r j); auto.
      - apply perm_sub.
        + constructor; [intros C; destruct (nbr_sym r r Hr C) as (_ & C' & _); auto|]. apply ss_nodup, nbr_sorted; auto.
        + apply seq_NoDup.
        + intros j [<-|Hj]; apply in_seq; [lia|]. destruct (nbr_sym r j Hr Hj). lia.
        + intros j Hj Nj. apply in_seq in Hj. apply no_links; [lia|]. intros C. apply Nj. destruct (Nat.eq_dec j r) as [->|Ne]; [left; auto|right]. apply (nbr_ok r n); auto. apply has_rank; auto. split; auto. lia.
    Qed.
    Lemma link_finish_ok r : r < P -> (ns_ids (rm_nodes (mm r)) <> [] -> exists e, In e (mesh_elements ms) /\ In (last (ns_ids (rm_nodes (mm r))) 0) (snd e)) ->
      exists ne, link_finish (nth r os no_order) (mm r) (links_of E r) (map (fun j => sent_to E j r) (nbr r)) = Ok ne /\ linked_nodes (mesh_elements ms) (rm_nodes (mm r)) ne.
    Proof.
      intros Hr Hu. unfold link_finish. rewrite append_ok.
      destruct (merge_links (ro_join (nth r os no_order)) (links_of E r) (map (fun j => sent_to E j r) (nbr r))) as (out & Eo & Po & So).
      - apply (ao_join _ _ (ord_nth r Hr)).
      - apply links_sorted; auto.
      - intros b Hb. apply in_map_iff in Hb. destruct Hb as (j & <- & Hj). apply sent_sorted. apply (nbr_sym r j); auto.
      - assert (Eb : [0; length (links_of E r)] ++ map (fun k => length (links_of E r) + length (concat (firstn k (map (fun j => sent_to E j r) (nbr r))))) (seq 1 (length (map (fun j => sent_to E j r) (nbr r)))) = 0 :: bounds (links_of E r) (map (fun j => sent_to E j r) (nbr r))).
        { unfold bounds. cbn [seq map app firstn concat length]. rewrite Nat.add_0_r. auto. }
        rewrite Eb, Eo. cbn [obind].
        set (G := fun n => map snd (filter (fun a : nat * nat => id_of (rm_nodes (mm r)) n =? fst a) out)).
        assert (HG : forall n, n < size r -> StronglySorted le (G n) /\ Permutation (G n) (links_to (mesh_elements ms) (id_of (rm_nodes (mm r)) n))).
        { intros n Hn. split; [apply sorted_group; auto|]. apply (Permutation_trans (l' := map snd (filter (fun a : nat * nat => id_of (rm_nodes (mm r)) n =? fst a) (links_of E r ++ concat (map (fun j => sent_to E j r) (nbr r)))))); [|apply all_group; auto]. apply perm_group, Permutation_sym, Po. }
        assert (Hout : out = grouped (id_of (rm_nodes (mm r))) G (seq 0 (size r))).
        { apply regroup; auto; [intros; apply ids_lt; auto|]. intros a Ha. apply (Permutation_in _ (Permutation_sym Po)) in Ha. apply in_app_or in Ha. destruct Ha as [Ha|Ha].
          - apply grouped_in in Ha. destruct Ha as (n & Hn & Q & _). apply in_seq in Hn. exists n. split; auto. lia.
          - apply in_concat in Ha. destruct Ha as (b & Hb & Ha). apply in_map_iff in Hb. destruct Hb as (j & <- & Hj). unfold sent_to, to_send in Ha. apply grouped_in in Ha. destruct Ha as (n & Hn & Q & _). apply filter_In in Hn. destruct Hn as [Hn Hm]. apply in_seq in Hn. apply mem_iff in Hm.
            destruct (nbr_sym r j Hr Hj) as (Lj & _). apply has_rank in Hm; auto; [|lia]. destruct Hm as [_ Hm]. destruct (In_nth _ _ 0 Hm) as (k & Hk & Ek). exists k. split; auto. rewrite Q. symmetry. exact Ek. }
        assert (Lr : length (ns_ranks (rm_nodes (mm r))) = length (ns_ids (rm_nodes (mm r)))) by apply (sn_ids _ _ (lm_shared _ _ LM) _ (st_in r Hr)).
        assert (Hlast : 0 < size r -> G (size r - 1) <> []).
        { intros L C. destruct Hu as (e & He & Hx); [unfold size in L; destruct (ns_ids (rm_nodes (mm r))); [cbn in L; lia|discriminate]|]. destruct (HG (size r - 1) ltac:(lia)) as [_ PG]. rewrite C in PG. apply Permutation_nil in PG.
          assert (Hi : In (fst e) (links_to (mesh_elements ms) (id_of (rm_nodes (mm r)) (size r - 1)))); [|rewrite PG in Hi; destruct Hi]. apply links_to_in; auto. unfold id_of, size in *. rewrite L_Merge.last_nth in Hx; auto. intros C'. rewrite C' in L. cbn in L. lia. }
        pose proof (lm_ids _ _ LM _ (mm_in r Hr)) as Sid. pose proof (lm_threads _ _ LM _ (mm_in r Hr)) as TP.
        set (M := grouped (id_of (rm_nodes (mm r))) G (seq 0 (size r))) in *.
        assert (Em : exists parts, mapM (record_thread (mm r) M) (seq 0 (length (rm_ndist (mm r)) - 1)) = Ok parts).
        { eexists. apply mapM_ok. intros t Ht. apply in_seq in Ht. apply (record_thread_ok (mm r) Lr Sid TP G Hlast). lia. }
        destruct Em as (parts & Em). rewrite Hout, Em. cbn [obind]. eexists. split; [reflexivity|]. assert (Srk : forall n, n < length (ns_ids (rm_nodes (mm r))) -> StronglySorted lt (ranks_of (rm_nodes (mm r)) n)) by (intros n Hn; apply (sn_sorted _ _ (lm_shared _ _ LM) _ _ (st_in r Hr) Hn)).
        apply (linked_ok r (nbr r) (mm r) Lr Srk (fun n t Hn => nbr_ok r n t Hr Hn) Sid TP G Hlast parts); auto.
    Qed.
  End Merged.

  Lemma as_ranks {A} (f : nat * (rank_order * (list nat * rank_mesh)) -> A) : map f (combine (seq 0 (length ms)) (combine os (combine nb ms))) = map (fun r => f (r, (nth r os no_order, (nbr r, mm r)))) (seq 0 P).
  Proof.
    assert (Lo : length os = P). { apply (forall2_len any_order). auto. }
    assert (Ln : length nb = P). { pose proof (sn_length _ _ (lm_shared _ _ LM)) as H. rewrite map_length in H. auto. }
    fold P. rewrite (list_as_map os no_order P), (list_as_map nb [] P), (list_as_map ms no_mesh P) at 1 by auto.
    rewrite !combine_map, combine_self, map_map. apply map_ext. auto.
  Qed.
  Lemma links_ok : used_last ms -> exists nes, link_nodes_and_elements sortp os nb ms = Ok nes /\ Forall2 (fun m ne => linked_nodes (mesh_elements ms) (rm_nodes m) ne) ms nes.
  Proof.
    intros Hu. destruct locals_ok as (E & HE & HL). unfold link_nodes_and_elements.
    assert (Lo : length os = P). { apply (forall2_len any_order). auto. }
    assert (Ln : length nb = P). { pose proof (sn_length _ _ (lm_shared _ _ LM)) as H. rewrite map_length in H. auto. }
    assert (E1 : mapM (fun x : nat * (rank_order * (list nat * rank_mesh)) => let '(r, (o, (ns, m))) := x in link_local sortp o r ns m) (combine (seq 0 (length ms)) (combine os (combine nb ms))) = Ok (map (fun r => (links_of E r, map (sent_to E r) (nbr r))) (seq 0 P))).
    { pose proof (as_ranks (fun x => x)) as Q. rewrite map_id in Q. rewrite Q. apply mapM_map. intros r Hr. apply in_seq in Hr. apply HL. lia. }
    rewrite E1. cbn [obind]. rewrite map_map. cbn [snd].
    assert (E2 : exchange nb (map (fun r => map (sent_to E r) (nbr r)) (seq 0 P)) = Ok (map (fun r => map (fun j => sent_to E j r) (nbr r)) (seq 0 P))).
    { rewrite (list_as_map nb [] P) at 1 by auto. apply (exchange_sym P nbr). intros r j Hr Hj. destruct (nbr_sym r j Hr Hj) as (? & _ & ?). auto. }
    rewrite E2. cbn [obind].
    destruct (choose ([], []) (fun r ne => link_finish (nth r os no_order) (mm r) (links_of E r) (map (fun j => sent_to E j r) (nbr r)) = Ok ne /\ linked_nodes (mesh_elements ms) (rm_nodes (mm r)) ne) P) as (ne & Hne).
    { intros r Hr. apply link_finish_ok; auto. apply Hu, mm_in; auto. }
    exists (map ne (seq 0 P)). split.
    - assert (E3 : combine os (combine ms (combine (map (fun r => (links_of E r, map (sent_to E r) (nbr r))) (seq 0 P)) (map (fun r => map (fun j => sent_to E j r) (nbr r)) (seq 0 P)))) = map (fun r => (nth r os no_order, (mm r, ((links_of E r, map (sent_to E r) (nbr r)), map (fun j => sent_to E j r) (nbr r))))) (seq 0 P)).
      { rewrite (list_as_map os no_order P) at 1 by auto. rewrite (list_as_map ms no_mesh P) at 1 by auto. rewrite !combine_map. auto. }
      rewrite E3. apply mapM_map. intros r Hr. apply in_seq in Hr. cbn [fst]. apply Hne. lia.
    - assert (G : forall l, (forall r, In r l -> r < P) -> Forall2 (fun m ne => linked_nodes (mesh_elements ms) (rm_nodes m) ne) (map (fun i => nth i ms no_mesh) l) (map ne l)).
      { induction l as [|r l IH]; intros H; cbn [map]; constructor; [apply Hne, H; left; auto|apply IH; intros; apply H; right; auto]. }
      pose proof (G (seq 0 P)) as Q. rewrite <- (list_as_map ms no_mesh P eq_refl) in Q. apply Q. intros r Hr. apply in_seq in Hr. lia.
  Qed.
End Ranks.
