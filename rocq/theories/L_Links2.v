(** * Lemmas on the links of nodes: one rank, before the exchange *)
From Coq Require Import List Arith Bool Lia Sorted Permutation.
From Verif Require Import Base S_Order M_Utils M_Distributed M_DistMatrix M_DistApply M_NodeInfo S_NodeInfo M_Links S_Links L_Equality L_Equality2 L_TotalFeti L_Csx2 L_Fill2 L_Distributed L_DistMatrix L_NodeInfo L_NodeInfo3 L_NodeInfo4 L_NodeInfo5 L_Links.
Import ListNotations.
Local Open Scope out_scope.

(** links grouped by nodes: the links of the node [n] are labelled [key n] *)
Definition grouped (key : nat -> nat) (E : nat -> list nat) (ns : list nat) : list (nat * nat) := flat_map (fun n => map (pair (key n)) (E n)) ns.
Definition pos (E : nat -> list nat) (n : nat) : nat := length (flat_map E (seq 0 n)).

Lemma grouped_app key E a b : grouped key E (a ++ b) = grouped key E a ++ grouped key E b.
Proof. apply flat_map_app. Qed.
Lemma grouped_length key E ns : length (grouped key E ns) = length (flat_map E ns).
Proof. induction ns as [|n ns IH]; auto. cbn [grouped flat_map]. rewrite !app_length, map_length. f_equal. exact IH. Qed.
Lemma grouped_pos key E n : length (grouped key E (seq 0 n)) = pos E n.
Proof. apply grouped_length. Qed.
Lemma grouped_in key E ns x : In x (grouped key E ns) -> exists n, In n ns /\ fst x = key n /\ In (snd x) (E n).
Proof. intros H. apply in_flat_map in H. destruct H as (n & Hn & H). apply in_map_iff in H. destruct H as (e & <- & He). exists n. auto. Qed.
Lemma grouped_split key E n N : n < N -> grouped key E (seq 0 N) = grouped key E (seq 0 n) ++ map (pair (key n)) (E n) ++ grouped key E (seq (S n) (N - S n)).
Proof. intros H. replace N with (n + S (N - S n)) at 1 by lia. rewrite seq_app, grouped_app. f_equal. Qed.
Lemma grouped_two key E n N : n <= N -> grouped key E (seq 0 N) = grouped key E (seq 0 n) ++ grouped key E (seq n (N - n)).
Proof. intros H. replace N with (n + (N - n)) at 1 by lia. rewrite seq_app, grouped_app. auto. Qed.
Lemma grouped_ext key key' E ns : (forall n, In n ns -> key n = key' n) -> grouped key E ns = grouped key' E ns.
Proof. intros H. apply flat_map_ext_in'. intros n Hn. rewrite H; auto. Qed.
Lemma pos_S E n : pos E (S n) = pos E n + length (E n).
Proof. unfold pos. rewrite seq_S, flat_map_app, app_length. cbn [flat_map]. rewrite app_nil_r. auto. Qed.
Lemma pos_mono E m n : m <= n -> pos E m <= pos E n.
Proof. intros H. induction H; auto. rewrite pos_S. lia. Qed.

Lemma forward_ok p (pre mid post : list (nat * nat)) : (forall x, In x mid -> p x = true) -> (forall x r, post = x :: r -> p x = false) ->
  forall fuel, length mid <= fuel -> forward fuel p (pre ++ mid ++ post) (length pre) = Ok (length pre + length mid).
Proof.
  revert pre. induction mid as [|m mid IH]; intros pre Hm Hp fuel Hf.
  - cbn [length app]. rewrite Nat.add_0_r. destruct fuel; cbn [forward]; destruct (Nat.leb_spec (length (pre ++ post)) (length pre)) as [L|L]; auto;
      rewrite app_length in L; destruct post as [|x r]; try (cbn in L; lia); rewrite (rd_ok _ _ x) by (rewrite app_length; cbn; lia); cbn [obind]; rewrite app_nth2, Nat.sub_diag by lia; cbn [nth]; rewrite (Hp x r) by auto; auto.
  - destruct fuel as [|fuel]; [cbn in Hf; lia|]. cbn [forward]. rewrite app_length. destruct (Nat.leb_spec (length pre + length ((m :: mid) ++ post)) (length pre)) as [L|L]; [cbn in L; lia|].
    rewrite (rd_ok _ _ m) by (rewrite app_length; cbn; lia). cbn [obind]. rewrite app_nth2, Nat.sub_diag by lia. cbn [nth app]. rewrite Hm by (left; auto).
    specialize (IH (pre ++ [m]) (fun x Hx => Hm x (or_intror Hx)) Hp fuel). rewrite app_length, <- app_assoc in IH. cbn [length app] in IH. cbn in Hf. rewrite IH by lia. f_equal. cbn [length]. lia.
Qed.
Lemma leading_app b l1 l2 : (forall x, In x l1 -> x < b) -> (forall x r, l2 = x :: r -> b <= x) -> leading b (l1 ++ l2) = length l1.
Proof.
  intros H1 H2. induction l1 as [|x l1 IH]; cbn [app leading length].
  - destruct l2 as [|y l2]; auto. cbn [leading]. rewrite (proj2 (Nat.ltb_ge _ _)); auto. apply (H2 y l2); auto.
  - rewrite (proj2 (Nat.ltb_lt _ _)) by (apply H1; left; auto). f_equal. apply IH. intros; apply H1; right; auto.
Qed.
Lemma grouped_lower key E N a v n : a <= n <= N -> (forall m, a <= m < n -> key m < v) -> (forall m, n <= m < N -> v <= key m) -> lower_link (grouped key E (seq 0 N)) (pos E a) v = pos E n.
Proof.
  intros H H1 H2. unfold lower_link. rewrite (grouped_two key E n N) by lia. rewrite (grouped_two key E a n) by lia. rewrite <- app_assoc.
  rewrite skipn_app, skipn_all2 by (rewrite grouped_pos; auto). rewrite grouped_pos, Nat.sub_diag. cbn [app skipn]. rewrite map_app. rewrite leading_app.
  - rewrite map_length, grouped_length. unfold pos. replace n with (a + (n - a)) at 2 by lia. rewrite seq_app, flat_map_app, app_length. auto.
  - intros x Hx. apply in_map_iff in Hx. destruct Hx as (y & <- & Hy). apply grouped_in in Hy. destruct Hy as (m & Hm & -> & _). apply in_seq in Hm. apply H1. lia.
  - intros x r Er. assert (Hx : In x (map fst (grouped key E (seq n (N - n))))) by (rewrite Er; left; auto). apply in_map_iff in Hx. destruct Hx as (y & <- & Hy). apply grouped_in in Hy. destruct Hy as (m & Hm & -> & _). apply in_seq in Hm. apply H2. lia.
Qed.

Section Rank.
  Context (rank : nat) (nb : list nat) (m : rank_mesh) (E : nat -> list nat).
  Let s := rm_nodes m.
  Let N := length (ns_ids s).
  Let nd t := nth t (rm_ndist m) 0.
  Let T := length (rm_ndist m) - 1.
  Hypothesis (Snb : StronglySorted lt nb) (Nself : ~ In rank nb).
  Hypothesis (Lr : length (ns_ranks s) = N) (Srk : forall n, n < N -> StronglySorted lt (ranks_of s n)) (Hnb : forall n t, n < N -> In t (ranks_of s n) -> t <> rank -> In t nb).
  Hypothesis (Sid : StronglySorted lt (ns_ids s)) (TP : thread_parts N (rm_ndist m)).

  Lemma id_ge n : n < N -> n <= id_of s n.
  Proof.
    induction n as [|n IH]; intros H; [lia|]. pose proof (L_Distributed.ss_nth _ Sid n (S n) ltac:(fold N; lia)). unfold id_of in *. specialize (IH ltac:(lia)). lia.
  Qed.

  Definition labels (D : nat -> bool) (n : nat) : nat := if D n then id_of s n else n.
  Lemma labels_ge D n : n < N -> n <= labels D n.
  Proof. intros H. unfold labels. pose proof (id_ge n H). destruct (D n); lia. Qed.

  Lemma send_links_ok F n part : n < N -> send_links rank nb (ranks_of s n) part (map F nb) = Ok (map (fun j => F j ++ if mem j (ranks_of s n) then part else []) nb).
  Proof.
    intros Hn. unfold send_links. pose proof (ss_nodup nb Snb) as ND.
    rewrite (foldM_ext_in _ (fun sk r => if r =? rank then Ok sk else k <- advance (length nb) nb r (snd sk) ;; st <- (b <- rd (fst sk) k ;; wr (fst sk) k (b ++ part)) ;; Ok (st, k))).
    2: { intros st x _. destruct (x =? rank); auto. destruct (advance _ _ _ _); cbn [obind]; auto. destruct (rd _ _); cbn [obind]; auto. }
    rewrite (over_node rank nb (fun k buf => b <- rd buf k ;; wr buf k (b ++ part)) (ranks_of s n)); auto; [|intros t Ht Ne; apply (Hnb n); auto|intros; lia].
    assert (G : forall l F, (forall x, In x l -> In x nb) -> NoDup l -> foldM (fun buf x => b <- rd buf (find_rank x nb) ;; wr buf (find_rank x nb) (b ++ part)) l (map F nb) = Ok (map (fun j => F j ++ if mem j l then part else []) nb)).
    { clear F. induction l as [|x l IH]; intros F Hl Nl; cbn [foldM]; [f_equal; apply map_ext; intros; cbn; rewrite app_nil_r; auto|].
      apply NoDup_cons_iff in Nl. destruct Nl as [Nx Nl]. rewrite (rd_map_rank F) by (apply Hl; left; auto). cbn [obind]. rewrite wr_map_rank by (auto; apply Hl; left; auto). cbn [obind].
      rewrite (IH (fun j => if j =? x then F x ++ part else F j)); [|intros; apply Hl; right; auto|auto]. f_equal. apply map_ext. intros j. rewrite mem_cons. destruct (Nat.eqb_spec j x) as [->|]; cbn [orb]; auto.
      apply mem_false in Nx. rewrite Nx, app_nil_r. auto. }
    rewrite (G (others rank (ranks_of s n))).
    - f_equal. apply map_ext_in. intros j Hj. f_equal. assert (Q : mem j (others rank (ranks_of s n)) = mem j (ranks_of s n)); [|rewrite Q; auto].
      apply eq_true_iff_eq. rewrite !mem_iff. unfold others. rewrite filter_In, negb_true_iff, Nat.eqb_neq. split; [tauto|]. intros H; split; auto. intros ->. auto.
    - intros x Hx. apply filter_In in Hx. destruct Hx as [Hx Ne]. apply negb_true_iff, Nat.eqb_neq in Ne. apply (Hnb n); auto.
    - apply NoDup_filter, ss_nodup, Srk; auto.
  Qed.

  (** the links sent to [j] *)
  Definition to_send (j : nat) (ns : list nat) : list (nat * nat) := grouped (id_of s) E (filter (fun n => mem j (ranks_of s n)) ns).
  Lemma to_send_app j a b : to_send j (a ++ b) = to_send j a ++ to_send j b.
  Proof. unfold to_send. rewrite filter_app, grouped_app. auto. Qed.
  Definition also (D : nat -> bool) (n k : nat) : bool := D k || (k =? n).

  Lemma link_node_ok D F n : n < N -> D n = false ->
    link_node rank nb s (grouped (labels D) E (seq 0 N), pos E n, map F nb) n = Ok (grouped (labels (also D n)) E (seq 0 N), pos E (S n), map (fun j => F j ++ to_send j [n]) nb).
  Proof.
    intros Hn Dn. unfold link_node.
    set (pre := grouped (labels D) E (seq 0 n)). set (mid := map (pair n) (E n)). set (post := grouped (labels D) E (seq (S n) (N - S n))).
    assert (Eg : grouped (labels D) E (seq 0 N) = pre ++ mid ++ post). { rewrite (grouped_split _ E n N) by auto. unfold labels at 2. rewrite Dn. auto. }
    assert (Lp : length pre = pos E n) by apply grouped_pos.
    assert (Lm : length mid = length (E n)) by apply map_length.
    assert (Hpost : forall x, In x post -> n < fst x). { intros x Hx. apply grouped_in in Hx. destruct Hx as (k & Hk & -> & _). apply in_seq in Hk. pose proof (labels_ge D k ltac:(lia)). lia. }
    assert (Hmid : forall x, In x mid -> fst x = n). { intros x Hx. apply in_map_iff in Hx. destruct Hx as (e & <- & _). auto. }
    assert (Eg' : grouped (labels (also D n)) E (seq 0 N) = pre ++ map (pair (id_of s n)) (E n) ++ post).
    { rewrite (grouped_split _ E n N) by auto. f_equal; [apply grouped_ext|f_equal; [|apply grouped_ext]].
      - intros k Hk. apply in_seq in Hk. unfold labels, also. rewrite (proj2 (Nat.eqb_neq k n)) by lia. rewrite orb_false_r. auto.
      - unfold labels, also. rewrite Nat.eqb_refl, orb_true_r. auto.
      - intros k Hk. apply in_seq in Hk. unfold labels, also. rewrite (proj2 (Nat.eqb_neq k n)) by lia. rewrite orb_false_r. auto. }
    rewrite Eg. rewrite <- Lp at 1.
    assert (F1 : forward (length (pre ++ mid ++ post)) (fun l => fst l <? n) (pre ++ mid ++ post) (length pre) = Ok (length pre)).
    { pose proof (forward_ok (fun l => fst l <? n) pre [] (mid ++ post)) as Q. cbn [app length] in Q. rewrite Q; [f_equal; lia|intros x []| |lia].
      intros x r Ex. apply Nat.ltb_ge. assert (Hx : In x (mid ++ post)) by (rewrite Ex; left; auto). apply in_app_or in Hx. destruct Hx as [Hx|Hx]; [rewrite Hmid; auto|specialize (Hpost x Hx); lia]. }
    rewrite F1. cbn [obind].
    destruct (E n) as [|e0 es] eqn:En.
    - assert (Em : mid = []) by auto. rewrite Em in *. cbn [app].
      assert (Here : (if length pre <? length (pre ++ post) then l <- rd (pre ++ post) (length pre) ;; Ok (fst l =? n) else Ok false) = Ok false).
      { destruct (Nat.ltb_spec (length pre) (length (pre ++ post))) as [L|L]; auto. rewrite app_length in L. destruct post as [|x r] eqn:Ep; [cbn in L; lia|]. rewrite (rd_ok _ _ x) by (rewrite app_length; cbn; lia). cbn [obind].
        rewrite app_nth2, Nat.sub_diag by lia. cbn [nth]. specialize (Hpost x (or_introl eq_refl)). rewrite (proj2 (Nat.eqb_neq _ _)) by lia. auto. }
      rewrite Here. cbn [obind]. rewrite Eg'. cbn [map app]. rewrite pos_S, En. cbn [length]. rewrite Nat.add_0_r, Lp. do 2 f_equal. apply map_ext. intros j. unfold to_send. cbn [filter]. destruct (mem j (ranks_of s n)); cbn [grouped flat_map]; rewrite ?En; cbn; rewrite app_nil_r; auto.
    - assert (Here : (if length pre <? length (pre ++ mid ++ post) then l <- rd (pre ++ mid ++ post) (length pre) ;; Ok (fst l =? n) else Ok false) = Ok true).
      { rewrite (proj2 (Nat.ltb_lt _ _)) by (rewrite !app_length, Lm; cbn [length]; lia). rewrite (rd_ok _ _ (0, 0)) by (rewrite !app_length, Lm; cbn [length]; lia). cbn [obind]. rewrite app_nth2, Nat.sub_diag by lia. unfold mid. cbn [map nth fst app]. rewrite Nat.eqb_refl. auto. }
      rewrite Here. cbn [obind]. rewrite (forward_ok (fun l => fst l =? n) pre mid post).
      2: { intros x Hx. apply Nat.eqb_eq; auto. }
      2: { intros x r Ex. apply Nat.eqb_neq. assert (n < fst x); [|lia]. apply Hpost. rewrite Ex. left; auto. }
      2: { rewrite !app_length. lia. }
      cbn [obind]. rewrite (rd_ok _ _ 0) by auto. cbn [obind]. fold (id_of s n).
      assert (Sl : slice (length pre) (length pre + length mid) (pre ++ mid ++ post) = mid).
      { unfold slice. rewrite skipn_app, skipn_all, Nat.sub_diag. cbn [app skipn]. replace (length pre + length mid - length pre) with (length mid + 0) by lia. rewrite firstn_app_2. cbn [firstn]. apply app_nil_r. }
      rewrite Sl.
      assert (Ep : map (fun l : nat * nat => (id_of s n, snd l)) mid = map (pair (id_of s n)) (E n)). { rewrite En. unfold mid. rewrite map_map. auto. }
      rewrite Ep.
      assert (Pu : put (length pre) (length pre + length mid) (pre ++ mid ++ post) (map (pair (id_of s n)) (E n)) = grouped (labels (also D n)) E (seq 0 N)).
      { rewrite Eg', En. unfold put. rewrite firstn_app, firstn_all, Nat.sub_diag. cbn [firstn]. rewrite app_nil_r. f_equal. f_equal. rewrite app_assoc, skipn_app, skipn_all2 by (rewrite app_length; lia). rewrite app_length.
        replace (length pre + length mid - (length pre + length mid)) with 0 by lia. auto. }
      rewrite Pu. rewrite (rd_ok _ _ []) by lia. cbn [obind]. fold (ranks_of s n). rewrite send_links_ok by auto. cbn [obind]. rewrite pos_S, Lp, Lm, En. do 2 f_equal. apply map_ext. intros j. f_equal. unfold to_send. cbn [filter]. destruct (mem j (ranks_of s n)); cbn [grouped flat_map]; [|auto]. rewrite app_nil_r, En. auto.
  Qed.
  Lemma link_nodes_ok D : forall k n F, n + k <= N -> (forall i, n <= i < n + k -> D i = false) ->
    foldM (link_node rank nb s) (seq n k) (grouped (labels D) E (seq 0 N), pos E n, map F nb)
    = Ok (grouped (labels (fun i => D i || (n <=? i) && (i <? n + k))) E (seq 0 N), pos E (n + k), map (fun j => F j ++ to_send j (seq n k)) nb).
  Proof.
    intros k. revert D. induction k as [|k IH]; intros D n F H HD.
    - cbn [seq foldM]. rewrite Nat.add_0_r. do 2 f_equal; [f_equal|apply map_ext; intros; cbn; rewrite app_nil_r; auto].
      apply grouped_ext. intros i _. unfold labels. assert (Q : (n <=? i) && (i <? n) = false) by (destruct (Nat.leb_spec n i), (Nat.ltb_spec i n); auto; lia). rewrite Q, orb_false_r. auto.
    - cbn [seq foldM]. rewrite link_node_ok by (try apply HD; lia). cbn [obind]. rewrite IH.
      + do 2 f_equal; [f_equal; [apply grouped_ext|f_equal; lia]|apply map_ext; intros j; rewrite <- app_assoc, <- to_send_app; auto].
        intros i _. unfold labels, also. assert (Q : D i || (i =? n) || (S n <=? i) && (i <? S n + k) = D i || (n <=? i) && (i <? n + S k)); [|rewrite Q; auto].
        rewrite <- orb_assoc. f_equal. destruct (Nat.eqb_spec i n), (Nat.leb_spec (S n) i), (Nat.ltb_spec i (S n + k)), (Nat.leb_spec n i), (Nat.ltb_spec i (n + S k)); cbn; auto; lia.
      + lia.
      + intros i Hi. unfold also. rewrite HD by lia. apply Nat.eqb_neq. lia.
  Qed.

  (** ** threads *)
  Lemma nd_mono a b : a <= b <= T -> nd a <= nd b.
  Proof. intros H. destruct TP as (H1 & _ & _ & M & _). apply M. unfold T in *. lia. Qed.
  Lemma nd_first : nd 0 = 0.
  Proof. destruct TP as (H1 & H2 & _). unfold nd. destruct (rm_ndist m); auto. Qed.
  Lemma nd_last : nd T = N.
  Proof. destruct TP as (H1 & _ & H2 & _). unfold nd, T. rewrite <- H2. symmetry. rewrite L_Merge.last_nth; auto. destruct (rm_ndist m); [cbn in H1; lia|discriminate]. Qed.
  Lemma nd_le t : t <= T -> nd t <= N.
  Proof. intros H. rewrite <- nd_last. apply nd_mono. auto. Qed.
  Lemma T_pos : 1 <= T /\ length (rm_ndist m) = S T.
  Proof. destruct TP as (H1 & _). unfold T. lia. Qed.
  Lemma rd_nd t : t <= T -> rd (rm_ndist m) t = Ok (nd t).
  Proof. intros H. apply rd_ok. destruct T_pos. lia. Qed.

  Lemma thread_begins_ok : thread_begins (rm_ndist m) (grouped (fun n => n) E (seq 0 N)) = Ok (map (fun t => pos E (nd t)) (seq 0 T)).
  Proof.
    unfold thread_begins. destruct T_pos as [T1 T2]. replace (length (rm_ndist m) - 2) with (T - 1) by lia.
    destruct (foldM_seq_inv (fun tbegin t => p <- rd tbegin (t - 1) ;; x <- rd (rm_ndist m) t ;; if length (grouped (fun n => n) E (seq 0 N)) <? p then UB else Ok (tbegin ++ [lower_link (grouped (fun n => n) E (seq 0 N)) p x]))
      (fun t st => st = map (fun t => pos E (nd t)) (seq 0 t)) 1 (T - 1) [0]) as (st & Es & I).
    - cbn [seq map]. rewrite nd_first. auto.
    - intros t st Ht ->. rewrite (rd_ok _ _ 0) by (rewrite map_length, seq_length; lia). cbn [obind]. rewrite L_Distributed.nth_map_seq by lia. rewrite rd_nd by lia. cbn [obind].
      rewrite grouped_pos. rewrite (proj2 (Nat.ltb_ge _ _)) by (apply pos_mono, nd_le; lia). eexists. split; [reflexivity|]. rewrite seq_S, map_app. cbn [map Nat.add]. do 2 f_equal. apply grouped_lower; [split; [apply nd_mono; lia|apply nd_le; lia]| |]; intros; lia.
    - rewrite Es, I. do 2 f_equal. replace (1 + (T - 1)) with T by lia. auto.
  Qed.

  Definition range (t : nat) : list nat := seq (nd t) (nd (t + 1) - nd t).
  Definition owned (t n : nat) : bool := (nd t <=? n) && (n <? nd (t + 1)).
  Lemma link_thread_ok done sbuf t : t < T -> (forall t', In t' done -> t' < T /\ t' <> t) -> length sbuf = T ->
    link_thread rank nb m (map (fun t => pos E (nd t)) (seq 0 T)) (grouped (labels (fun n => existsb (fun t => owned t n) done)) E (seq 0 N), sbuf) t
    = Ok (grouped (labels (fun n => existsb (fun t => owned t n) (done ++ [t]))) E (seq 0 N), upd sbuf t (map (fun j => to_send j (range t)) nb)).
  Proof.
    intros Ht Hd Ls. unfold link_thread. rewrite (rd_ok _ _ 0) by (rewrite map_length, seq_length; lia). cbn [obind]. rewrite L_Distributed.nth_map_seq by lia. rewrite !rd_nd by lia. cbn [obind].
    pose proof (nd_mono t (t + 1) ltac:(lia)) as Hm. pose proof (nd_le (t + 1) ltac:(lia)) as Hl. fold s.
    assert (Er : repeat [] (length nb) = map (fun _ : nat => @nil (nat * nat)) nb) by (clear; induction nb; cbn; congruence). rewrite Er.
    rewrite link_nodes_ok.
    - cbn [obind]. rewrite wr_ok by lia. cbn [obind app]. do 2 f_equal. apply grouped_ext. intros i _. unfold labels. rewrite existsb_app. cbn [existsb]. rewrite orb_false_r.
      replace (nd t + (nd (t + 1) - nd t)) with (nd (t + 1)) by lia. auto.
    - lia.
    - intros i Hi. apply not_true_is_false. intros C. apply existsb_exists in C. destruct C as (t' & Ht' & C). destruct (Hd t' Ht') as [L' Ne]. unfold owned in C. apply andb_true_iff in C. destruct C as [C1 C2].
      apply Nat.leb_le in C1. apply Nat.ltb_lt in C2. destruct (Nat.lt_ge_cases t' t) as [Q|Q].
      + pose proof (nd_mono (t' + 1) t ltac:(lia)). lia.
      + pose proof (nd_mono (t + 1) t' ltac:(lia)). lia.
  Qed.
  Lemma link_threads_ok order : parallel_order T order ->
    foldM (link_thread rank nb m (map (fun t => pos E (nd t)) (seq 0 T))) order (grouped (fun n => n) E (seq 0 N), repeat [] T)
    = Ok (grouped (id_of s) E (seq 0 N), map (fun t => map (fun j => to_send j (range t)) nb) (seq 0 T)).
  Proof.
    intros PO. assert (ND : NoDup order) by (apply (Permutation_NoDup (Permutation_sym PO)), seq_NoDup).
    assert (In_T : forall t, In t order <-> t < T). { intros t. split; intros H; [apply (Permutation_in _ PO), in_seq in H; lia|apply (Permutation_in _ (Permutation_sym PO)), in_seq; lia]. }
    destruct (foldM_inv (link_thread rank nb m (map (fun t => pos E (nd t)) (seq 0 T)))
      (fun done st => fst st = grouped (labels (fun n => existsb (fun t => owned t n) done)) E (seq 0 N) /\ length (snd st) = T /\ forall t, In t done -> nth t (snd st) [] = map (fun j => to_send j (range t)) nb)
      order (grouped (fun n => n) E (seq 0 N), repeat [] T)) as ((links & sbuf) & Eo & I1 & I2 & I3).
    - cbn [fst snd]. split; [auto|split; [apply repeat_length|intros t []]].
    - intros done t post (links & sbuf) Eq (I1 & I2 & I3). cbn [fst snd] in *. subst links. assert (Ht : t < T) by (apply In_T; rewrite Eq; apply in_or_app; right; left; auto).
      assert (Nt : ~ In t done). { rewrite Eq in ND. apply NoDup_remove_2 in ND. intros C. apply ND, in_or_app; auto. }
      rewrite link_thread_ok; auto.
      + eexists. split; [reflexivity|]. cbn [fst snd]. rewrite upd_length. split; auto. split; auto. intros t' Ht'. apply in_app_or in Ht'. destruct Ht' as [Ht'|[<-|[]]].
        * rewrite nth_upd_neq; [auto|]. intros ->. auto.
        * apply nth_upd_eq. lia.
      + intros t' Ht'. split; [apply In_T; rewrite Eq; apply in_or_app; auto|intros ->; auto].
    - rewrite Eo. cbn [fst snd] in *. f_equal. f_equal.
      + rewrite I1. apply grouped_ext. intros n Hn. apply in_seq in Hn. unfold labels. assert (Q : existsb (fun t => owned t n) order = true); [|rewrite Q; auto].
        apply existsb_exists. destruct T_pos as [T1 _].
        assert (G : forall k, k <= T -> n < nd k -> exists t, t < k /\ owned t n = true).
        { induction k as [|k IH]; intros Hk Hnk; [rewrite nd_first in Hnk; lia|]. destruct (Nat.lt_ge_cases n (nd k)) as [Q|Q].
          - destruct (IH ltac:(lia) Q) as (t & Ht & O). exists t. split; auto.
          - exists k. split; auto. unfold owned. rewrite (proj2 (Nat.leb_le _ _)) by auto. replace (k + 1) with (S k) by lia. rewrite (proj2 (Nat.ltb_lt _ _)) by auto. auto. }
        destruct (G T (Nat.le_refl _)) as (t & Ht & O); [rewrite nd_last; lia|]. exists t. split; auto. apply In_T. auto.
      + rewrite (list_as_map sbuf [] T) by auto. apply map_ext_in. intros t Ht. apply in_seq in Ht. apply I3, In_T. lia.
  Qed.
  Lemma ranges_concat k : k <= T -> flat_map range (seq 0 k) = seq 0 (nd k).
  Proof.
    induction k as [|k IH]; intros H; [cbn; rewrite nd_first; auto|]. rewrite seq_S, flat_map_app, IH by lia. cbn [flat_map Nat.add]. rewrite app_nil_r. unfold range.
    pose proof (nd_mono k (k + 1) ltac:(lia)). replace (S k) with (k + 1) by lia. replace (nd (k + 1)) with (nd k + (nd (k + 1) - nd k)) at 2 by lia. rewrite seq_app. auto.
  Qed.
  Lemma join_buffers_ok : join_buffers (map (fun t => map (fun j => to_send j (range t)) nb) (seq 0 T)) = Ok (map (fun j => to_send j (seq 0 N)) nb).
  Proof.
    destruct T_pos as [T1 _]. rewrite <- nd_last. rewrite <- (ranges_concat T) by auto. destruct T as [|k]; [lia|]. clear T1. cbn [seq map]. unfold join_buffers. f_equal.
    cbn [flat_map]. generalize (range 0). generalize 1. induction k as [|k IH]; intros b l; cbn [seq map fold_left flat_map].
    - rewrite app_nil_r. auto.
    - rewrite combine_map, map_map. cbn [fst snd]. rewrite (map_ext (fun x => to_send x l ++ to_send x (range b)) (fun x => to_send x (l ++ range b))) by (intros; rewrite to_send_app; auto).
      rewrite IH, app_assoc. auto.
  Qed.
End Rank.
