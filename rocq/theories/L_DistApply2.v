(** * Lemmas on the product with a distributed matrix: the tables of Apply::init *)
From Coq Require Import List Arith Bool Lia Sorted.
From Verif Require Import Base M_Indexing M_Utils S_Order M_Distributed M_DistMatrix S_Assembly L_Equality L_TotalFeti L_Csx2 L_Fill2 L_Utils P_Utils L_Numbering L_Pattern L_Distributed L_Distributed2 L_DistMatrixSync L_DistApply M_DistApply.
Import ListNotations.
Local Open Scope out_scope.

Lemma foldM_shift {S} (f h : S -> nat -> outcome S) (l : list nat) : forall b s, (forall s k, k < length l -> f s (b + k) = h s (nth k l 0)) -> foldM f (seq b (length l)) s = foldM h l s.
Proof.
  induction l as [|x l IH]; intros b s H; auto. cbn [length seq foldM]. pose proof (H s 0 ltac:(simpl; lia)) as H0. rewrite Nat.add_0_r in H0. cbn [nth] in H0. rewrite H0. destruct (h s x); cbn [obind]; auto. apply IH.
  intros s' k Hk. change (nth k l 0) with (nth (Datatypes.S k) (x :: l) 0). rewrite <- (H s' (Datatypes.S k)) by (simpl; lia). f_equal. lia.
Qed.
Lemma rd_slice (l : list nat) b e k : b <= e <= length l -> k < e - b -> rd l (b + k) = Ok (nth k (slice b e l) 0).
Proof. intros H Hk. rewrite (rd_ok _ _ 0) by lia. rewrite nth_slice by lia. auto. Qed.

Definition no_adata {T} : apply_data T := {| a_neighbors := []; a_sOffset := []; a_rOffset := []; a_sBuffer := []; a_rBuffer := []; a_rows := []; a_cols := []; a_offset := 0; a_localV := [] |}.
Section Apply.
  Variables (P : nat) (st fin : nat -> nat) (halo nb : nat -> list nat).
  Hypothesis st_fin : forall r, r < P -> st r <= fin r.
  Hypothesis ranks_ordered : forall r s, r < s -> s < P -> fin r <= st s.
  Hypothesis nb_sorted : forall r, r < P -> StronglySorted lt (nb r).
  Hypothesis nb_sym : forall r j, r < P -> In j (nb r) -> j < P /\ j <> r /\ In r (nb j).
  Variable row : nat -> list nat.
  Variable pt : nat -> dpattern.
  Notation sdofs := (sdofs st fin halo).
  Notation RP := (RP st fin halo row).
  Hypothesis pt_len : forall r, r < P -> length (dp_row (pt r)) = length (sdofs r) + 1.
  Hypothesis pt_row : forall r i, r < P -> i <= length (sdofs r) -> nth i (dp_row (pt r)) 0 = RP r i.
  Hypothesis pt_col : forall r, r < P -> dp_column (pt r) = flat_map row (sdofs r).
  Notation own r g := (st r <= g < fin r).

  (** ** neighbours of neighbours *)
  Definition nn (r : nat) : list nat := filter (fun j => negb (j =? r) && (memb j (nb r) || existsb (fun s => memb j (nb s)) (nb r))) (seq 0 P).
  Lemma nn_in r j : r < P -> In j (nn r) <-> j <> r /\ (In j (nb r) \/ exists s, In s (nb r) /\ In j (nb s)).
  Proof.
    intros Hr. unfold nn. rewrite filter_In, in_seq, andb_true_iff, negb_true_iff, Nat.eqb_neq, orb_true_iff, memb_iff, existsb_exists. split.
    - intros (_ & H1 & [H2|(s & H2 & H3)]); split; auto. right. exists s. rewrite memb_iff in H3. auto.
    - intros (H1 & H2). assert (j < P). { destruct H2 as [H2|(s & H2 & H3)]; [apply (nb_sym r j); auto|]. destruct (nb_sym r s Hr H2) as (Hs & _). apply (nb_sym s j); auto. }
      split; [lia|]. split; auto. destruct H2 as [H2|(s & H2 & H3)]; auto. right. exists s. rewrite memb_iff. auto.
  Qed.
  Lemma nn_lt r j : In j (nn r) -> j < P.
  Proof. unfold nn. rewrite filter_In, in_seq. lia. Qed.
  Lemma nn_sorted r : StronglySorted lt (nn r).
  Proof. apply ss_filter, ss_seq. Qed.
  Lemma nn_sym r j : r < P -> In j (nn r) -> j < P /\ j <> r /\ In r (nn j).
  Proof.
    intros Hr H. pose proof (nn_lt r j H) as Hj. apply nn_in in H; auto. destruct H as (N & H). split; auto. split; auto. apply nn_in; auto. split; auto. destruct H as [H|(s & H1 & H2)]; [left; apply (nb_sym r j); auto|].
    destruct (nb_sym r s Hr H1) as (Hs & _ & I1). destruct (nb_sym s j Hs H2) as (_ & _ & I2). right. exists s. auto.
  Qed.
  Lemma own_neighbors_ok r : own_neighbors (D st fin halo nb r) = Ok (map (fun j => (j, st j)) (nb r)).
  Proof.
    unfold own_neighbors. cbn [d_neighbors d_neighDOF D]. rewrite (foldM_append _ (fun n => (nth n (nb r) 0, st (nth n (nb r) 0)))).
    - cbn [app]. f_equal. rewrite <- (map_map (fun n => nth n (nb r) 0) (fun j => (j, st j))). rewrite <- (L_Utils.list_as_map (nb r) 0). auto.
    - intros acc n Hn. apply in_seq in Hn. rewrite (rd_ok (nb r) _ 0) by lia. cbn [obind]. unfold ndof. rewrite (rd_ok _ _ 0) by (rewrite app_length, map_length; lia). cbn [obind]. rewrite app_nth1 by (rewrite map_length; lia). rewrite (L_Distributed.nth_map st _ _ 0 0) by lia. auto.
  Qed.
  Lemma merge_ok sort r : sort_contract pair_ltb sort -> r < P ->
    merge_neighbors sort r (map (fun j => (j, st j)) (nb r)) (map (fun s => map (fun j => (j, st j)) (nb s)) (nb r)) = Ok (map (fun j => (j, st j)) (nn r)).
  Proof.
    intros SC Hr. unfold merge_neighbors. rewrite fold_app. set (l := _ ++ concat _).
    destruct (sortAndRemoveDuplicates_set (nat * nat) pair_ltb pair_eqb (0, 0) sort pair_sto SC l 0 (Nat.le_0_l _)) as (tail & E & S & M). cbn [firstn app skipn] in E, M. rewrite E. cbn [obind]. f_equal. apply sorted_pairs.
    - unfold strictly_sorted in *. apply ss_filter. auto.
    - apply nn_sorted.
    - intros x. rewrite filter_In, M. unfold l. rewrite in_app_iff, in_map_iff, in_concat. split.
      + intros (H & H'). apply negb_true_iff, Nat.eqb_neq in H'. destruct H as [(j & <- & H)|(y & Hy & Hx)].
        * exists j. split; auto. apply nn_in; auto.
        * apply in_map_iff in Hy. destruct Hy as (s & <- & Hs). apply in_map_iff in Hx. destruct Hx as (j & <- & Hj). exists j. split; auto. apply nn_in; auto. split; auto. right. exists s. auto.
      + intros (j & H & ->). apply nn_in in H; auto. destruct H as (H1 & H2). split; [|apply negb_true_iff, Nat.eqb_neq; auto]. destruct H2 as [H2|(s & H2 & H3)]; [left; exists j; auto|].
        right. exists (map (fun j => (j, st j)) (nb s)). split; apply in_map_iff; [exists s|exists j]; auto.
  Qed.
  Lemma st_le r s : r <= s -> s < P -> st r <= st s.
  Proof. intros H Hs. destruct (Nat.eq_dec r s) as [->|]; auto. pose proof (ranks_ordered r s ltac:(lia) Hs). pose proof (st_fin r ltac:(lia)). lia. Qed.

  (** the position of a neighbour among the neighbours *)
  Notation ndofs r := (map st (nn r)).
  Lemma nn_nth r k : k < length (nn r) -> nth k (nn r) 0 < P.
  Proof. intros H. apply (nn_lt r). apply nth_In; auto. Qed.
  Lemma ndofs_nth r k : k < length (nn r) -> nth k (ndofs r) 0 = st (nth k (nn r) 0).
  Proof. intros H. apply (L_Distributed.nth_map st); auto. Qed.
  Lemma ndofs_low r k i c : k < length (nn r) -> own (nth k (nn r) 0) c -> i <= k -> nth i (ndofs r) 0 <= c.
  Proof.
    intros Hk O Hi. rewrite ndofs_nth by lia. assert (nth i (nn r) 0 <= nth k (nn r) 0). { destruct (Nat.eq_dec i k) as [->|]; auto. pose proof (ss_nth (nn r) (nn_sorted r) i k ltac:(lia)). lia. }
    pose proof (st_le _ _ H (nn_nth r k Hk)). lia.
  Qed.
  Lemma ndofs_high r k i c : i < length (nn r) -> own (nth k (nn r) 0) c -> k < i -> c < nth i (ndofs r) 0.
  Proof. intros Hi O Hk. rewrite ndofs_nth by lia. pose proof (ss_nth (nn r) (nn_sorted r) k i ltac:(lia)) as L. pose proof (ranks_ordered _ _ L (nn_nth r i Hi)). lia. Qed.
  Lemma owner_index_ok r k c : k < length (nn r) -> own (nth k (nn r) 0) c -> owner_index (ndofs r) c = Ok k.
  Proof.
    intros Hk O. unfold owner_index. rewrite (lower_bound_at _ _ (S k)); auto; rewrite ?map_length; [lia| |].
    - intros i Hi. pose proof (ndofs_low r k i c Hk O ltac:(lia)). lia.
    - intros H. pose proof (ndofs_high r k (S k) c H O ltac:(lia)). lia.
  Qed.
  Lemma next_owner_ok r k c : k < length (nn r) -> own (nth k (nn r) 0) c -> forall fuel ni, ni <= k -> k <= fuel + ni -> next_owner fuel (ndofs r) c ni = Ok k.
  Proof.
    intros Hk O. induction fuel as [|fuel IH]; intros ni Hn Hf; cbn [next_owner]; rewrite map_length.
    - assert (ni = k) as -> by lia. destruct (Nat.ltb_spec (k + 1) (length (nn r))) as [L|L]; auto. rewrite (rd_ok _ _ 0) by (rewrite map_length; auto). cbn [obind]. pose proof (ndofs_high r k (k + 1) c L O ltac:(lia)). destruct (Nat.leb_spec (nth (k + 1) (ndofs r) 0) c); auto; lia.
    - destruct (Nat.ltb_spec (ni + 1) (length (nn r))) as [L|L]; [|f_equal; lia]. rewrite (rd_ok _ _ 0) by (rewrite map_length; auto). cbn [obind]. destruct (Nat.leb_spec (nth (ni + 1) (ndofs r) 0) c) as [C|C].
      + destruct (Nat.eq_dec ni k) as [->|]; [pose proof (ndofs_high r k (k + 1) c L O ltac:(lia)); lia|]. apply IH; lia.
      + f_equal. destruct (Nat.eq_dec ni k) as [->|]; auto. pose proof (ndofs_low r k (ni + 1) c Hk O ltac:(lia)). lia.
  Qed.
  Lemma own_unique r s c : r < P -> s < P -> own r c -> own s c -> r = s.
  Proof. intros Hr Hs Or Os. destruct (Nat.lt_trichotomy r s) as [L|[L|L]]; auto; [pose proof (ranks_ordered r s L Hs)|pose proof (ranks_ordered s r L Hr)]; lia. Qed.

  (** ** the columns of a rank *)
  Variable tot : nat.
  Hypothesis fin_tot : forall r, r < P -> fin r <= tot.
  Hypothesis row_sym : forall r s g c, r < P -> s < P -> own r g -> own s c -> In c (row g) -> In g (row c).
  Hypothesis row_owner : forall r g c, r < P -> own r g -> In c (row g) -> exists j, j < P /\ own j c /\ (j = r \/ In j (nn r)).
  Definition needed (r c : nat) : bool := existsb (fun g => memb c (row g)) (seq (st r) (fin r - st r)).
  Lemma needed_iff r c : r < P -> needed r c = true <-> exists g, own r g /\ In c (row g).
  Proof.
    intros Hr. unfold needed. pose proof (st_fin r Hr). rewrite existsb_exists. split; intros (g & H1 & H2); exists g; rewrite ?memb_iff in *; rewrite in_seq in *; split; auto; lia.
  Qed.
  Definition lower (r : nat) : list nat := filter (needed r) (seq 0 (st r)).
  Definition higher (r : nat) : list nat := filter (needed r) (seq (fin r) (tot - fin r)).
  Lemma lower_sorted r : StronglySorted lt (lower r).
  Proof. apply ss_filter, ss_seq. Qed.
  Lemma higher_sorted r : StronglySorted lt (higher r).
  Proof. apply ss_filter, ss_seq. Qed.
  Lemma lower_in r c : r < P -> In c (lower r) <-> c < st r /\ exists g, own r g /\ In c (row g).
  Proof. intros Hr. unfold lower. rewrite filter_In, in_seq, needed_iff by auto. intuition; lia. Qed.
  Lemma higher_in r c : r < P -> In c (higher r) <-> fin r <= c /\ exists g, own r g /\ In c (row g).
  Proof.
    intros Hr. unfold higher. rewrite filter_In, in_seq, needed_iff by auto. split; [intuition; lia|]. intros (H1 & g & H2 & H3). destruct (row_owner r g c Hr H2 H3) as (j & Hj & O & _). pose proof (fin_tot j Hj). pose proof (fin_tot r Hr). split; [lia|]. exists g; auto.
  Qed.
  (** the rows sent to [j] *)
  Definition srows (r j : nat) : list nat := filter (fun g => existsb (owned st fin j) (row g)) (seq (st r) (fin r - st r)).
  Lemma srows_in r j g : r < P -> In g (srows r j) <-> own r g /\ exists c, In c (row g) /\ own j c.
  Proof.
    intros Hr. unfold srows. pose proof (st_fin r Hr). rewrite filter_In, in_seq, existsb_exists. split.
    - intros (H1 & c & H2 & H3). apply owned_iff in H3. split; [lia|]. eauto.
    - intros (H1 & c & H2 & H3). split; [lia|]. exists c. split; auto. apply owned_iff; auto.
  Qed.
  (** the columns received from [j] *)
  Definition rcols (r j : nat) : list nat := filter (owned st fin j) (lower r ++ higher r).
  Lemma lh_sorted r : r < P -> StronglySorted lt (lower r ++ higher r).
  Proof. intros Hr. apply ss_app_lt; [apply lower_sorted|apply higher_sorted|]. intros x y Hx Hy. apply lower_in in Hx; auto. apply higher_in in Hy; auto. pose proof (st_fin r Hr). lia. Qed.
  Lemma rcols_srows r j : r < P -> In j (nn r) -> rcols r j = srows j r.
  Proof.
    intros Hr Hj. destruct (nn_sym r j Hr Hj) as (HjP & Ne & _). apply ss_ext; [apply ss_filter, lh_sorted; auto|apply ss_filter, ss_seq|]. intros c. rewrite srows_in by auto. unfold rcols. rewrite filter_In, in_app_iff, lower_in, higher_in by auto. split.
    - intros (H & O). apply owned_iff in O. assert (G : exists g, own r g /\ In c (row g)) by (destruct H as [[_ H]|[_ H]]; auto). destruct G as (g & G1 & G2). split; auto. exists g. split; auto. apply (row_sym r j); auto.
    - intros (O & g & H1 & H2). split; [|apply owned_iff; auto]. assert (G : In c (row g)) by (apply (row_sym j r); auto). destruct (Nat.lt_ge_cases c (st r)); [left; eauto|]. right. split; eauto. destruct (Nat.lt_ge_cases c (fin r)); auto. exfalso. apply Ne. apply (own_unique j r c); auto.
  Qed.

  (** ** the sets *)
  Definition cstep (r : nat) (s : list nat * list nat * list (list nat)) (x : nat * nat) : outcome (list nat * list nat * list (list nat)) :=
    let g := snd x in
    '(lower, higher, send) <- (let '(lower, higher, send) := s in
        if g <? st r then n <- owner_index (ndofs r) g ;; send <- insert_at send n (fst x) ;; Ok (set_insert g lower, higher, send) else Ok (lower, higher, send)) ;;
    if fin r <=? g then n <- owner_index (ndofs r) g ;; send <- insert_at send n (fst x) ;; Ok (lower, set_insert g higher, send) else Ok (lower, higher, send).
  Definition lrow (r i : nat) : nat := st r + (i - length (halo r)).
  Definition rc (r : nat) : list (nat * nat) := flat_map (fun i => map (pair i) (row (lrow r i))) (seq (length (halo r)) (fin r - st r)).
  Lemma sdofs_len r : length (sdofs r) = length (halo r) + (fin r - st r).
  Proof. unfold L_DistMatrixSync.sdofs. rewrite app_length, seq_length. auto. Qed.
  Lemma sdofs_own r i : length (halo r) <= i < length (sdofs r) -> nth i (sdofs r) 0 = lrow r i.
  Proof. intros H. rewrite sdofs_len in H. unfold L_DistMatrixSync.sdofs, lrow. rewrite app_nth2 by lia. rewrite seq_nth by lia. auto. Qed.
  Lemma row_range_ok r i : r < P -> i < length (sdofs r) -> row_range (pt r) i = Ok (RP r i, RP r (S i)).
  Proof.
    intros Hr Hi. unfold row_range. rewrite (rd_ok _ _ 0) by (rewrite pt_len by auto; lia). cbn [obind]. rewrite (rd_ok _ _ 0) by (rewrite pt_len by auto; lia). cbn [obind]. rewrite !pt_row by (auto; lia). rewrite Nat.add_1_r. pose proof (RP_S st fin halo row r i Hi). unfold Indexing_CSR. rewrite !Nat.sub_0_r.
    destruct (Nat.ltb_spec (RP r i) 0), (Nat.ltb_spec (RP r (S i)) (RP r i)); auto; lia.
  Qed.
  Lemma classify_rows_eq r : r < P -> classify_rows (D st fin halo nb r) (pt r) (ndofs r) = foldM (cstep r) (rc r) ([], [], repeat [] (length (nn r))).
  Proof.
    intros Hr. unfold classify_rows, rc. cbn [d_halo D]. rewrite map_length, pt_len, Nat.add_sub, sdofs_len by auto. rewrite (Nat.add_comm (length (halo r))), Nat.add_sub. rewrite foldM_flat. apply foldM_ext_in. intros s i Hi. apply in_seq in Hi. rewrite foldM_pairs.
    assert (Hi' : i < length (sdofs r)) by (rewrite sdofs_len; lia). rewrite row_range_ok by auto. cbn [obind]. pose proof (RP_S st fin halo row r i Hi') as RS. rewrite sdofs_own in RS by (rewrite sdofs_len; lia).
    replace (RP r (S i) - RP r i) with (length (row (lrow r i))) by lia. apply foldM_shift. intros s' k Hk. unfold classify. pose proof (RP_le P st fin halo row pt pt_col r (S i) Hr ltac:(lia)) as RL. rewrite (rd_slice _ _ (RP r (S i))) by lia.
    rewrite (RP_slice P st fin halo row pt pt_col r i Hr Hi'), sdofs_own by (rewrite sdofs_len; lia). cbn [obind]. unfold Indexing_CSR. rewrite Nat.sub_0_r. destruct (Nat.ltb_spec (nth k (row (lrow r i)) 0) 0); [lia|]. reflexivity.
  Qed.
  Lemma in_rc r i c : In (i, c) (rc r) <-> length (halo r) <= i < length (halo r) + (fin r - st r) /\ In c (row (lrow r i)).
  Proof.
    unfold rc. rewrite in_flat_map. split.
    - intros (k & Hk & H). apply in_seq in Hk. apply in_map_iff in H. destruct H as (x & E & H). inversion E; subst. auto.
    - intros (H1 & H2). exists i. split; [apply in_seq; lia|]. apply in_map_iff. eauto.
  Qed.
  Definition csets (r : nat) (l : list (nat * nat)) (s : list nat * list nat * list (list nat)) : Prop :=
    let '(lo, hi, send) := s in
    StronglySorted lt lo /\ (forall c, In c lo <-> c < st r /\ exists i, In (i, c) l) /\ StronglySorted lt hi /\ (forall c, In c hi <-> fin r <= c /\ exists i, In (i, c) l) /\
    length send = length (nn r) /\ forall k, k < length (nn r) -> StronglySorted lt (nth k send []) /\ forall i, In i (nth k send []) <-> exists c, In (i, c) l /\ own (nth k (nn r) 0) c.
  Lemma insert_at_ok send n i : n < length send -> insert_at send n i = Ok (upd send n (set_insert i (nth n send []))).
  Proof. intros H. unfold insert_at. rewrite (rd_ok _ _ []) by auto. cbn [obind]. apply wr_ok. auto. Qed.
  Lemma send_step r l send k0 i c : r < P -> k0 < length (nn r) -> own (nth k0 (nn r) 0) c -> length send = length (nn r) ->
    (forall k, k < length (nn r) -> StronglySorted lt (nth k send []) /\ forall i, In i (nth k send []) <-> exists c, In (i, c) l /\ own (nth k (nn r) 0) c) ->
    forall k, k < length (nn r) -> StronglySorted lt (nth k (upd send k0 (set_insert i (nth k0 send []))) []) /\ forall i', In i' (nth k (upd send k0 (set_insert i (nth k0 send []))) []) <-> exists c', In (i', c') (l ++ [(i, c)]) /\ own (nth k (nn r) 0) c'.
  Proof.
    intros Hr Hk0 O L H k Hk. destruct (H k Hk) as [H1 H2]. destruct (Nat.eq_dec k0 k) as [<-|Ne].
    - rewrite nth_upd_eq by lia. split; [apply set_insert_sorted; auto|]. intros i'. rewrite set_insert_in, H2. split.
      + intros [->|(c' & H3 & H4)]; [exists c; split; auto; apply in_or_app; right; left; auto|exists c'; split; auto; apply in_or_app; auto].
      + intros (c' & H3 & H4). apply in_app_or in H3. destruct H3 as [H3|[E|[]]]; [right; eauto|]. inversion E; auto.
    - rewrite nth_upd_neq by auto. split; auto. intros i'. rewrite H2. split.
      + intros (c' & H3 & H4). exists c'. split; auto. apply in_or_app; auto.
      + intros (c' & H3 & H4). apply in_app_or in H3. destruct H3 as [H3|[E|[]]]; [eauto|]. inversion E; subst. exfalso. apply Ne. pose proof (own_unique _ _ _ (nn_nth r k0 Hk0) (nn_nth r k Hk) O H4) as U. apply (proj1 (NoDup_nth (nn r) 0) (ss_nodup _ (nn_sorted r))); auto.
  Qed.
  Lemma classify_ok r : r < P -> classify_rows (D st fin halo nb r) (pt r) (ndofs r) = Ok (lower r, higher r, map (fun j => map (lpos st halo r) (srows r j)) (nn r)).
  Proof.
    intros Hr. rewrite classify_rows_eq by auto. destruct (foldM_inv (cstep r) (csets r) (rc r) ([], [], repeat [] (length (nn r)))) as (((lo & hi) & send) & E & I).
    - unfold csets. split; [constructor|]. split; [intros c; split; [intros []|intros (_ & i & [])]|]. split; [constructor|]. split; [intros c; split; [intros []|intros (_ & i & [])]|]. split; [apply repeat_length|]. intros k Hk. rewrite nth_repeat_lt by auto. split; [constructor|]. intros i; split; [intros []|intros (c & [] & _)].
    - intros pre (i & c) post ((lo & hi) & send) Erc (I1 & I2 & I3 & I4 & I5 & I6). assert (Hic : In (i, c) (rc r)) by (rewrite Erc; apply in_or_app; right; left; auto). apply in_rc in Hic. destruct Hic as [Hi Hc].
      assert (Ol : own r (lrow r i)) by (unfold lrow; lia). destruct (row_owner r _ c Hr Ol Hc) as (j & Hj & Oj & Q). unfold cstep. cbn [fst snd]. pose proof (st_fin r Hr) as SF.
      assert (MEM : forall (Q : nat -> Prop) l, (forall c', In c' l <-> Q c' /\ exists i', In (i', c') pre) -> ~ Q c -> forall c', In c' l <-> Q c' /\ exists i', In (i', c') (pre ++ [(i, c)])).
      { intros Q' l Hl Nc c'. rewrite Hl. split; intros (A & i' & B); split; auto; exists i'; [apply in_or_app; auto|]. apply in_app_or in B. destruct B as [B|[B|[]]]; auto. inversion B; subst. tauto. }
      assert (MEM2 : forall (Q : nat -> Prop) l, (forall c', In c' l <-> Q c' /\ exists i', In (i', c') pre) -> Q c -> forall c', In c' (set_insert c l) <-> Q c' /\ exists i', In (i', c') (pre ++ [(i, c)])).
      { intros Q' l Hl Yc c'. rewrite set_insert_in, Hl. split.
        - intros [->|(A & i' & B)]; [split; auto; exists i; apply in_or_app; right; left; auto|split; auto; exists i'; apply in_or_app; auto].
        - intros (A & i' & B). apply in_app_or in B. destruct B as [B|[B|[]]]; [right; split; eauto|]. inversion B; auto. }
      destruct (Nat.ltb_spec c (st r)) as [L|L]; [|destruct (Nat.leb_spec (fin r) c) as [L'|L']].
      + destruct Q as [->|Q]; [lia|]. destruct (In_nth _ _ 0 Q) as (k0 & Hk0 & Ek0). rewrite <- Ek0 in Oj. rewrite (owner_index_ok r k0) by auto. cbn [obind]. rewrite insert_at_ok by lia. cbn [obind]. destruct (Nat.leb_spec (fin r) c); [lia|]. eexists. split; [reflexivity|]. unfold csets.
        split; [apply set_insert_sorted; auto|]. split; [apply (MEM2 (fun c' => c' < st r)); auto|]. split; auto. split; [apply (MEM (fun c' => fin r <= c')); auto; lia|]. split; [rewrite upd_length; auto|]. apply send_step; auto.
      + cbn [obind]. destruct Q as [->|Q]; [lia|]. destruct (In_nth _ _ 0 Q) as (k0 & Hk0 & Ek0). rewrite <- Ek0 in Oj. destruct (Nat.leb_spec (fin r) c); [|lia]. rewrite (owner_index_ok r k0) by auto. cbn [obind]. rewrite insert_at_ok by lia. cbn [obind]. eexists. split; [reflexivity|]. unfold csets.
        split; auto. split; [apply (MEM (fun c' => c' < st r)); auto; lia|]. split; [apply set_insert_sorted; auto|]. split; [apply (MEM2 (fun c' => fin r <= c')); auto|]. split; [rewrite upd_length; auto|]. apply send_step; auto.
      + cbn [obind]. destruct (Nat.leb_spec (fin r) c); [lia|]. eexists. split; [reflexivity|]. unfold csets. split; auto. split; [apply (MEM (fun c' => c' < st r)); auto; lia|]. split; auto. split; [apply (MEM (fun c' => fin r <= c')); auto; lia|]. split; auto.
        intros k Hk. destruct (I6 k Hk) as [K1 K2]. split; auto. intros i'. rewrite K2. split; intros (c' & A & B); exists c'; split; auto; [apply in_or_app; auto|]. apply in_app_or in A. destruct A as [A|[A|[]]]; auto. inversion A; subst. exfalso.
        assert (In (nth k (nn r) 0) (nn r)) by (apply nth_In; auto). destruct (nn_sym r _ Hr H0) as (H1 & H2 & _). apply H2. apply (own_unique _ _ c'); auto.
    - rewrite E. destruct I as (I1 & I2 & I3 & I4 & I5 & I6). f_equal. f_equal; [f_equal|].
      + apply ss_ext; auto; [apply lower_sorted|]. intros c. rewrite I2, lower_in by auto. split; intros (A & B); split; auto.
        * destruct B as (i & B). apply in_rc in B. exists (lrow r i). split; [unfold lrow; lia|tauto].
        * destruct B as (g & B1 & B2). exists (lpos st halo r g). apply in_rc. unfold lpos, lrow. split; [lia|]. replace (st r + (g - st r + length (halo r) - length (halo r))) with g by lia. auto.
      + apply ss_ext; auto; [apply higher_sorted|]. intros c. rewrite I4, higher_in by auto. split; intros (A & B); split; auto.
        * destruct B as (i & B). apply in_rc in B. exists (lrow r i). split; [unfold lrow; lia|tauto].
        * destruct B as (g & B1 & B2). exists (lpos st halo r g). apply in_rc. unfold lpos, lrow. split; [lia|]. replace (st r + (g - st r + length (halo r) - length (halo r))) with g by lia. auto.
      + apply (nth_ext _ _ [] []); [rewrite map_length; auto|]. intros k Hk. rewrite I5 in Hk. rewrite (L_Distributed.nth_map _ _ k [] 0) by auto. destruct (I6 k Hk) as [K1 K2]. apply ss_ext; auto.
        * apply (ss_map lt lt); [|apply ss_filter, ss_seq]. intros x y Hx Hy. unfold srows in Hx, Hy. apply filter_In in Hx, Hy. rewrite !in_seq in *. unfold lpos. lia.
        * intros i. rewrite K2, in_map_iff. split.
          -- intros (c & A & B). apply in_rc in A. destruct A as [A1 A2]. exists (lrow r i). unfold lpos, lrow. split; [lia|]. apply srows_in; auto. split; [lia|]. exists c. split; auto.
          -- intros (g & <- & A). apply srows_in in A; auto. destruct A as (A & c & B & C). exists c. split; auto. apply in_rc. unfold lpos, lrow. split; [lia|]. replace (st r + (g - st r + length (halo r) - length (halo r))) with g by lia. auto.
  Qed.

  (** ** positions of columns *)
  Definition allc (r : nat) : list nat := lower r ++ seq (st r) (fin r - st r) ++ higher r.
  Definition cpos (r c : nat) : nat := index_of c (allc r).
  Lemma allc_sorted r : r < P -> StronglySorted lt (allc r).
  Proof.
    intros Hr. pose proof (st_fin r Hr). unfold allc. apply ss_app_lt; [apply lower_sorted|apply ss_app_lt; [apply ss_seq|apply higher_sorted|]|].
    - intros x y Hx Hy. apply in_seq in Hx. apply higher_in in Hy; auto. lia.
    - intros x y Hx Hy. apply lower_in in Hx; auto. apply in_app_or in Hy. destruct Hy as [Hy|Hy]; [apply in_seq in Hy; lia|apply higher_in in Hy; auto; lia].
  Qed.
  Lemma allc_len r : length (allc r) = length (lower r) + (fin r - st r) + length (higher r).
  Proof. unfold allc. rewrite !app_length, seq_length. lia. Qed.
  Lemma cpos_lower r c : r < P -> In c (lower r) -> cpos r c = index_of c (lower r).
  Proof. intros Hr H. apply index_of_app_l. auto. Qed.
  Lemma cpos_own r c : r < P -> own r c -> cpos r c = length (lower r) + (c - st r).
  Proof. intros Hr H. unfold cpos, allc. rewrite index_of_app_r by (intros C; apply lower_in in C; auto; lia). rewrite index_of_app_l by (apply in_seq; lia). rewrite index_of_seq by lia. auto. Qed.
  Lemma cpos_higher r c : r < P -> In c (higher r) -> cpos r c = length (lower r) + (fin r - st r) + index_of c (higher r).
  Proof.
    intros Hr H. pose proof (st_fin r Hr). apply (higher_in r c Hr) in H as H'. unfold cpos, allc. rewrite index_of_app_r by (intros C; apply lower_in in C; auto; lia). rewrite index_of_app_r by (intros C; apply in_seq in C; lia). rewrite seq_length. lia.
  Qed.
  Lemma cpos_lt r c : In c (allc r) -> cpos r c < length (allc r).
  Proof. apply index_of_lt. Qed.
  Lemma cpos_inj r c c' : In c (allc r) -> In c' (allc r) -> cpos r c = cpos r c' -> c = c'.
  Proof. intros H H' E. apply index_of_in in H, H'. unfold cpos in E. rewrite E in H. congruence. Qed.
  Lemma rcols_allc r j c : In c (rcols r j) -> In c (allc r).
  Proof. unfold rcols, allc. rewrite filter_In, !in_app_iff. tauto. Qed.
  Lemma lh_pos r pre c post : r < P -> lower r ++ higher r = pre ++ c :: post -> cpos r c = length pre + (if c <? st r then 0 else fin r - st r).
  Proof.
    intros Hr E. assert (I : index_of c (lower r ++ higher r) = length pre). { apply index_of_nth; [apply ss_nodup, lh_sorted; auto|]. rewrite E, nth_error_app2, Nat.sub_diag by auto. auto. }
    assert (H : In c (lower r ++ higher r)) by (rewrite E; apply in_or_app; right; left; auto). pose proof (st_fin r Hr). destruct (Nat.ltb_spec c (st r)) as [L|L].
    - apply in_app_or in H. destruct H as [H|H]; [|apply higher_in in H; auto; lia]. rewrite cpos_lower by auto. rewrite index_of_app_l in I by auto. lia.
    - apply in_app_or in H. destruct H as [H|H]; [apply lower_in in H; auto; lia|]. rewrite cpos_higher by auto. rewrite index_of_app_r in I by (intros C; apply lower_in in C; auto; lia). lia.
  Qed.
  Lemma lh_owner r c : r < P -> In c (lower r ++ higher r) -> exists k, k < length (nn r) /\ own (nth k (nn r) 0) c.
  Proof.
    intros Hr H. assert (G : ~ own r c /\ exists g, own r g /\ In c (row g)). { apply in_app_or in H. destruct H as [H|H]; [apply lower_in in H; auto|apply higher_in in H; auto]; split; try tauto; lia. }
    destruct G as (N & g & G1 & G2). destruct (row_owner r g c Hr G1 G2) as (j & Hj & O & [->|Q]); [tauto|]. destruct (In_nth _ _ 0 Q) as (k & Hk & E). exists k. rewrite E. auto.
  Qed.
  Definition placed (r : nat) (pre : list nat) (s : nat * nat * list (list nat)) : Prop :=
    let '(ni, ci, ro) := s in ci = length pre /\ (ni = 0 \/ ni < length (nn r) /\ exists c, In c pre /\ own (nth ni (nn r) 0) c) /\ ro = map (fun j => map (cpos r) (filter (owned st fin j) pre)) (nn r).
  Lemma place_ok r : r < P -> place_columns (ndofs r) (fin r - st r) (lower r) (higher r) = Ok (length (lower r) + length (higher r), map (fun j => map (cpos r) (rcols r j)) (nn r)).
  Proof.
    intros Hr. pose proof (st_fin r Hr) as SF. unfold place_columns. set (f := fun s c => place (ndofs r) (if c <? st r then 0 else fin r - st r) s c).
    rewrite (foldM_ext_in _ f (lower r)). 2:{ intros s c Hc. unfold f. apply lower_in in Hc; auto. destruct (Nat.ltb_spec c (st r)); auto; lia. }
    assert (E2 : forall s, foldM (place (ndofs r) (fin r - st r)) (higher r) s = foldM f (higher r) s). { intros s. apply foldM_ext_in. intros s' c Hc. unfold f. apply higher_in in Hc; auto. destruct (Nat.ltb_spec c (st r)); auto; lia. }
    destruct (foldM_inv f (placed r) (lower r ++ higher r) (0, 0, repeat [] (length (ndofs r)))) as (((ni & ci) & ro) & E & I).
    - unfold placed. split; auto. split; auto. rewrite map_length. cbn [filter map]. clear. induction (nn r) as [|x l IH]; auto. cbn [length repeat map]. f_equal. auto.
    - intros pre c post ((ni & ci) & ro) El (I1 & I2 & ->). subst ci. assert (Hc : In c (lower r ++ higher r)) by (rewrite El; apply in_or_app; right; left; auto). destruct (lh_owner r c Hr Hc) as (k & Hk & O).
      assert (Hni : ni <= k). { destruct I2 as [->|(Hn & c0 & Hc0 & O0)]; [lia|]. destruct (Nat.le_gt_cases ni k) as [|L]; auto. exfalso. pose proof (ss_nth (nn r) (nn_sorted r) k ni ltac:(lia)) as L'. pose proof (ranks_ordered _ _ L' (nn_nth r ni Hn)).
        pose proof (lh_sorted r Hr) as S. rewrite El in S. assert (c0 < c); [|lia]. destruct (In_nth _ _ 0 Hc0) as (i & Hi & Ei). pose proof (ss_nth _ S i (length pre) ltac:(rewrite app_length; simpl; lia)) as S'. rewrite app_nth1, Ei in S' by auto. rewrite app_nth2, Nat.sub_diag in S' by auto. auto. }
      unfold f, place. rewrite (next_owner_ok r k) by (auto; rewrite map_length; lia). cbn [obind]. rewrite <- (lh_pos r pre c post) by auto. unfold push_to. rewrite (rd_ok _ _ []) by (rewrite map_length; auto). cbn [obind]. rewrite wr_ok by (rewrite map_length; auto). cbn [obind]. eexists. split; [reflexivity|]. unfold placed. rewrite app_length. split; auto. split.
      { right. split; auto. exists c. split; auto. apply in_or_app; right; left; auto. }
      apply (nth_ext _ _ [] []); rewrite upd_length, !map_length; auto. intros i Hi. rewrite (L_Distributed.nth_map _ (nn r) i [] 0) by auto. rewrite filter_app, map_app. cbn [filter]. destruct (Nat.eq_dec k i) as [<-|Ne].
      + rewrite nth_upd_eq by (rewrite map_length; auto). rewrite (L_Distributed.nth_map _ (nn r) k [] 0) by auto. replace (owned st fin (nth k (nn r) 0) c) with true by (symmetry; apply owned_iff; auto). auto.
      + rewrite nth_upd_neq by auto. rewrite (L_Distributed.nth_map _ (nn r) i [] 0) by auto. destruct (owned st fin (nth i (nn r) 0) c) eqn:Ow; [|rewrite app_nil_r; auto]. exfalso. apply Ne. apply owned_iff in Ow. pose proof (own_unique _ _ _ (nn_nth r k Hk) (nn_nth r i Hi) O Ow) as U. apply (proj1 (NoDup_nth (nn r) 0) (ss_nodup _ (nn_sorted r))); auto.
    - rewrite foldM_app in E. destruct (foldM f (lower r) _) as [s| |] eqn:E1; try discriminate. cbn [obind] in *. rewrite E2, E. cbn [obind]. destruct I as (-> & _ & ->). rewrite app_length. auto.
  Qed.

  (** ** the local matrix *)
  Notation nh r := (length (halo r)).
  Lemma RP_mono r i k : i + k <= length (sdofs r) -> RP r i <= RP r (i + k).
  Proof. induction k as [|k IH]; intros H; [rewrite Nat.add_0_r; auto|]. rewrite Nat.add_succ_r, (RP_S st fin halo row) by lia. specialize (IH ltac:(lia)). lia. Qed.
  Lemma local_rows_ok r : r < P -> local_rows (D st fin halo nb r) (pt r) = Ok (map (fun i => RP r (nh r + i) - RP r (nh r)) (seq 0 (fin r - st r + 1))).
  Proof.
    intros Hr. unfold local_rows. cbn [d_halo D d_end d_begin]. rewrite pt_len, Nat.add_sub, sdofs_len by auto. rewrite (Nat.add_comm (nh r) (fin r - st r)), Nat.add_sub.
    assert (G : forall n, n <= fin r - st r -> foldM (fun rows r0 => b <- rd (dp_row (pt r)) r0 ;; e <- rd (dp_row (pt r)) (r0 + 1) ;; l <- rd rows (length rows - 1) ;; if l + e <? b then UB else Ok (rows ++ [l + e - b])) (seq (nh r) n) [Indexing_CSR] = Ok (map (fun i => RP r (nh r + i) - RP r (nh r)) (seq 0 (n + 1)))).
    { induction n as [|n IH]; intros Hn; [cbn [seq foldM plus map]; rewrite Nat.add_0_r, Nat.sub_diag; auto|]. rewrite seq_S, foldM_app, IH by lia. cbn [obind foldM]. assert (Hl : length (sdofs r) = nh r + (fin r - st r)) by apply sdofs_len.
      rewrite (rd_ok _ _ 0) by (rewrite pt_len by auto; lia). cbn [obind]. rewrite (rd_ok _ _ 0) by (rewrite pt_len by auto; lia). cbn [obind]. rewrite !pt_row by (auto; lia). rewrite (rd_ok _ _ 0) by (rewrite map_length, seq_length; lia). cbn [obind]. rewrite map_length, seq_length, Nat.add_sub. rewrite nth_map_seq by lia.
      pose proof (RP_mono r (nh r) n ltac:(lia)). pose proof (RP_mono r (nh r + n) 1 ltac:(lia)). destruct (Nat.ltb_spec (RP r (nh r + n) - RP r (nh r) + RP r (nh r + n + 1)) (RP r (nh r + n))); [lia|]. cbn [obind]. f_equal. replace (S n + 1) with (S (n + 1)) by lia. rewrite (seq_S (n + 1)), map_app. f_equal. cbn [map plus]. f_equal. replace (nh r + (n + 1)) with (nh r + n + 1) by lia. lia. }
    rewrite G by auto. cbn [obind]. rewrite map_length, seq_length, Nat.eqb_refl. auto.
  Qed.
  Lemma local_column_ok r g c : r < P -> own r g -> In c (row g) -> local_column (D st fin halo nb r) (lower r) (higher r) c = Ok (cpos r c).
  Proof.
    intros Hr O Hc. unfold local_column, Indexing_CSR. cbn [d_begin d_end D]. rewrite Nat.sub_0_r, !Nat.add_0_r. destruct (Nat.ltb_spec c 0); [lia|]. destruct (Nat.ltb_spec c (st r)); [|destruct (Nat.leb_spec (fin r) c)].
    - assert (In c (lower r)) by (apply lower_in; eauto). rewrite cpos_lower, lower_bound_sorted by (auto; apply lower_sorted). auto.
    - assert (In c (higher r)) by (apply higher_in; eauto). rewrite cpos_higher, lower_bound_sorted by (auto; apply higher_sorted). f_equal. lia.
    - rewrite cpos_own by auto. f_equal. lia.
  Qed.
  Lemma RP_end r : r < P -> RP r (length (sdofs r)) = length (dp_column (pt r)).
  Proof. intros Hr. rewrite pt_col by auto. unfold L_DistMatrixSync.RP. rewrite firstn_all. auto. Qed.
  Lemma slice_own r : r < P -> slice (RP r (nh r)) (length (dp_column (pt r))) (dp_column (pt r)) = flat_map row (seq (st r) (fin r - st r)).
  Proof.
    intros Hr. assert (E : RP r (nh r) = length (flat_map row (halo r))). { unfold L_DistMatrixSync.RP, L_DistMatrixSync.sdofs. rewrite firstn_app, firstn_all, Nat.sub_diag, app_nil_r. auto. }
    rewrite pt_col by auto. unfold L_DistMatrixSync.sdofs. rewrite flat_map_app. rewrite E. unfold slice. rewrite skipn_app, skipn_all, Nat.sub_diag. cbn [app skipn]. rewrite app_length. rewrite Nat.add_comm, Nat.add_sub. apply firstn_all.
  Qed.
  Lemma mapM_shift {A B} (f : nat -> outcome B) (h : A -> B) (d : A) (l : list A) b : (forall k, k < length l -> f (b + k) = Ok (h (nth k l d))) -> mapM f (seq b (length l)) = Ok (map h l).
  Proof.
    revert b. induction l as [|x l IH]; intros b H; auto. cbn [length seq mapM map]. pose proof (H 0 ltac:(simpl; lia)) as H0. rewrite Nat.add_0_r in H0. cbn [nth] in H0. rewrite H0. cbn [obind]. rewrite IH; auto. intros k Hk. rewrite Nat.add_succ_comm. apply (H (S k)). simpl; lia.
  Qed.
  Lemma local_columns_ok r : r < P -> local_columns (D st fin halo nb r) (pt r) (lower r) (higher r) = Ok (map (cpos r) (flat_map row (seq (st r) (fin r - st r)))).
  Proof.
    intros Hr. unfold local_columns. cbn [d_halo D]. assert (Hl : length (sdofs r) = nh r + (fin r - st r)) by apply sdofs_len. rewrite (rd_ok _ _ 0) by (rewrite pt_len by auto; lia). cbn [obind]. rewrite (rd_ok _ _ 0) by (rewrite pt_len by auto; lia). cbn [obind]. rewrite pt_len, Nat.add_sub by auto. rewrite !pt_row by (auto; lia).
    rewrite RP_end by auto. pose proof (RP_mono r (nh r) (fin r - st r) ltac:(lia)) as RM. rewrite <- Hl, RP_end in RM by auto. unfold Indexing_CSR. rewrite Nat.sub_0_r. destruct (Nat.ltb_spec (RP r (nh r)) 0), (Nat.ltb_spec (length (dp_column (pt r))) (RP r (nh r))); try lia. cbn [orb].
    pose proof (slice_own r Hr) as SO. assert (LS : length (dp_column (pt r)) - RP r (nh r) = length (flat_map row (seq (st r) (fin r - st r)))) by (rewrite <- SO, slice_length; auto). rewrite LS.
    apply (mapM_shift _ _ 0). intros k Hk. rewrite (rd_slice _ _ (length (dp_column (pt r)))) by lia. rewrite SO. cbn [obind]. set (c := nth k _ 0). assert (Hc : In c (flat_map row (seq (st r) (fin r - st r)))) by (apply nth_In; auto). apply in_flat_map in Hc. destruct Hc as (g & Hg & Hc). apply in_seq in Hg. apply (local_column_ok r g); auto. lia.
  Qed.

  Section Values.
    Context {T : Type} (zero : T).
    (** what does not change *)
    Definition aready (r : nat) (a : apply_data T) : Prop :=
      a_neighbors a = nn r /\ a_sOffset a = map (fun j => map (lpos st halo r) (srows r j)) (nn r) /\ a_rOffset a = map (fun j => map (cpos r) (rcols r j)) (nn r) /\
      map (@length T) (a_sBuffer a) = map (fun j => length (srows r j)) (nn r) /\ map (@length T) (a_rBuffer a) = map (fun j => length (rcols r j)) (nn r) /\
      a_rows a = map (fun i => RP r (nh r + i) - RP r (nh r)) (seq 0 (fin r - st r + 1)) /\ a_cols a = map (cpos r) (flat_map row (seq (st r) (fin r - st r))) /\
      a_offset a = length (lower r) /\ length (a_localV a) = length (allc r).
    Lemma init_rank_ok r : r < P -> exists a, init_rank zero (D st fin halo nb r) (pt r) (map (fun j => (j, st j)) (nn r)) = Ok a /\ aready r a.
    Proof.
      intros Hr. unfold init_rank. rewrite !map_map. cbn [snd fst]. rewrite classify_ok by auto. cbn [obind]. cbn [d_end d_begin D]. rewrite place_ok by auto. cbn [obind]. rewrite local_rows_ok, local_columns_ok by auto. cbn [obind]. rewrite map_id. eexists. split; [reflexivity|]. unfold aready. cbn.
      repeat split; auto; rewrite ?map_map; try (apply map_ext; intros j; rewrite repeat_length, map_length; auto). rewrite repeat_length, allc_len. lia.
    Qed.
    Lemma ainit_ok sort : sort_contract pair_ltb sort -> exists As, ainit zero sort (map (D st fin halo nb) (seq 0 P)) (map pt (seq 0 P)) = Ok As /\ length As = P /\ forall r, r < P -> aready r (nth r As no_adata).
    Proof.
      intros SC. unfold ainit. rewrite (mapM_map _ _ (fun r => map (fun j => (j, st j)) (nb r))) by (intros; apply own_neighbors_ok). cbn [obind]. unfold exchange_same. rewrite map_map. cbn [d_neighbors D].
      rewrite (mapM_map _ _ (fun r => map (fun s => map (fun j => (j, st j)) (nb s)) (nb r))). 2:{ intros r Hr. apply in_seq in Hr. apply mapM_ok. intros s Hs. destruct (nb_sym r s ltac:(lia) Hs) as (Hs' & _). rewrite (rd_ok _ _ []) by (rewrite map_length, seq_length; auto). rewrite nth_map_seq by auto. auto. }
      cbn [obind]. rewrite map_length, seq_length. rewrite combine_map, combine_self. rewrite (mapM_map _ _ (fun r => map (fun j => (j, st j)) (nn r))). 2:{ intros r Hr. apply in_seq in Hr. cbn [fst snd]. apply merge_ok; auto; lia. } cbn [obind].
      rewrite combine_map3. match goal with |- exists As, mapM ?f (map ?h ?l) = _ /\ _ => destruct (mapM_exists f h aready no_adata l) as (As & E & L & H) end.
      - intros r Hr. apply in_seq in Hr. cbn [fst snd]. apply init_rank_ok. lia.
      - exists As. split; auto. rewrite seq_length in L. split; auto. intros r Hr. apply H. rewrite (nth_error_nth' _ 0) by (rewrite seq_length; auto). rewrite seq_nth by auto. auto.
    Qed.

    (** ** the product *)
    Notation vs r := (vsize st fin halo r).
    Variables xv yv mv : nat -> list T.
    Hypothesis x_len : forall r, r < P -> length (xv r) = vs r.
    Hypothesis y_len : forall r, r < P -> length (yv r) = vs r.
    Hypothesis m_len : forall r, r < P -> length (mv r) = length (dp_column (pt r)).
    Definition xval (r g : nat) : T := nth (lpos st halo r g) (xv r) zero.
    Definition X (c : nat) : T := match find (fun j => owned st fin j c) (seq 0 P) with Some j => xval j c | None => zero end.
    Lemma X_ok j c : j < P -> own j c -> X c = xval j c.
    Proof.
      intros Hj O. unfold X. destruct (find _ _) as [s|] eqn:F.
      - apply find_some in F. destruct F as [F1 F2]. apply in_seq in F1. apply owned_iff in F2. rewrite (own_unique s j c); auto; lia.
      - pose proof (find_none _ _ F j ltac:(apply in_seq; lia)) as C. cbn beta in C. assert (owned st fin j c = true) by (apply owned_iff; auto). congruence.
    Qed.
    Lemma lens (l : list (list T)) (f : nat -> nat) ks : map (@length T) l = map f ks -> length l = length ks /\ forall n, n < length ks -> length (nth n l []) = f (nth n ks 0).
    Proof.
      intros H. assert (L : length l = length ks) by (rewrite <- (map_length (@length T)), H, map_length; auto). split; auto. intros n Hn. rewrite <- (L_Distributed.nth_map f ks n 0 0) by auto. rewrite <- H. rewrite (L_Distributed.nth_map (@length T) l n 0 []) by lia. auto.
    Qed.
    Lemma pack_ok r a : r < P -> aready r a -> pack_x a (xv r) = Ok (map (fun j => map (xval r) (srows r j)) (nn r)).
    Proof.
      intros Hr (A1 & A2 & A3 & A4 & _). unfold pack_x. rewrite A2, map_length. destruct (lens _ _ _ A4) as [L1 L2].
      match goal with |- foldM ?f _ _ = _ => destruct (loop_writes f (fun n => map (xval r) (srows r (nth n (nn r) 0))) [] (a_sBuffer a) (length (nn r))) as (b & E & L & H) end; [lia| |].
      - intros n b Hn Lb Hb. rewrite (rd_ok _ _ []) by (rewrite map_length; auto). cbn [obind]. rewrite (L_Distributed.nth_map _ (nn r) n [] 0) by auto. rewrite (rd_ok _ _ []) by lia. cbn [obind]. rewrite (read_all zero).
        + cbn [obind]. rewrite map_map. reflexivity.
        + rewrite Hb, L2, map_length by auto. auto.
        + intros o Ho. apply in_map_iff in Ho. destruct Ho as (g & <- & Hg). apply srows_in in Hg; auto. rewrite x_len by auto. apply lpos_range. tauto.
      - rewrite E. f_equal. apply (nth_ext _ _ [] []); rewrite ?map_length; [lia|]. intros n Hn. rewrite L in Hn. rewrite H by auto. destruct (Nat.ltb_spec n (length (nn r))); [|lia]. rewrite (L_Distributed.nth_map _ (nn r) n [] 0) by auto. auto.
    Qed.
    Lemma exchange_known_ok (Ax : nat -> apply_data T) : (forall r, r < P -> aready r (Ax r)) ->
      exchange_known_sizes (map nn (seq 0 P)) (map (fun r => map (fun j => map (xval r) (srows r j)) (nn r)) (seq 0 P)) (map (fun r => a_rBuffer (Ax r)) (seq 0 P)) = Ok (map (fun r => map (fun j => map X (rcols r j)) (nn r)) (seq 0 P)).
    Proof.
      intros R. unfold exchange_known_sizes. rewrite map_length, seq_length, combine_map, combine_self. apply mapM_map. intros r Hr. apply in_seq in Hr. cbn [fst snd]. destruct (R r ltac:(lia)) as (_ & _ & _ & _ & A5 & _). destruct (lens _ _ _ A5) as [L1 L2].
      apply (mapM_combine _ (fun j => map X (rcols r j)) []); auto. intros n Hn. cbn [fst snd]. assert (I : In (nth n (nn r) 0) (nn r)) by (apply nth_In; auto). destruct (nn_sym r _ ltac:(lia) I) as (Hj & _).
      rewrite (sent_ok P nn nn_sym (fun r j => map (xval r) (srows r j)) r) by (auto; lia). cbn [obind]. rewrite map_length, L2 by auto. rewrite (rcols_srows r) by (auto; lia). rewrite Nat.eqb_refl. f_equal. apply map_ext_in. intros g Hg. symmetry. apply X_ok; auto. apply srows_in in Hg; tauto.
    Qed.
    Definition filled (r n : nat) (v : list T) : Prop := length v = length (allc r) /\ forall k c, k < n -> In c (rcols r (nth k (nn r) 0)) -> nth (cpos r c) v zero = X c.
    Lemma rcols_owner r j c : In c (rcols r j) -> own j c.
    Proof. unfold rcols. rewrite filter_In, owned_iff. tauto. Qed.
    Lemma rcols_nodup r j : r < P -> NoDup (rcols r j).
    Proof. intros Hr. apply ss_nodup, ss_filter, lh_sorted; auto. Qed.
    Lemma cpos_nodup r l : NoDup l -> (forall c, In c l -> In c (allc r)) -> NoDup (map (cpos r) l).
    Proof.
      induction 1 as [|x l N ND IH]; intros H; cbn [map]; constructor; [|apply IH; intros; apply H; right; auto]. intros C. apply in_map_iff in C. destruct C as (y & E & Hy). apply N. rewrite (cpos_inj r x y); auto; apply H; [left|right]; auto.
    Qed.
    Lemma unpack_ok r a : r < P -> aready r a -> exists v, unpack_x a (map (fun j => map X (rcols r j)) (nn r)) = Ok v /\ filled r (length (nn r)) v.
    Proof.
      intros Hr (A1 & A2 & A3 & A4 & A5 & A6 & A7 & A8 & A9). unfold unpack_x. rewrite A3, map_length.
      match goal with |- exists v, foldM ?f _ _ = _ /\ _ => destruct (foldM_seq_inv f (filled r) 0 (length (nn r)) (a_localV a)) as (v & E & F) end; [split; auto; intros; lia| |exists v; auto].
      intros n v Hn (L & F). rewrite (rd_ok _ _ []) by (rewrite map_length; lia). cbn [obind]. rewrite (rd_ok _ _ []) by (rewrite map_length; lia). cbn [obind]. rewrite !(L_Distributed.nth_map _ (nn r) n [] 0) by lia. set (j := nth n (nn r) 0).
      destruct (write_all zero (map (cpos r) (rcols r j)) (map X (rcols r j)) v) as (v' & E & L' & K & W); [rewrite !map_length; auto| |].
      { intros o Ho. apply in_map_iff in Ho. destruct Ho as (c & <- & Hc). rewrite L. apply cpos_lt. apply rcols_allc in Hc; auto. }
      exists v'. split; auto. split; [lia|]. intros k c Hk Hc. destruct (Nat.eq_dec k n) as [->|Ne].
      - destruct (In_nth _ _ 0 Hc) as (i & Hi & Ei). fold j in Hi, Ei, Hc. rewrite <- Ei. rewrite <- (L_Distributed.nth_map (cpos r) (rcols r j) i 0 0) by auto. rewrite W; [|apply cpos_nodup; [apply rcols_nodup; auto|intros; eapply rcols_allc; eauto]|rewrite map_length; auto]. rewrite (L_Distributed.nth_map X (rcols r j) i zero 0) by auto. auto.
      - rewrite K; [apply (F k); auto; lia|]. intros C. apply in_map_iff in C. destruct C as (c' & Ec & Hc'). apply cpos_inj in Ec; [|eapply rcols_allc; eauto|eapply rcols_allc; eauto]. subst c'. apply Ne. pose proof (rcols_owner _ _ _ Hc). pose proof (rcols_owner _ _ _ Hc').
        assert (U : nth k (nn r) 0 = nth n (nn r) 0) by (apply (own_unique _ _ c); auto; apply nn_nth; lia). apply (proj1 (NoDup_nth (nn r) 0) (ss_nodup _ (nn_sorted r))); auto; lia.
    Qed.
    Lemma copy_ok r a v : r < P -> aready r a -> filled r (length (nn r)) v -> copy_own (D st fin halo nb r) a (xv r) v = Ok (map X (allc r)).
    Proof.
      intros Hr (A1 & A2 & A3 & A4 & A5 & A6 & A7 & A8 & A9) (L & F). unfold copy_own. cbn [d_halo D]. pose proof (x_len r Hr) as XL. unfold vsize in XL. destruct (Nat.ltb_spec (length (xv r)) (nh r)); [lia|]. unfold store. rewrite skipn_length, A8, L, allc_len. destruct (Nat.ltb_spec (length (lower r) + (fin r - st r) + length (higher r)) (length (lower r) + (length (xv r) - nh r))); [lia|]. f_equal.
      unfold put. unfold allc at 1. rewrite !map_app. replace (length (xv r) - nh r) with (fin r - st r) by lia.
      assert (OUT : forall c, In c (lower r ++ higher r) -> nth (cpos r c) v zero = X c). { intros c Hc. destruct (lh_owner r c Hr Hc) as (k & Hk & O). apply (F k); auto. unfold rcols. apply filter_In. split; auto. apply owned_iff; auto. }
      f_equal; [|f_equal].
      - apply (nth_ext _ _ zero zero); rewrite firstn_length_le, ?map_length by (rewrite L, allc_len; lia); auto. intros i Hi. rewrite (L_Distributed.nth_map X _ i zero 0) by auto. assert (Hc : In (nth i (lower r) 0) (lower r)) by (apply nth_In; auto). rewrite <- OUT by (apply in_or_app; auto). rewrite cpos_lower by auto. rewrite (index_of_nth _ (lower r) i (ss_nodup _ (lower_sorted r))) by (apply nth_error_nth'; auto).
        rewrite <- (firstn_skipn (length (lower r)) v) at 2. rewrite app_nth1; auto. rewrite firstn_length_le; auto. rewrite L, allc_len; lia.
      - apply (nth_ext _ _ zero zero); rewrite skipn_length, ?map_length, ?seq_length; [lia|]. intros i Hi. rewrite (L_Distributed.nth_map X _ i zero 0) by (rewrite seq_length; lia). rewrite seq_nth by lia. rewrite (X_ok r) by (auto; lia). unfold xval, lpos. rewrite nth_skipn'. f_equal. lia.
      - apply (nth_ext _ _ zero zero); rewrite skipn_length, ?map_length, L, allc_len; [lia|]. intros i Hi. rewrite (L_Distributed.nth_map X _ i zero 0) by lia. assert (Hc : In (nth i (higher r) 0) (higher r)) by (apply nth_In; lia). rewrite <- OUT by (apply in_or_app; auto). rewrite cpos_higher by auto. rewrite (index_of_nth _ (higher r) i (ss_nodup _ (higher_sorted r))) by (apply nth_error_nth'; lia).
        rewrite nth_skipn'. auto.
    Qed.
    Definition entries (r g : nat) : list (T * T) := map (fun k => (nth (RP r (lpos st halo r g) + k) (mv r) zero, X (nth k (row g) 0))) (seq 0 (length (row g))).
    Lemma in_allc r g c : r < P -> own r g -> In c (row g) -> In c (allc r).
    Proof.
      intros Hr O Hc. unfold allc. rewrite !in_app_iff, in_seq. destruct (Nat.lt_ge_cases c (st r)); [left; apply lower_in; eauto|]. destruct (Nat.lt_ge_cases c (fin r)); [right; left; lia|]. right; right. apply higher_in; eauto.
    Qed.
    Lemma row_ok rowop r a i : r < P -> aready r a -> i < fin r - st r ->
      spblas_row rowop (a_rows a) (a_cols a) (skipn (RP r (nh r)) (mv r)) (map X (allc r)) (skipn (nh r) (yv r)) i = Ok (rowop (entries r (st r + i)) (nth (lpos st halo r (st r + i)) (yv r) zero)).
    Proof.
      intros Hr (A1 & A2 & A3 & A4 & A5 & A6 & A7 & A8 & A9) Hi. unfold spblas_row. rewrite A6, A7. assert (Hl : length (sdofs r) = nh r + (fin r - st r)) by apply sdofs_len.
      rewrite (rd_ok _ _ 0) by (rewrite map_length, seq_length; lia). cbn [obind]. rewrite (rd_ok _ _ 0) by (rewrite map_length, seq_length; lia). cbn [obind]. rewrite !nth_map_seq by lia.
      pose proof (RP_mono r (nh r) i ltac:(lia)) as M1. pose proof (RP_S st fin halo row r (nh r + i) ltac:(lia)) as M2. rewrite sdofs_own in M2 by lia. replace (lrow r (nh r + i)) with (st r + i) in M2 by (unfold lrow; lia). replace (nh r + (i + 1)) with (S (nh r + i)) by lia.
      set (b := RP r (nh r + i) - RP r (nh r)). unfold Indexing_CSR. destruct (Nat.ltb_spec b 0), (Nat.ltb_spec (RP r (S (nh r + i)) - RP r (nh r)) b); try (unfold b in *; lia). cbn [orb]. rewrite Nat.sub_0_r. replace (RP r (S (nh r + i)) - RP r (nh r) - b) with (length (row (st r + i))) by (unfold b; lia).
      pose proof (slice_own r Hr) as SO. pose proof (RP_le P st fin halo row pt pt_col r (S (nh r + i)) Hr ltac:(lia)) as RL. assert (LO : length (flat_map row (seq (st r) (fin r - st r))) = length (dp_column (pt r)) - RP r (nh r)) by (rewrite <- SO, slice_length; lia).
      assert (CN : forall k, k < length (row (st r + i)) -> nth (b + k) (flat_map row (seq (st r) (fin r - st r))) 0 = nth k (row (st r + i)) 0).
      { intros k Hk. rewrite <- SO. rewrite nth_slice by (unfold b; lia). pose proof (RP_slice P st fin halo row pt pt_col r (nh r + i) Hr ltac:(lia)) as RS. rewrite sdofs_own in RS by lia. replace (lrow r (nh r + i)) with (st r + i) in RS by (unfold lrow; lia). rewrite <- RS. rewrite nth_slice by lia. f_equal. unfold b. lia. }
      rewrite (mapM_shift _ (fun k => (nth (RP r (lpos st halo r (st r + i)) + k) (mv r) zero, X (nth k (row (st r + i)) 0))) 0 (seq 0 (length (row (st r + i)))) b) || (rewrite <- (seq_length (length (row (st r + i))) 0) at 1; rewrite (mapM_shift _ (fun k => (nth (RP r (lpos st halo r (st r + i)) + k) (mv r) zero, X (nth k (row (st r + i)) 0))) 0)).
      - cbn [obind]. rewrite (rd_ok _ _ zero) by (rewrite skipn_length, y_len by auto; unfold vsize; lia). cbn [obind]. rewrite nth_skipn'. unfold entries. f_equal. f_equal. unfold lpos. f_equal. lia.
      - intros k Hk. rewrite seq_length in Hk. rewrite seq_nth by auto. cbn [plus]. rewrite (rd_ok _ _ 0) by (rewrite map_length; unfold b; lia). cbn [obind]. rewrite (rd_ok _ _ zero) by (rewrite skipn_length, m_len by auto; unfold b; lia). cbn [obind]. rewrite (L_Distributed.nth_map (cpos r) _ _ 0 0) by (unfold b; lia). rewrite CN by auto.
        destruct (Nat.ltb_spec (cpos r (nth k (row (st r + i)) 0)) 0); [lia|]. assert (IA : In (nth k (row (st r + i)) 0) (allc r)) by (apply (in_allc r (st r + i)); auto; [lia|apply nth_In; auto]). rewrite Nat.sub_0_r. rewrite (rd_ok _ _ zero) by (rewrite map_length; apply cpos_lt; auto). cbn [obind]. unfold cpos. rewrite nth_index by auto. rewrite nth_skipn'. f_equal. f_equal. f_equal. unfold lpos, b. replace (st r + i - st r + nh r) with (nh r + i) by lia. lia.
    Qed.
    Definition product rowop (r : nat) : list T := firstn (nh r) (yv r) ++ map (fun g => rowop (entries r g) (nth (lpos st halo r g) (yv r) zero)) (seq (st r) (fin r - st r)).
    Lemma multiply_ok rowop r a : r < P -> aready r a -> multiply rowop (D st fin halo nb r) (pt r) a (map X (allc r)) (mv r) (yv r) = Ok (product rowop r).
    Proof.
      intros Hr R. pose proof R as (A1 & A2 & A3 & A4 & A5 & A6 & A7 & A8 & A9). unfold multiply. cbn [d_halo D]. assert (Hl : length (sdofs r) = nh r + (fin r - st r)) by apply sdofs_len. rewrite (rd_ok _ _ 0) by (rewrite pt_len by auto; lia). cbn [obind]. rewrite pt_row by (auto; lia). unfold Indexing_CSR. rewrite Nat.sub_0_r, Nat.add_0_r.
      unfold spblas_apply. replace (length (a_rows a) - 1) with (fin r - st r) by (rewrite A6, map_length, seq_length; lia). rewrite (mapM_ranks _ (fun i => rowop (entries r (st r + i)) (nth (lpos st halo r (st r + i)) (yv r) zero))) by (intros i Hi; apply row_ok; auto). cbn [obind]. unfold store. rewrite map_length, seq_length, y_len by auto. unfold vsize. destruct (Nat.ltb_spec (nh r + (fin r - st r)) (nh r + (fin r - st r))); [lia|]. f_equal. unfold put, product. f_equal.
      rewrite skipn_all2 by (rewrite y_len by auto; unfold vsize; lia). rewrite app_nil_r. apply (nth_ext _ _ zero zero); rewrite !map_length, !seq_length; auto. intros i Hi. rewrite nth_map_seq by auto. rewrite (L_Distributed.nth_map _ _ i zero 0) by (rewrite seq_length; auto). rewrite seq_nth by auto. auto.
    Qed.
    Lemma product_len rowop r : r < P -> length (product rowop r) = vs r.
    Proof. intros Hr. unfold product. rewrite app_length, firstn_length_le, map_length, seq_length by (rewrite y_len by auto; unfold vsize; lia). auto. Qed.
    Lemma product_own rowop r g : r < P -> own r g -> nth (lpos st halo r g) (product rowop r) zero = rowop (entries r g) (nth (lpos st halo r g) (yv r) zero).
    Proof.
      intros Hr O. unfold product. rewrite app_nth2; rewrite firstn_length_le by (rewrite y_len by auto; unfold vsize; lia); unfold lpos; [|lia]. replace (g - st r + nh r - nh r) with (g - st r) by lia. rewrite (L_Distributed.nth_map _ _ (g - st r) zero 0) by (rewrite seq_length; lia). rewrite seq_nth by lia. replace (st r + (g - st r)) with g by lia. auto.
    Qed.
    Lemma apply_ok rowop As sy : length As = P -> (forall r, r < P -> aready r (nth r As no_adata)) ->
      exists As', length As' = P /\ (forall r, r < P -> aready r (nth r As' no_adata)) /\
        apply_matrix rowop (map (D st fin halo nb) (seq 0 P)) (map pt (seq 0 P)) (As, sy) (map mv (seq 0 P)) (map xv (seq 0 P)) (map yv (seq 0 P)) = ('(sy, ys) <- scatter_to_upper (sy, map (product rowop) (seq 0 P)) ;; Ok (As', sy, ys)).
    Proof.
      intros L R. rewrite (list_as_map As no_adata P L). set (Ax := fun r => nth r As no_adata) in *. unfold apply_matrix. rewrite combine_map. rewrite (mapM_map _ _ (fun r => map (fun j => map (xval r) (srows r j)) (nn r))). 2:{ intros r Hr. apply in_seq in Hr. cbn [fst snd]. apply pack_ok; [lia|]. apply R; lia. } cbn [obind]. rewrite !map_map.
      rewrite (map_ext_in (fun r => a_neighbors (Ax r)) nn) by (intros r Hr; apply in_seq in Hr; apply R; lia). rewrite (exchange_known_ok Ax) by auto. cbn [obind]. rewrite !combine_map. rewrite (mapM_map _ _ (fun r => map X (allc r))). 2:{ intros r Hr. apply in_seq in Hr. cbn [fst snd]. destruct (unpack_ok r (Ax r) ltac:(lia) ltac:(apply R; lia)) as (v & E & F). rewrite E. cbn [obind]. apply copy_ok; [lia|apply R; lia|auto]. }
      cbn [obind]. rewrite !combine_map. rewrite (mapM_map _ _ (product rowop)). 2:{ intros r Hr. apply in_seq in Hr. apply multiply_ok; [lia|apply R; lia]. } cbn [obind]. rewrite map_map. cbn [fst snd].
      eexists. split; [|split; [|reflexivity]]; [rewrite map_length, seq_length; auto|]. intros r Hr. rewrite nth_map_seq by auto. destruct (R r Hr) as (A1 & A2 & A3 & A4 & A5 & A6 & A7 & A8 & A9). fold (Ax r) in *. unfold aready, with_data. cbn. rewrite !map_map. repeat split; auto; [| |apply map_length]; apply map_ext; intros j; apply map_length.
    Qed.
  End Values.
End Apply.
