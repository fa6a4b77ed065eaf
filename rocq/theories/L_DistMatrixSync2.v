(** * Lemmas on the synchronization of distributed matrices: entries of a mesh *)
From Coq Require Import List Arith Bool Lia Sorted.
From Verif Require Import Base M_Indexing M_Distributed S_Distributed M_DistMatrix S_DistMatrix M_DistMatrixSync S_DistMatrixSync S_Assembly L_Equality L_TotalFeti L_Csx2 L_Fill2 L_Utils L_Numbering L_Pattern L_Pattern3 L_Distributed L_Distributed2 L_DistMatrixSync.
Import ListNotations.
Local Open Scope out_scope.

Lemma node_dofs_nth dofs l : forall n d, n < length l -> d < dofs -> nth (n * dofs + d) (node_dofs dofs l) 0 = dofs * nth n l 0 + d.
Proof.
  induction l as [|x l IH]; intros n d Hn Hd; simpl in Hn; [lia|]. change (node_dofs dofs (x :: l)) with (map (fun d => dofs * x + d) (seq 0 dofs) ++ node_dofs dofs l). destruct n as [|n].
  - cbn [Nat.mul plus nth]. rewrite app_nth1 by (rewrite map_length, seq_length; auto). rewrite (L_Distributed.nth_map _ _ d 0 0) by (rewrite seq_length; auto). rewrite seq_nth by auto. auto.
  - rewrite app_nth2; rewrite map_length, seq_length; [|simpl; lia]. replace (S n * dofs + d - dofs) with (n * dofs + d) by (simpl; lia). cbn [nth]. apply IH; auto; lia.
Qed.
Lemma node_dofs_length dofs l : length (node_dofs dofs l) = length l * dofs.
Proof. induction l as [|x l IH]; auto. change (node_dofs dofs (x :: l)) with (map (fun d => dofs * x + d) (seq 0 dofs) ++ node_dofs dofs l). rewrite app_length, map_length, seq_length, IH. auto. Qed.
Lemma flat_map_seq_nth {A} (F : nat -> list A) l : flat_map (fun i => F (nth i l 0)) (seq 0 (length l)) = flat_map F l.
Proof. rewrite <- (flat_map_concat_map (fun i => F (nth i l 0))) || idtac. rewrite !flat_map_concat_map. f_equal. rewrite <- (map_map (fun i => nth i l 0) F). f_equal. symmetry. apply list_as_map. auto. Qed.

(** ** keys of entries *)
Section Keys.
  Variable row : nat -> list nat.
  Hypothesis row_sorted : forall g, StronglySorted lt (row g).
  Definition enc (x : nat * nat) : nat := rowptr row (fst x) + index_of (snd x) (row (fst x)).
  Definition okey (x : nat * nat) : Prop := In (snd x) (row (fst x)).
  Lemma enc_range x : okey x -> rowptr row (fst x) <= enc x < rowptr row (S (fst x)).
  Proof. intros H. unfold enc. pose proof (index_of_lt _ _ H). rewrite rowptr_S. lia. Qed.
  Lemma enc_inj x y : okey x -> okey y -> enc x = enc y -> x = y.
  Proof.
    intros Hx Hy E. pose proof (enc_range x Hx). pose proof (enc_range y Hy). assert (G : fst x = fst y).
    { destruct (Nat.lt_trichotomy (fst x) (fst y)) as [L|[L|L]]; auto; [pose proof (rowptr_mono row (S (fst x)) (fst y) L)|pose proof (rowptr_mono row (S (fst y)) (fst x) L)]; lia. }
    destruct x as [g c], y as [g' c']. cbn [fst snd] in *. subst g'. f_equal. unfold enc in E. cbn [fst snd] in E. unfold okey in Hx, Hy. cbn [fst snd] in Hx, Hy. pose proof (index_of_in _ _ Hx) as A. pose proof (index_of_in _ _ Hy) as B.
    replace (index_of c (row g)) with (index_of c' (row g)) in A by lia. congruence.
  Qed.
  Lemma enc_row g : map enc (map (pair g) (row g)) = ent row g.
  Proof.
    rewrite map_map. unfold enc, ent. cbn [fst snd]. apply (nth_ext _ _ 0 0); rewrite ?map_length, ?seq_length; auto. intros i Hi. rewrite (L_Distributed.nth_map _ _ i 0 0) by auto. rewrite seq_nth by auto. f_equal.
    apply index_of_nth; [apply ss_nodup; auto|]. apply nth_error_nth'. auto.
  Qed.
  Definition gkeys (l : list nat) : list (nat * nat) := flat_map (fun g => map (pair g) (row g)) l.
  Lemma gkeys_enc l : map enc (gkeys l) = flat_map (ent row) l.
  Proof. induction l as [|g l IH]; auto. cbn [gkeys flat_map]. rewrite map_app, enc_row. f_equal. apply IH. Qed.
  Lemma gkeys_ok l x : In x (gkeys l) -> okey x /\ In (fst x) l.
  Proof. intros H. apply in_flat_map in H. destruct H as (g & Hg & H). apply in_map_iff in H. destruct H as (c & <- & Hc). auto. Qed.
  Lemma filter_enc {T} x l (v : list T) : okey x -> (forall y, In y l -> okey y) -> map snd (filter (fun y : nat * nat * T => is_key (fst x) (snd x) (fst y)) (combine l v)) = map snd (filter (fun y : nat * T => fst y =? enc x) (combine (map enc l) v)).
  Proof.
    intros Hx. revert v. induction l as [|y l IH]; intros [|z v] H; auto. cbn [map combine filter fst]. assert (K : is_key (fst x) (snd x) y = (enc y =? enc x)).
    { unfold is_key. destruct (Nat.eqb_spec (enc y) (enc x)) as [E|E].
      - apply enc_inj in E; auto; [|apply H; left; auto]. subst y. rewrite !Nat.eqb_refl. auto.
      - destruct (Nat.eqb_spec (fst y) (fst x)), (Nat.eqb_spec (snd y) (snd x)); auto. exfalso. apply E. f_equal. destruct x, y; cbn in *; congruence. }
    rewrite K. destruct (enc y =? enc x); cbn [map snd]; rewrite IH by (intros; apply H; right; auto); auto.
  Qed.
End Keys.

Section Mesh.
  Variables (dofs : nat) (nb : list (list nat)) (ms : list mesh_part) (ps : list dpattern).
  Hypothesis dofs_pos : 0 < dofs.
  Hypothesis DM : distributed_mesh nb ms.
  Hypothesis ps_len : length ps = length ms.
  Hypothesis ps_rows : forall r, r < length ms -> rows_of_mesh dofs ms (nth r ms no_part) (nth r ps no_pattern).
  Let us := map mp_info ms.
  Let P := length ms.
  Let N : numbered nb us := dm_numbered nb ms DM.
  Lemma us_len : length us = P.
  Proof. apply map_length. Qed.
  Let m r := nth r ms no_part.
  Let pt r := nth r ps no_pattern.
  Lemma u_nth r : nth r us no_info = mp_info (m r).
  Proof. unfold us. change no_info with (mp_info no_part). rewrite map_nth. auto. Qed.
  Notation st := (nst dofs us). Notation fin := (nfin dofs us). Notation halo := (nhalo dofs us). Notation nbr := (nnb nb).
  Notation stored r := (stored_dofs dofs (nth r us no_info)).

  Lemma m_in r : r < P -> In (m r) ms.
  Proof. intros H. apply nth_In. auto. Qed.
  Lemma stored_nodes r : r < P -> stored r = node_dofs dofs (u_position (mp_info (m r))).
  Proof. intros H. rewrite u_nth. rewrite (dm_position nb ms DM (m r) (m_in r H)). auto. Qed.
  Lemma stored_len r : r < P -> length (stored r) = length (mp_ranks (m r)) * dofs.
  Proof. intros H. rewrite stored_nodes, node_dofs_length by auto. rewrite (dm_length nb ms DM (m r) (m_in r H)). auto. Qed.
  Definition prow_of (r i : nat) : list nat := slice (nth i (dp_row (pt r)) 0) (nth (i + 1) (dp_row (pt r)) 0) (dp_column (pt r)).
  Lemma prow_ok r i : r < P -> i < length (stored r) ->
    let g := nth i (stored r) 0 in let b := nth i (dp_row (pt r)) 0 in let e := nth (i + 1) (dp_row (pt r)) 0 in
    b <= e <= length (dp_column (pt r)) /\ StronglySorted lt (prow_of r i) /\ forall c, In c (prow_of r i) <-> c / dofs = g / dofs \/ common_element ms (g / dofs) (c / dofs).
  Proof.
    intros Hr Hi g b e. destruct (ps_rows r Hr) as (_ & _ & _ & H). rewrite stored_len in Hi by auto. pose proof (Nat.div_mod i dofs ltac:(lia)) as Dv. pose proof (Nat.mod_upper_bound i dofs ltac:(lia)) as Mu.
    assert (Hn : i / dofs < length (mp_ranks (m r))) by (apply Nat.div_lt_upper_bound; lia). specialize (H (i / dofs) (i mod dofs) Hn Mu). replace (i / dofs * dofs + i mod dofs) with i in H by lia.
    assert (G : g / dofs = node_of (m r) (i / dofs)).
    { assert (E : g = dofs * node_of (m r) (i / dofs) + i mod dofs).
      { unfold g. rewrite stored_nodes by auto. transitivity (nth (i / dofs * dofs + i mod dofs) (node_dofs dofs (u_position (mp_info (m r)))) 0); [f_equal; lia|].
        apply node_dofs_nth; auto. rewrite <- (dm_length nb ms DM (m r) (m_in r Hr)); auto. }
      rewrite E. rewrite (Nat.mul_comm dofs), Nat.div_add_l, (Nat.div_small (i mod dofs)), Nat.add_0_r by lia. auto. }
    rewrite G. exact H.
  Qed.
  Lemma prow_agree r i s k : r < P -> s < P -> i < length (stored r) -> k < length (stored s) -> nth i (stored r) 0 = nth k (stored s) 0 -> prow_of r i = prow_of s k.
  Proof.
    intros Hr Hs Hi Hk E. destruct (prow_ok r i Hr Hi) as (_ & S1 & I1). destruct (prow_ok s k Hs Hk) as (_ & S2 & I2). apply ss_ext; auto. intros c. rewrite I1, I2, E. tauto.
  Qed.

  (** the row of a DOF *)
  Definition grow (g : nat) : list nat := match find (fun r => memb g (stored r)) (seq 0 P) with Some r => prow_of r (index_of g (stored r)) | None => [] end.
  Lemma grow_at r i : r < P -> i < length (stored r) -> grow (nth i (stored r) 0) = prow_of r i.
  Proof.
    intros Hr Hi. unfold grow. destruct (find _ (seq 0 P)) as [s|] eqn:F.
    - apply find_some in F. destruct F as [F1 F2]. apply in_seq in F1. apply memb_iff in F2. apply prow_agree; auto; try lia; [apply index_of_lt; auto|]. apply index_of_in in F2. apply nth_error_nth with (d := 0) in F2. auto.
    - exfalso. pose proof (find_none _ _ F r ltac:(apply in_seq; lia)) as C. cbn beta in C. assert (memb (nth i (stored r) 0) (stored r) = true) by (apply memb_iff, nth_In; auto). congruence.
  Qed.
  Lemma grow_sorted g : StronglySorted lt (grow g).
  Proof.
    unfold grow. destruct (find _ (seq 0 P)) as [s|] eqn:F; [|constructor]. apply find_some in F. destruct F as [F1 F2]. apply in_seq in F1. apply memb_iff in F2. apply prow_ok; [lia|]. apply index_of_lt; auto.
  Qed.
  Lemma sdofs_eq r : r < P -> sdofs st fin halo r = stored r.
  Proof. intros Hr. unfold sdofs. symmetry. apply (stored_eq dofs us dofs_pos). Qed.
  Lemma pt_len' r : r < P -> length (dp_row (pt r)) = length (sdofs st fin halo r) + 1.
  Proof. intros Hr. rewrite sdofs_eq, stored_len by auto. apply (ps_rows r Hr). Qed.
  Lemma pt_row' r i : r < P -> i <= length (sdofs st fin halo r) -> nth i (dp_row (pt r)) 0 = RP st fin halo grow r i.
  Proof.
    intros Hr. rewrite sdofs_eq by auto. induction i as [|i IH]; intros Hi.
    - destruct (ps_rows r Hr) as (_ & Z & _). exact Z.
    - rewrite (RP_S st fin halo grow r i) by (rewrite sdofs_eq; auto; lia). rewrite <- IH by lia. rewrite sdofs_eq by auto. rewrite grow_at by (auto; lia). destruct (prow_ok r i Hr ltac:(lia)) as (B & _).
      unfold prow_of. rewrite slice_length by exact B. rewrite <- Nat.add_1_r. lia.
  Qed.
  Lemma pt_col' r : r < P -> dp_column (pt r) = flat_map grow (sdofs st fin halo r).
  Proof.
    intros Hr. rewrite sdofs_eq by auto. assert (G : forall i, i <= length (stored r) -> flat_map grow (firstn i (stored r)) = slice 0 (nth i (dp_row (pt r)) 0) (dp_column (pt r))).
    { induction i as [|i IH]; intros Hi.
      - destruct (ps_rows r Hr) as (_ & Z & _). change (nth 0 (dp_row (pt r)) 0 = 0) in Z. rewrite Z. auto.
      - rewrite firstn_snoc by auto. rewrite flat_map_app, IH by lia. cbn [flat_map]. rewrite app_nil_r, grow_at by (auto; lia). destruct (prow_ok r i Hr ltac:(lia)) as (B & _). unfold prow_of. rewrite <- (Nat.add_1_r i). symmetry. apply slice_app. split; [lia|apply B]. }
    rewrite <- (firstn_all (stored r)), G by auto. rewrite stored_len by auto. destruct (ps_rows r Hr) as (_ & _ & Z & _). change (nth (length (mp_ranks (m r)) * dofs) (dp_row (pt r)) 0 = length (dp_column (pt r))) in Z. rewrite Z.
    unfold slice. cbn [skipn]. rewrite Nat.sub_0_r. symmetry. apply firstn_all.
  Qed.
  Lemma keys_eq r : r < P -> keys dofs us ps r = gkeys grow (stored r).
  Proof.
    intros Hr. unfold keys, entry_keys, gkeys. rewrite <- (flat_map_seq_nth (fun g => map (pair g) (grow g)) (stored r)). apply flat_map_ext_in. intros i Hi. apply in_seq in Hi. rewrite grow_at by (auto; lia). auto.
  Qed.

  (** ** entries as DOFs of a vector *)
  Notation vs_ := (vst st grow). Notation vf := (vfin fin grow). Notation vh := (vhalo halo grow).
  Definition vinfo (r : nat) : uniq_info := {| u_nhalo := length (vh r); u_position := vh r; u_offset := vs_ r; u_size := vf r - vs_ r |}.
  Definition us' : list uniq_info := map vinfo (seq 0 P).
  Lemma us'_len : length us' = P.
  Proof. unfold us'. rewrite map_length, seq_length. auto. Qed.
  Lemma us'_nth r : r < P -> nth r us' no_info = vinfo r.
  Proof. intros H. apply nth_map_seq. auto. Qed.
  Lemma n_stf r : r < P -> st r <= fin r.
  Proof. intros H. apply n_st_fin; auto. rewrite us_len; auto. Qed.
  Lemma n_ord r s : r < s -> s < P -> fin r <= st s.
  Proof. intros H Hs. apply (n_ordered dofs nb us); auto. rewrite us_len; auto. Qed.
  Lemma n_hs r : r < P -> StronglySorted lt (halo r).
  Proof. intros H. apply (n_halo_sorted dofs nb us); auto. rewrite us_len; auto. Qed.
  Lemma n_ho r g : r < P -> In g (halo r) -> exists o, o < r /\ st o <= g < fin o /\ In o (nbr r).
  Proof. intros H Hg. apply (n_halo_owner dofs nb us); auto. rewrite us_len; auto. Qed.
  Lemma n_ns r : r < P -> StronglySorted lt (nbr r).
  Proof. intros H. apply (n_nb_sorted nb us); auto. rewrite us_len; auto. Qed.
  Lemma n_sym r j : r < P -> In j (nbr r) -> j < P /\ j <> r /\ In r (nbr j).
  Proof. intros H Hj. pose proof (n_nb_sym nb us N r j) as Q. rewrite us_len in Q. auto. Qed.
  Lemma numbered' : numbered nb us'.
  Proof.
    constructor.
    - rewrite us'_len. rewrite (nu_length nb us N), us_len. auto.
    - rewrite us'_len. intros r Hr. rewrite !us'_nth by lia. cbn [vinfo u_offset u_size]. pose proof (nu_offsets nb us N r ltac:(rewrite us_len; lia)) as E.
      assert (vf r = vs_ (S r)). { unfold vfin, vst, nfin, nst. f_equal. rewrite E. auto. } pose proof (v_st_fin P st fin n_stf grow r ltac:(lia)). lia.
    - rewrite us'_len. intros r Hr. rewrite us'_nth by lia. unfold halo_nodes. cbn [vinfo u_nhalo u_position]. split; auto. rewrite firstn_all. apply (v_halo_sorted P halo n_hs); auto.
    - rewrite us'_len. intros r e Hr He. rewrite us'_nth in He by lia. unfold halo_nodes in He. cbn [vinfo u_nhalo u_position] in He. rewrite firstn_all in He.
      destruct (v_halo_owner P st fin halo nbr n_ho grow r e Hr He) as (o & L & G & I). exists o. split; auto. split; auto. rewrite us'_nth by lia. unfold owns. cbn [vinfo u_offset u_size]. lia.
    - rewrite us'_len. intros r Hr. apply (n_ns r Hr).
    - rewrite us'_len. intros r j Hr Hj. apply n_sym; auto.
  Qed.
  Lemma stored' r : r < P -> stored_dofs 1 (nth r us' no_info) = map (enc grow) (keys dofs us ps r).
  Proof.
    intros Hr. rewrite keys_eq, gkeys_enc by (auto; apply grow_sorted). rewrite (stored_eq 1 us' Nat.lt_0_1). unfold nhalo, nst, nfin. rewrite us'_nth by auto. cbn [vinfo u_offset u_size]. unfold halo_nodes. cbn [vinfo u_nhalo u_position]. rewrite firstn_all.
    rewrite <- sdofs_eq by auto. unfold sdofs. rewrite flat_map_app. f_equal.
    - unfold node_dofs. unfold vhalo. rewrite (flat_map_ext_in _ (fun n => [n])); [|intros; cbn; f_equal; lia]. generalize (flat_map (ent grow) (halo r)). induction l; simpl; f_equal; auto.
    - rewrite ent_seq. pose proof (n_stf r Hr). pose proof (v_st_fin P st fin n_stf grow r Hr). unfold vst, vfin in *. rewrite !Nat.mul_1_l. f_equal. replace (st r + (fin r - st r)) with (fin r) by lia. lia.
  Qed.
  Lemma key_ok r x : r < P -> In x (keys dofs us ps r) -> okey grow x.
  Proof. intros Hr H. rewrite keys_eq in H by auto. apply gkeys_ok in H. tauto. Qed.

  Section Calls.
    Context {T : Type} (zero : T) (add : T -> T -> T).
    Lemma is_matrix_vector (vs : list (list T)) : is_matrix us ps vs <-> is_vector 1 us' vs.
    Proof.
      assert (Q : forall r, r < P -> length (stored_dofs 1 (nth r us' no_info)) = length (dp_column (nth r ps no_pattern))).
      { intros r Hr. change (nth r ps no_pattern) with (pt r). rewrite stored', map_length, keys_eq, pt_col', sdofs_eq by auto. apply flat_map_length_eq. intros. apply map_length. }
      unfold is_matrix, is_vector. rewrite us_len, us'_len. split; intros [L H]; split; auto; intros r Hr; specialize (H r Hr); rewrite H, Q; auto.
    Qed.
    Lemma has_entry_value vs r g c x : has_entry dofs us ps vs r g c x -> has_value 1 us' vs r (enc grow (g, c)) x (T := T) /\ okey grow (g, c).
    Proof.
      intros (Hr & k & H1 & H2). rewrite us_len in Hr. split; [|apply (key_ok r); auto; eapply nth_error_In; eauto]. split; [rewrite us'_len; auto|]. exists k. split; auto. rewrite stored' by auto. apply map_nth_error. auto.
    Qed.
    Lemma has_value_entry vs r g c x : okey grow (g, c) -> has_value 1 us' vs r (enc grow (g, c)) x -> has_entry dofs us ps vs r g c x (T := T).
    Proof.
      intros Ok (Hr & k & H1 & H2). rewrite us'_len in Hr. split; [rewrite us_len; auto|]. exists k. split; auto. rewrite stored' in H1 by auto.
      destruct (nth_error (keys dofs us ps r) k) as [y|] eqn:E; [|exfalso; apply nth_error_None in E; assert (k < length (map (enc grow) (keys dofs us ps r))) by (apply nth_error_Some; congruence); rewrite map_length in H; lia].
      rewrite (map_nth_error _ _ _ E) in H1. inversion H1 as [Q]. f_equal. apply (enc_inj grow); auto. apply (key_ok r); auto. eapply nth_error_In; eauto.
    Qed.
    Lemma entry_values_eq (vs : list (list T)) g c : okey grow (g, c) -> entry_values dofs us ps vs g c = values 1 us' vs (enc grow (g, c)).
    Proof.
      intros Ok. unfold entry_values, values. rewrite us_len, us'_len. apply flat_map_ext_in. intros r Hr. apply in_seq in Hr. rewrite stored' by lia. apply (filter_enc grow (g, c)); auto. intros y Hy. apply (key_ok r); auto; lia.
    Qed.
    Lemma owner_eq r g c : okey grow (g, c) -> (owner 1 us' r (enc grow (g, c)) <-> owner dofs us r g).
    Proof.
      intros Ok. pose proof (enc_range grow (g, c) Ok) as R. cbn [fst] in R. assert (LT : forall a b, rowptr grow a < rowptr grow b -> a < b). { intros a b H. destruct (Nat.lt_ge_cases a b) as [|G]; auto. pose proof (rowptr_mono grow b a G). lia. }
      pose proof (Nat.div_mod g dofs ltac:(lia)). pose proof (Nat.mod_upper_bound g dofs ltac:(lia)).
      assert (Q : forall r, r < P -> (st r <= g < fin r <-> owner dofs us r g)) by (intros s Hs; apply n_own; auto; rewrite us_len; auto).
      split.
      - intros (Hr & O). rewrite us'_len in Hr. rewrite us'_nth, Nat.div_1_r in O by auto. unfold owns in O. cbn [vinfo u_offset u_size] in O. apply Q; auto. unfold vst, vfin in O.
        assert (st r < S g) by (apply LT; lia). assert (g < fin r) by (apply LT; lia). lia.
      - intros O. assert (Hr : r < P) by (destruct O; rewrite us_len in *; auto). apply Q in O; auto. split; [rewrite us'_len; auto|]. rewrite us'_nth, Nat.div_1_r by auto. unfold owns. cbn [vinfo u_offset u_size]. unfold vst, vfin.
        pose proof (rowptr_mono grow (st r) g ltac:(lia)). pose proof (rowptr_mono grow (S g) (fin r) ltac:(lia)). lia.
    Qed.
    Lemma ready_ext r (y : sync_data T) : r < P -> ready vs_ vf vh nbr r y -> ready (nst 1 us') (nfin 1 us') (nhalo 1 us') nbr r y.
    Proof.
      intros Hr [R1 R2 R3 R4 R5].
      assert (A : forall s, s < P -> nst 1 us' s = vs_ s) by (intros s Hs; unfold nst at 1; rewrite us'_nth, Nat.mul_1_l by auto; auto).
      assert (B : forall s, s < P -> nfin 1 us' s = vf s). { intros s Hs; unfold nfin at 1; rewrite us'_nth, Nat.mul_1_l by auto. cbn [vinfo u_offset u_size]. pose proof (v_st_fin P st fin n_stf grow s Hs). lia. }
      assert (C : forall s, s < P -> nhalo 1 us' s = vh s).
      { intros s Hs. unfold nhalo at 1. unfold halo_nodes. rewrite us'_nth by auto. cbn [vinfo u_nhalo u_position]. rewrite firstn_all. unfold node_dofs. rewrite (flat_map_ext_in _ (fun n => [n])); [|intros; cbn; f_equal; lia]. generalize (vh s). induction l; simpl; f_equal; auto. }
      assert (J : forall j, In j (nbr r) -> j < P) by (intros j Hj; apply (n_sym r j Hr Hj)).
      assert (SB : forall s j, s < P -> j < P -> sbuf (nst 1 us') (nfin 1 us') (nhalo 1 us') s j = sbuf vs_ vf vh s j).
      { intros s j Hs Hj. unfold sbuf, seg. rewrite C by auto. destruct (j <? s); auto. apply filter_ext. intros e. unfold owned. rewrite A, B by auto. auto. }
      constructor; auto.
      - rewrite R2. apply map_ext_in. intros j Hj. assert (j < P). { apply J. rewrite <- (firstn_skipn (leading r (nbr r)) (nbr r)). apply in_or_app. auto. } unfold off. rewrite A, C by auto. auto.
      - rewrite R3. apply map_ext_in. intros j Hj. rewrite SB by auto. apply map_ext. intros e. unfold lpos. rewrite A, C by auto. auto.
      - rewrite R4. apply map_ext_in. intros j Hj. rewrite SB by auto. auto.
      - rewrite R5. apply map_ext_in. intros j Hj. rewrite SB by auto. auto.
    Qed.
    Lemma ps_map : ps = map pt (seq 0 P).
    Proof. apply list_as_map. auto. Qed.
    Lemma minit_ready : exists ds ys, decompose dofs nb us = Ok ds /\ minit zero ds ps = Ok ys /\ Ready 1 nb us' ys.
    Proof.
      destruct (minit_ok P st fin halo nbr n_stf n_ord n_hs n_ho n_ns n_sym grow grow_sorted pt pt_len' pt_row' pt_col' zero) as (ys & E & L & R).
      eexists; exists ys. split; [apply (decompose_ok dofs nb us dofs_pos N)|]. rewrite us_len, ps_map. split; [exact E|]. split; [rewrite us'_len; auto|]. rewrite us'_len. intros r Hr. apply ready_ext; auto.
    Qed.
    Lemma gathers_ok Ms ys : Ready 1 nb us' ys -> Forall (is_matrix us ps) Ms -> exists ys', gather_matrices add Ms ys = Ok ys' /\ Ready 1 nb us' (T := T) ys'.
    Proof.
      intros R F. destruct (run_calls_ok 1 nb us' Nat.lt_0_1 numbered' zero add (map (fun vs => (Gather, vs)) Ms) ys R) as (ys' & E & R').
      { apply Forall_forall. intros x Hx. apply in_map_iff in Hx. destruct Hx as (vs & <- & Hv). cbn [snd]. rewrite Forall_forall in F. apply is_matrix_vector; auto. }
      exists ys'. split; auto. rewrite <- E. unfold run_calls, gather_matrices. clear. revert ys. induction Ms as [|vs Ms IH]; intros ys; auto. cbn [map foldM fst snd run_call]. unfold gather_matrix at 1. destruct (gather_from_upper add (ys, vs)) as [[ys1 vs1]| |]; auto. cbn [obind]. apply IH.
    Qed.
    Lemma gather_entries ys vs : Ready 1 nb us' ys -> is_matrix us ps vs -> exists ys' vs', gather_matrix add (ys, vs) = Ok (ys', vs') /\ is_matrix us ps vs' /\
      forall r g c x, has_entry dofs us ps vs' r g c x -> (owner dofs us r g -> x = total zero add (entry_values dofs us ps vs g c)) /\ (~ owner dofs us r g -> has_entry dofs us ps vs r g c x (T := T)).
    Proof.
      intros R V. apply is_matrix_vector in V. destruct (gather_call 1 nb us' Nat.lt_0_1 numbered' zero add ys vs R V) as (ys' & vs' & ES & _ & V' & G1 & G2). exists ys', vs'. split; auto. split; [apply is_matrix_vector; auto|].
      intros r g c x H. destruct (has_entry_value _ _ _ _ _ H) as [HV Ok]. rewrite (entry_values_eq vs g c Ok), <- (owner_eq r g c Ok).
      destruct (has_value_cases 1 nb us' Nat.lt_0_1 numbered' zero vs' r _ x V' HV) as (Hr & [(p & o & Hp & E & -> & Lo & G)|(G & ->)]).
      - split.
        + intros O. apply (n_own 1 us' Nat.lt_0_1) in O; auto. pose proof (n_ordered 1 nb us' Nat.lt_0_1 numbered' o r Lo Hr). lia.
        + intros _. apply has_value_entry; auto. rewrite G2 by auto. rewrite E. apply (has_value_halo 1 us' Nat.lt_0_1); auto.
      - split; [intros _; apply G1; auto|]. intros O. exfalso. apply O. apply (n_own 1 us' Nat.lt_0_1); auto.
    Qed.
  End Calls.
End Mesh.
