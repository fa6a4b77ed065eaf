(** * Lemmas on the couplings collected by the ranks *)
From Coq Require Import List Arith Bool Lia Sorted.
From Verif Require Import Base M_Assembly M_Distributed S_Distributed M_DistMatrix S_DistMatrix S_Order L_Equality L_TotalFeti L_ProjectorGGt L_Numbering L_Pattern L_Pattern2 L_Pattern4 L_Distributed L_Distributed2 L_DistMatrix.
Import ListNotations.
Local Open Scope out_scope.

Lemma at_pos_flat {A T} p (f : A -> list (nat * T)) l : at_pos p (flat_map f l) = flat_map (fun a => at_pos p (f a)) l.
Proof. induction l as [|a l IH]; cbn [flat_map]; auto. rewrite at_pos_app, IH. auto. Qed.
Lemma at_pos_pair {T} p q (l : list T) : at_pos p (map (pair q) l) = if q =? p then l else [].
Proof. unfold at_pos. induction l as [|a l IH]; cbn [map filter fst]; [destruct (q =? p); auto|]. destruct (q =? p); cbn [map snd]; congruence. Qed.
Definition memb (n : nat) (l : list nat) : bool := existsb (Nat.eqb n) l.
Lemma at_pos_own {T} (f : nat -> T) n l : NoDup l -> at_pos n (map (fun k => (k, f k)) l) = if memb n l then [f n] else [].
Proof.
  unfold at_pos. induction 1 as [|a l N ND IH]; cbn [map filter fst memb existsb]; auto. unfold memb in *. cbn [existsb]. rewrite (Nat.eqb_sym n a). destruct (Nat.eqb_spec a n) as [->|Q]; cbn [orb map snd]; auto.
  rewrite IH. destruct (existsb (Nat.eqb n) l) eqn:X; auto. exfalso. apply N. apply existsb_exists in X. destruct X as (y & Hy & Ey). apply Nat.eqb_eq in Ey. subst; auto.
Qed.
Lemma ss_le_filter l p : StronglySorted lt l -> StronglySorted lt (filter p l).
Proof. apply ss_filter. Qed.
Lemma filter_ne_length e n : NoDup e -> In n e -> length (filter (fun t => negb (n =? t)) e) = length e - 1.
Proof.
  induction 1 as [|a e N ND IH]; [simpl; tauto|]. intros H. cbn [filter length]. destruct (Nat.eqb_spec n a) as [->|Q]; cbn [negb].
  - assert (forall l, ~ In a l -> filter (fun t => negb (a =? t)) l = l) as F. { induction l as [|b l IHl]; auto. intros Hn. cbn [filter]. destruct (Nat.eqb_spec a b) as [->|]; [exfalso; apply Hn; left; auto|]. cbn [negb]. rewrite IHl; auto. intros C; apply Hn; right; auto. }
    rewrite F by auto. lia.
  - destruct H as [->|H]; [congruence|]. cbn [length]. rewrite IH by auto. destruct e; [simpl in H; tauto|]. simpl; lia.
Qed.
Lemma flat_map_single {A B} (f : A -> B) l : flat_map (fun a => [f a]) l = map f l.
Proof. induction l; simpl; congruence. Qed.
Lemma offsets_last s l x y : offsets s (l ++ [x]) = offsets s (l ++ [y]).
Proof. revert s; induction l as [|a l IH]; intros s; simpl; auto. rewrite IH; auto. Qed.

Section Mesh.
  Context (nb : list (list nat)) (ms : list mesh_part) (DM : distributed_mesh nb ms).
  Local Notation P := (length ms).
  Definition part (r : nat) : mesh_part := nth r ms no_part.
  Definition nbr (r : nat) : list nat := nth r nb [].
  Definition nn (r : nat) : nat := length (mp_ranks (part r)).
  Definition ups (r : nat) : list nat := u_position (mp_info (part r)).
  Definition npos (r n : nat) : nat := node_of (part r) n.
  Definition loc (r p : nat) : nat := find_rank p (ups r).
  Definition SH (r : nat) : list (nat * nat) := shared r (mp_ranks (part r)).

  Lemma part_in r : r < P -> In (part r) ms.
  Proof. intros; apply nth_In; auto. Qed.
  Lemma info_nth r : r < P -> nth r (map mp_info ms) no_info = mp_info (part r).
  Proof. intros H. apply (nth_map mp_info ms r no_info no_part); auto. Qed.
  Lemma nb_length : length nb = P.
  Proof. rewrite (nu_length _ _ (dm_numbered _ _ DM)), map_length. auto. Qed.
  Lemma nbr_sorted r : r < P -> StronglySorted lt (nbr r).
  Proof. intros H. apply (nu_sorted _ _ (dm_numbered _ _ DM)). rewrite map_length; auto. Qed.
  Lemma nbr_nodup r : r < P -> NoDup (nbr r).
  Proof. intros; apply ss_nodup, nbr_sorted; auto. Qed.
  Lemma nbr_sym r j : r < P -> In j (nbr r) -> j < P /\ j <> r /\ In r (nbr j).
  Proof. intros H Hj. pose proof (nu_symmetric _ _ (dm_numbered _ _ DM) r j) as Q. rewrite map_length in Q. apply Q; auto. Qed.

  Lemma ups_length r : r < P -> length (ups r) = nn r.
  Proof. intros H. symmetry. apply (dm_length _ _ DM), part_in; auto. Qed.
  Lemma offset_order o r : o < r -> r < P -> u_offset (mp_info (part o)) + u_size (mp_info (part o)) <= u_offset (mp_info (part r)).
  Proof.
    intros H Hr. induction r as [|r IH]; [lia|]. pose proof (nu_offsets _ _ (dm_numbered _ _ DM) r) as Q. rewrite map_length in Q. specialize (Q Hr). rewrite !info_nth in Q by lia.
    destruct (Nat.eq_dec o r) as [->|]; [lia|]. specialize (IH ltac:(lia) ltac:(lia)). lia.
  Qed.
  Lemma ups_sorted r : r < P -> StronglySorted lt (ups r).
  Proof.
    intros H. unfold ups. rewrite (dm_position _ _ DM _ (part_in r H)). pose proof (nu_halo _ _ (dm_numbered _ _ DM) r) as Q. rewrite map_length in Q. specialize (Q H). rewrite info_nth in Q by auto.
    apply ss_app_lt; [tauto|apply ss_seq|]. intros x y Hx Hy. apply in_seq in Hy.
    destruct (nu_owner _ _ (dm_numbered _ _ DM) r x) as (o & Ho & Ow & _); [rewrite map_length; auto|rewrite info_nth; auto|]. rewrite info_nth in Ow by lia. unfold owns in Ow. pose proof (offset_order o r Ho H). lia.
  Qed.
  Lemma ups_nodup r : r < P -> NoDup (ups r).
  Proof. intros; apply ss_nodup, ups_sorted; auto. Qed.
  Lemma npos_in r n : r < P -> n < nn r -> In (npos r n) (ups r).
  Proof. intros H Hn. apply nth_In. fold (ups r). rewrite ups_length; auto. Qed.
  Lemma loc_npos r n : r < P -> n < nn r -> loc r (npos r n) = n.
  Proof. intros H Hn. apply (find_rank_nth (ups r) (ups_nodup r H)). rewrite ups_length; auto. Qed.
  Lemma npos_loc r p : r < P -> In p (ups r) -> npos r (loc r p) = p /\ loc r p < nn r.
  Proof. intros H Hp. destruct (find_rank_in p (ups r) Hp) as [A B]. split; [exact B|]. rewrite ups_length in A; auto. Qed.
  Lemma npos_mono r a b : r < P -> a < b < nn r -> npos r a < npos r b.
  Proof. intros H Hab. apply (ss_nth (ups r) (ups_sorted r H)). rewrite ups_length; auto. Qed.

  Lemma in_SH r n s : r < P -> (In (n, s) (SH r) <-> n < nn r /\ s < P /\ s <> r /\ In (npos r n) (ups s)).
  Proof.
    intros H. unfold SH, shared. rewrite in_flat_map. split.
    - intros (k & Hk & Hs). apply in_map_iff in Hs. destruct Hs as (s' & Es & Hs). inversion Es; subst k s'; clear Es. apply in_seq in Hk. apply filter_In in Hs. destruct Hs as [Hs Ne].
      apply (dm_ranks _ _ DM _ n s (part_in r H)) in Hs; [|lia]. destruct (Nat.eqb_spec s r); [discriminate|]. unfold nn, ups, npos, part in *. repeat split; try tauto; lia.
    - intros (Hn & Hs & Ne & Hin). exists n. split; [apply in_seq; unfold nn in Hn; lia|]. apply in_map_iff. exists s; split; auto. apply filter_In. split.
      + apply (dm_ranks _ _ DM _ n s (part_in r H)); auto.
      + destruct (Nat.eqb_spec s r); auto.
  Qed.
  Lemma SH_nb r x : r < P -> In x (SH r) -> In (snd x) (nbr r).
  Proof.
    intros H Hx. destruct x as [n s]. pose proof (proj1 (in_SH r n s H) Hx) as (Hn & Hs & Ne & Hin). apply (dm_neighbours _ _ DM r n s); auto.
    apply (dm_ranks _ _ DM _ n s (part_in r H)); auto.
  Qed.
  Lemma pick_sorted r j : r < P -> StronglySorted lt (pick j (SH r)).
  Proof.
    intros H. unfold pick, SH, shared. rewrite filter_flat_map. assert (G : forall l, StronglySorted lt l -> (forall n, In n l -> n < nn r) ->
      StronglySorted lt (map fst (flat_map (fun n => filter (fun x => snd x =? j) (map (fun s => (n, s)) (others r (nth n (mp_ranks (part r)) [])))) l))).
    { induction 1 as [|a l S IH F]; intros Hl; [constructor|]. cbn [flat_map]. rewrite map_app.
      assert (X : forall rs, NoDup rs -> map fst (filter (fun x : nat * nat => snd x =? j) (map (fun s => (a, s)) rs)) = if memb j rs then [a] else []).
      { induction 1 as [|b rs N ND IHr]; cbn [map filter snd]; auto. unfold memb in *; cbn [existsb]. rewrite (Nat.eqb_sym j b). destruct (Nat.eqb_spec b j) as [->|]; cbn [orb map fst]; auto.
        rewrite IHr. destruct (existsb (Nat.eqb j) rs) eqn:Q; auto. exfalso; apply N. apply existsb_exists in Q. destruct Q as (y & Hy & Ey). apply Nat.eqb_eq in Ey; subst; auto. }
      rewrite X; [|apply NoDup_filter, ss_nodup, (dm_sorted _ _ DM _ a (part_in r H)), Hl; left; auto]. clear X.
      apply ss_app_lt; [destruct (memb j _); repeat constructor|apply IH; intros; apply Hl; right; auto|].
      intros x y Hx Hy. assert (x = a) by (destruct (memb j _); simpl in Hx; tauto || (destruct Hx; [auto|tauto])). subst x.
      apply in_map_iff in Hy. destruct Hy as ([y' s'] & Ey & Hy). simpl in Ey; subst y'. apply in_flat_map in Hy. destruct Hy as (k & Hk & Hy). apply filter_In in Hy. destruct Hy as [Hy _]. apply in_map_iff in Hy. destruct Hy as (s'' & Es & _). inversion Es; subst.
      rewrite Forall_forall in F. apply F; auto. }
    apply G; [apply ss_seq|]. intros n Hn. apply in_seq in Hn. unfold nn; lia.
  Qed.
  Lemma in_pick r j n : r < P -> (In n (pick j (SH r)) <-> n < nn r /\ j < P /\ j <> r /\ In (npos r n) (ups j)).
  Proof.
    intros H. unfold pick. rewrite in_map_iff. rewrite <- in_SH by auto. split.
    - intros ([n' s] & E & Hx). apply filter_In in Hx. destruct Hx as [Hx Q]. apply Nat.eqb_eq in Q. simpl in *; subst; auto.
    - intros Hx. exists (n, j). split; auto. apply filter_In. split; auto. apply Nat.eqb_refl.
  Qed.
  (** both ranks go through the shared nodes in the same order *)
  Lemma pick_same r j : r < P -> j < P -> j <> r -> pick r (SH j) = map (fun n => loc j (npos r n)) (pick j (SH r)).
  Proof.
    intros Hr Hj Ne. apply ss_ext; [apply pick_sorted; auto| |].
    - assert (G : forall l, StronglySorted lt l -> (forall n, In n l -> n < nn r /\ In (npos r n) (ups j)) -> StronglySorted lt (map (fun n => loc j (npos r n)) l)).
      { induction 1 as [|a l S IH F]; intros Hl; [constructor|]. cbn [map]. constructor; [apply IH; intros; apply Hl; right; auto|]. apply Forall_forall. intros y Hy. apply in_map_iff in Hy. destruct Hy as (b & <- & Hb).
        rewrite Forall_forall in F. specialize (F b Hb). destruct (Hl a (or_introl eq_refl)) as [A1 A2]. destruct (Hl b (or_intror Hb)) as [B1 B2].
        destruct (npos_loc j _ Hj A2) as [EA LA]. destruct (npos_loc j _ Hj B2) as [EB LB]. pose proof (npos_mono r a b Hr ltac:(lia)) as M.
        destruct (Nat.lt_trichotomy (loc j (npos r a)) (loc j (npos r b))) as [Q|[Q|Q]]; auto; [rewrite Q in EA; lia|pose proof (npos_mono j _ _ Hj (conj Q LA)); lia]. }
      apply G; [apply pick_sorted; auto|]. intros n Hn. apply in_pick in Hn; tauto.
    - intros n. rewrite in_pick by auto. rewrite in_map_iff. split.
      + intros (Hn & _ & _ & Hin). destruct (npos_loc r _ Hr Hin) as [E L]. exists (loc r (npos j n)). rewrite E. split; [apply loc_npos; auto|]. apply in_pick; auto. rewrite E. repeat split; auto. apply npos_in; auto.
      + intros (k & <- & Hk). apply in_pick in Hk; auto. destruct Hk as (K1 & K2 & K3 & K4). destruct (npos_loc j _ Hj K4) as [E L]. rewrite E. repeat split; auto. apply npos_in; auto.
  Qed.

  (** ** the pushes *)
  Definition PD (r : nat) : list (nat * nat) := map (fun n => (n, npos r n)) (seq 0 (nn r)).
  Definition PE1 (r : nat) (e : list nat) : list (nat * nat) := flat_map (fun from => map (fun to => (from, npos r to)) (filter (fun to => negb (from =? to)) e)) e.
  Definition PE (r : nat) : list (nat * nat) := flat_map (PE1 r) (mp_elements (part r)).
  (** what the rank [j] sends for the node [n] of the rank [r] *)
  Definition G (r j n : nat) : list nat := at_pos (loc j (npos r n)) (PE j).
  Definition PR (r : nat) : list (nat * nat) := flat_map (fun x => map (pair (fst x)) (G r (snd x) (fst x))) (SH r).
  Definition pushes (r : nat) : list (nat * nat) := PD r ++ PE r ++ PR r.
  Definition counts (r : nat) : list nat := map (fun n => length (at_pos n (pushes r))) (seq 0 (nn r)).

  Lemma element_ok r e : r < P -> In e (mp_elements (part r)) -> NoDup e /\ forall n, In n e -> n < nn r.
  Proof. intros H He. apply (dm_elements _ _ DM _ e (part_in r H) He). Qed.
  Lemma PE1_count r e n : r < P -> In e (mp_elements (part r)) -> length (at_pos n (PE1 r e)) = list_sum (at_pos n (map (fun n => (n, length e - 1)) e)).
  Proof.
    intros H He. destruct (element_ok r e H He) as [ND _]. rewrite at_pos_own by auto. unfold PE1. rewrite at_pos_flat.
    assert (X : forall l, NoDup l -> flat_map (fun from => at_pos n (map (fun to => (from, npos r to)) (filter (fun to => negb (from =? to)) e))) l = if memb n l then map (npos r) (filter (fun to => negb (n =? to)) e) else []).
    { assert (X0 : forall from l, at_pos n (map (fun to => (from, npos r to)) l) = if from =? n then map (npos r) l else []). { intros from l. rewrite <- (map_map (npos r) (pair from)). apply at_pos_pair. }
      induction 1 as [|a l N NDl IH]; auto. cbn [flat_map]. rewrite X0, IH. unfold memb; cbn [existsb]. rewrite (Nat.eqb_sym n a). destruct (Nat.eqb_spec a n) as [->|]; cbn [orb]; auto.
      destruct (existsb (Nat.eqb n) l) eqn:Q; [|apply app_nil_r]. exfalso; apply N. apply existsb_exists in Q. destruct Q as (y & Hy & Ey). apply Nat.eqb_eq in Ey; subst; auto. }
    rewrite X by auto. destruct (memb n e) eqn:Q; auto. rewrite map_length. unfold memb in Q. apply existsb_exists in Q. destruct Q as (y & Hy & Ey). apply Nat.eqb_eq in Ey; subst y.
    rewrite filter_ne_length by auto. simpl; lia.
  Qed.
  Lemma count_ok r : r < P -> exists b, count_couplings (part r) = Ok b /\ length b = nn r + 1 /\ forall n, n < nn r -> nth n b 0 = 1 + length (at_pos n (PE r)).
  Proof.
    intros H. unfold count_couplings.
    destruct (accumulate Nat.add 0 (flat_map (fun e => map (fun n => (n, length e - 1)) e) (mp_elements (part r))) (repeat 1 (nn r + 1))) as (b & E & L & V).
    { intros x Hx. apply in_flat_map in Hx. destruct Hx as (e & He & Hx). apply in_map_iff in Hx. destruct Hx as (n & <- & Hn). cbn [fst]. rewrite repeat_length. pose proof (proj2 (element_ok r e H He) n Hn). lia. }
    exists b. rewrite repeat_length in *. split; [|split]; auto.
    - rewrite <- E, foldM_flat. apply foldM_ext_in. intros s e _. rewrite <- foldM_map'. reflexivity.
    - intros n Hn. rewrite V by lia. rewrite fold_add. rewrite (nth_indep _ 0 1), nth_repeat by (rewrite repeat_length; lia). f_equal. unfold PE. rewrite !at_pos_flat.
      assert (X : forall l, (forall e, In e l -> In e (mp_elements (part r))) -> list_sum (flat_map (fun a => at_pos n (map (fun n => (n, length a - 1)) a)) l) = length (flat_map (fun a => at_pos n (PE1 r a)) l)).
      { induction l as [|e l IH]; intros Hl; auto. cbn [flat_map]. rewrite list_sum_app', app_length, IH by (intros; apply Hl; right; auto). rewrite PE1_count; auto. apply Hl; left; auto. }
      apply X; auto.
  Qed.
End Mesh.
