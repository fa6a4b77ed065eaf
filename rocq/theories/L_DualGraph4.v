(** * Lemmas: the vertices of the graph of domains *)
From Coq Require Import List Arith Lia Bool.
From Verif Require Import Base S_Order M_Utils P_Utils M_Nb S_Nb M_Exchange P_Exchange M_Dual S_Dual L_Dual L_Dual2 L_Dual3 L_Dual4 M_DualGraph S_DualGraph L_DualGraph L_DualGraph2 L_DualGraph3.
Import ListNotations.
Local Open Scope out_scope.

(** ** Multipliers of a vertex *)
Definition idx_expand (l : list (nat * nat * list nat)) : list (nat * list nat) := flat_map (fun i => map (fun p => (p, snd i)) (seq (fst (fst i)) (snd (fst i)))) l.
Section Indices.
  Variables (L : list (list nat)) (lw : list nat -> list nat) (d : nat).
  Definition idx (gs : list (nat * (list nat * list nat))) : list (nat * nat * list nat) :=
    flat_map (fun og => if member d (snd (snd og)) then [(fst og, length (fst (snd og)), lw (snd (snd og)))] else []) gs.
  Lemma fold_lambdas gs v :
    let v' := fold_left (fun v f => f v) (flat_map (fun og => if member d (snd (snd og)) then [with_lambdas (fst og) (length (fst (snd og))) (lw (snd (snd og)))] else []) gs) v in
    v_offset v' = v_offset v /\ v_rank v' = v_rank v /\ v_goffset v' = v_goffset v /\ v_ksize v' = v_ksize v /\
    v_indices v' = v_indices v ++ idx gs /\ v_total v' = v_total v + length (idx_expand (idx gs)).
  Proof.
    cbv zeta. revert v. induction gs as [|(o, (ms, ds)) gs IH]; intros v; cbn [flat_map fold_left idx].
    - rewrite app_nil_r. repeat split; auto.
    - cbn [fst snd]. destruct (member d ds); cbn [app fold_left]; [|apply IH]. specialize (IH (with_lambdas o (length ms) (lw ds) v)). destruct IH as (I1 & I2 & I3 & I4 & I5 & I6). rewrite I1, I2, I3, I4, I5, I6. cbn [with_lambdas v_offset v_rank v_goffset v_ksize v_indices v_total].
      repeat split; auto; [rewrite <- app_assoc; reflexivity|]. change (flat_map (fun og => if member d (snd (snd og)) then [(fst og, length (fst (snd og)), lw (snd (snd og)))] else []) gs) with (idx gs).
      unfold idx_expand. cbn [flat_map fst snd]. rewrite app_length, map_length, seq_length. lia.
  Qed.
  Lemma combine_app_seq {A} (a b : list A) o : combine (seq o (length (a ++ b))) (a ++ b) = combine (seq o (length a)) a ++ combine (seq (o + length a) (length b)) b.
  Proof. revert o; induction a as [|x a IH]; intros o; cbn [app length seq combine]; [now rewrite Nat.add_0_r|]. rewrite IH. f_equal. f_equal. f_equal. f_equal. lia. Qed.
  Lemma idx_members gs : (forall g m, In g gs -> In m (fst g) -> domains L m = snd g) -> forall o,
    idx_expand (idx (gann o gs)) = map (fun pm => (fst pm, lw (domains L (snd pm)))) (filter (fun pm => member d (domains L (snd pm))) (combine (seq o (length (ids gs))) (ids gs))).
  Proof.
    induction gs as [|(ms, ds) gs IH]; intros H o; [reflexivity|]. cbn [gann idx flat_map fst snd]. fold (idx (gann (o + length ms) gs)). unfold ids. cbn [flat_map fst].
    rewrite combine_app_seq, filter_app, map_app. unfold idx_expand. rewrite flat_map_app. f_equal; [|apply IH; intros; eapply H; eauto; right; auto]. clear IH.
    assert (Hm : forall m, In m ms -> domains L m = ds) by (intros m Hm; apply (H (ms, ds)); auto; left; auto). clear H. revert o Hm. induction ms as [|m ms IH]; intros o Hm.
    - destruct (member d ds); reflexivity.
    - cbn [length seq combine filter snd]. rewrite (Hm m) by (left; auto). specialize (IH (S o) ltac:(intros; apply Hm; right; auto)). destruct (member d ds) eqn:E; cbn [flat_map app map fst snd seq] in *.
      + rewrite (Hm m) by (left; auto). f_equal. exact IH.
      + exact IH.
  Qed.
End Indices.

(** ** The vertices pushed before the call *)
Section Base.
  Variables (n : nat) (first : nat -> nat) (L : list (list nat)) (ksize : nat -> nat).
  Local Notation first_kernel := (first_kernel first ksize).
  Definition own (r : nat) : list nat := seq (first r) (first (r + 1) - first r).
  Definition pvertex (r d : nat) : vertex := {| v_offset := d - first r; v_rank := 0; v_goffset := 0; v_loffset := 0; v_ksize := ksize d; v_indices := []; v_total := 0 |}.
  Definition base (r d : nat) : vertex := {| v_offset := d - first r; v_rank := r; v_goffset := first_kernel d; v_loffset := 0; v_ksize := ksize d; v_indices := []; v_total := 0 |}.
  Lemma mupd_last {V} (v0 : V) k f m : (forall x, In x (keys m) -> x < k) -> mupd v0 k f m = m ++ [(k, f v0)].
  Proof.
    induction m as [|(j, v) m IH]; intros H; [reflexivity|]. cbn [mupd app]. assert (j < k) by (apply H; left; auto). destruct (Nat.eqb_spec k j); [lia|]. destruct (Nat.ltb_spec k j); [lia|].
    f_equal. apply IH. intros x Hx. apply H. right; auto.
  Qed.
  Lemma pushed_ok r : pushed_vertices first ksize r = map (fun d => (d, pvertex r d)) (own r).
  Proof.
    unfold pushed_vertices, own. induction (first (r + 1) - first r) as [|k IH]; auto. rewrite !seq_S, fold_left_app, map_app, IH. cbn [fold_left map Nat.add]. unfold push_vertex. rewrite mupd_last.
    - f_equal. unfold pvertex, pushed. cbn. do 3 f_equal. lia.
    - intros x Hx. unfold keys in Hx. rewrite map_map in Hx. cbn [fst] in Hx. rewrite map_id in Hx. apply in_seq in Hx. lia.
  Qed.
  Lemma first_kernel_S d : first 0 <= d -> first_kernel (S d) = first_kernel d + ksize d.
  Proof. intros H. unfold S_DualGraph.first_kernel. replace (S d - first 0) with (S (d - first 0)) by lia. rewrite seq_S, map_app, list_sum_app. replace (first 0 + (d - first 0)) with d by lia. cbn. lia. Qed.
  Lemma goffsets_ok r k : forall b, first 0 <= b -> set_goffsets r (first_kernel b) (map (fun d => (d, pvertex r d)) (seq b k)) = map (fun d => (d, base r d)) (seq b k).
  Proof.
    induction k as [|k IH]; intros b H; cbn [seq map set_goffsets]; auto. f_equal. rewrite <- IH by lia. cbn [v_ksize pvertex]. now rewrite first_kernel_S.
  Qed.
  Lemma base_ok r : first 0 <= first r -> set_goffsets r (first_kernel (first r)) (pushed_vertices first ksize r) = map (fun d => (d, base r d)) (own r).
  Proof. intros H. rewrite pushed_ok. now apply goffsets_ok. Qed.
  Lemma base_keys r : keys (map (fun d => (d, base r d)) (own r)) = own r.
  Proof. unfold keys. rewrite map_map. cbn [fst]. apply map_id. Qed.
  Lemma base_got r d : In d (own r) -> got vertex0 (map (fun d => (d, base r d)) (own r)) d = base r d.
  Proof.
    intros H. unfold got. rewrite (in_mget _ d (base r d)); auto; [rewrite base_keys; apply incr_seq|]. apply in_map_iff. eauto.
  Qed.
End Base.

(** received vertices: every operation writes the same data *)
Lemma fold_placed q g s (fs : list (vertex -> vertex)) : (forall f, In f fs -> f = placed q g s) -> fs <> [] -> forall v,
  let v' := fold_left (fun v f => f v) fs v in
  v_offset v' = v_offset v /\ v_rank v' = q /\ v_goffset v' = g /\ v_ksize v' = s /\ v_indices v' = v_indices v /\ v_total v' = v_total v.
Proof.
  cbv zeta. destruct fs as [|f fs]; [congruence|]. intros H _ v. cbn [fold_left]. rewrite (H f) by (left; auto).
  assert (G : forall fs v, (forall f, In f fs -> f = placed q g s) -> let v' := fold_left (fun v f => f v) fs (placed q g s v) in
    v_offset v' = v_offset v /\ v_rank v' = q /\ v_goffset v' = g /\ v_ksize v' = s /\ v_indices v' = v_indices v /\ v_total v' = v_total v).
  { clear. cbv zeta. induction fs as [|f fs IH]; intros v H; cbn [fold_left]; [cbn; repeat split; auto|]. rewrite (H f) by (left; auto).
    specialize (IH (placed q g s v) ltac:(intros; apply H; right; auto)). cbn [placed v_offset v_indices v_total] in IH. exact IH. }
  apply G. intros; apply H; right; auto.
Qed.
Lemma on_key_in {V} k f (ops : list (nat * (V -> V))) : In f (on_key k ops) <-> In (k, f) ops.
Proof.
  unfold on_key. rewrite in_map_iff. split.
  - intros ((x, g) & <- & H). apply filter_In in H. destruct H as (H & E). cbn [fst snd] in *. apply Nat.eqb_eq in E. now subst.
  - intros H. exists (k, f). split; auto. apply filter_In. split; auto. cbn. apply Nat.eqb_refl.
Qed.

Section Group.
  Variables (n : nat) (first : nat -> nat) (L : list (list nat)) (nb : nat -> list nat) (cmap : nat -> list nat) (ksize : nat -> nat).
  Hypothesis HC : consistent n first L nb cmap.
  Hypothesis HN : forall m, m < length L -> NoDup (domains L m).
  Variable sort : list nat -> list nat.
  Hypothesis HS : sort_contract Nat.ltb sort.
  Local Notation domains := (domains L).
  Local Notation held := (held first L).
  Local Notation mine := (mine first).
  Local Notation first_kernel := (first_kernel first ksize).
  Local Notation glued := (glued L (all_multipliers L)).
  Local Notation own := (own first).

  Lemma own_iff r d : In d (own r) <-> mine r d = true.
  Proof. rewrite (mine_iff first). unfold L_DualGraph4.own. rewrite in_seq. lia. Qed.
  Lemma glued_iff d d' : glued d d' = true <-> exists m, m < length L /\ In d (domains m) /\ In d' (domains m).
  Proof.
    unfold S_DualGraph.glued. rewrite existsb_exists. unfold all_multipliers. split.
    - intros (m & Hm & H). apply in_seq in Hm. apply andb_true_iff in H. rewrite !member_in in H. exists m. split; [lia|auto].
    - intros (m & Hm & H). exists m. rewrite in_seq, andb_true_iff, !member_in. split; [lia|auto].
  Qed.
  Lemma glued_sym d d' : glued d d' = glued d' d.
  Proof. apply eq_iff_eq_true. rewrite !glued_iff. split; intros (m & H1 & H2 & H3); eauto. Qed.
  Lemma held_iff r m : In m (held r) <-> m < length L /\ exists d, In d (domains m) /\ mine r d = true.
  Proof. rewrite (held_in first L r), touches_iff. reflexivity. Qed.

  (** what rank [q] sends to rank [r] *)
  Definition sent (q r : nat) : list (nat * nat * nat) :=
    flat_map (fun d => if existsb (fun d' => glued d d') (own r) then [(d, first_kernel d, ksize d)] else []) (own q).
  Lemma sent_in q r x : In x (sent q r) <-> exists d, In d (own q) /\ (exists d', In d' (own r) /\ glued d d' = true) /\ x = (d, first_kernel d, ksize d).
  Proof.
    unfold sent. rewrite in_flat_map. split.
    - intros (d & Hd & H). destruct (existsb _ _) eqn:E; [|destruct H]. apply existsb_exists in E. destruct H as [<-|[]]. eauto.
    - intros (d & Hd & H & ->). exists d. split; auto. assert (X : existsb (fun d' => glued d d') (own r) = true) by (apply existsb_exists; exact H). rewrite X. left; auto.
  Qed.
  Lemma sent_length q r : length (flat_map triple (sent q r)) <= 3 * length (own q).
  Proof.
    unfold sent. generalize (own q). intros l. induction l as [|d l IH]; [cbn; lia|]. cbn [flat_map]. rewrite flat_map_app, app_length. destruct (existsb _ _); cbn [flat_map triple app length fst snd] in *; lia.
  Qed.

  Section Rank.
    Variable r : nat.
    Hypothesis Hr : r < n.
    Local Notation D := (decomposed first nb r).
    Local Notation vs0 := (map (fun d => (d, base first ksize r d)) (own r)).

    Lemma edges_ok : exists es, set_edges sort (cmap r) = Ok es /\ forall d, mine r d = true -> incr (edges_of es d) /\ forall x, In x (edges_of es d) <-> glued d x = true.
    Proof.
      destruct (groups_of n first L nb cmap HC HN r Hr) as (gs & (G1 & G2) & E & G). rewrite E. destruct (set_edges_ok sort (map block_of gs) HS) as (es & E1 & E2). exists es. split; auto.
      intros d Hd. destruct (E2 d) as (I1 & I2). split; auto. intros x. rewrite I2, glued_iff. split.
      - intros (b & Hb & B1 & B2). apply in_map_iff in Hb. destruct Hb as (g & <- & Hg). destruct (G g Hg) as (F1 & F2 & _). cbn [block_of snd] in *. destruct (fst g) as [|m ms] eqn:Eg; [congruence|].
        destruct (F2 m (or_introl eq_refl)) as (F3 & F4). apply held_iff in F3. exists m. rewrite F4. tauto.
      - intros (m & Hm & M1 & M2). assert (Hh : In m (held r)) by (apply held_iff; split; eauto). rewrite <- G1 in Hh. unfold ids in Hh. apply in_flat_map in Hh. destruct Hh as (g & Hg & Hmg).
        exists (block_of g). split; [now apply in_map|]. cbn [block_of snd]. rewrite <- (G2 g m Hg Hmg). auto.
    Qed.
    Lemma edges_ordered d l : mine r d = true -> incr l -> (forall x, In x l <-> glued d x = true) -> ordered first D l.
    Proof.
      intros Hd I M. split.
      - clear M. induction l as [|x l IH]; cbn in *; auto. split; [|apply IH, I]. intros y Hy. apply (proj1 I) in Hy. lia.
      - intros x Hx. apply M, glued_iff in Hx. destruct Hx as (m & Hm & M1 & M2). apply (proj2 (held_ordered n first L nb cmap HC r Hr m ltac:(apply held_iff; eauto))). exact M2.
    Qed.
    Lemma send_ok es : (forall d, mine r d = true -> incr (edges_of es d) /\ forall x, In x (edges_of es d) <-> glued d x = true) ->
      send_vertices D es vs0 = Ok (map (fun q => flat_map triple (sent r q)) (nb r)).
    Proof.
      intros H. rewrite (send_vertices_ok first D (d_nd first nb r) (d_sep n first L nb cmap HC r Hr) (d_mine n first L nb cmap HC r Hr)).
      - f_equal. rewrite <- (map_nth_seq nb r (fun q => flat_map triple (sent r q))). apply map_ext_in. intros k Hk. apply in_seq in Hk. cbn [neighbors decomposed] in *. f_equal.
        unfold message_of, sent. assert (Hs : forall d, In d (own r) -> mine r d = true) by (intros d; apply own_iff). revert Hs. generalize (own r). intros l Hs. induction l as [|d l IH]; [reflexivity|].
        cbn [map flat_map fst snd]. rewrite IH by (intros; apply Hs; right; auto). f_equal.
        assert (E : touch first D k (edges_of es d) = existsb (fun d' => glued d d') (own (nth k (nb r) 0))).
        { apply eq_iff_eq_true. unfold touch. rewrite !existsb_exists. destruct (H d (Hs d (or_introl eq_refl))) as (_ & M). cbn [neighbors decomposed]. split; intros (x & X1 & X2); exists x; rewrite ?own_iff, ?M in *; auto. }
        rewrite E. reflexivity.
      - intros d v Hv. apply in_map_iff in Hv. destruct Hv as (d' & [= -> _] & Hd). apply own_iff in Hd. destruct (H d Hd) as (I & M). apply (edges_ordered d); auto.
    Qed.

    Definition recv_ops : list (nat * (vertex -> vertex)) := flat_map (fun q => map (fun x => (fst (fst x), placed q (snd (fst x)) (snd x))) (sent q r)) (nb r).
    Lemma recv_in d f : In (d, f) recv_ops <-> exists q, In q (nb r) /\ In d (own q) /\ (exists d', In d' (own r) /\ glued d d' = true) /\ f = placed q (first_kernel d) (ksize d).
    Proof.
      unfold recv_ops. rewrite in_flat_map. split.
      - intros (q & Hq & H). apply in_map_iff in H. destruct H as (x & E & Hx). apply sent_in in Hx. destruct Hx as (d0 & X1 & X2 & ->). injection E as -> <-. eauto 6.
      - intros (q & Hq & H1 & H2 & ->). exists q. split; auto. apply in_map_iff. exists (d, first_kernel d, ksize d). split; auto. apply sent_in. eauto.
    Qed.
    Lemma glued_neighbour d d' : mine r d = true -> glued d d' = true -> mine r d' = false -> exists q, In q (nb r) /\ mine q d' = true.
    Proof.
      intros Hd G M. apply glued_iff in G. destruct G as (m & Hm & G1 & G2). destruct (domain_rank n first L nb cmap HC m d' Hm G2) as (q & Hq & Mq). exists q. split; auto.
      apply (c_sharing _ _ _ _ _ HC r q m Hr Hq Hm); [apply touches_iff; eauto|apply touches_iff; eauto|congruence].
    Qed.
    Lemma nb_rank q : In q (nb r) -> q < n /\ q <> r.
    Proof. intros H. split; [apply (nb_ranks _ _ (c_neighbours _ _ _ _ _ HC) r); auto|intros ->; exact (c_not_me _ _ _ _ _ HC r Hr H)]. Qed.

    (** the vertices after the exchange *)
    Lemma received_ok d : let v := got vertex0 (updates vertex0 recv_ops vs0) d in In d (keys (updates vertex0 recv_ops vs0)) ->
      v_rank v < n /\ mine (v_rank v) d = true /\ v_goffset v = first_kernel d /\ v_ksize v = ksize d /\ (mine r d = true -> v_offset v = d - first r) /\ v_indices v = [] /\ v_total v = 0.
    Proof.
      cbv zeta. intros HK. rewrite updates_got by (rewrite base_keys; apply incr_seq). destruct (mine r d) eqn:M.
      - assert (E : on_key d recv_ops = []).
        { destruct (on_key d recv_ops) as [|f fs] eqn:E; auto. assert (I : In f (on_key d recv_ops)) by (rewrite E; left; auto). apply on_key_in, recv_in in I. destruct I as (q & Hq & Dq & _).
          apply own_iff in Dq. destruct (nb_rank q Hq) as (Q1 & Q2). exfalso. apply Q2. apply (mine_rank n first L nb cmap HC q r d); auto. }
        rewrite E. cbn [fold_left]. rewrite base_got by (apply own_iff; auto). cbn. repeat split; auto.
      - assert (NI : ~ In d (own r)) by (rewrite own_iff; congruence). assert (G0 : got vertex0 vs0 d = vertex0).
        { unfold got. destruct (mget d vs0) eqn:E; auto. apply mget_in in E. apply in_map_iff in E. destruct E as (d' & [= -> _] & I). tauto. }
        apply updates_keys in HK. rewrite base_keys in HK. destruct HK as [HK|]; [|tauto]. apply in_map_iff in HK. destruct HK as ((d0, f) & E & HK). cbn [fst] in E. subst d0.
        pose proof HK as HK'. apply recv_in in HK'. destruct HK' as (q & Hq & Dq & _). apply own_iff in Dq. destruct (nb_rank q Hq) as (Q1 & Q2).
        destruct (fold_placed q (first_kernel d) (ksize d) (on_key d recv_ops)) with (v := got vertex0 vs0 d) as (P1 & P2 & P3 & P4 & P5 & P6).
        + intros g Hg. apply on_key_in, recv_in in Hg. destruct Hg as (q' & Hq' & Dq' & _ & ->). f_equal. apply own_iff in Dq'. destruct (nb_rank q' Hq') as (Q3 & _). apply (mine_rank n first L nb cmap HC q' q d); auto.
        + intros E. apply on_key_in in HK. rewrite E in HK. destruct HK.
        + rewrite P2, P3, P4, P5, P6, G0. repeat split; auto. congruence.
    Qed.

    Lemma visible_iff d : visible first L r d = true <-> mine r d = true \/ exists d', mine r d' = true /\ glued d' d = true.
    Proof.
      unfold visible. rewrite orb_true_iff, existsb_exists. fold (own r). split; (intros [H|(d' & H1 & H2)]; [auto|right; exists d'; split; auto; apply own_iff; auto]).
    Qed.
    Lemma mine_all d q : q < n -> mine q d = true -> In d (all_of n first).
    Proof.
      intros Hq M. apply (mine_iff first) in M. unfold all_of. apply in_seq. pose proof (first_le n first L nb cmap HC 0 q ltac:(lia)). pose proof (first_le n first L nb cmap HC (q + 1) n ltac:(lia)). lia.
    Qed.
    Lemma visible_all d : visible first L r d = true -> In d (all_of n first).
    Proof.
      intros H. apply visible_iff in H. destruct H as [M|(d' & _ & G)]; [apply (mine_all d r); auto|]. apply glued_iff in G. destruct G as (m & Hm & _ & G). destruct (domain_rank n first L nb cmap HC m d Hm G) as (q & Hq & Mq). apply (mine_all d q); auto.
    Qed.

    (** DualGraph::set behind the exchange *)
    Theorem finish_ok es : (forall d, mine r d = true -> incr (edges_of es d) /\ forall x, In x (edges_of es d) <-> glued d x = true) ->
      exists g, set_finish D (cmap r) vs0 es (Some (map (fun q => flat_map triple (sent q r)) (nb r))) = Ok g /\ graph_ok n first L nb ksize r g.
    Proof.
      intros HE. destruct (groups_of n first L nb cmap HC HN r Hr) as (gs & (G1 & G2) & E & G). cbn [set_finish].
      rewrite (receive_ok D (fun q => sent q r)). cbn [obind]. fold recv_ops. cbn [neighbors decomposed]. fold recv_ops.
      rewrite (set_lambdas_ok n first L nb cmap HC r Hr gs) by (auto; intros g Hg; apply G, Hg). cbn [obind]. eexists. split; [reflexivity|].
      set (lops := flat_map (fun og => lam_ops first nb r (fst og) (length (fst (snd og))) (snd (snd og))) (gann 0 gs)). set (vs1 := updates vertex0 recv_ops vs0).
      assert (I0 : incr (keys vs0)) by (rewrite base_keys; apply incr_seq). assert (I1 : incr (keys vs1)) by (apply updates_incr, I0).
      assert (K1 : forall d, In d (keys vs1) <-> visible first L r d = true).
      { intros d. unfold vs1. rewrite updates_keys, base_keys, own_iff, visible_iff. split.
        - intros [H|H]; auto. right. apply in_map_iff in H. destruct H as ((d0, f) & Ed & H). cbn [fst] in Ed. subst d0. apply recv_in in H. destruct H as (q & _ & _ & (d' & D1 & D2) & _). exists d'. rewrite <- own_iff, glued_sym. auto.
        - intros [H|(d' & D1 & D2)]; auto. destruct (mine r d) eqn:M; auto. left. destruct (glued_neighbour d' d D1 D2 M) as (q & Hq & Mq). apply in_map_iff. exists (d, placed q (first_kernel d) (ksize d)). split; auto.
          apply recv_in. exists q. split; auto. split; [now apply own_iff|]. split; auto. exists d'. rewrite own_iff, glued_sym. auto. }
      assert (LK : forall d, In d (map fst lops) -> visible first L r d = true).
      { intros d H. unfold lops in H. apply in_map_iff in H. destruct H as ((d0, f) & Ed & H). cbn [fst] in Ed. subst d0. apply in_flat_map in H. destruct H as (og & Hog & H). apply in_map_iff in H. destruct H as (k & [= -> _] & Hk).
        apply gann_in in Hog. destruct (G _ Hog) as (F1 & F2 & _). destruct (fst (snd og)) as [|m ms]; [congruence|]. destruct (F2 m (or_introl eq_refl)) as (F3 & F4). apply held_iff in F3. destruct F3 as (Lm & d' & D1 & D2).
        apply visible_iff. right. exists d'. split; auto. apply glued_iff. exists m. rewrite F4 in *. auto. }
      constructor; cbn [fst snd].
      - fold (keys (updates vertex0 lops vs1)). apply incr_unique; [apply updates_incr, I1|apply incr_filter, incr_seq|]. intros d. rewrite updates_keys, K1, filter_In. split; [intros H|tauto].
        assert (V : visible first L r d = true) by (destruct H; auto). split; auto. now apply visible_all.
      - intros d v Hv. apply in_mget in Hv; [|apply updates_incr, I1].
        assert (HK : In d (keys vs1)).
        { destruct (in_dec Nat.eq_dec d (keys vs1)) as [|N]; auto. exfalso. assert (H : In d (keys (updates vertex0 lops vs1))) by (apply mget_in in Hv; apply (in_map fst) in Hv; exact Hv).
          apply updates_keys in H. destruct H as [H|H]; auto. apply LK, K1 in H. auto. }
        assert (Ev : v = got vertex0 (updates vertex0 lops vs1) d) by (unfold got; now rewrite Hv). rewrite updates_got in Ev by exact I1.
        unfold lops in Ev. rewrite on_key_flat in Ev. 
        assert (EK : flat_map (fun og => on_key d (lam_ops first nb r (fst og) (length (fst (snd og))) (snd (snd og)))) (gann 0 gs) =
          flat_map (fun og => if member d (snd (snd og)) then [with_lambdas (fst og) (length (fst (snd og))) (low first nb r d (snd (snd og)))] else []) (gann 0 gs)).
        { assert (ND : forall og, In og (gann 0 gs) -> NoDup (snd (snd og))) by (intros og Hog; apply gann_in in Hog; apply G, Hog). revert ND. generalize (gann 0 gs). intros l ND. induction l as [|og l IH]; [reflexivity|].
          cbn [flat_map]. rewrite IH by (intros; apply ND; right; auto). f_equal. unfold lam_ops. apply (on_key_map (fun k => with_lambdas (fst og) (length (fst (snd og))) (low first nb r k (snd (snd og))))). apply ND. left; auto. }
        rewrite EK in Ev. destruct (fold_lambdas (low first nb r d) d (gann 0 gs) (got vertex0 vs1 d)) as (F1 & F2 & F3 & F4 & F5 & F6). rewrite <- Ev in F1, F2, F3, F4, F5, F6. clear Ev EK.
        destruct (received_ok d HK) as (R1 & R2 & R3 & R4 & R5 & R6 & R7). fold vs1 in R1, R2, R3, R4, R5, R6, R7. rewrite R6 in F5. rewrite R7 in F6. cbn [app Nat.add] in F5, F6.
        rewrite (idx_members L (low first nb r d) d gs G2 0), G1 in F6.
        constructor.
        + rewrite F2. auto.
        + now rewrite F3.
        + now rewrite F4.
        + intros M. rewrite F1. auto.
        + rewrite F6, map_length. reflexivity.
        + rewrite F5. change (idx_expand (idx (low first nb r d) d (gann 0 gs)) = map (fun pm => (fst pm, if mine r d then lower_copies first L nb r (snd pm) else [])) (multipliers_of first L r d)).
          rewrite (idx_members L (low first nb r d) d gs G2 0), G1. reflexivity.
      - intros d M. destruct (HE d M) as (H1 & H2). apply incr_unique; [auto|apply incr_filter, incr_seq|]. intros x. rewrite H2, filter_In. split; [|tauto]. intros H. split; auto. apply visible_all, visible_iff. eauto.
    Qed.
  End Rank.
End Group.
