(** * Lemmas on the buffers of regions: one rank *)
From Coq Require Import List Arith Bool Lia Sorted Permutation.
From Verif Require Import Base S_Order M_Utils M_Distributed M_DistMatrix M_NodeInfo S_NodeInfo L_Utils L_Equality L_TotalFeti L_Csx2 L_Fill2 L_Distributed L_DistMatrix L_VectorFeti L_DistApply L_DistApply2.
Import ListNotations.
Local Open Scope out_scope.

Definition mem (x : nat) (l : list nat) : bool := existsb (Nat.eqb x) l.
Lemma mem_iff x l : mem x l = true <-> In x l.
Proof. unfold mem. rewrite existsb_exists. split; [intros (y & H & E); apply Nat.eqb_eq in E; subst; auto|intros H; exists x; split; auto; apply Nat.eqb_refl]. Qed.
Lemma mem_false x l : mem x l = false <-> ~ In x l.
Proof. rewrite <- mem_iff. destruct (mem x l); split; congruence. Qed.
Lemma mem_cons x y l : mem x (y :: l) = (x =? y) || mem x l.
Proof. reflexivity. Qed.

Lemma nat_swo : strict_weak_order Nat.ltb.
Proof. split; unfold le_of; intros *; rewrite ?Nat.ltb_lt, ?Nat.ltb_ge; lia. Qed.
Lemma nat_sto : strict_total_order Nat.ltb Nat.eqb.
Proof. split; [apply nat_swo|unfold le_of; intros *; rewrite ?Nat.ltb_ge; lia|apply Nat.eqb_eq]. Qed.
Lemma strictly_ss l : strictly_sorted Nat.ltb l <-> StronglySorted lt l.
Proof. unfold strictly_sorted. split; induction 1 as [|x l S IH F]; constructor; auto; rewrite Forall_forall in *; intros y Hy; specialize (F y Hy); apply Nat.ltb_lt; auto. Qed.

Lemma app_inj_len {A} (a b c d : list A) : a ++ b = c ++ d -> length a = length c -> a = c /\ b = d.
Proof. revert c. induction a as [|x a IH]; intros [|y c] E L; simpl in *; try lia; auto. inversion E; subst. destruct (IH c H1 ltac:(lia)); subst; auto. Qed.

(** ** blocks *)
Definition block (l : list nat) : list nat := S (length l) :: l.
Lemma block_length l : length (block l) = S (length l).
Proof. reflexivity. Qed.

Section Buffers.
  Context (nb : list nat) (Snb : StronglySorted lt nb).
  Let ND : NoDup nb := ss_nodup nb Snb.

  Lemma push_all {X} (f : X -> nat) (v : nat) : forall (l : list X) F, (forall x, In x l -> In (f x) nb) -> NoDup (map f l) ->
    foldM (fun buf x => push_to buf (find_rank (f x) nb) v) l (map F nb) = Ok (map (fun j => F j ++ if mem j (map f l) then [v] else []) nb).
  Proof.
    induction l as [|x l IH]; intros F Hl N; cbn [foldM map]; [f_equal; apply map_ext; intros; cbn; rewrite app_nil_r; auto|].
    cbn [map] in N. apply NoDup_cons_iff in N. destruct N as [Nx N]. unfold push_to at 1. rewrite (rd_map_rank F) by (apply Hl; left; auto). cbn [obind]. rewrite wr_map_rank by (auto; apply Hl; left; auto). cbn [obind].
    rewrite (IH (fun j => if j =? f x then F (f x) ++ [v] else F j)); [|intros; apply Hl; right; auto|auto]. f_equal. apply map_ext. intros j. rewrite mem_cons. destruct (Nat.eqb_spec j (f x)) as [->|]; cbn [orb]; auto.
    apply mem_false in Nx. rewrite Nx, app_nil_r. auto.
  Qed.

  (** the loop without the test of the rank *)
  Lemma over_rest {St} (body : nat -> St -> outcome St) rs : StronglySorted lt rs -> (forall s, In s rs -> In s nb) -> forall st k, (forall s, In s rs -> k <= find_rank s nb) ->
    ('(st, _) <- foldM (fun sk r => k <- advance (length nb) nb r (snd sk) ;; st <- body k (fst sk) ;; Ok (st, k)) rs (st, k) ;; Ok st) = foldM (fun st s => body (find_rank s nb) st) rs st.
  Proof.
    induction rs as [|s rs IH]; intros Sr Hin st k Hk; [reflexivity|]. cbn [foldM]. apply StronglySorted_inv in Sr. destruct Sr as [Sr Fr]. rewrite Forall_forall in Fr. cbn [fst snd].
    rewrite (advance_ok nb s Snb); [|apply Hin; left; auto|apply Hk; left; auto|lia]. cbn [obind]. destruct (body (find_rank s nb) st) as [st'| |]; cbn [obind]; auto.
    apply IH; auto; [intros; apply Hin; right; auto|]. intros s' Hs'. apply find_rank_mono; auto; [apply Hin; left; auto|apply Hin; right; auto|]. specialize (Fr s' Hs'). lia.
  Qed.

  Lemma open_ok (F : nat -> list nat) : open_blocks (map F nb) = map (fun j => F j ++ [0]) nb.
  Proof. unfold open_blocks. rewrite map_map. reflexivity. Qed.
  Lemma close_ok (F X : nat -> list nat) : close_blocks (map (@length nat) (map F nb)) (map (fun j => (F j ++ [0]) ++ X j) nb) = map (fun j => F j ++ block (X j)) nb.
  Proof.
    unfold close_blocks. rewrite map_map, combine_map, map_map. apply map_ext. intros j. cbn [fst snd]. rewrite <- app_assoc. cbn [app].
    rewrite app_length. cbn [length]. replace (length (F j) + S (length (X j)) - length (F j)) with (S (length (X j))) by lia. unfold block.
    generalize (S (length (X j))). intros v. induction (F j) as [|a l IH]; cbn [length app upd]; [reflexivity|]. f_equal. auto.
  Qed.
End Buffers.

(** the position of the block [i] *)
Definition bpos (f : nat -> list nat) (i : nat) : nat := length (flat_map (fun k => block (f k)) (seq 0 i)).
Lemma bpos_S f i : bpos f (S i) = bpos f i + S (length (f i)).
Proof. unfold bpos. rewrite seq_S, flat_map_app, app_length. cbn [flat_map plus]. rewrite app_nil_r. reflexivity. Qed.
Lemma block_split f m i : i < m -> flat_map (fun k => block (f k)) (seq 0 m) = flat_map (fun k => block (f k)) (seq 0 i) ++ block (f i) ++ flat_map (fun k => block (f k)) (seq (S i) (m - S i)).
Proof. intros H. replace m with (i + S (m - S i)) at 1 by lia. rewrite seq_app, flat_map_app. reflexivity. Qed.
Lemma block_head f m i : i < m -> nth (bpos f i) (flat_map (fun k => block (f k)) (seq 0 m)) 0 = S (length (f i)) /\ bpos f i < length (flat_map (fun k => block (f k)) (seq 0 m)).
Proof.
  intros H. rewrite (block_split f m i H). unfold bpos. rewrite app_nth2, Nat.sub_diag by lia. split; [reflexivity|]. rewrite !app_length. rewrite block_length. lia.
Qed.
Lemma block_body f m i k : i < m -> k < length (f i) -> nth (bpos f i + 1 + k) (flat_map (fun k => block (f k)) (seq 0 m)) 0 = nth k (f i) 0.
Proof.
  intros H Hk. rewrite (block_split f m i H). unfold bpos. rewrite app_nth2 by lia. replace (length (flat_map (fun k0 => block (f k0)) (seq 0 i)) + 1 + k - length (flat_map (fun k0 => block (f k0)) (seq 0 i))) with (S k) by lia.
  cbn [block app nth]. rewrite app_nth1 by auto. auto.
Qed.
Lemma block_end f m i : i < m -> bpos f i + 1 + length (f i) <= length (flat_map (fun k => block (f k)) (seq 0 m)).
Proof. intros H. rewrite (block_split f m i H). unfold bpos. rewrite !app_length. rewrite block_length. lia. Qed.

Lemma skip_ok sb x B : StronglySorted lt B -> forall ps, (forall k, k < length B -> nth (ps + 1 + k) sb 0 = nth k B 0) -> ps + 1 + length B <= length sb ->
  forall fuel k, k <= below x B -> length B <= fuel + k -> skip_smaller fuel sb (ps + S (length B)) x (ps + 1 + k) = Ok (ps + 1 + below x B).
Proof.
  intros SB ps Hr Hl. pose proof (below_le x B) as BL. induction fuel as [|fuel IH]; intros k Hk Hf; cbn [skip_smaller]; destruct (Nat.leb_spec (ps + S (length B)) (ps + 1 + k)) as [L|L].
  - f_equal. lia.
  - lia.
  - f_equal. lia.
  - rewrite (rd_ok _ _ 0) by lia. cbn [obind]. rewrite Hr by lia. pose proof (below_nth B x SB k ltac:(lia)) as Bn. destruct (Nat.ltb_spec (nth k B 0) x) as [Q|Q].
    + replace (ps + 1 + k + 1) with (ps + 1 + (k + 1)) by lia. apply IH; lia.
    + f_equal. lia.
Qed.
Lemma below_found x B : StronglySorted lt B -> (below x B < length B /\ nth (below x B) B 0 = x <-> In x B).
Proof.
  intros SB. split; [intros [H E]; rewrite <- E; apply nth_In; auto|]. intros H. apply (In_nth _ _ 0) in H. destruct H as (i & Hi & E). assert (Q0 : i = below x B); [|rewrite <- Q0; auto].
  pose proof (below_nth B x SB i Hi) as B1. destruct (Nat.lt_trichotomy i (below x B)) as [Q|[Q|Q]]; auto; [lia|].
  pose proof (below_nth B x SB (below x B) ltac:(lia)) as B2. pose proof (ss_nth B SB (below x B) i ltac:(lia)). lia.
Qed.

Section Rank.
  Context (sortby : (nat -> nat -> bool) -> list nat -> list nat) (SORT : sorts sortby).
  Context (rank : nat) (nb : list nat) (s : node_store).
  Hypothesis (Snb : StronglySorted lt nb) (Nr : ~ In rank nb).
  Hypothesis (Lr : length (ns_ranks s) = length (ns_ids s)).
  Hypothesis (Srk : forall n, n < length (ns_ids s) -> StronglySorted lt (ranks_of s n)).
  Hypothesis (Hnb : forall n t, n < length (ns_ids s) -> In t (ranks_of s n) -> t <> rank -> In t nb).
  Let ND : NoDup nb := ss_nodup nb Snb.

  (** the IDs of nodes shared with [j] *)
  Definition with_rank (j : nat) (nodes : list nat) : list nat := filter (fun n => mem j (ranks_of s n)) nodes.
  Definition common (j : nat) (nodes : list nat) : list nat := sortby Nat.ltb (map (id_of s) (with_rank j nodes)).

  Lemma send_node_ok F n : n < length (ns_ids s) -> send_node rank nb s (map F nb) n = Ok (map (fun j => F j ++ map (id_of s) (with_rank j [n])) nb).
  Proof.
    intros Hn. unfold send_node. rewrite (rd_ok _ _ []) by lia. cbn [obind]. fold (ranks_of s n).
    rewrite (over_node rank nb (fun k buf => id <- rd (ns_ids s) n ;; push_to buf k id) (ranks_of s n)); auto; [|intros t Ht Ne; apply (Hnb n); auto|intros; lia].
    rewrite (foldM_ext_in _ (fun buf x => push_to buf (find_rank x nb) (id_of s n))); [|intros buf x _; rewrite (rd_ok _ _ 0) by lia; reflexivity].
    rewrite (push_all nb Snb (fun x => x)); [|intros x Hx; apply filter_In in Hx; destruct Hx as [Hx Ne]; apply negb_true_iff, Nat.eqb_neq in Ne; apply (Hnb n); auto|rewrite map_id; apply NoDup_filter, ss_nodup, Srk; auto].
    f_equal. apply map_ext_in. intros j Hj. f_equal. rewrite map_id. unfold with_rank. cbn [filter]. assert (E : mem j (others rank (ranks_of s n)) = mem j (ranks_of s n)).
    { apply eq_true_iff_eq. rewrite !mem_iff. unfold others. rewrite filter_In, negb_true_iff, Nat.eqb_neq. split; [tauto|]. intros H; split; auto. intros ->. auto. }
    rewrite E. destruct (mem j (ranks_of s n)); reflexivity.
  Qed.
  Lemma send_nodes_ok nodes : forall F, valid_nodes s nodes -> foldM (send_node rank nb s) nodes (map F nb) = Ok (map (fun j => F j ++ map (id_of s) (with_rank j nodes)) nb).
  Proof.
    induction nodes as [|n nodes IH]; intros F V; cbn [foldM]; [f_equal; apply map_ext; intros; cbn; rewrite app_nil_r; auto|].
    rewrite send_node_ok by (apply V; left; auto). cbn [obind]. rewrite IH by (intros x Hx; apply V; right; auto). f_equal. apply map_ext. intros j. rewrite <- app_assoc. f_equal. unfold with_rank. cbn [filter].
    destruct (mem j (ranks_of s n)); reflexivity.
  Qed.
  Lemma send_region_ok F nodes : valid_nodes s nodes -> send_region sortby rank nb s (map F nb) nodes = Ok (map (fun j => F j ++ block (common j nodes)) nb).
  Proof.
    intros V. unfold send_region. rewrite open_ok, send_nodes_ok by auto. cbn [obind]. f_equal. rewrite <- (close_ok nb F (fun j => common j nodes)). f_equal.
    rewrite map_map, combine_map, map_map. apply map_ext. intros j. cbn [fst snd]. replace (length (F j) + 1) with (length (F j ++ [0])) by (rewrite app_length; reflexivity).
    rewrite firstn_app, firstn_all, Nat.sub_diag, firstn_O, app_nil_r. rewrite skipn_app, skipn_all, Nat.sub_diag. reflexivity.
  Qed.
  Lemma send_regions_ok regions : (forall nodes, In nodes regions -> valid_nodes s nodes) ->
    foldM (send_region sortby rank nb s) regions (repeat [] (length nb)) = Ok (map (fun j => flat_map (fun nodes => block (common j nodes)) regions) nb).
  Proof.
    intros V. replace (repeat [] (length nb)) with (map (fun _ : nat => @nil nat) nb) by (clear; induction nb; simpl; congruence).
    assert (G : forall regions F, (forall nodes, In nodes regions -> valid_nodes s nodes) ->
      foldM (send_region sortby rank nb s) regions (map F nb) = Ok (map (fun j => F j ++ flat_map (fun nodes => block (common j nodes)) regions) nb)).
    { clear regions V. induction regions as [|nodes regions IH]; intros F V; cbn [foldM flat_map]; [f_equal; apply map_ext; intros; rewrite app_nil_r; auto|].
      rewrite send_region_ok by (apply V; left; auto). cbn [obind]. rewrite IH by (intros; apply V; right; auto). f_equal. apply map_ext. intros j. rewrite app_assoc. auto. }
    apply G; auto.
  Qed.

  (** ** receiving *)
  Lemma receive_nodes_ok lower sb rb ps B pr L nn : StronglySorted lt B -> StronglySorted lt L ->
    (forall k, k < length B -> nth (ps + 1 + k) sb 0 = nth k B 0) -> ps + 1 + length B <= length sb ->
    (forall k, k < length L -> nth (pr + 1 + k) rb 0 = nth k L 0) -> pr + 1 + length L <= length rb ->
    exists p, foldM (receive_node lower s sb (ps + S (length B)) rb) (seq (pr + 1) (length L)) (ps + 1, nn) = Ok (p, nn ++ map (find_node lower s) (filter (fun x => negb (mem x B)) L)).
  Proof.
    intros SB SL HB LB HL LL.
    pose (h := fun (st : nat * list nat) x => let '(p, nnodes) := st in p <- skip_smaller (length sb) sb (ps + S (length B)) x p ;;
      known <- (if p =? ps + S (length B) then Ok false else y <- rd sb p ;; Ok (y =? x)) ;; Ok (p, if known : bool then nnodes else nnodes ++ [find_node lower s x])).
    rewrite (foldM_shift _ h); [|intros [p n'] k Hk; unfold receive_node, h; rewrite (rd_ok _ _ 0) by lia; cbn [obind]; rewrite HL by auto; auto].
    destruct (foldM_inv h (fun pre st => exists k, fst st = ps + 1 + k /\ (forall x, In x L -> (forall y, In y pre -> y < x) -> k <= below x B) /\ snd st = nn ++ map (find_node lower s) (filter (fun x => negb (mem x B)) pre)) L (ps + 1, nn)) as (st & E & k & _ & _ & Es).
    - exists 0. cbn [fst snd filter map]. rewrite app_nil_r. repeat split; auto; lia.
    - intros pre x post [p n'] E (k & Ep & Hk & En). cbn [fst snd] in Ep, En. subst p n'. unfold h. 
      assert (Hx : In x L) by (rewrite E; apply in_or_app; right; left; auto).
      assert (Hp : forall y, In y pre -> y < x). { rewrite E in SL. clear -SL. induction pre as [|a pre IH]; intros y Hy; [destruct Hy|]. cbn [app] in SL. apply StronglySorted_inv in SL. destruct SL as [SL F]. rewrite Forall_forall in F. destruct Hy as [->|Hy]; [apply F, in_or_app; right; left; auto|auto]. }
      rewrite (skip_ok sb x B); auto; [|lia]. cbn [obind].
      assert (K : (if ps + 1 + below x B =? ps + S (length B) then Ok false else y <- rd sb (ps + 1 + below x B) ;; Ok (y =? x)) = Ok (mem x B)).
      { pose proof (below_found x B SB) as BF. pose proof (below_le x B). destruct (Nat.eqb_spec (ps + 1 + below x B) (ps + S (length B))) as [Q|Q].
        - f_equal. symmetry. apply mem_false. intros C. apply BF in C. lia.
        - rewrite (rd_ok _ _ 0) by lia. cbn [obind]. rewrite HB by lia. f_equal. apply eq_true_iff_eq. rewrite Nat.eqb_eq, mem_iff, <- BF. split; [intros; split; auto; lia|tauto]. }
      rewrite K. cbn [obind]. eexists; split; [reflexivity|]. exists (below x B). cbn [fst snd]. repeat split; auto.
      + intros y Hy Hlt. specialize (Hlt x ltac:(apply in_or_app; right; left; auto)). apply below_mono. lia.
      + rewrite filter_app, map_app, app_assoc. cbn [filter]. destruct (mem x B); cbn [negb map]; rewrite ?app_nil_r; auto.
    - rewrite E. destruct st as [p n']. cbn [snd] in Es. subst n'. eauto.
  Qed.

  Section Receive.
    Context (m : nat) (Sc Rc : nat -> nat -> list nat).
    Hypothesis (SS : forall j i, In j nb -> i < m -> StronglySorted lt (Sc j i)) (SR : forall j i, In j nb -> i < m -> StronglySorted lt (Rc j i)).
    Let sbuf := map (fun j => flat_map (fun i => block (Sc j i)) (seq 0 m)) nb.
    Let rbuf := map (fun j => flat_map (fun i => block (Rc j i)) (seq 0 m)) nb.

    Definition news (i j : nat) : list nat := map (find_node (j <? rank) s) (filter (fun x => negb (mem x (Sc j i))) (Rc j i)).

    Lemma receive_block_ok i j Pr Ps nn : i < m -> In j nb -> Pr j = bpos (Rc j) i -> Ps j = bpos (Sc j) i ->
      receive_block rank nb s sbuf rbuf (map Pr nb, map Ps nb, nn) (find_rank j nb)
      = Ok (map (fun k => if k =? j then bpos (Rc j) (S i) else Pr k) nb, map (fun k => if k =? j then bpos (Sc j) (S i) else Ps k) nb, nn ++ news i j).
    Proof.
      intros Hi Hj EP ES. unfold receive_block. assert (Ej : rd nb (find_rank j nb) = Ok j). { rewrite <- (map_id nb) at 1. apply (rd_map_rank (fun x => x)); auto. }
      rewrite Ej. cbn [obind]. unfold sbuf, rbuf. rewrite !rd_map_rank by auto. cbn [obind]. rewrite EP, ES.
      destruct (block_head (Rc j) m i Hi) as [R1 R2], (block_head (Sc j) m i Hi) as [S1 S2]. rewrite (rd_ok _ _ 0), R1 by auto. cbn [obind]. rewrite (rd_ok _ _ 0), S1 by auto. cbn [obind].
      replace (S (length (Rc j i)) - 1) with (length (Rc j i)) by lia.
      destruct (receive_nodes_ok (j <? rank) (flat_map (fun i => block (Sc j i)) (seq 0 m)) (flat_map (fun i => block (Rc j i)) (seq 0 m)) (bpos (Sc j) i) (Sc j i) (bpos (Rc j) i) (Rc j i) nn) as (p & E); auto.
      - intros k Hk. apply block_body; auto.
      - apply block_end; auto.
      - intros k Hk. apply block_body; auto.
      - apply block_end; auto.
      - rewrite E. cbn [obind]. rewrite !wr_map_rank by auto. cbn [obind]. rewrite !bpos_S. reflexivity.
    Qed.
    Lemma receive_blocks_ok i : i < m ->
      foldM (receive_block rank nb s sbuf rbuf) (seq 0 (length rbuf)) (map (fun j => bpos (Rc j) i) nb, map (fun j => bpos (Sc j) i) nb, [])
      = Ok (map (fun j => bpos (Rc j) (S i)) nb, map (fun j => bpos (Sc j) (S i)) nb, flat_map (news i) nb).
    Proof.
      intros Hi. replace (length rbuf) with (length nb) by (unfold rbuf; rewrite map_length; auto).
      rewrite (foldM_shift _ (fun st j => receive_block rank nb s sbuf rbuf st (find_rank j nb)));
        [|intros st k Hk; cbn [plus]; rewrite (find_rank_nth nb ND k Hk); auto].
      pose (Q := fun (f : nat -> nat -> list nat) (pre : list nat) j => if mem j pre then bpos (f j) (S i) else bpos (f j) i).
      destruct (foldM_inv (fun st j => receive_block rank nb s sbuf rbuf st (find_rank j nb)) (fun pre st => st = (map (Q Rc pre) nb, map (Q Sc pre) nb, flat_map (news i) pre)) nb
        (map (fun j => bpos (Rc j) i) nb, map (fun j => bpos (Sc j) i) nb, [])) as (st & E & ->).
      - reflexivity.
      - intros pre j post st E ->. assert (Hj : In j nb) by (rewrite E; apply in_or_app; right; left; auto).
        assert (Np : mem j pre = false). { apply mem_false. intros C. pose proof ND as N'. rewrite E in N'. apply NoDup_remove_2 in N'. apply N', in_or_app; auto. }
        rewrite (receive_block_ok i j (Q Rc pre) (Q Sc pre)); auto; try (unfold Q; rewrite Np; reflexivity). eexists; split; [reflexivity|].
        assert (X : forall f, map (fun k => if k =? j then bpos (f j) (S i) else Q f pre k) nb = map (Q f (pre ++ [j])) nb).
        { intros f. apply map_ext. intros k. unfold Q, mem. rewrite existsb_app. cbn [existsb]. rewrite orb_false_r. destruct (Nat.eqb_spec k j) as [->|]; [rewrite orb_true_r; auto|rewrite orb_false_r; auto]. }
        rewrite !X, flat_map_app. cbn [flat_map]. rewrite app_nil_r. reflexivity.
      - rewrite E. assert (X : forall f, map (Q f nb) nb = map (fun j => bpos (f j) (S i)) nb) by (intros f; apply map_ext_in; intros j Hj; unfold Q; apply mem_iff in Hj; rewrite Hj; auto).
        rewrite !X. reflexivity.
    Qed.
    Lemma receive_region_ok i nodes regions : i < m -> StronglySorted lt nodes -> exists out,
      receive_region sortby rank nb s sbuf rbuf (map (fun j => bpos (Rc j) i) nb, map (fun j => bpos (Sc j) i) nb, regions) nodes
      = Ok (map (fun j => bpos (Rc j) (S i)) nb, map (fun j => bpos (Sc j) (S i)) nb, regions ++ [out]) /\
      StronglySorted lt out /\ forall x, In x out <-> In x nodes \/ In x (flat_map (news i) nb).
    Proof.
      intros Hi Sn. unfold receive_region. rewrite receive_blocks_ok by auto. cbn [obind]. destruct (flat_map (news i) nb) as [|y l] eqn:E.
      - exists nodes. cbn [obind]. split; [reflexivity|]. split; auto. intros x. simpl. tauto.
      - destruct (sortAndRemoveDuplicates_ok Nat.ltb Nat.eqb 0 Nat.eqb_eq nat_sto (sortby Nat.ltb) (SORT _ nat_swo) ((y :: l) ++ nodes) 0 (Nat.le_0_l _)) as (out & Eo & So & Io).
        rewrite Eo. cbn [obind firstn app]. exists out. split; [reflexivity|]. split; [apply strictly_ss; auto|]. intros x. rewrite Io. cbn [skipn]. rewrite in_app_iff. tauto.
    Qed.
    Lemma receive_regions_ok (R : nat -> list nat) : (forall i, i < m -> StronglySorted lt (R i)) -> exists out,
      receive_regions sortby rank nb s (map R (seq 0 m)) sbuf rbuf = Ok out /\ length out = m /\
      forall i, i < m -> StronglySorted lt (nth i out []) /\ forall x, In x (nth i out []) <-> In x (R i) \/ In x (flat_map (news i) nb).
    Proof.
      intros HR. unfold receive_regions.
      destruct (foldM_inv (fun st i => receive_region sortby rank nb s sbuf rbuf st (R i)) (fun pre st => pre = seq 0 (length pre) /\ length pre <= m -> exists out,
          st = (map (fun j => bpos (Rc j) (length pre)) nb, map (fun j => bpos (Sc j) (length pre)) nb, out) /\ length out = length pre /\
          forall i, i < length pre -> StronglySorted lt (nth i out []) /\ forall x, In x (nth i out []) <-> In x (R i) \/ In x (flat_map (news i) nb)) (seq 0 m)
          (repeat 0 (length nb), repeat 0 (length nb), [])) as (st & E & I).
      - intros _. exists []. cbn [length]. assert (Z : forall f : nat -> nat -> list nat, repeat 0 (length nb) = map (fun j => bpos (f j) 0) nb) by (intros f; clear; induction nb; simpl; f_equal; auto).
        rewrite <- !Z. repeat split; auto; lia.
      - intros pre i post st E I. assert (Ei : pre = seq 0 (length pre) /\ i = length pre /\ length pre < m).
        { assert (Lm : m = length pre + S (length post)) by (rewrite <- (seq_length m 0), E, app_length; reflexivity). rewrite Lm, seq_app in E. cbn [plus seq] in E.
          apply app_inj_len in E; [|rewrite seq_length; auto]. destruct E as [E1 E2]. inversion E2. repeat split; auto; lia. }
        destruct Ei as (Ep & -> & Lp). destruct I as (out & -> & Lo & Io); [split; auto; lia|].
        destruct (receive_region_ok (length pre) (R (length pre)) out Lp ltac:(auto)) as (o & Eo & So & Ho). rewrite Eo. eexists; split; [reflexivity|]. intros _. exists (out ++ [o]).
        rewrite app_length. cbn [length]. replace (length pre + 1) with (S (length pre)) by lia. split; [reflexivity|]. split; [rewrite app_length; simpl; lia|].
        intros i Hi. destruct (Nat.eq_dec i (length pre)) as [->|Ne]; [rewrite app_nth2, Lo, Nat.sub_diag by lia; cbn [nth]; auto|rewrite app_nth1 by lia; apply Io; lia].
      - assert (Fm : forall l st, foldM (receive_region sortby rank nb s sbuf rbuf) (map R l) st = foldM (fun st i => receive_region sortby rank nb s sbuf rbuf st (R i)) l st).
        { induction l as [|a l IH]; intros st0; cbn [map foldM]; auto. destruct (receive_region sortby rank nb s sbuf rbuf st0 (R a)); cbn [obind]; auto. }
        rewrite Fm, E. rewrite seq_length in I. destruct I as (out & -> & Lo & Io); [split; auto|]. cbn [obind]. exists out. auto.
    Qed.
  End Receive.
End Rank.
