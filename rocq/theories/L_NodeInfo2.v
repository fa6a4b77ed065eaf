(** * Lemmas on the exchange of global numbers of nodes: one rank *)
From Coq Require Import List Arith Bool Lia Sorted Permutation.
From Verif Require Import Base S_Order M_Utils M_Distributed M_DistMatrix M_NodeInfo S_NodeInfo L_Utils L_Equality L_TotalFeti L_Csx2 L_Fill2 L_Distributed L_DistMatrix L_VectorFeti L_DistApply L_DistApply2 L_NodeInfo.
Import ListNotations.
Local Open Scope out_scope.

Lemma combine_app' {A B} (a : list A) (b : list B) a' b' : length a = length b -> combine (a ++ a') (b ++ b') = combine a b ++ combine a' b'.
Proof. revert b. induction a as [|x a IH]; intros [|y b] L; simpl in *; try lia; auto. f_equal. apply IH. lia. Qed.

Section Rank.
  Context (rank : nat) (nb : list nat) (s : node_store).
  Hypothesis (Snb : StronglySorted lt nb) (Nr : ~ In rank nb).
  Hypothesis (Lr : length (ns_ranks s) = length (ns_ids s)).
  Hypothesis (Srk : forall n, n < length (ns_ids s) -> StronglySorted lt (ranks_of s n)).
  Hypothesis (Hnb : forall n t, n < length (ns_ids s) -> In t (ranks_of s n) -> t <> rank -> In t nb).
  Hypothesis (Hrk : forall n, n < length (ns_ids s) -> In rank (ranks_of s n)).
  Let ND : NoDup nb := ss_nodup nb Snb.

  Lemma owner_le n : n < length (ns_ids s) -> owner_of s n <= rank /\ In (owner_of s n) (ranks_of s n).
  Proof.
    intros Hn. pose proof (Hrk n Hn) as H. pose proof (Srk n Hn) as S. unfold owner_of. destruct (ranks_of s n) as [|a l]; [destruct H|]. cbn [hd]. split; [|left; auto].
    destruct H as [->|H]; auto. apply StronglySorted_inv in S. destruct S as [_ F]. rewrite Forall_forall in F. specialize (F _ H). lia.
  Qed.

  (** the numbers of shared own nodes *)
  Definition numbers (off : nat) (own : list nat) (j : nat) : list nat := map (fun k => off + k) (filter (fun k => mem j (ranks_of s (nth k own 0))) (seq 0 (length own))).

  Lemma info_halo_ok u F C i n : i < u_nhalo u -> n < length (ns_ids s) -> owner_of s n < rank ->
    info_node nb s u (map F nb, map C nb) (i, n) = Ok (map F nb, map (fun j => C j + if j =? owner_of s n then 1 else 0) nb).
  Proof.
    intros Hi Hn Ho. unfold info_node. rewrite (rd_ok _ _ []) by lia. cbn [obind]. fold (ranks_of s n). destruct (owner_le n Hn) as [_ Io]. pose proof (Hnb n (owner_of s n) Hn Io ltac:(lia)) as Hj.
    unfold owner_of in *. destruct (ranks_of s n) as [|a l]; [destruct Io|]. cbn [hd] in *. rewrite (proj2 (Nat.ltb_lt _ _)) by auto. unfold neighbor_index.
    destruct (find_rank_in a nb Hj) as [L _]. rewrite (proj2 (Nat.ltb_lt _ _)) by auto. cbn [obind]. rewrite rd_map_rank by auto. cbn [obind]. rewrite wr_map_rank by auto. cbn [obind]. f_equal. f_equal.
    apply map_ext. intros j. destruct (Nat.eqb_spec j a) as [->|]; lia.
  Qed.
  Lemma info_own_ok u F C i n p : u_nhalo u <= i -> rd (u_position u) i = Ok p -> n < length (ns_ids s) -> owner_of s n = rank ->
    info_node nb s u (map F nb, map C nb) (i, n) = Ok (map (fun j => F j ++ if mem j (ranks_of s n) then [p] else []) nb, map C nb).
  Proof.
    intros Hi Hp Hn Ho. unfold info_node. rewrite (rd_ok _ _ []) by lia. cbn [obind]. fold (ranks_of s n). destruct (owner_le n Hn) as [_ Io]. pose proof (Srk n Hn) as S. pose proof (Hnb n) as Hb.
    unfold owner_of in *. destruct (ranks_of s n) as [|a l]; [destruct Io|]. cbn [hd] in *. subst a. rewrite (proj2 (Nat.ltb_ge _ _)) by auto. apply StronglySorted_inv in S. destruct S as [S Fa]. rewrite Forall_forall in Fa.
    assert (E : ('(buf, _) <- foldM (fun sk r => k <- advance (length nb) nb r (snd sk) ;; p <- rd (u_position u) i ;; buf <- push_to (fst sk) k p ;; Ok (buf, k)) l (map F nb, 0) ;; Ok buf)
      = Ok (map (fun j => F j ++ if mem j (rank :: l) then [p] else []) nb)).
    { rewrite Hp. cbn [obind]. rewrite (over_rest nb Snb (fun k buf => push_to buf k p) l); auto; [| |intros; lia].
      - rewrite (push_all nb Snb (fun x => x)); [|intros x Hx; apply Hb; auto; [right; auto|intros ->; specialize (Fa _ Hx); lia]|rewrite map_id; apply ss_nodup; auto].
        f_equal. apply map_ext_in. intros j Hj. rewrite map_id, mem_cons. destruct (Nat.eqb_spec j rank) as [->|]; [tauto|]. auto.
      - intros x Hx. apply Hb; auto; [right; auto|intros ->; specialize (Fa _ Hx); lia]. }
    destruct (foldM _ l (map F nb, 0)) as [[buf k]| |]; cbn [obind] in *; inversion E; auto.
  Qed.

  Lemma numbers_S off n own j : numbers off (own ++ [n]) j = numbers off own j ++ if mem j (ranks_of s n) then [off + length own] else [].
  Proof.
    unfold numbers. rewrite app_length. cbn [length]. rewrite Nat.add_1_r, seq_S, filter_app, map_app. f_equal.
    - f_equal. apply filter_ext_in. intros k Hk. apply in_seq in Hk. rewrite app_nth1 by lia. auto.
    - cbn [filter plus]. rewrite app_nth2, Nat.sub_diag by lia. cbn [nth]. destruct (mem j (ranks_of s n)); auto.
  Qed.

  Lemma info_region_ok F C off total halo own : valid_nodes s (halo ++ own) -> (forall n, In n halo -> owner_of s n < rank) -> (forall n, In n own -> owner_of s n = rank) ->
    info_region nb s (map F nb, map C nb) (halo ++ own, own_numbers (length halo) (length own) (off, total))
    = Ok (map (fun j => F j ++ block (numbers off own j)) nb, map (fun j => C j + length (filter (fun n => j =? owner_of s n) halo)) nb).
  Proof.
    intros V Hh Ho. unfold info_region. cbn [fst snd own_numbers ri_info]. rewrite open_ok. set (u := {| u_nhalo := _; u_position := _; u_offset := _; u_size := _ |}).
    rewrite app_length, seq_app, combine_app' by (rewrite seq_length; auto). cbn [plus]. rewrite foldM_app.
    assert (E1 : foldM (info_node nb s u) (combine (seq 0 (length halo)) halo) (map (fun j => F j ++ [0]) nb, map C nb)
      = Ok (map (fun j => F j ++ [0]) nb, map (fun j => C j + length (filter (fun n => j =? owner_of s n) halo)) nb)).
    { assert (G : forall l b C, b + length l <= length halo -> (forall n, In n l -> In n halo) -> foldM (info_node nb s u) (combine (seq b (length l)) l) (map (fun j => F j ++ [0]) nb, map C nb)
        = Ok (map (fun j => F j ++ [0]) nb, map (fun j => C j + length (filter (fun n => j =? owner_of s n) l)) nb)).
      { induction l as [|n l IH]; intros b C0 Hb Hl; cbn [length seq combine foldM]; [f_equal; f_equal; apply map_ext; intros; simpl; lia|].
        cbn [length] in Hb. rewrite info_halo_ok; [|cbn [u u_nhalo]; lia|apply V, in_or_app; left; apply Hl; left; auto|apply Hh, Hl; left; auto]. cbn [obind].
        rewrite IH; [|lia|intros; apply Hl; right; auto]. f_equal. f_equal. apply map_ext. intros j. cbn [filter]. destruct (j =? owner_of s n); cbn [length]; lia. }
      apply G; auto. }
    rewrite E1. cbn [obind].
    assert (E2 : forall D, foldM (info_node nb s u) (combine (seq (length halo) (length own)) own) (map (fun j => F j ++ [0]) nb, map D nb) = Ok (map (fun j => (F j ++ [0]) ++ numbers off own j) nb, map D nb)).
    { intros D. assert (G : forall l, (exists l', own = l ++ l') -> foldM (info_node nb s u) (combine (seq (length halo) (length l)) l) (map (fun j => F j ++ [0]) nb, map D nb) = Ok (map (fun j => (F j ++ [0]) ++ numbers off l j) nb, map D nb)).
      { induction l as [|n l IH] using rev_ind; intros (l' & El).
        - cbn [length seq combine foldM]. f_equal. f_equal. apply map_ext. intros. unfold numbers. cbn. rewrite app_nil_r. auto.
        - rewrite app_length. cbn [length]. rewrite seq_app, combine_app' by (rewrite seq_length; auto). rewrite foldM_app, IH by (rewrite <- app_assoc in El; eauto). cbn [obind seq combine foldM].
          assert (Hn : In n own) by (rewrite El; apply in_or_app; left; apply in_or_app; right; left; auto). assert (Ll : length l < length own) by (rewrite El, !app_length; simpl; lia).
          rewrite (info_own_ok u _ D (length halo + length l) n (off + length l)); [|cbn [u u_nhalo]; lia| |apply V, in_or_app; right; auto|auto].
          + cbn [obind]. f_equal. f_equal. apply map_ext. intros j. rewrite numbers_S, app_assoc. auto.
          + cbn [u u_position fst]. rewrite (rd_ok _ _ 0) by (rewrite app_length, repeat_length, seq_length; lia). rewrite app_nth2, repeat_length by (rewrite repeat_length; lia). rewrite seq_nth by lia. f_equal. lia. }
      apply G. exists []. rewrite app_nil_r. auto. }
    rewrite E2. cbn [obind]. rewrite close_ok. reflexivity.
  Qed.

  Section Regions.
    Context (m : nat) (halo own : nat -> list nat) (off total : nat -> nat).
    Hypothesis (V : forall i, i < m -> valid_nodes s (halo i ++ own i)) (Hh : forall i n, i < m -> In n (halo i) -> owner_of s n < rank) (Ho : forall i n, i < m -> In n (own i) -> owner_of s n = rank).
    Lemma info_send_ok :
      info_send nb s (map (fun i => halo i ++ own i) (seq 0 m)) (map (fun i => own_numbers (length (halo i)) (length (own i)) (off i, total i)) (seq 0 m))
      = Ok (map (fun j => flat_map (fun i => block (numbers (off i) (own i) j)) (seq 0 m)) nb, map (fun j => list_sum (map (fun i => length (filter (fun n => j =? owner_of s n) (halo i))) (seq 0 m))) nb).
    Proof.
      unfold info_send. rewrite combine_map. replace (repeat [] (length nb)) with (map (fun _ : nat => @nil nat) nb) by (clear; induction nb; simpl; congruence).
      replace (repeat 0 (length nb)) with (map (fun _ : nat => 0) nb) by (clear; induction nb; simpl; congruence).
      assert (G : forall l F C, (forall i, In i l -> i < m) -> foldM (info_region nb s) (map (fun i => (halo i ++ own i, own_numbers (length (halo i)) (length (own i)) (off i, total i))) l) (map F nb, map C nb)
        = Ok (map (fun j => F j ++ flat_map (fun i => block (numbers (off i) (own i) j)) l) nb, map (fun j => C j + list_sum (map (fun i => length (filter (fun n => j =? owner_of s n) (halo i))) l)) nb)).
      { induction l as [|i l IH]; intros F C Hl; cbn [map foldM flat_map list_sum]; [f_equal; f_equal; apply map_ext; intros; [rewrite app_nil_r|cbn]; auto|].
        rewrite info_region_ok; [|apply V, Hl; left; auto|intros; apply (Hh i); auto; apply Hl; left; auto|intros; apply (Ho i); auto; apply Hl; left; auto]. cbn [obind].
        rewrite IH by (intros; apply Hl; right; auto). f_equal. f_equal; apply map_ext; intros j; [rewrite app_assoc; auto|]. cbn [list_sum fold_right]. unfold list_sum. cbn [fold_right]. lia. }
      rewrite G by (intros i Hi; apply in_seq in Hi; lia). reflexivity.
    Qed.
  End Regions.

  Section Copy.
    Context (m : nat) (Rc : nat -> nat -> list nat) (U : nat -> list nat).
    Let rbuf := map (fun j => if j <? rank then flat_map (fun i => block (Rc j i)) (seq 0 m) else U j) nb.
    Definition lower_part (i : nat) (l : list nat) : list nat := flat_map (fun j => Rc j i) (filter (fun j => j <? rank) l).
    Definition prev_at (i j : nat) : nat := if j <? rank then bpos (Rc j) i else 0.

    Lemma copy_block_ok i j P A rest : i < m -> In j nb -> P j = prev_at i j -> (j < rank -> length (Rc j i) <= length rest) ->
      exists rest', copy_block rank nb rbuf (A ++ rest, map P nb, length A) (find_rank j nb)
        = Ok ((A ++ lower_part i [j]) ++ rest', map (fun k => if k =? j then prev_at (S i) j else P k) nb, length (A ++ lower_part i [j])) /\ rest' = skipn (length (lower_part i [j])) rest.
    Proof.
      intros Hi Hj EP Hr. unfold copy_block. assert (Ej : rd nb (find_rank j nb) = Ok j). { rewrite <- (map_id nb) at 1. apply (rd_map_rank (fun x => x)); auto. }
      rewrite Ej. cbn [obind]. unfold prev_at, lower_part in *. cbn [filter]. destruct (Nat.ltb_spec j rank) as [L|L].
      - cbn [flat_map]. rewrite app_nil_r. unfold rbuf. rewrite rd_map_rank by auto. cbn [obind]. rewrite rd_map_rank by auto. cbn [obind]. rewrite (proj2 (Nat.ltb_lt _ _)) by auto. rewrite EP.
        destruct (block_head (Rc j) m i Hi) as [R1 R2]. rewrite (rd_ok _ _ 0), R1 by auto. cbn [obind].
        assert (E : (if 1 <? S (length (Rc j i)) then position <- copy_part (flat_map (fun i => block (Rc j i)) (seq 0 m)) (bpos (Rc j) i + 1) (bpos (Rc j) i + S (length (Rc j i))) (A ++ rest) (length A) ;; Ok (position, length A + (S (length (Rc j i)) - 1))
                     else Ok (A ++ rest, length A)) = Ok ((A ++ Rc j i) ++ skipn (length (Rc j i)) rest, length (A ++ Rc j i))).
        { rewrite app_length. destruct (Nat.ltb_spec 1 (S (length (Rc j i)))) as [Q|Q].
          - unfold copy_part. pose proof (block_end (Rc j) m i Hi) as Be. rewrite (proj2 (Nat.ltb_ge _ _)) by lia. rewrite (proj2 (Nat.ltb_ge _ _)) by lia. cbn [orb].
            assert (Es : slice (bpos (Rc j) i + 1) (bpos (Rc j) i + S (length (Rc j i))) (flat_map (fun i => block (Rc j i)) (seq 0 m)) = Rc j i).
            { apply (nth_ext _ _ 0 0); rewrite slice_length by lia; [lia|]. intros k Hk. rewrite nth_slice by lia. apply block_body; auto. lia. }
            rewrite Es. unfold store. specialize (Hr L). rewrite (proj2 (Nat.ltb_ge _ _)) by (rewrite app_length; lia). cbn [obind]. f_equal. f_equal; [|lia]. unfold put.
            rewrite firstn_app, firstn_all, Nat.sub_diag, firstn_O, app_nil_r. rewrite <- app_assoc. f_equal. f_equal. rewrite skipn_app. rewrite skipn_all2 by lia. cbn [app]. f_equal. lia.
          - destruct (Rc j i) as [|a l]; [|simpl in Q; lia]. cbn [length skipn]. rewrite app_nil_r, Nat.add_0_r. auto. }
        rewrite E. cbn [obind]. rewrite wr_map_rank by auto. cbn [obind]. rewrite bpos_S. eauto.
      - cbn [flat_map]. rewrite app_nil_r. exists rest. cbn [length skipn]. split; auto. f_equal. f_equal. f_equal. apply map_ext. intros k. destruct (Nat.eqb_spec k j) as [->|]; auto.
    Qed.
    Lemma lower_part_app i l l' : lower_part i (l ++ l') = lower_part i l ++ lower_part i l'.
    Proof. unfold lower_part. rewrite filter_app, flat_map_app. auto. Qed.
    Lemma copy_blocks_ok i position : i < m -> length (lower_part i nb) <= length position ->
      exists b, foldM (copy_block rank nb rbuf) (seq 0 (length rbuf)) (position, map (prev_at i) nb, 0) = Ok (lower_part i nb ++ skipn (length (lower_part i nb)) position, map (prev_at (S i)) nb, b).
    Proof.
      intros Hi Hl. replace (length rbuf) with (length nb) by (unfold rbuf; rewrite map_length; auto).
      rewrite (foldM_shift _ (fun st j => copy_block rank nb rbuf st (find_rank j nb))); [|intros st k Hk; cbn [plus]; rewrite (find_rank_nth nb ND k Hk); auto].
      pose (Q := fun (pre : list nat) j => if mem j pre then prev_at (S i) j else prev_at i j).
      destruct (foldM_inv (fun st j => copy_block rank nb rbuf st (find_rank j nb)) (fun pre st => st = (lower_part i pre ++ skipn (length (lower_part i pre)) position, map (Q pre) nb, length (lower_part i pre))) nb
        (position, map (prev_at i) nb, 0)) as (st & E & ->).
      - reflexivity.
      - intros pre j post st E ->. assert (Hj : In j nb) by (rewrite E; apply in_or_app; right; left; auto).
        assert (Np : mem j pre = false). { apply mem_false. intros C. pose proof ND as N'. rewrite E in N'. apply NoDup_remove_2 in N'. apply N', in_or_app; auto. }
        destruct (copy_block_ok i j (Q pre) (lower_part i pre) (skipn (length (lower_part i pre)) position)) as (rest & Er & ->); auto.
        + unfold Q; rewrite Np; auto.
        + intros L. rewrite skipn_length. rewrite E in Hl. rewrite lower_part_app, app_length in Hl. change (j :: post) with ([j] ++ post) in Hl. rewrite lower_part_app, app_length in Hl.
          unfold lower_part in Hl at 2. cbn [filter] in Hl. rewrite (proj2 (Nat.ltb_lt _ _)) in Hl by auto. cbn [flat_map] in Hl. rewrite app_nil_r in Hl. lia.
        + rewrite Er. eexists; split; [reflexivity|]. rewrite <- lower_part_app. rewrite skipn_skipn. f_equal. f_equal.
          * f_equal. f_equal. rewrite lower_part_app, app_length. lia.
          * apply map_ext. intros k. unfold Q, mem. rewrite existsb_app. cbn [existsb]. rewrite orb_false_r. destruct (Nat.eqb_spec k j) as [->|]; [rewrite orb_true_r; auto|rewrite orb_false_r; auto].
      - rewrite E. assert (X : map (Q nb) nb = map (prev_at (S i)) nb) by (apply map_ext_in; intros j Hj; unfold Q; apply mem_iff in Hj; rewrite Hj; auto). rewrite X. eauto.
    Qed.

    (** the final numbers of the region [i] *)
    Definition copied (i : nat) (x : region_info) : region_info :=
      {| ri_info := {| u_nhalo := u_nhalo (ri_info x); u_position := lower_part i nb ++ skipn (length (lower_part i nb)) (u_position (ri_info x)); u_offset := u_offset (ri_info x); u_size := u_size (ri_info x) |}; ri_total := ri_total x |}.
    Lemma copy_regions_ok (X : nat -> region_info) : (forall i, i < m -> length (lower_part i nb) <= length (u_position (ri_info (X i)))) ->
      copy_regions rank nb (map X (seq 0 m)) rbuf = Ok (map (fun i => copied i (X i)) (seq 0 m)).
    Proof.
      intros H. unfold copy_regions. assert (G : forall k, k <= m -> foldM (copy_region rank nb rbuf) (map X (seq 0 k)) (repeat 0 (length nb), []) = Ok (map (prev_at k) nb, map (fun i => copied i (X i)) (seq 0 k))).
      { induction k as [|k IH]; intros Hk.
        - cbn [seq map foldM]. f_equal. f_equal. unfold prev_at. clear. induction nb as [|a l IHl]; simpl; auto. rewrite IHl. destruct (a <? rank); auto.
        - rewrite seq_S, !map_app, foldM_app, IH by lia. cbn [obind plus map foldM]. unfold copy_region. destruct (copy_blocks_ok k (u_position (ri_info (X k)))) as (b & E); [lia|apply H; lia|]. rewrite E. cbn [obind]. reflexivity. }
      rewrite G by auto. cbn [obind]. reflexivity.
    Qed.
  End Copy.
End Rank.
