(** * Lemmas on the exchange of data of shared nodes *)
From Coq Require Import List Arith Bool Lia Sorted.
From Verif Require Import Base M_Assembly M_Distributed M_DistMatrix L_Equality L_TotalFeti L_Pattern L_Distributed L_VectorFeti.
Import ListNotations.
Local Open Scope out_scope.

Lemma find_rank_nth l : NoDup l -> forall i, i < length l -> find_rank (nth i l 0) l = i.
Proof.
  induction 1 as [|x l N ND IH]; intros i Hi; simpl in Hi; [lia|]. destruct i as [|i]; cbn [nth find_rank]; [rewrite Nat.eqb_refl; auto|].
  destruct (Nat.eqb_spec (nth i l 0) x) as [E|E]; [exfalso; apply N; rewrite <- E; apply nth_In; lia|]. rewrite IH by lia. auto.
Qed.
Lemma find_rank_mono l x y : StronglySorted lt l -> In x l -> In y l -> x <= y -> find_rank x l <= find_rank y l.
Proof.
  intros S Hx Hy L. destruct (find_rank_in x l Hx) as [A1 A2], (find_rank_in y l Hy) as [B1 B2].
  destruct (Nat.le_gt_cases (find_rank x l) (find_rank y l)) as [Q|Q]; auto. pose proof (ss_nth l S _ _ (conj Q A1)). lia.
Qed.
Lemma find_rank_inj l x y : In x l -> In y l -> find_rank x l = find_rank y l -> x = y.
Proof. intros Hx Hy E. destruct (find_rank_in x l Hx) as [_ A], (find_rank_in y l Hy) as [_ B]. congruence. Qed.

Lemma advance_ok nb s : StronglySorted lt nb -> In s nb -> forall fuel k, k <= find_rank s nb -> length nb <= fuel + k -> advance fuel nb s k = Ok (find_rank s nb).
Proof.
  intros S Hs. destruct (find_rank_in s nb Hs) as [A B]. induction fuel as [|fuel IH]; intros k Hk Hf; [lia|]. cbn [advance]. rewrite (rd_ok _ _ 0) by lia. cbn [obind].
  destruct (Nat.eq_dec k (find_rank s nb)) as [E|E].
  - rewrite E, B. rewrite Nat.ltb_irrefl. auto.
  - pose proof (ss_nth nb S k (find_rank s nb) ltac:(lia)). rewrite B in H. rewrite (proj2 (Nat.ltb_lt _ _)) by lia. apply IH; lia.
Qed.

(** the pairs (node, other rank), in the order of the loops *)
Definition others (rank : nat) (rs : list nat) : list nat := filter (fun s => negb (s =? rank)) rs.
Definition shared (rank : nat) (ranks : list (list nat)) : list (nat * nat) := flat_map (fun n => map (fun s => (n, s)) (others rank (nth n ranks []))) (seq 0 (length ranks)).

Lemma over_node {St} rank nb (body : nat -> St -> outcome St) rs : StronglySorted lt nb -> StronglySorted lt rs -> (forall s, In s rs -> s <> rank -> In s nb) ->
  forall st k, (forall s, In s rs -> s <> rank -> k <= find_rank s nb) ->
  ('(st, _) <- foldM (fun sk r => if r =? rank then Ok sk else k <- advance (length nb) nb r (snd sk) ;; st <- body k (fst sk) ;; Ok (st, k)) rs (st, k) ;; Ok st)
  = foldM (fun st s => body (find_rank s nb) st) (others rank rs) st.
Proof.
  intros Sn. induction rs as [|s rs IH]; intros Sr Hin st k Hk; [reflexivity|]. cbn [foldM others filter]. apply StronglySorted_inv in Sr. destruct Sr as [Sr Fr]. rewrite Forall_forall in Fr.
  destruct (Nat.eqb_spec s rank) as [E|E]; cbn [negb obind].
  - apply IH; auto; intros; [apply Hin|apply Hk]; auto; right; auto.
  - cbn [fst snd foldM]. rewrite (advance_ok nb s Sn); [|apply Hin; auto; left; auto|apply Hk; auto; left; auto|lia]. cbn [obind].
    destruct (body (find_rank s nb) st) as [st'| |]; cbn [obind]; auto. apply IH; auto; [intros; apply Hin; auto; right; auto|].
    intros s' Hs' Ne. apply find_rank_mono; auto; [apply Hin; auto; left; auto|apply Hin; auto; right; auto|]. specialize (Fr s' Hs'). lia.
Qed.
Lemma over_shared_ok {St} rank nb ranks (body : nat -> nat -> St -> outcome St) st : StronglySorted lt nb ->
  (forall n, n < length ranks -> StronglySorted lt (nth n ranks [])) -> (forall n s, n < length ranks -> In s (nth n ranks []) -> s <> rank -> In s nb) ->
  over_shared rank nb ranks body st = foldM (fun st x => body (fst x) (find_rank (snd x) nb) st) (shared rank ranks) st.
Proof.
  intros Sn Sr Hin. unfold over_shared, shared. assert (G : forall l st, (forall n, In n l -> n < length ranks) ->
    foldM (fun st n => rs <- rd ranks n ;;
      '(st, _) <- foldM (fun sk r => if r =? rank then Ok sk else k <- advance (length nb) nb r (snd sk) ;; st <- body n k (fst sk) ;; Ok (st, k)) rs (st, 0) ;; Ok st) l st
    = foldM (fun st x => body (fst x) (find_rank (snd x) nb) st) (flat_map (fun n => map (fun s => (n, s)) (others rank (nth n ranks []))) l) st).
  { induction l as [|n l IH]; intros st0 Hl; [reflexivity|]. cbn [foldM flat_map]. rewrite foldM_app. rewrite (rd_ok _ _ []) by (apply Hl; left; auto). cbn [obind].
    rewrite (over_node rank nb (body n) (nth n ranks [])); auto; [|apply Sr, Hl; left; auto|intros s; apply Hin, Hl; left; auto|intros; lia].
    assert (M : forall l s0, foldM (fun st s => body n (find_rank s nb) st) l s0 = foldM (fun st x => body (fst x) (find_rank (snd x) nb) st) (map (fun s => (n, s)) l) s0).
    { induction l0 as [|a l0 IH']; intros s0; [reflexivity|]. cbn [foldM map fst snd]. destruct (body n (find_rank a nb) s0); cbn [obind]; auto. }
    rewrite M. destruct (foldM _ (map _ _) st0) as [st'| |]; cbn [obind]; auto. apply IH. intros; apply Hl; right; auto. }
  apply G. intros n Hn. apply in_seq in Hn. lia.
Qed.

(** the nodes shared with [j] *)
Definition shared_with (rank : nat) (ranks : list (list nat)) (j : nat) : list nat := map fst (filter (fun x => snd x =? j) (shared rank ranks)).

Lemma upd_map {A} (F : nat -> A) nb s v : NoDup nb -> In s nb -> upd (map F nb) (find_rank s nb) v = map (fun j => if j =? s then v else F j) nb.
Proof.
  intros N H. destruct (find_rank_in s nb H) as [A1 A2]. apply (nth_ext _ _ v v). { rewrite upd_length, !map_length; auto. }
  intros i Hi. rewrite upd_length, map_length in Hi. rewrite nth_upd by (rewrite map_length; auto). rewrite !(nth_map _ nb i v 0) by auto.
  destruct (Nat.eqb_spec (find_rank s nb) i) as [E|E]. { subst i. rewrite A2, Nat.eqb_refl. auto. }
  destruct (Nat.eqb_spec (nth i nb 0) s) as [E'|E']; auto. exfalso; apply E. rewrite <- E'. apply find_rank_nth; auto.
Qed.
Lemma nth_map_rank {A} (F : nat -> A) nb s d : In s nb -> nth (find_rank s nb) (map F nb) d = F s.
Proof. intros H. destruct (find_rank_in s nb H) as [A1 A2]. rewrite (nth_map F nb _ d 0) by auto. rewrite A2; auto. Qed.
Lemma rd_map_rank {A} (F : nat -> A) nb s : In s nb -> rd (map F nb) (find_rank s nb) = Ok (F s).
Proof. intros H. destruct (find_rank_in s nb H) as [A1 A2]. rewrite (rd_ok _ _ (F 0)) by (rewrite map_length; auto). rewrite nth_map_rank; auto. Qed.
Lemma wr_map_rank {A} (F : nat -> A) nb s v : NoDup nb -> In s nb -> wr (map F nb) (find_rank s nb) v = Ok (map (fun j => if j =? s then v else F j) nb).
Proof. intros N H. destruct (find_rank_in s nb H) as [A1 A2]. rewrite wr_ok by (rewrite map_length; auto). rewrite upd_map; auto. Qed.

(** the nodes of the pairs with the rank [j] *)
Definition pick (j : nat) (l : list (nat * nat)) : list nat := map fst (filter (fun x => snd x =? j) l).
Lemma pick_app j l l' : pick j (l ++ l') = pick j l ++ pick j l'.
Proof. unfold pick. rewrite filter_app, map_app. auto. Qed.
Lemma pick_one j n s : pick j [(n, s)] = if j =? s then [n] else [].
Proof. unfold pick; cbn [filter snd]. rewrite Nat.eqb_sym. destruct (j =? s); auto. Qed.

Section Neighbours.
  Context (nb : list nat) (N : NoDup nb).

  (** the buffers are filled *)
  Lemma pack_ok {A} (body : nat -> nat -> list (list A) -> outcome (list (list A))) (f : nat -> list A) SH : (forall x, In x SH -> In (snd x) nb) ->
    (forall n s F, In (n, s) SH -> body n (find_rank s nb) (map F nb) = Ok (map (fun j => if j =? s then F s ++ f n else F j) nb)) ->
    foldM (fun st x => body (fst x) (find_rank (snd x) nb) st) SH (repeat [] (length nb)) = Ok (map (fun j => flat_map f (pick j SH)) nb).
  Proof.
    intros Hs Hb. destruct (foldM_inv (fun st x => body (fst x) (find_rank (snd x) nb) st) (fun pre st => st = map (fun j => flat_map f (pick j pre)) nb) SH (repeat [] (length nb))) as (st & E & I).
    - unfold pick; cbn [filter map flat_map]. clear. induction nb; simpl; congruence.
    - intros pre [n s] post st E ->. cbn [fst snd]. rewrite (Hb n s (fun j => flat_map f (pick j pre))) by (rewrite E; apply in_or_app; right; left; auto).
      eexists; split; [reflexivity|]. apply map_ext. intros j. rewrite pick_app, pick_one, flat_map_app. destruct (Nat.eqb_spec j s) as [->|]; cbn [flat_map]; rewrite ?app_nil_r; auto.
    - rewrite E, I; auto.
  Qed.

  (** the received sizes are added; [h j n]: the size for the node [n] of the rank [j] *)
  Lemma unpack_sizes_ok (h : nat -> nat -> nat) SH begin : (forall x, In x SH -> In (snd x) nb /\ fst x < length begin) ->
    exists begin' ri, foldM (fun st x => unpack_size (map (fun j => map (h j) (pick j SH)) nb) (fst x) (find_rank (snd x) nb) st) SH (begin, repeat 0 (length nb)) = Ok (begin', ri) /\
      length begin' = length begin /\ forall n, n < length begin -> nth n begin' 0 = nth n begin 0 + list_sum (at_pos n (map (fun x => (fst x, h (snd x) (fst x))) SH)).
  Proof.
    intros Hs. set (I := fun (pre : list (nat * nat)) (st : list nat * list nat) => snd st = map (fun j => length (pick j pre)) nb /\ length (fst st) = length begin /\
      forall n, n < length begin -> nth n (fst st) 0 = nth n begin 0 + list_sum (at_pos n (map (fun x => (fst x, h (snd x) (fst x))) pre))).
    destruct (foldM_inv (fun st x => unpack_size (map (fun j => map (h j) (pick j SH)) nb) (fst x) (find_rank (snd x) nb) st) I SH (begin, repeat 0 (length nb))) as ([b' ri] & E & H1 & H2 & H3).
    - split; [|split]; cbn [fst snd]; auto. unfold pick; cbn [filter map length]. clear. induction nb; simpl; congruence.
    - intros pre [n s] post [b ri] E (H1 & H2 & H3). cbn [fst snd] in *. destruct (Hs (n, s)) as [Hn Hl]; [rewrite E; apply in_or_app; right; left; auto|]. cbn [fst snd] in *.
      unfold unpack_size. rewrite H1, rd_map_rank by auto. cbn [obind]. rewrite rd_map_rank by auto. cbn [obind].
      assert (P : pick s SH = pick s pre ++ n :: pick s post). { rewrite E, pick_app. f_equal. change ((n, s) :: post) with ([(n, s)] ++ post). rewrite pick_app, pick_one, Nat.eqb_refl. auto. }
      rewrite (rd_ok _ _ 0) by (rewrite map_length, P, app_length; simpl; lia). cbn [obind]. rewrite (rd_ok _ _ 0) by lia. cbn [obind]. rewrite wr_ok by lia. cbn [obind].
      rewrite wr_map_rank by auto. cbn [obind]. eexists; split; [reflexivity|].
      assert (V : nth (length (pick s pre)) (map (h s) (pick s SH)) 0 = h s n). { rewrite P, map_app, app_nth2, map_length, Nat.sub_diag by (rewrite map_length; lia). auto. }
      rewrite V. split; [|split]; cbn [fst snd]; [|rewrite upd_length; auto|].
      + apply map_ext. intros j. rewrite pick_app, pick_one, app_length. destruct (Nat.eqb_spec j s) as [->|]; simpl; lia.
      + intros n' Hn'. rewrite map_app, at_pos_app, list_sum_app'. rewrite nth_upd by lia. unfold at_pos at 2. cbn [map filter fst snd].
        destruct (Nat.eqb_spec n n') as [->|]; cbn [map snd list_sum fold_right]; rewrite H3 by auto; lia.
    - exists b', ri. auto.
  Qed.

  (** the received indices are pushed *)
  Lemma unpack_run rIndices n k row : forall g a d st rData, rd rIndices k = Ok row -> k < length rData -> nth k rData 0 = d -> d + length g <= length row -> slice d (d + length g) row = g ->
    foldM (unpack_index rIndices n k) (seq a (length g)) (st, rData) = (st' <- foldM (fun st x => push_index (fst x) (snd x) st) (map (pair n) g) st ;; Ok (st', upd rData k (d + length g))).
  Proof.
    induction g as [|x g IH]; intros a d st rData Hr Hk Hd Hl Hg.
    - cbn [length seq foldM map]. cbn [obind]. rewrite Nat.add_0_r, <- Hd. do 2 f_equal. apply (nth_ext _ _ 0 0); [rewrite upd_length; auto|]. intros i Hi. rewrite nth_upd by auto. destruct (Nat.eqb_spec k i); congruence.
    - cbn [length seq foldM map fst snd]. unfold unpack_index at 1. rewrite (rd_ok _ _ 0) by auto. cbn [obind]. rewrite Hr. cbn [obind]. rewrite Hd. cbn [length] in Hl. rewrite (rd_ok _ _ 0) by lia. cbn [obind].
      assert (X : nth d row 0 = x). { pose proof (f_equal (fun l => nth 0 l 0) Hg) as Q. cbn [nth] in Q. rewrite nth_slice in Q by (cbn [length]; lia). rewrite Nat.add_0_r in Q. auto. }
      rewrite X. destruct (push_index n x st) as [st'| |]; cbn [obind]; auto. rewrite wr_ok by auto. cbn [obind].
      rewrite (IH (S a) (d + 1) st' (upd rData k (d + 1))); auto; [|rewrite upd_length; auto|apply nth_upd_eq; auto|lia|].
      + destruct (foldM _ (map (pair n) g) st'); cbn [obind]; auto. do 2 f_equal. replace (d + 1 + length g) with (d + S (length g)) by lia.
        apply (nth_ext _ _ 0 0); [rewrite !upd_length; auto|]. intros i Hi. rewrite !upd_length in Hi. rewrite !nth_upd by (rewrite ?upd_length; auto). destruct (k =? i); auto.
      + apply (nth_ext _ _ 0 0); [rewrite slice_length by lia; lia|]. intros i Hi. rewrite slice_length in Hi by lia. rewrite nth_slice by lia.
        pose proof (f_equal (fun l => nth (S i) l 0) Hg) as Q. cbn [nth] in Q. rewrite nth_slice in Q by (cbn [length]; lia). rewrite <- Q. f_equal. lia.
  Qed.
  Lemma unpack_indices_ok (g : nat -> nat -> list nat) SH st : (forall x, In x SH -> In (snd x) nb) ->
    exists rd' ri', foldM (fun st x => unpack_node (map (fun j => map (fun n => length (g j n)) (pick j SH)) nb) (map (fun j => flat_map (g j) (pick j SH)) nb) (fst x) (find_rank (snd x) nb) st) SH
        (st, repeat 0 (length nb), repeat 0 (length nb))
      = (st' <- foldM (fun st x => push_index (fst x) (snd x) st) (flat_map (fun x => map (pair (fst x)) (g (snd x) (fst x))) SH) st ;; Ok (st', rd', ri')).
  Proof.
    intros Hs. set (RD := fun pre => map (fun j => length (flat_map (g j) (pick j pre))) nb). set (RI := fun pre : list (nat * nat) => map (fun j => length (pick j pre)) nb).
    exists (RD SH), (RI SH). replace (st, repeat 0 (length nb), repeat 0 (length nb)) with (st, RD [], RI []). 2:{ unfold RD, RI, pick; cbn [filter map flat_map length]. clear. f_equal; [f_equal|]; induction nb; simpl; congruence. }
    assert (G : forall post pre st, SH = pre ++ post ->
      foldM (fun st x => unpack_node (map (fun j => map (fun n => length (g j n)) (pick j SH)) nb) (map (fun j => flat_map (g j) (pick j SH)) nb) (fst x) (find_rank (snd x) nb) st) post (st, RD pre, RI pre)
      = (st' <- foldM (fun st x => push_index (fst x) (snd x) st) (flat_map (fun x => map (pair (fst x)) (g (snd x) (fst x))) post) st ;; Ok (st', RD SH, RI SH))); [|apply (G SH []); auto].
    induction post as [|[n s] post IH]; intros pre st0 E. { rewrite app_nil_r in E; subst pre. reflexivity. }
    cbn [foldM flat_map fst snd]. rewrite foldM_app. assert (Hn : In s nb) by (apply (Hs (n, s)); rewrite E; apply in_or_app; right; left; auto).
    assert (P : pick s SH = pick s pre ++ n :: pick s post). { rewrite E, pick_app. f_equal. change ((n, s) :: post) with ([(n, s)] ++ post). rewrite pick_app, pick_one, Nat.eqb_refl. auto. }
    unfold unpack_node at 1. unfold RI at 1. rewrite rd_map_rank by auto. cbn [obind]. rewrite rd_map_rank by auto. cbn [obind].
    rewrite (rd_ok _ _ 0) by (rewrite map_length, P, app_length; simpl; lia). cbn [obind].
    replace (nth (length (pick s pre)) (map (fun n0 => length (g s n0)) (pick s SH)) 0) with (length (g s n)) by (rewrite P, map_app, app_nth2, map_length, Nat.sub_diag by (rewrite map_length; lia); auto).
    rewrite (unpack_run _ n (find_rank s nb) (flat_map (g s) (pick s SH)) (g s n) 0 (length (flat_map (g s) (pick s pre)))).
    - destruct (foldM _ (map (pair n) (g s n)) st0) as [st'| |]; cbn [obind]; auto.
      unfold RD at 1. rewrite upd_map by auto. unfold RI at 1. rewrite wr_map_rank by auto. cbn [obind].
      rewrite <- (IH (pre ++ [(n, s)]) st') by (rewrite <- app_assoc; auto). f_equal. f_equal; [f_equal|]; unfold RD, RI; apply map_ext; intros j; rewrite pick_app, pick_one; destruct (Nat.eqb_spec j s) as [->|];
        rewrite ?flat_map_app, ?app_length; cbn [flat_map length app]; rewrite ?app_nil_r; lia.
    - apply (rd_map_rank (fun j => flat_map (g j) (pick j SH))); auto.
    - unfold RD. rewrite map_length. apply find_rank_in; auto.
    - unfold RD. rewrite (nth_map_rank (fun j => length (flat_map (g j) (pick j pre)))); auto.
    - rewrite P, flat_map_app. cbn [flat_map]. rewrite !app_length. lia.
    - rewrite P, flat_map_app. cbn [flat_map]. unfold slice. rewrite skipn_app, skipn_all, Nat.sub_diag. cbn [app skipn]. rewrite firstn_app. replace (_ + _ - _ - _) with 0 by lia.
      cbn [firstn]. rewrite app_nil_r. replace (length (flat_map (g s) (pick s pre)) + length (g s n) - length (flat_map (g s) (pick s pre))) with (length (g s n)) by lia. apply firstn_all.
  Qed.
End Neighbours.
