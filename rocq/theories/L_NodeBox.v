(** * Lemmas on the bounding boxes of regions *)
From Coq Require Import List Arith ZArith Bool Lia.
From Verif Require L_Equality2 L_Fill2.
From Verif Require Import Base M_Distributed M_NodeBox S_NodeBox L_Distributed.
Import ListNotations.
Local Open Scope out_scope.

Definition lower (big : Z) (l : list point) : point := fold_right pmin (all_axes big) l.
Definition upper (big : Z) (l : list point) : point := fold_right pmax (all_axes (- big)) l.
Lemma point_eq p q : px p = px q -> py p = py q -> pz p = pz q -> p = q.
Proof. destruct p, q; cbn; congruence. Qed.
Lemma pmin_comm p q : pmin p q = pmin q p.
Proof. apply point_eq; apply Z.min_comm. Qed.
Lemma pmax_comm p q : pmax p q = pmax q p.
Proof. apply point_eq; apply Z.max_comm. Qed.
Lemma pmin_assoc p q r : pmin p (pmin q r) = pmin (pmin p q) r.
Proof. apply point_eq; apply Z.min_assoc. Qed.
Lemma pmax_assoc p q r : pmax p (pmax q r) = pmax (pmax p q) r.
Proof. apply point_eq; apply Z.max_assoc. Qed.
Lemma lower_bound_big big l a : In a axes -> (a (lower big l) <= big)%Z.
Proof.
  intros Ha. destruct Ha as [<-|[<-|[<-|[]]]]; (induction l as [|p l IH]; [cbn; lia|]); unfold lower in *; cbn [fold_right pmin px py pz]; lia.
Qed.
Lemma upper_bound_big big l a : In a axes -> (- big <= a (upper big l))%Z.
Proof.
  intros Ha. destruct Ha as [<-|[<-|[<-|[]]]]; (induction l as [|p l IH]; [cbn; lia|]); unfold upper in *; cbn [fold_right pmax px py pz]; lia.
Qed.
Lemma lower_app big a b : lower big (a ++ b) = pmin (lower big a) (lower big b).
Proof.
  unfold lower at 1. induction a as [|p a IH]; cbn [app fold_right].
  - fold (lower big b). pose proof (lower_bound_big big b px ltac:(cbn; auto)). pose proof (lower_bound_big big b py ltac:(cbn; auto)). pose proof (lower_bound_big big b pz ltac:(cbn; auto)). apply point_eq; cbn [pmin px py pz]; unfold lower at 2; cbn [fold_right all_axes px py pz]; lia.
  - rewrite IH. cbn [lower fold_right]. fold (lower big a). apply pmin_assoc.
Qed.
Lemma upper_app big a b : upper big (a ++ b) = pmax (upper big a) (upper big b).
Proof.
  unfold upper at 1. induction a as [|p a IH]; cbn [app fold_right].
  - fold (upper big b). pose proof (upper_bound_big big b px ltac:(cbn; auto)). pose proof (upper_bound_big big b py ltac:(cbn; auto)). pose proof (upper_bound_big big b pz ltac:(cbn; auto)). apply point_eq; cbn [pmax px py pz]; unfold upper at 2; cbn [fold_right all_axes px py pz]; lia.
  - rewrite IH. cbn [upper fold_right]. fold (upper big a). apply pmax_assoc.
Qed.
Lemma lower_snoc big l p : (forall a, In a axes -> (a p <= big)%Z) -> lower big (l ++ [p]) = pmin p (lower big l).
Proof. intros H. rewrite lower_app, pmin_comm. f_equal. pose proof (H px ltac:(cbn; auto)). pose proof (H py ltac:(cbn; auto)). pose proof (H pz ltac:(cbn; auto)). apply point_eq; cbn; lia. Qed.
Lemma upper_snoc big l p : (forall a, In a axes -> (- big <= a p)%Z) -> upper big (l ++ [p]) = pmax p (upper big l).
Proof. intros H. rewrite upper_app, pmax_comm. f_equal. pose proof (H px ltac:(cbn; auto)). pose proof (H py ltac:(cbn; auto)). pose proof (H pz ltac:(cbn; auto)). apply point_eq; cbn; lia. Qed.
Lemma lower_twice big l p : pmin p (pmin p (lower big l)) = pmin p (lower big l).
Proof. apply point_eq; cbn; lia. Qed.
Lemma upper_twice big l p : pmax p (pmax p (upper big l)) = pmax p (upper big l).
Proof. apply point_eq; cbn; lia. Qed.

Lemma is_box_ok big l : (forall p a, In p l -> In a axes -> (- big <= a p <= big)%Z) -> is_box big l (lower big l) (upper big l).
Proof.
  intros R axis Ha. assert (EL : forall p l, axis (lower big (p :: l)) = Z.min (axis p) (axis (lower big l))) by (cbn in Ha; intuition subst; auto). assert (EU : forall p l, axis (upper big (p :: l)) = Z.max (axis p) (axis (upper big l))) by (cbn in Ha; intuition subst; auto).
  assert (E0 : axis (lower big []) = big /\ axis (upper big []) = (- big)%Z) by (cbn in Ha; intuition subst; auto).
  split; [|split].
  - clear R. induction l as [|q l IH]; intros p Hp; [destruct Hp|]. rewrite EL, EU. destruct Hp as [->|Hp]; [lia|]. specialize (IH p Hp). lia.
  - induction l as [|q l IH]; intros N; [congruence|]. rewrite EL, EU. assert (Rq := R q axis (or_introl eq_refl) Ha). destruct l as [|q' l].
    + destruct E0 as [-> ->]. split; exists q; split; [left; auto|lia|left; auto|lia].
    + destruct IH as [(p1 & I1 & E1) (p2 & I2 & E2)]; [intros; apply R; auto; right; auto|discriminate|]. rewrite <- E1, <- E2. split; [destruct (Z.min_spec (axis q) (axis p1)) as [[_ E]|[_ E]]|destruct (Z.max_spec (axis q) (axis p2)) as [[_ E]|[_ E]]]; rewrite E; eexists; split; try reflexivity; try (left; reflexivity); right; assumption.
  - intros ->. auto.
Qed.

Lemma map_const_seq {A} (v : A) n : map (fun _ => v) (seq 0 n) = repeat v n.
Proof. generalize 0. induction n as [|n IH]; intros b; cbn [seq map repeat]; congruence. Qed.
Section Rank.
  Context (big : Z) (m : nat) (coordinates : list point).
  Hypothesis (R : forall p a, In p coordinates -> In a axes -> (- big <= a p <= big)%Z).
  Let pt n := nth n coordinates no_point.
  (** the points that were added to the entry [i]: [done] of the regions, and all of them to the first entry *)
  Let added (Q : nat -> list point) (all : list point) i := if i =? 0 then all else Q i.
  Let state (Q : nat -> list point) (all : list point) := (map (fun i => lower big (added Q all i)) (seq 0 m), map (fun i => upper big (added Q all i)) (seq 0 m)).
  Lemma upd_map_seq {A} (f : nat -> A) n i v : i < n -> upd (map f (seq 0 n)) i v = map (fun k => if k =? i then v else f k) (seq 0 n).
  Proof.
    intros Hi. apply (nth_ext _ _ v v); [rewrite upd_length, !map_length; auto|]. intros k Hk. rewrite upd_length, map_length, seq_length in Hk. rewrite nth_map_seq by auto. destruct (Nat.eqb_spec k i) as [->|N].
    - apply nth_upd_eq. rewrite map_length, seq_length; auto.
    - rewrite nth_upd_neq by auto. rewrite nth_map_seq by auto. auto.
  Qed.
  Lemma box_node_ok Q all r n : r < m -> n < length coordinates ->
    box_node coordinates r (state Q all) n = Ok (state (fun i => if i =? r then Q i ++ [pt n] else Q i) (all ++ [pt n])).
  Proof.
    intros Hr Hn. unfold box_node. rewrite (rd_ok _ _ no_point) by auto. cbn [obind]. fold (pt n). assert (Rp : forall a, In a axes -> (- big <= a (pt n) <= big)%Z) by (intros a Ha; apply R; auto; apply nth_In; auto).
    unfold minmax, state. cbn [fst snd]. rewrite !(rd_ok _ _ no_point) by (rewrite map_length, seq_length; lia). cbn [obind]. rewrite !wr_ok by (rewrite map_length, seq_length; lia). cbn [obind fst snd]. rewrite !upd_map_seq by lia.
    rewrite !(rd_ok _ _ no_point) by (rewrite map_length, seq_length; lia). cbn [obind]. rewrite !wr_ok by (rewrite map_length, seq_length; lia). cbn [obind]. rewrite !upd_map_seq by lia. rewrite !nth_map_seq by lia.
    f_equal. f_equal; apply map_ext_in; intros i Hi; unfold added; cbn [Nat.eqb]; destruct (Nat.eqb_spec i r) as [->|N]; destruct (Nat.eqb_spec r 0) as [Z|Z]; try (destruct (Nat.eqb_spec i 0) as [Z'|Z']); try lia.
    - rewrite lower_snoc by (intros; apply Rp; auto). apply lower_twice.
    - rewrite lower_snoc by (intros; apply Rp; auto). auto.
    - subst r. auto.
    - subst i. rewrite lower_snoc by (intros; apply Rp; auto). auto.
    - auto.
    - rewrite upper_snoc by (intros; apply Rp; auto). apply upper_twice.
    - rewrite upper_snoc by (intros; apply Rp; auto). auto.
    - auto.
    - subst i. rewrite upper_snoc by (intros; apply Rp; auto). auto.
    - auto.
  Qed.
  Lemma state_ext Q Q' all : (forall i, 0 < i < m -> Q i = Q' i) -> state Q all = state Q' all.
  Proof. intros H. unfold state. f_equal; apply map_ext_in; intros i Hi; apply in_seq in Hi; unfold added; (destruct (Nat.eqb_spec i 0); [auto|rewrite H by lia; auto]). Qed.
  Lemma box_nodes_ok r l : r < m -> (forall n, In n l -> n < length coordinates) -> forall Q all,
    foldM (box_node coordinates r) l (state Q all) = Ok (state (fun i => if i =? r then Q i ++ map pt l else Q i) (all ++ map pt l)).
  Proof.
    intros Hr. induction l as [|n l IH]; intros V Q all; cbn [foldM map].
    - rewrite app_nil_r. f_equal. apply state_ext. intros i _. destruct (i =? r); rewrite ?app_nil_r; auto.
    - rewrite box_node_ok by (auto; apply V; left; auto). cbn [obind]. rewrite IH by (intros; apply V; right; auto). f_equal. rewrite <- app_assoc. apply state_ext. intros i _. destruct (i =? r); rewrite <- ?app_assoc; auto.
  Qed.
  Lemma box_regions_ok regions : length regions = m -> (forall l n, In l regions -> In n l -> n < length coordinates) ->
    box_regions big coordinates regions = Ok (state (fun i => map pt (nth i regions [])) (map pt (concat regions))).
  Proof.
    intros L V. unfold box_regions. rewrite L.
    assert (Q : forall k, k <= m -> foldM (fun st x => foldM (box_node coordinates (fst x)) (snd x) st) (firstn k (combine (seq 0 m) regions)) (repeat (all_axes big) m, repeat (all_axes (- big)) m)
      = Ok (state (fun i => if i <? k then map pt (nth i regions []) else []) (map pt (concat (firstn k regions))))).
    { induction k as [|k IH]; intros Hk.
      - cbn [firstn foldM concat map]. f_equal. unfold state. rewrite <- !(map_const_seq _ m). f_equal; apply map_ext; intros i; unfold added; destruct (i =? 0); auto.
      - assert (Hc : k < length (combine (seq 0 m) regions)) by (rewrite combine_length, seq_length; lia).
        rewrite (L_Equality2.firstn_S _ k (0, [])) by auto. rewrite foldM_app, IH by lia. cbn [obind foldM]. rewrite combine_nth by (rewrite seq_length; auto). rewrite seq_nth by lia. cbn [fst snd Nat.add].
        rewrite box_nodes_ok by (try lia; intros n Hn; apply (V (nth k regions [])); auto; apply nth_In; lia). cbn [obind]. f_equal. rewrite (L_Equality2.firstn_S _ k []) by lia. rewrite concat_app, map_app. cbn [concat]. rewrite app_nil_r. apply state_ext. intros i Hi.
        destruct (Nat.eqb_spec i k) as [->|N]; [rewrite Nat.ltb_irrefl, (proj2 (Nat.ltb_lt k (S k))) by lia; auto|]. destruct (Nat.ltb_spec i k), (Nat.ltb_spec i (S k)); auto; lia. }
    specialize (Q m (le_n m)). rewrite firstn_all2 in Q by (rewrite combine_length, seq_length; lia). rewrite Q. f_equal. rewrite firstn_all2 by lia. apply state_ext. intros i Hi. rewrite (proj2 (Nat.ltb_lt _ _)) by lia. auto.
  Qed.
End Rank.

Lemma is_box_ext big a b lo hi : (forall p, In p a <-> In p b) -> is_box big a lo hi -> is_box big b lo hi.
Proof.
  intros E B axis Ha. destruct (B axis Ha) as (B1 & B2 & B3). assert (Z : a = [] <-> b = []).
  { destruct a as [|x a], b as [|y b]; split; try congruence; intros _; exfalso; [apply (proj2 (E y)); left; auto|apply (proj1 (E x)); left; auto]. }
  split; [intros p Hp; apply B1, E; auto|]. split; [|intros ->; apply B3, Z; auto]. intros N. destruct B2 as [(p1 & I1 & E1) (p2 & I2 & E2)]; [intros C; apply N, Z; auto|]. split; [exists p1|exists p2]; split; auto; apply E; auto.
Qed.
Lemma reduce_seq (op : point -> point -> point) m (f : nat -> nat -> point) (g : nat -> nat -> point) n : (forall i, g 0 i = f 0 i) -> (forall k i, g (S k) i = op (g k i) (f (S k) i)) ->
  reduce op (map (fun r => map (f r) (seq 0 m)) (seq 0 (S n))) = map (g n) (seq 0 m).
Proof.
  intros G0 GS. cbn [seq map reduce]. rewrite <- (map_ext (g 0) (f 0)) by auto.
  assert (Q : forall k a, fold_left (fun a b => map (fun x : point * point => op (fst x) (snd x)) (combine a b)) (map (fun r => map (f r) (seq 0 m)) (seq (S a) k)) (map (g a) (seq 0 m)) = map (g (a + k)) (seq 0 m)).
  { induction k as [|k IH]; intros a; cbn [seq map fold_left]; [rewrite Nat.add_0_r; auto|]. rewrite L_Fill2.combine_map, map_map. cbn [fst snd]. rewrite (map_ext _ (g (S a))) by (intros; symmetry; apply GS). rewrite IH. rewrite <- Nat.add_succ_comm. auto. }
  apply (Q n 0).
Qed.

Section All.
  Context (big : Z) (m : nat) (coordinates : list (list point)) (regions : list (list (list nat))) (PL : placed big m coordinates regions).
  Let pts r l := map (fun n => nth n (nth r coordinates []) no_point) l.
  Let part r i := if i =? 0 then pts r (concat (nth r regions [])) else pts r (nth i (nth r regions []) []).
  Lemma compute_boxes_ok : compute_boxes big coordinates regions =
    Ok (map (fun i => lower big (flat_map (fun r => part r i) (seq 0 (length coordinates)))) (seq 0 m), map (fun i => upper big (flat_map (fun r => part r i) (seq 0 (length coordinates)))) (seq 0 m)).
  Proof.
    destruct PL as (NE & LR & RB & PR). unfold compute_boxes.
    assert (EC : combine coordinates regions = map (fun r => (nth r coordinates [], nth r regions [])) (seq 0 (length coordinates))) by (rewrite <- L_Fill2.combine_map; f_equal; apply list_as_map; auto).
    rewrite EC. clear EC. erewrite mapM_map.
    2:{ intros r Hr. apply in_seq in Hr. cbn [fst snd]. destruct (PR r ltac:(lia)) as [L V]. apply (box_regions_ok big m (nth r coordinates [])); auto. intros p a Hp Ha. apply (RB (nth r coordinates [])); auto. apply nth_In. lia. }
    cbn [obind]. rewrite !map_map. cbn [fst snd]. destruct (length coordinates) as [|n] eqn:En; [destruct coordinates; [congruence|discriminate]|].
    f_equal. f_equal.
    - apply (reduce_seq pmin m (fun r i => lower big (part r i)) (fun k i => lower big (flat_map (fun r => part r i) (seq 0 (S k))))).
      + intros i. cbn [seq flat_map]. rewrite app_nil_r. auto.
      + intros k i. rewrite (seq_S (S k) 0), flat_map_app, lower_app. cbn [flat_map Nat.add]. rewrite app_nil_r. auto.
    - apply (reduce_seq pmax m (fun r i => upper big (part r i)) (fun k i => upper big (flat_map (fun r => part r i) (seq 0 (S k))))).
      + intros i. cbn [seq flat_map]. rewrite app_nil_r. auto.
      + intros k i. rewrite (seq_S (S k) 0), flat_map_app, upper_app. cbn [flat_map Nat.add]. rewrite app_nil_r. auto.
  Qed.
  Lemma part_range p a i : i < m -> In p (flat_map (fun r => part r i) (seq 0 (length coordinates))) -> In a axes -> (- big <= a p <= big)%Z.
  Proof.
    destruct PL as (NE & LR & RB & PR). intros Hi Hp Ha. apply in_flat_map in Hp. destruct Hp as (r & Hr & Hp). apply in_seq in Hr. destruct (PR r ltac:(lia)) as [L V]. unfold part, pts in Hp. destruct (Nat.eqb_spec i 0) as [Z|Z]; apply in_map_iff in Hp; destruct Hp as (n & <- & Hn); (apply (RB (nth r coordinates [])); auto; [apply nth_In; lia|apply nth_In]).
    - apply in_concat in Hn. destruct Hn as (l & Hl & Hn). eauto.
    - apply (V (nth i (nth r regions []) [])); auto. apply nth_In. lia.
  Qed.
  Lemma boxes_exact : exists los his, compute_boxes big coordinates regions = Ok (los, his) /\ length los = m /\ length his = m /\
    (forall i, 0 < i < m -> is_box big (region_points coordinates regions i) (nth i los no_point) (nth i his no_point)) /\
    (0 < m -> is_box big (flat_map (region_points coordinates regions) (seq 0 m)) (nth 0 los no_point) (nth 0 his no_point)).
  Proof.
    eexists. eexists. split; [apply compute_boxes_ok|]. rewrite !map_length, seq_length. split; auto. split; auto. split.
    - intros i Hi. rewrite !nth_map_seq by lia. assert (B := is_box_ok big _ (fun p a => part_range p a i ltac:(lia))). revert B. apply is_box_ext. intros p. unfold region_points, part. rewrite (proj2 (Nat.eqb_neq i 0)) by lia. tauto.
    - intros Hm. rewrite !nth_map_seq by lia. assert (B := is_box_ok big _ (fun p a => part_range p a 0 Hm)). revert B. apply is_box_ext. intros p. unfold region_points, part. cbn [Nat.eqb]. destruct PL as (NE & LR & RB & PR).
      rewrite !in_flat_map. split.
      + intros (r & Hr & Hp). unfold pts in Hp. apply in_map_iff in Hp. destruct Hp as (n & <- & Hn). apply in_concat in Hn. destruct Hn as (l & Hl & Hn). apply (In_nth _ _ []) in Hl. destruct Hl as (i & Hi & <-). apply in_seq in Hr. destruct (PR r ltac:(lia)) as [L _]. exists i. split; [apply in_seq; lia|]. apply in_flat_map. exists r. split; [apply in_seq; lia|]. apply (in_map (fun n => nth n (nth r coordinates []) no_point)). auto.
      + intros (i & Hi & Hp). apply in_flat_map in Hp. destruct Hp as (r & Hr & Hp). exists r. split; auto. unfold pts. apply in_map_iff in Hp. destruct Hp as (n & <- & Hn). apply (in_map (fun n => nth n (nth r coordinates []) no_point)). apply in_concat. exists (nth i (nth r regions []) []). split; auto. apply nth_In. apply in_seq in Hi, Hr. destruct (PR r ltac:(lia)) as [L _]. lia.
  Qed.
End All.
