(** * Properties of the space partitioning trees: C23, C24, C66, C67 *)
From Coq Require Import ZArith List Bool Arith Lia Permutation Sorted.
From Verif Require Import Base S_Order L_Tarray M_Trees S_Trees L_Trees.
Import ListNotations.
Local Open Scope nat_scope.

(** C23: building a k-d tree succeeds for every point set, every positive bucket size, every split dimension, every schedule
    and every admissible nth_element and sort; it permutes the indices and its leaves split them into consecutive ranges *)
Theorem kdtree_partition nthel order dim sort pts bucket :
  nth_element_contract nthel -> level_orders order -> sorts_contract sort -> 0 < bucket ->
  exists levels t, kd_build nthel order dim sort pts bucket = Ok (levels, t) /\
    Permutation (kd_perm t) (seq 0 (length pts)) /\
    leaves_partition (length pts) levels (tree_begin (kd_spl t)) (tree_end (length (kd_perm t)) (kd_spl t)).
Proof.
  intros HN HO HS Hb. destruct (kd_build_ok nthel order dim sort pts HN HO HS bucket Hb) as (levels & t & R & I & _).
  exists levels, t. split; auto. pose proof I as (P & _). split; auto.
  rewrite (perm_len _ _ P). eapply pos_fn; eauto.
Qed.

(** C23: the points of a leaf are ordered lexicographically *)
Theorem kdtree_leaf_sorted nthel order dim sort pts bucket levels t :
  nth_element_contract nthel -> level_orders order -> sorts_contract sort -> 0 < bucket ->
  kd_build nthel order dim sort pts bucket = Ok (levels, t) ->
  forall i b e, i < 2 ^ levels -> tree_begin (kd_spl t) (2 ^ levels + i) = Ok b ->
    tree_end (length (kd_perm t)) (kd_spl t) (2 ^ levels + i) = Ok e ->
    forall p q, b <= p < q -> q < e ->
      ~ lex_lt (nth (nth q (kd_perm t) 0) pts (0, 0, 0)%Z) (nth (nth p (kd_perm t) 0) pts (0, 0, 0)%Z).
Proof.
  intros HN HO HS Hb R0 i b e Hi Rb Re p q Hpq Hq.
  destruct (kd_build_ok nthel order dim sort pts HN HO HS bucket Hb) as (levels' & t' & R & (P & Ls & Lv & _) & S & _).
  rewrite R0 in R. injection R as <- <-.
  rewrite (begin_pos (length pts)) in Rb by (try rewrite Ls; auto). injection Rb as <-.
  rewrite (perm_len _ _ P), end_pos in Re by (try rewrite Ls; auto). injection Re as <-.
  specialize (S i Hi). unfold sorted_part in S. set (B := pos _ _ _ i) in *. set (E := pos _ _ _ (i + 1)) in *.
  assert (LE : E <= length pts) by (eapply pos_le; eauto; lia).
  assert (G : forall l a c, sorted (compxyz pts) l -> a < c < length l -> compxyz pts (nth c l 0) (nth a l 0) = false).
  { clear. induction l as [|x l IH]; intros a c S H; cbn in H; [lia|].
    inversion S as [|? ? S1 S2]; subst. destruct c as [|c]; [lia|]. destruct a as [|a].
    - cbn. rewrite Forall_forall in S2. apply S2. apply nth_In. lia.
    - cbn. apply IH; auto. lia. }
  assert (K := G _ (p - B) (q - B) S). rewrite slice_length in K by (rewrite (perm_len _ _ P); lia). specialize (K ltac:(lia)).
  rewrite !nth_slice in K by lia. replace (B + (p - B)) with p in K by lia. replace (B + (q - B)) with q in K by lia.
  unfold compxyz, key in K.
  destruct (nth (nth q (kd_perm t) 0) pts (0, 0, 0)%Z) as [[qx qy] qz], (nth (nth p (kd_perm t) 0) pts (0, 0, 0)%Z) as [[px py] pz].
  cbn [coord lex_lt] in *.
  destruct (Z.eqb_spec qx px), (Z.eqb_spec qy py); rewrite Z.ltb_ge in K; lia.
Qed.

(** C23: points with the same coordinates are in the same leaf *)
Theorem kdtree_equal_points_together nthel order dim sort pts bucket levels t :
  nth_element_contract nthel -> level_orders order -> sorts_contract sort -> 0 < bucket ->
  kd_build nthel order dim sort pts bucket = Ok (levels, t) ->
  forall p q, p < length pts -> q < length pts ->
    nth (nth p (kd_perm t) 0) pts (0, 0, 0)%Z = nth (nth q (kd_perm t) 0) pts (0, 0, 0)%Z ->
    forall i b e, i < 2 ^ levels -> tree_begin (kd_spl t) (2 ^ levels + i) = Ok b ->
    tree_end (length (kd_perm t)) (kd_spl t) (2 ^ levels + i) = Ok e ->
    b <= p < e -> b <= q < e.
Proof.
  intros HN HO HS Hb R0 p q Hp Hq E i b e Hi Rb Re B.
  destruct (kd_build_ok nthel order dim sort pts HN HO HS bucket Hb) as (levels' & t' & R & (P & Ls & Lv & _) & S & _).
  rewrite R0 in R. injection R as <- <-.
  rewrite (begin_pos (length pts)) in Rb by (try rewrite Ls; auto). injection Rb as <-.
  rewrite (perm_len _ _ P), end_pos in Re by (try rewrite Ls; auto). injection Re as <-.
  destruct (pos_find _ _ _ _ _ _ _ q Lv Hq) as (k & Hk & Bk).
  assert (Pp := path_holds _ _ _ _ _ _ _ Lv i p Hi B). assert (Pq := path_holds _ _ _ _ _ _ _ Lv k q Hk Bk).
  enough (i = k) by (subst; auto).
  eapply path_unique; [| |exact Hi|exact Hk|exact Pp|exact Pq]; intros s; unfold kd_left, kd_right, key; rewrite E; lia.
Qed.

(** C23: the recorded buckets (the ranges before the last split) split the indices into consecutive ranges as well *)
Theorem kdtree_buckets nthel order dim sort pts bucket levels t :
  nth_element_contract nthel -> level_orders order -> sorts_contract sort -> 0 < bucket ->
  kd_build nthel order dim sort pts bucket = Ok (levels, t) -> 0 < levels ->
  length (kd_leaf_intervals t) = 2 ^ (levels - 1) /\
  exists cut, cut 0 = 0 /\ cut (length (kd_leaf_intervals t)) = length pts /\
    forall i, i < length (kd_leaf_intervals t) -> cut i <= cut (S i) /\ nth i (kd_leaf_intervals t) (0, 0) = (cut i, cut (S i)).
Proof.
  intros HN HO HS Hb R0 Hl.
  destruct (kd_build_ok nthel order dim sort pts HN HO HS bucket Hb) as (levels' & t' & R & (P & Ls & Lv & _) & _ & Sx & _).
  rewrite R0 in R. injection R as <- <-.
  destruct (Sx (levels - 1) ltac:(lia)) as [L N]. split; auto.
  assert (Lv' : levels_ok (length pts) (kd_left pts) (kd_right pts) dim (kd_perm t) (kd_spl t) (levels - 1))
    by (intros l i Hl' Hi; apply Lv; auto; lia).
  exists (pos (length pts) (kd_spl t) (levels - 1)). rewrite L. split; [apply pos_0|]. split; [apply pos_last|].
  intros i Hi. rewrite (N i Hi). replace (S i) with (i + 1) by lia. split; auto. eapply pos_mono1; eauto.
Qed.

(** C67: the representative of a non-empty bucket is one of its points *)
Theorem kdtree_mid_point nthel order dim sort closer pts bucket levels t :
  nth_element_contract nthel -> level_orders order -> sorts_contract sort -> 0 < bucket ->
  kd_build nthel order dim sort pts bucket = Ok (levels, t) ->
  forall i b e, nth_error (kd_leaf_intervals t) i = Some (b, e) -> b < e ->
  exists p, b <= p < e /\ kd_getMidPoint closer t i = Ok (Some (nth p (kd_perm t) 0)) /\ nth p (kd_perm t) 0 < length pts.
Proof.
  intros HN HO HS Hb R0 i b e Ni Hbe.
  destruct (kd_build_ok nthel order dim sort pts HN HO HS bucket Hb) as (levels' & t' & R & (P & Ls & Lv & _) & _ & Sx & S0).
  rewrite R0 in R. injection R as <- <-.
  destruct levels as [|ll]; [rewrite (S0 eq_refl) in Ni; destruct i; discriminate|].
  destruct (Sx ll eq_refl) as [L N].
  assert (Hi : i < 2 ^ ll) by (rewrite <- L; apply nth_error_Some; congruence).
  assert (Nb := N i Hi). rewrite (nth_error_nth _ _ _ Ni) in Nb. injection Nb as Eb Ee.
  assert (Lv' : levels_ok (length pts) (kd_left pts) (kd_right pts) dim (kd_perm t) (kd_spl t) ll)
    by (intros l k Hl' Hk; apply Lv; auto; lia).
  assert (LE : e <= length pts) by (rewrite Ee; eapply pos_le; eauto; lia).
  destruct (mid_ok (kd_perm t) closer i (e - b) b ltac:(rewrite (perm_len _ _ P); lia) ltac:(lia)) as (p & Hp & Rp).
  exists p. split; [lia|]. split.
  - unfold kd_getMidPoint, rd. rewrite Ni. cbn [obind]. exact Rp.
  - apply perm_nth_lt; auto. lia.
Qed.

(** C66: the lower corner reported for a leaf is a lower bound of all its points, and not below the minimum of the point set *)
Theorem kdtree_box_min nthel order dim sort pts bucket levels t :
  nth_element_contract nthel -> level_orders order -> sorts_contract sort -> 0 < bucket -> (forall ll, dim ll < 3) ->
  kd_build nthel order dim sort pts bucket = Ok (levels, t) ->
  forall i b e p, i < 2 ^ levels -> tree_begin (kd_spl t) (2 ^ levels + i) = Ok b ->
    tree_end (length (kd_perm t)) (kd_spl t) (2 ^ levels + i) = Ok e -> b <= p < e ->
  exists q, kd_boxMin (kd_min pts) (kd_spl t) (2 ^ levels + i) = Ok q /\
    forall d, d < 3 -> (coord (kd_min pts) d <= coord q d <= coord (nth (nth p (kd_perm t) 0%nat) pts (0, 0, 0)) d)%Z.
Proof.
  intros HN HO HS Hb Hdim R0 i b e p Hi Rb Re Hp.
  destruct (kd_build_ok nthel order dim sort pts HN HO HS bucket Hb) as (levels' & t' & R & (P & Ls & Lv & _) & _).
  rewrite R0 in R. injection R as <- <-.
  rewrite (begin_pos (length pts)) in Rb by (try rewrite Ls; auto). injection Rb as <-.
  rewrite (perm_len _ _ P), end_pos in Re by (try rewrite Ls; auto). injection Re as <-.
  assert (LE : pos (length pts) (kd_spl t) levels (i + 1) <= length pts) by (eapply pos_le; eauto; lia).
  apply (box_min_ok pts (kd_spl t) dim (nth p (kd_perm t) 0) Hdim levels i (2 ^ levels + i) (kd_min pts)); auto.
  - assert (levels < 2 ^ levels) by (apply Nat.pow_gt_lin_r; lia). lia.
  - rewrite Ls. auto.
  - intros l k Hl Hk. apply (Lv l k Hl Hk).
  - eapply path_holds; eauto.
  - intros d Hd. apply kd_min_le. apply nth_In. apply perm_nth_lt; auto. lia.
Qed.

(** C23: the interval tree *)
Theorem intervaltree_partition nthel order dim istart iend :
  nth_element_contract nthel -> level_orders order -> length istart = length iend ->
  exists levels t, it_build nthel order dim istart iend = Ok (levels, t) /\
    Permutation (it_perm t) (seq 0 (length iend)) /\ length (it_spl t) = 2 ^ levels /\
    leaves_partition (length iend) levels (tree_begin (it_spl t)) (tree_end (length (it_perm t)) (it_spl t)).
Proof.
  intros HN HO HL. destruct (it_build_ok nthel order dim istart iend HN HO HL) as (levels & t & R & I).
  exists levels, t. split; auto. pose proof I as (P & Ls & _). split; auto. split; auto.
  rewrite (perm_len _ _ P). eapply pos_fn; eauto.
Qed.

(** C24: the search from the root succeeds, reports leaves only, no leaf twice, and every stored box that overlaps the query is
    stored in a reported leaf *)
Theorem intervaltree_search nthel order dim istart iend levels t :
  nth_element_contract nthel -> level_orders order -> length istart = length iend -> (forall ll, dim ll < 3) ->
  it_build nthel order dim istart iend = Ok (levels, t) ->
  forall qs qe, exists found, it_traverse (it_spl t) (length (it_spl t)) 1 qs qe [] = Ok found /\
    NoDup found /\ (forall leaf, In leaf found -> 2 ^ levels <= leaf < 2 ^ (levels + 1)) /\
    forall j, j < length iend ->
      overlap (nth j istart (0, 0, 0)%Z) (nth j iend (0, 0, 0)%Z) qs qe ->
      exists leaf b e p, In leaf found /\ tree_begin (it_spl t) leaf = Ok b /\
        tree_end (length (it_perm t)) (it_spl t) leaf = Ok e /\ b <= p < e /\ nth p (it_perm t) 0 = j.
Proof.
  intros HN HO HL Hdim R0 qs qe.
  destruct (it_build_ok nthel order dim istart iend HN HO HL) as (levels' & t' & R & (P & Ls & Lv & _)).
  rewrite R0 in R. injection R as <- <-.
  destruct (traverse_ok (it_spl t) qs qe levels Ls levels 0 ltac:(lia) 0 (length (it_spl t)) [] ltac:(cbn; lia)) as (found & Rf & U & V & T).
  { rewrite Ls. apply Nat.pow_gt_lin_r. lia. }
  exists found. change (2 ^ 0 + 0) with 1 in Rf. split; auto. split; auto. split.
  { intros leaf Hf. destruct (V leaf Hf) as (m & -> & Hm). rewrite Nat.add_1_r, pow2_S. lia. }
  intros j Hj Ov. destruct (find_index _ _ j P Hj) as (p & Hp & Ej).
  destruct (pos_find _ _ _ _ _ _ _ p Lv Hp) as (m & Hm & Bm).
  exists (2 ^ levels + m), (pos (length iend) (it_spl t) levels m), (pos (length iend) (it_spl t) levels (m + 1)), p.
  split.
  - apply T; [lia|].
    assert (Pth := path_holds _ _ _ _ _ _ _ Lv m p Hm Bm). rewrite Ej in Pth.
    assert (Ds : forall l i, l < levels -> i < 2 ^ l -> s_d (nth (2 ^ l + i) (it_spl t) splitter0) < 3)
      by (intros l i Hl Hi; rewrite (proj1 (Lv l i Hl Hi)); auto).
    revert Pth Hm Ds. clear -Ov. revert m. generalize levels as ll.
    induction ll as [|ll IH]; intros m Pth Hm Ds; cbn [passes]; auto.
    cbn [path_ok] in Pth. destruct Pth as [Pn Pth]. rewrite pow2_S in Hm.
    assert (Hm2 : m / 2 < 2 ^ ll) by (apply Nat.div_lt_upper_bound; lia).
    split; [|apply IH; auto].
    assert (D := Ds ll (m / 2) ltac:(lia) Hm2). destruct (Ov _ D) as [O1 O2].
    unfold it_left, it_right, key in Pn.
    destruct (Nat.even m); lia.
  - rewrite (begin_pos (length iend)) by (try rewrite Ls; auto).
    rewrite (perm_len _ _ P), end_pos by (try rewrite Ls; auto). auto.
Qed.

(** ** Non-vacuity *)
Fixpoint ins (ltb : nat -> nat -> bool) (a : nat) (l : list nat) : list nat :=
  match l with [] => [a] | b :: t => if ltb b a then b :: ins ltb a t else a :: l end.
Definition gsort (ltb : nat -> nat -> bool) (l : list nat) : list nat := fold_right (ins ltb) [] l.

Lemma ins_perm ltb a l : Permutation (a :: l) (ins ltb a l).
Proof.
  induction l as [|b t IH]; cbn [ins]; auto. destruct (ltb b a); auto.
  rewrite perm_swap. now constructor.
Qed.
Lemma gsort_perm ltb l : Permutation l (gsort ltb l).
Proof. induction l as [|a l IH]; cbn; auto. rewrite <- ins_perm. now constructor. Qed.
Lemma ins_sorted ltb a l : strict_weak_order ltb -> sorted ltb l -> sorted ltb (ins ltb a l).
Proof.
  intros W S. induction S as [|b t St IH F]; cbn [ins]. { constructor; constructor. }
  destruct (ltb b a) eqn:E.
  - constructor; auto. apply (Permutation_Forall (ins_perm ltb a t)). constructor; auto.
    apply (swo_asym _ W). exact E.
  - constructor; [constructor; auto|]. constructor; [exact E|].
    rewrite Forall_forall in *. intros x Hx. apply (swo_le_trans _ W) with b; auto.
Qed.
Lemma gsort_contract : sorts_contract (fun _ _ => gsort).
Proof.
  intros call side ltb W l. split; [apply gsort_perm|].
  induction l as [|a l IH]; cbn; [constructor|]. apply ins_sorted; auto.
Qed.
Definition ex_nth (call : nat) (k : nat -> Z) (l : list nat) (m : nat) : list nat := gsort (fun i j => Z.ltb (k i) (k j)) l.
Lemma ex_nth_contract : nth_element_contract ex_nth.
Proof.
  intros call k l m. unfold ex_nth. set (ltb := fun i j => Z.ltb (k i) (k j)).
  assert (W : strict_weak_order ltb).
  { split; unfold le_of, ltb; intros a b; [rewrite Z.ltb_lt, Z.ltb_ge; lia|]. intros c. rewrite !Z.ltb_ge. lia. }
  split; [symmetry; apply gsort_perm|]. intros Hm.
  destruct (gsort_contract 0 false ltb W l) as [P S]. rewrite (Permutation_length P) in *.
  assert (G : forall l a c, sorted ltb l -> a < c < length l -> (k (nth a l 0%nat) <= k (nth c l 0%nat))%Z).
  { clear. induction l as [|x l IH]; intros a c S H; cbn in H; [lia|].
    inversion S as [|? ? S1 S2]; subst. destruct c as [|c]; [lia|]. destruct a as [|a].
    - cbn. rewrite Forall_forall in S2. apply Z.ltb_ge. apply S2. apply nth_In. lia.
    - cbn [nth]. apply IH; auto. lia. }
  split; intros i Hi.
  - apply G; auto.
  - destruct (Nat.eq_dec i m) as [->|]; [lia|]. apply G; auto. lia.
Qed.
Definition ex_order (ll : nat) : list nat := rev (seq 0 (2 ^ ll)).
Lemma ex_order_ok : level_orders ex_order.
Proof. intros ll. unfold parallel_order, ex_order. symmetry. apply Permutation_rev. Qed.

(** nine points with repeated coordinates, buckets of two points: two levels, four leaves (two of them empty) *)
Definition ex_pts : list point :=
  [(3, 1, 0); (1, 5, 0); (3, 2, 0); (0, 0, 0); (3, 1, 0); (2, 7, 1); (3, 9, 0); (1, 1, 0); (3, 1, 0)]%Z.
Definition ex_kd : outcome (nat * kdtree) := kd_build ex_nth ex_order (fun ll => ll) (fun _ _ => gsort) ex_pts 2.

Example kdtree_ex : exists t, ex_kd = Ok (2, t) /\ kd_perm t = [3; 7; 0; 4; 8; 1; 5; 2; 6] /\
  map (tree_begin (kd_spl t)) [4; 5; 6; 7] = map Ok [0; 5; 9; 9] /\ tree_end 9 (kd_spl t) 4 = Ok 5 /\
  kd_leaf_intervals t = [(0, 9); (9, 9)] /\
  kd_boxMin (kd_min ex_pts) (kd_spl t) 5 = Ok (0, 1, 0)%Z /\
  kd_getMidPoint (fun _ _ _ => true) t 0 = Ok (Some 6).
Proof. eexists. split; [vm_compute; reflexivity|]. vm_compute. repeat (split; [reflexivity|]). reflexivity. Qed.

(** C67 without the assumption that the bucket has a point: the representative of an empty bucket is -1, which
    morphing_system_preconditioning.cpp:41-45 uses as an index *)
Theorem kdtree_mid_point_empty_refuted :
  exists nthel order dim sort pts levels t,
    nth_element_contract nthel /\ level_orders order /\ sorts_contract sort /\
    kd_build nthel order dim sort pts 2 = Ok (levels, t) /\
    ~ (forall closer i, i < length (kd_leaf_intervals t) -> exists j, kd_getMidPoint closer t i = Ok (Some j)).
Proof.
  exists ex_nth, ex_order, (fun ll => ll), (fun _ _ => gsort), ex_pts. do 2 eexists.
  split; [apply ex_nth_contract|]. split; [apply ex_order_ok|]. split; [apply gsort_contract|].
  split; [vm_compute; reflexivity|].
  intros H. destruct (H (fun _ _ _ => true) 1) as (j & E); vm_compute in *; [lia|discriminate].
Qed.

(** boxes: a grid of unit boxes with two long ones *)
Definition ex_start : list point := ([(0, 0, 0)] ++ map (fun k => (Z.of_nat k mod 4, Z.of_nat k / 4, 0)) (seq 0 32))%Z.
Definition ex_end : list point := ([(9, 1, 1)] ++ map (fun k => (Z.of_nat k mod 4 + 1, Z.of_nat k / 4 + 1, 1)) (seq 0 32))%Z.
Example intervaltree_ex : exists t, it_build ex_nth ex_order (fun ll => 1 - ll) ex_start ex_end = Ok (2, t) /\
  length (it_spl t) = 4 /\
  it_traverse (it_spl t) 4 1 (6, 0, 0)%Z (7, 1, 1)%Z [] = Ok [5] /\
  it_traverse (it_spl t) 4 1 (1, 2, 0)%Z (3, 6, 1)%Z [] = Ok [4; 5; 6] /\
  (exists b e, tree_begin (it_spl t) 5 = Ok b /\ tree_end 33 (it_spl t) 5 = Ok e /\ In 0 (slice b e (it_perm t))) /\
  overlap (nth 0 ex_start (0, 0, 0)%Z) (nth 0 ex_end (0, 0, 0)%Z) (6, 0, 0)%Z (7, 1, 1)%Z.
Proof.
  eexists. split; [vm_compute; reflexivity|]. split; [vm_compute; reflexivity|].
  split; [vm_compute; reflexivity|]. split; [vm_compute; reflexivity|]. split.
  - do 2 eexists. split; [vm_compute; reflexivity|]. split; [vm_compute; reflexivity|]. vm_compute. tauto.
  - intros [|[|[|d]]] H; try lia; vm_compute; auto.
Qed.

Print Assumptions kdtree_partition.
Print Assumptions kdtree_leaf_sorted.
Print Assumptions kdtree_equal_points_together.
Print Assumptions kdtree_buckets.
Print Assumptions kdtree_mid_point.
Print Assumptions kdtree_box_min.
Print Assumptions intervaltree_partition.
Print Assumptions intervaltree_search.
Print Assumptions kdtree_mid_point_empty_refuted.
