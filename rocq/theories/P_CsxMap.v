(** * Sparse operations with value maps (C46, C73, C74) *)
From Coq Require Import List Bool Arith Lia Permutation Sorted.
From Verif Require Import Base S_Order M_Csx S_Csx M_CsxMap S_CsxMap L_Utils L_Csx L_Csx2 P_Csx P_Csx2 L_Csx3 P_Csx3 L_CsxMap.
Import ListNotations.
Local Open Scope out_scope.

Lemma finish {T} (src : csx T) (D : csx nat) F :
  natural F -> valid src -> valid D -> ascending D -> Permutation (entries D) (F nat (entries (positions src))) ->
  forall v dv, length v = nnz src -> length dv = nnz D ->
  exists r, copy_values (set_values src v) (set_values D dv) (vals D) (nnz D) = Ok (set_values D r) /\
    valid (set_values D r) /\ ascending (set_values D r) /\
    Permutation (entries (set_values D r)) (F T (entries (set_values src v))).
Proof.
  intros NF V VD HAs HP v dv Lv Ld. destruct (transport src D F v dv NF V VD HP Lv Ld) as (r & E & Lr & HR).
  exists r. unfold copy_values. cbn [set_values vals]. rewrite E. cbn [obind]. split; [reflexivity|].
  split; [apply set_values_valid; auto|]. split; [apply set_values_asc; auto|]. exact HR.
Qed.

Lemma natural_map (h : forall X, entry X -> entry X) :
  (forall X Y (f : X -> Y) e, h Y (retag_e f e) = retag_e f (h X e)) -> (forall X e, e_val (h X e) = e_val e) ->
  natural (fun X => map (h X)).
Proof.
  intros H1 H2. split.
  - intros. rewrite !map_map. apply map_ext. intros. apply H1.
  - intros X l e He. apply in_map_iff in He. destruct He as (e' & <- & He'). exists e'. split; auto. 
Qed.

Lemma natural_swapped : natural (fun X => map (@swapped X)).
Proof. apply (natural_map (@swapped)); reflexivity. Qed.

Lemma natural_id : natural (fun X l => l).
Proof. split; intros; eauto. Qed.

Lemma natural_window w : natural (fun X l => map (shifted (row_start w) (col_start w)) (filter (in_window w) l)).
Proof.
  split.
  - intros X Y f l. rewrite filter_map, !map_map. apply map_ext. reflexivity.
  - intros X l e He. apply in_map_iff in He. destruct He as (e' & <- & He'). apply filter_In in He'. exists e'. split; [apply He'|reflexivity].
Qed.

Lemma keys_retag {A B} (f : A -> B) (m : csx A) : map fst (entries (retag f m)) = map fst (entries m).
Proof. rewrite retag_entries, map_map. apply map_ext. intros [[a b] x]. reflexivity. Qed.

Lemma map_const {A B} (c : B) (l : list A) : map (fun _ => c) l = repeat c (length l).
Proof. induction l; simpl; congruence. Qed.

Lemma keys_set {A B} (m : csx A) (v : list B) : valid m -> length v = nnz m -> map fst (entries (set_values m v)) = map fst (entries m).
Proof.
  intros V Lv. rewrite <- (keys_retag (fun _ => tt) (set_values m v)), <- (keys_retag (fun _ => tt) m). do 2 f_equal.
  unfold retag, set_values. cbn. f_equal. rewrite !map_const. destruct (v_alloc m V) as (_ & _ & B3). congruence.
Qed.

(** *** C46: transposition *)
Theorem transpose_map_transports : forall (T : Type) (src dst : csx T) (mp0 : list nat),
  valid src -> allocated dst -> ord dst = ord src -> nrows dst = ncols src -> ncols dst = nrows src -> nnz dst = nnz src ->
  length mp0 = nnz src ->
  exists d mp, transpose_pattern src dst mp0 = Ok (d, mp) /\
    nrows d = ncols src /\ ncols d = nrows src /\ nnz d = nnz src /\ ord d = ord src /\
    forall v dv : list T, length v = nnz src -> length dv = nnz src ->
    exists r, map_values (set_values src v) (set_values d dv) mp = Ok (set_values d r) /\
      valid (set_values d r) /\ ascending (set_values d r) /\
      (distinct src -> strictly_ascending (set_values d r)) /\
      Permutation (entries (set_values d r)) (map swapped (entries (set_values src v))).
Proof.
  intros T src dst mp0 V (A1 & A2 & A3) HO S1 S2 S3 L0.
  pose proof (valid_rep _ (positions_valid src V)) as HR. change (size_primary (positions src)) with (size_primary src) in HR.
  assert (P1 : size_primary dst = size_secdary src) by (unfold size_primary, size_secdary; rewrite HO; destruct (ord src); auto).
  assert (P2 : size_secdary dst = size_primary src) by (unfold size_primary, size_secdary; rewrite HO; destruct (ord src); auto).
  destruct (map_pattern_ok src dst (size_primary dst) mp0 V) as (p & i & mp & E & Hrep); try lia.
  { intros c Hc. rewrite P1. apply (v_range src V c Hc). }
  exists (with_data dst p i (vals dst)), mp. split.
  { unfold transpose_pattern. rewrite HO. destruct (order_eqb_spec (ord src) (ord src)); [|congruence]. cbn [negb].
    rewrite S1, S2, S3, !Nat.eqb_refl. cbn [negb andb]. exact E. }
  split; [exact S1|]. split; [exact S2|]. split; [exact S3|]. split; [exact HO|].
  set (D := with_data (set_values dst mp0) p i mp).
  assert (HD : rep D (map (col (map (line (positions src)) (seq 0 (size_primary src)))) (seq 0 (size_primary dst)))).
  { apply (Hrep (set_values dst mp0)); auto. }
  assert (VD : valid D) by (eapply rep_valid; eauto).
  assert (AD : ascending D).
  { apply (rep_ascending _ _ HD). intros r Hr. apply in_map_iff in Hr. destruct Hr as (c & <- & _). apply col_sorted. }
  intros v dv Lv Ld.
  destruct (finish src D _ natural_swapped V VD AD) with (v := v) (dv := dv) as (r & E1 & V1 & A1' & HP); auto.
  { apply (rep_col_entries (positions src) D _ _ HR HD).
    - cbn. auto.
    - intros x Hx. apply items_in in Hx. destruct Hx as (r & Er & Hr & Hx). rewrite P1. 
      apply (r_range _ _ HR (nth r (map (line (positions src)) (seq 0 (size_primary src))) []) (fst (fst x), snd x)); auto.
      apply nth_In; auto. }
  { cbn. lia. }
  exists r. split.
  { unfold copy_values in E1. unfold map_values. cbn [set_values nnz vals with_data D] in *. rewrite <- S3. exact E1. }
  split; auto. split; auto. split; auto. intros HDi. apply ascending_strict; auto.
  unfold distinct in *. eapply Permutation_NoDup; [symmetry; apply Permutation_map; exact HP|].
  rewrite map_map. cbn [swapped fst].
  replace (map (fun x : entry T => (e_col x, e_row x)) (entries (set_values src v)))
    with (map (fun x : nat * nat => (snd x, fst x)) (map fst (entries (set_values src v)))) by (rewrite map_map; reflexivity).
  rewrite keys_set by auto. apply FinFun.Injective_map_NoDup; auto. intros [a b] [a' b'] Q. cbn [fst snd] in Q. congruence.
Qed.

Theorem transpose_map_checks : forall (T : Type) (src dst : csx T) (mp0 : list nat),
  ord dst <> ord src \/ nrows dst <> ncols src \/ ncols dst <> nrows src \/ nnz dst <> nnz src ->
  transpose_pattern src dst mp0 = Fail.
Proof.
  intros T src dst mp0 H. unfold transpose_pattern. destruct (order_eqb_spec (ord src) (ord dst)) as [E|E]; cbn [negb]; auto.
  destruct (Nat.eqb_spec (nrows dst) (ncols src)), (Nat.eqb_spec (ncols dst) (nrows src)), (Nat.eqb_spec (nnz dst) (nnz src)); cbn [andb negb]; auto.
  intuition congruence.
Qed.

(** *** C73: conversion *)
Theorem convert_map_transports : forall (T : Type) (src dst : csx T) (mp0 : list nat),
  valid src -> allocated dst -> nrows dst = nrows src -> ncols dst = ncols src -> nnz dst = nnz src ->
  length mp0 = nnz src ->
  exists d mp, convert_map_pattern src dst mp0 = Ok (d, mp) /\
    nrows d = nrows src /\ ncols d = ncols src /\ nnz d = nnz src /\ ord d = ord dst /\
    forall v dv : list T, length v = nnz src -> length dv = nnz src ->
    exists r, convert_map_values (set_values src v) (set_values d dv) mp = Ok (set_values d r) /\
      valid (set_values d r) /\ (ord dst <> ord src -> ascending (set_values d r)) /\
      Permutation (entries (set_values d r)) (entries (set_values src v)).
Proof.
  intros T src dst mp0 V HA S1 S2 S3 L0. pose proof HA as (A1 & A2 & A3).
  pose proof (v_alloc src V) as (B1 & B2 & B3).
  assert (HS : same_sizes src dst = true) by (apply same_sizes_spec; auto).
  destruct (order_eqb_spec (ord src) (ord dst)) as [HO|HO].
  - assert (P : size_primary dst = size_primary src) by (unfold size_primary; rewrite <- HO; destruct (ord src); auto).
    exists (with_data dst (ptrs src) (idxs src) (vals dst)), []. split.
    { unfold convert_map_pattern. rewrite HS. cbn [negb]. destruct (order_eqb_spec (ord src) (ord dst)); [|congruence].
      rewrite !copy_n_ok by lia. reflexivity. }
    split; [exact S1|]. split; [exact S2|]. split; [exact S3|]. split; [reflexivity|].
    intros v dv Lv Ld. exists v.
    destruct (same_valid (set_values src v) (set_values (with_data dst (ptrs src) (idxs src) (vals dst)) v)) as (V1 & E1 & _ & _); auto.
    { apply set_values_valid; auto. }
    split.
    { unfold convert_map_values. rewrite (proj2 (same_sizes_spec _ _)) by (cbn; auto). cbn [negb].
      cbn [set_values with_data ord]. destruct (order_eqb_spec (ord src) (ord dst)); [|congruence].
      rewrite copy_n_ok by (cbn; lia). reflexivity. }
    split; auto. split; [congruence|]. rewrite E1. reflexivity.
  - pose proof (valid_rep _ (positions_valid src V)) as HR. change (size_primary (positions src)) with (size_primary src) in HR.
    destruct (change_sizes src dst HO S1 S2) as (P1 & P2).
    destruct (map_pattern_ok src dst (size_secdary src) mp0 V) as (p & i & mp & E & Hrep); try lia.
    { apply (v_range src V). }
    exists (with_data dst p i (vals dst)), mp. split.
    { unfold convert_map_pattern. rewrite HS. cbn [negb]. destruct (order_eqb_spec (ord src) (ord dst)); [congruence|]. exact E. }
    split; [exact S1|]. split; [exact S2|]. split; [exact S3|]. split; [reflexivity|].
    set (D := with_data (set_values dst mp0) p i mp).
    assert (HD : rep D (map (col (map (line (positions src)) (seq 0 (size_primary src)))) (seq 0 (size_secdary src)))).
    { apply (Hrep (set_values dst mp0)); auto. }
    assert (VD : valid D) by (eapply rep_valid; eauto).
    assert (AD : ascending D).
    { apply (rep_ascending _ _ HD). intros r Hr. apply in_map_iff in Hr. destruct Hr as (c & <- & _). apply col_sorted. }
    intros v dv Lv Ld.
    destruct (finish src D _ natural_id V VD AD) with (v := v) (dv := dv) as (r & E1 & V1 & A1' & HP); auto.
    { apply (convert_entries (positions src) D _ _ HR HD).
      - cbn. auto.
      - intros x Hx. apply items_in in Hx. destruct Hx as (r & Er & Hr & Hx).
        apply (r_range _ _ HR (nth r (map (line (positions src)) (seq 0 (size_primary src))) []) (fst (fst x), snd x)); auto.
        apply nth_In; auto. }
    { cbn. lia. }
    exists r. split.
    { unfold convert_map_values. rewrite (proj2 (same_sizes_spec _ _)) by (cbn; auto). cbn [negb].
      cbn [set_values with_data ord]. destruct (order_eqb_spec (ord src) (ord dst)); [congruence|].
      unfold copy_values in E1. unfold map_values. cbn [set_values nnz vals with_data D] in *. rewrite <- S3. exact E1. }
    split; auto.
Qed.

(** *** C74: sub-matrix *)
Lemma skip_below_range ix lim n : forall i j, skip_below ix lim n i = Ok j -> i <= j <= i + n.
Proof.
  induction n as [|n IH]; intros i j H; cbn [skip_below] in H.
  - inversion H. lia.
  - destruct (rd ix i) as [c| |]; try discriminate. cbn [obind] in H. destruct (c <? lim).
    + apply IH in H. lia.
    + inversion H. lia.
Qed.

Lemma while_below_ext {S} ix lim (f g : S -> nat -> nat -> outcome S) n : forall i s,
  (forall s k c, i <= k < i + n -> f s k c = g s k c) -> while_below ix lim f n i s = while_below ix lim g n i s.
Proof.
  induction n as [|n IH]; intros i s H; cbn [while_below]; auto. destruct (rd ix i) as [c| |]; auto. cbn [obind].
  destruct (c <? lim); auto. rewrite H by lia. destruct (g s i c); auto. cbn [obind]. apply IH. intros. apply H. lia.
Qed.

Lemma ptr_range {T} (src : csx T) p e : valid src -> p < size_primary src -> rd (ptrs src) (p + 1) = Ok e -> e <= nnz src.
Proof.
  intros V Hp E. destruct (v_alloc src V) as (A1 & _). rewrite (rd_ok (ptrs src) (p + 1) 0) in E by lia. inversion E. subst e.
  rewrite <- (v_last src V).
  assert (G : forall d, p + 1 + d <= size_primary src -> nth (p + 1) (ptrs src) 0 <= nth (p + 1 + d) (ptrs src) 0).
  { induction d; intros Hd; [rewrite Nat.add_0_r; auto|]. rewrite IHd by lia. replace (p + 1 + S d) with (p + 1 + d + 1) by lia.
    apply (v_mono src V). lia. }
  replace (size_primary src) with (p + 1 + (size_primary src - (p + 1))) by lia. apply G. lia.
Qed.

Lemma window_row_ext {S T} (src : csx T) lo hi (f g : S -> nat -> nat -> outcome S) s p :
  valid src -> p < size_primary src -> (forall s k c, k < nnz src -> f s k c = g s k c) ->
  window_row src lo hi f s p = window_row src lo hi g s p.
Proof.
  intros V Hp H. unfold window_row. destruct (rd (ptrs src) p) as [b| |]; auto. cbn [obind].
  destruct (rd (ptrs src) (p + 1)) as [e| |] eqn:Ee; auto. cbn [obind]. apply ptr_range in Ee; auto.
  destruct (skip_below (idxs src) lo (e - b) b) as [i| |]; auto. cbn [obind]. apply while_below_ext. intros. apply H. lia.
Qed.

Lemma rd_positions {T} (src : csx T) k : k < nnz src -> rd (vals (positions src)) k = Ok k.
Proof. intros H. cbn [positions set_values vals]. rewrite (rd_ok _ k 0) by now rewrite seq_length. rewrite seq_nth; auto. Qed.

Lemma sub_map_sim {T} (src dst : csx T) w mp0 n : valid src -> fits src w ->
  sub_map_pattern src dst w mp0 n =
  (d <- submatrix_perform (positions src) (set_values dst mp0) w n ;; Ok (with_data dst (ptrs d) (idxs d) (vals dst), vals d)).
Proof.
  intros V HF. apply fits_prim in HF. destruct HF as (F1 & F2 & _ & _).
  assert (HI : forall p, In p (prims src w) -> p < size_primary src).
  { intros p Hp. unfold prims in Hp. apply in_seq in Hp. lia. }
  unfold sub_map_pattern, submatrix_perform. cbn [set_values nrows ncols nnz ord positions].
  destruct (negb ((nrows dst =? _) && _)); auto. destruct (negb (nnz dst =? n)); auto.
  destruct (order_eqb (ord src) (ord dst)).
  - unfold sub_map_same, submatrix_same. cbn [set_values ptrs idxs vals]. change (prims (positions src) w) with (prims src w).
    rewrite (foldM_ext_in (sub_map_row src w) (sub_row (positions src) w)).
    + destruct (foldM (sub_row (positions src) w) _ _) as [[pt [[ix mp] k]]| |]; auto. cbn [obind].
      change (size_primary (set_values dst mp0)) with (size_primary dst). destruct (wr pt _ n); reflexivity.
    + intros [pt st] p Hp. unfold sub_map_row, sub_row. change (start_prim (positions src) w) with (start_prim src w).
      destruct (wr pt _ _); auto. cbn [obind]. change (start_sec (positions src) w) with (start_sec src w).
      change (end_sec (positions src) w) with (end_sec src w).
      assert (E : window_row src (start_sec src w) (end_sec src w) (sub_map_entry (start_sec src w)) st p =
        window_row (positions src) (start_sec src w) (end_sec src w) (sub_entry (positions src) (start_sec src w)) st p).
      { change (window_row (positions src)) with (window_row src) || idtac. unfold window_row at 2. cbn [positions set_values ptrs idxs].
        apply (window_row_ext src (start_sec src w) (end_sec src w)); auto.
        intros s k c Hk. unfold sub_entry, sub_map_entry. fold (positions src). change (set_values src (seq 0 (nnz src))) with (positions src).
        rewrite rd_positions by auto. reflexivity. }
      rewrite E. reflexivity.
  - unfold sub_map_diff, submatrix_diff. cbn [set_values ptrs idxs vals]. change (size_primary (set_values dst mp0)) with (size_primary dst).
    change (prims (positions src) w) with (prims src w). change (start_sec (positions src) w) with (start_sec src w).
    change (end_sec (positions src) w) with (end_sec src w).
    destruct (zero_ptrs _ _) as [p| |]; auto. cbn [obind].
    change (window_row (positions src) (start_sec src w) (end_sec src w) (fun p _ iss => incr p (iss - start_sec src w)))
      with (window_row src (start_sec src w) (end_sec src w) (fun p _ iss => incr p (iss - start_sec src w))).
    destruct (foldM _ (prims src w) p) as [p1| |]; auto. cbn [obind]. destruct (cumsum _ p1) as [p2| |]; auto. cbn [obind].
    rewrite (foldM_ext_in _ (fun s ips => window_row (positions src) (start_sec src w) (end_sec src w) (sub_place (positions src) w ips) s ips)).
    + destruct (foldM _ (prims src w) (p2, idxs dst, mp0)) as [[[p3 ix] mp]| |]; auto. cbn [obind].
      destruct (shift _ p3); reflexivity.
    + intros s p3 Hp. unfold window_row at 2. cbn [positions set_values ptrs idxs].
      apply (window_row_ext src (start_sec src w) (end_sec src w)); auto.
      intros s0 k c Hk. unfold sub_place, sub_map_place. change (set_values src (seq 0 (nnz src))) with (positions src).
      rewrite rd_positions by auto. reflexivity.
Qed.

Lemma window_count {T} (src : csx T) w : valid src ->
  length (filter (in_window w) (entries (positions src))) = length (filter (in_window w) (entries src)).
Proof.
  intros V. pose proof (positions_retag src V) as E. apply (f_equal entries) in E. rewrite !retag_entries in E.
  apply (f_equal (fun l => length (filter (in_window w) l))) in E. rewrite !filter_map, !map_length in E. exact E.
Qed.

Theorem submatrix_map_transports : forall (T : Type) (src dst : csx T) (w : window) (mp0 : list nat),
  valid src -> ascending src ->
  row_start w <= row_end w -> row_end w <= nrows src -> col_start w <= col_end w -> col_end w <= ncols src ->
  allocated dst -> nrows dst = row_end w - row_start w -> ncols dst = col_end w - col_start w ->
  nnz dst = length (filter (in_window w) (entries src)) -> length mp0 = nnz dst ->
  exists d mp, sub_map_pattern src dst w mp0 (nnz dst) = Ok (d, mp) /\
    nrows d = nrows dst /\ ncols d = ncols dst /\ nnz d = nnz dst /\ ord d = ord dst /\
    forall v dv : list T, length v = nnz src -> length dv = nnz dst ->
    exists r, copy_values (set_values src v) (set_values d dv) mp (nnz dst) = Ok (set_values d r) /\
      valid (set_values d r) /\ ascending (set_values d r) /\
      Permutation (entries (set_values d r))
        (map (shifted (row_start w) (col_start w)) (filter (in_window w) (entries (set_values src v)))).
Proof.
  intros T src dst w mp0 V HAs F1 F2 F3 F4 (A1 & A2 & A3) S1 S2 S3 L0.
  assert (AP : ascending (positions src)) by (apply set_values_asc; auto; apply seq_length).
  destruct (submatrix_is_window nat (positions src) w (positions_valid src V) AP F1 F2 F3 F4) as (_ & HW).
  rewrite (window_count src w V) in HW.
  destruct (HW (set_values dst mp0)) as (D & E & D1 & D2 & D3 & D4 & VD & AD & _ & HP); auto.
  { unfold allocated. cbn [set_values ptrs idxs vals nnz]. change (size_primary (set_values dst mp0)) with (size_primary dst). auto. }
  cbn [set_values nrows ncols nnz ord] in *.
  exists (with_data dst (ptrs D) (idxs D) (vals dst)), (vals D). split.
  { rewrite sub_map_sim by (unfold fits; auto). rewrite E. reflexivity. }
  split; [reflexivity|]. split; [reflexivity|]. split; [reflexivity|]. split; [reflexivity|].
  intros v dv Lv Ld.
  destruct (finish src D _ (natural_window w) V VD AD HP v dv Lv ltac:(lia)) as (r & E1 & V1 & A1' & HP1).
  assert (U : upl D = upl dst).
  { clear -E. unfold submatrix_perform in E. repeat match type of E with context [if ?b then _ else _] => destruct b end; try discriminate.
    - unfold submatrix_same in E. destruct (foldM _ _ _) as [[? [[? ?] ?]]| |]; try discriminate. cbn [obind] in E.
      destruct (wr _ _ _); try discriminate. cbn [obind] in E. inversion E. reflexivity.
    - unfold submatrix_diff in E. destruct (zero_ptrs _ _); try discriminate. cbn [obind] in E.
      destruct (foldM _ _ _) ; try discriminate. cbn [obind] in E. destruct (cumsum _ _); try discriminate. cbn [obind] in E.
      destruct (foldM _ _ _) as [[[? ?] ?]| |] ; try discriminate. cbn [obind] in E. destruct (shift _ _); try discriminate. cbn [obind] in E.
      inversion E. reflexivity. }
  assert (Q : forall x : list T, set_values D x = set_values (with_data dst (ptrs D) (idxs D) (vals dst)) x).
  { intros x. unfold set_values, with_data. cbn. congruence. }
  rewrite !Q in *. exists r. rewrite D4 in E1. auto.
Qed.

(** ** Examples *)
Definition ex_t : csx nat := Csx 4 3 4 OrdR UploNone [9; 9; 9; 9; 9] [9; 9; 9; 9] [0; 0; 0; 0].

Example transpose_map_hyps : valid ex_m /\ allocated ex_t /\ distinct ex_m.
Proof.
  split; [apply ex_m_valid|]. split; [unfold allocated; cbn; auto|].
  unfold distinct. cbn. repeat constructor; cbn; intuition congruence.
Qed.

Example transpose_map_ex : exists d mp d' d'', transpose_pattern ex_m ex_t [9; 9; 9; 9] = Ok (d, mp) /\
  map_values ex_m d mp = Ok d' /\ map_values (set_values ex_m [1; 2; 3; 4]) d' mp = Ok d'' /\
  ptrs d'' = [0; 1; 1; 3; 4] /\ idxs d'' = [0; 0; 2; 0] /\ vals d' = [20; 10; 40; 30] /\ vals d'' = [2; 1; 4; 3].
Proof. do 4 eexists. split; [vm_compute; reflexivity|]. split; [vm_compute; reflexivity|]. split; [reflexivity|]. cbn. auto. Qed.

Example convert_map_ex : exists d mp d', convert_map_pattern ex_m ex_c [9; 9; 9; 9] = Ok (d, mp) /\
  convert_map_values (set_values ex_m [1; 2; 3; 4]) d mp = Ok d' /\ ptrs d' = [0; 1; 1; 3; 4] /\ vals d' = [2; 1; 4; 3].
Proof. do 3 eexists. split; [vm_compute; reflexivity|]. split; [vm_compute; reflexivity|]. cbn. auto. Qed.

Definition ex_w : window := Window 0 3 1 3.
Definition ex_sd : csx nat := Csx 3 2 2 OrdC UploNone [9; 9; 9] [9; 9] [0; 0].
Example submatrix_map_hyps : valid ex_s /\ ascending ex_s /\ allocated ex_sd /\ nnz ex_sd = length (filter (in_window ex_w) (entries ex_s)).
Proof. split; [apply ex_s_valid|]. split; [apply ex_s_asc|]. split; [unfold allocated; cbn; auto|reflexivity]. Qed.

Example submatrix_map_ex : exists d mp d', sub_map_pattern ex_s ex_sd ex_w [9; 9] 2 = Ok (d, mp) /\
  copy_values (set_values ex_s [1; 2; 3; 4]) d mp 2 = Ok d' /\ ptrs d' = [0; 0; 2] /\ idxs d' = [0; 2] /\ vals d' = [2; 4].
Proof. do 3 eexists. split; [vm_compute; reflexivity|]. split; [vm_compute; reflexivity|]. cbn. auto. Qed.

Print Assumptions transpose_map_transports.
Print Assumptions transpose_map_checks.
Print Assumptions convert_map_transports.
Print Assumptions submatrix_map_transports.
