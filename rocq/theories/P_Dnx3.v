(** * C80: from sparse to dense matrices: conversion, sub-matrix, pruning *)
From Coq Require Import List Bool Arith Lia.
From Verif Require Import Base S_Order M_Csx M_CsxMap M_Prune M_Dnx S_Csx S_Prune S_Dnx L_Utils L_Csx L_Csx2 L_Csx3 L_Prune L_Dnx L_Dnx2 P_Prune P_Dnx.
Import ListNotations.
Local Open Scope out_scope.

(** ** convert_csx_dny *)
(** the dense matrix holds the stored value where one is stored (the last one if a position is stored repeatedly) and zero in
    the rest of the declared part; all other cells of the array are untouched *)
Theorem convert_csx_dny_writes {T} (zero : T) (src : csx T) (dst : dnx T) :
  valid src -> S_Dnx.fits dst -> nrows src = d_rows dst -> ncols src = d_cols dst -> upl src = d_upl dst -> square_part dst ->
  exists d, convert_csx_dny zero src dst = Ok d /\
    updates dst d (fun i j => in_part (d_upl dst) i j || stored_at src i j) (fun i j => Some (last (values_at src i j) zero)).
Proof.
  intros V F Er Ec Eu Q. unfold convert_csx_dny, convert_zerofill.
  assert (W : forall d, d_rows d = d_rows dst -> d_cols d = d_cols dst -> d_upl d = d_upl dst -> convert_wrong src d = false).
  { intros d E1 E2 E3. unfold convert_wrong. rewrite E1, E2, E3, Er, Ec, Eu, !Nat.eqb_refl. cbn [andb negb orb].
    destruct (uplo_eqb_spec (d_upl dst) (d_upl dst)); [|congruence]. cbn [negb orb].
    destruct (is_uplo (d_upl dst)) eqn:Up; auto. rewrite (Q Up), Nat.eqb_refl. reflexivity. }
  rewrite W by auto. destruct (fill_updates dst zero F Q) as (d1 & E1 & U). rewrite E1. cbn [obind].
  pose proof U as (A1 & A2 & A3 & A4 & A5 & A6 & A7 & A8 & A9).
  unfold convert_copyvals. rewrite W by auto. rewrite A3, A4.
  destruct (zero_then_assign dst d1 zero (in_part (d_upl dst)) (entries src)
     (fun w e => wr w (S_Dnx.pos dst (e_row e) (e_col e)) (e_val e)) F U) as (v' & Ev & Uv).
  - intros e He. rewrite <- Er, <- Ec. apply entry_range; auto.
  - auto.
  - change (foldM (scatter_line src (order_eqb (ord src) (d_ord dst)) (d_ld dst)) (seq 0 (size_primary src)) (d_vals d1)) with
      (foldM (fun s r => b <- rd (ptrs src) r ;; e <- rd (ptrs src) (r + 1) ;;
         foldM (scatter_elem src (order_eqb (ord src) (d_ord dst)) (d_ld dst) r) (seq b (e - b)) s) (seq 0 (size_primary src)) (d_vals d1)).
    rewrite (entries_loop src (scatter_elem src (order_eqb (ord src) (d_ord dst)) (d_ld dst))
       (fun w e => wr w (S_Dnx.pos dst (e_row e) (e_col e)) (e_val e))); auto.
    + rewrite Ev. cbn [obind]. eexists. split; [reflexivity|]. exact Uv.
    + intros p s i x Hp E2 E3. unfold scatter_elem. rewrite (rd_some _ _ _ E2), (rd_some _ _ _ E3). cbn [obind].
      rewrite dense_pos_ok. f_equal. destruct (ord src); reflexivity.
Qed.

(** the value of a position that is stored once *)
Lemma distinct_value {T} (zero : T) (m : csx T) i j : distinct m ->
  last (values_at m i j) zero = match lookup m i j with Some v => v | None => zero end.
Proof.
  unfold distinct, values_at, lookup. induction (entries m) as [|e E IH]; intros D; auto. inversion D; subst.
  cbn [filter find]. destruct ((e_row e =? i) && (e_col e =? j)) eqn:X; [|auto].
  assert (N : filter (fun e => (e_row e =? i) && (e_col e =? j)) E = []).
  { destruct (filter _ E) as [|e' l] eqn:Q; auto. assert (In e' (e' :: l)) by (left; auto). rewrite <- Q in H. apply filter_In in H. destruct H as [H Y].
    exfalso. apply H1. apply andb_true_iff in X. apply andb_true_iff in Y. rewrite !Nat.eqb_eq in X, Y.
    replace (fst e) with (fst e') by (destruct e as [[a b] c], e' as [[a' b'] c']; unfold e_row, e_col in *; cbn in *; destruct X, Y; congruence).
    apply in_map; auto. }
  rewrite N. reflexivity.
Qed.

Theorem convert_csx_dny_value {T} (zero : T) (src : csx T) (dst : dnx T) :
  valid src -> distinct src -> S_Dnx.fits dst -> nrows src = d_rows dst -> ncols src = d_cols dst -> upl src = d_upl dst -> square_part dst ->
  exists d, convert_csx_dny zero src dst = Ok d /\
    forall i j, i < d_rows dst -> j < d_cols dst -> in_part (d_upl dst) i j = true ->
      at_ d i j = Some (match lookup src i j with Some v => v | None => zero end).
Proof.
  intros V D F Er Ec Eu Q. destruct (convert_csx_dny_writes zero src dst V F Er Ec Eu Q) as (d & E & U).
  exists d. split; auto. intros i j Hi Hj P. destruct U as (_ & _ & _ & _ & _ & _ & _ & A & _).
  rewrite A by (auto; rewrite P; reflexivity). now rewrite distinct_value.
Qed.

Theorem convert_csx_dny_checks {T} (zero : T) (src : csx T) (dst : dnx T) :
  (nrows src <> d_rows dst \/ ncols src <> d_cols dst \/ upl src <> d_upl dst \/ (is_uplo (d_upl dst) = true /\ d_rows dst <> d_cols dst)) ->
  convert_csx_dny zero src dst = Fail.
Proof.
  intros H. unfold convert_csx_dny, convert_zerofill. enough (W : convert_wrong src dst = true) by now rewrite W.
  unfold convert_wrong. destruct (Nat.eqb_spec (nrows src) (d_rows dst)); auto. destruct (Nat.eqb_spec (ncols src) (d_cols dst)); auto. cbn [andb negb orb].
  destruct (uplo_eqb_spec (upl src) (d_upl dst)); auto. cbn [negb orb].
  destruct H as [H|[H|[H|[H1 H2]]]]; try contradiction. apply Nat.eqb_neq in H2. now rewrite H1, H2.
Qed.

(** ** submatrix_csx_dny *)
Lemma zero_lines {T} (zero : T) (m : dnx T) : S_Dnx.fits m ->
  exists v, foldM (zero_line zero m) (seq 0 (d_prim m)) (d_vals m) = Ok v /\ updates m (with_vals m v) (fun _ _ => true) (fun _ _ => Some zero).
Proof.
  intros F.
  destruct (lines_loop m (fun _ z => z) (fun _ => seq 0 (d_sec m)) (fun _ _ => Some zero) (fun v p s => wr v (p * d_ld m + s) zero) (d_vals m))
    as (v & E & L & V & O); auto.
  - intros p Hp. split; [apply seq_NoDup|]. intros s Hs. apply in_seq in Hs. lia.
  - eauto.
  - intros w p s b Hp Hs Hw Eb. inversion Eb; subst b. apply in_seq in Hs. apply assign_step. rewrite Hw. apply fits_pos; auto. lia.
  - exists v. split; auto. apply (lines_updates m (fun _ => seq 0 (d_sec m))); auto.
    + intros i j Hi Hj. destruct (prim_lt m i j Hi Hj). split; auto. intros _. apply in_seq. lia.
    + intros p s Hp Hs. apply in_seq in Hs. lia.
    + intros i j Hi Hj _. destruct (prim_lt m i j Hi Hj). rewrite pos_prim. rewrite V by (auto; apply in_seq; lia).
      destruct (rd_lt (d_vals m) _ (fits_pos m _ _ F H H0)) as (a & -> & _). reflexivity.
Qed.

Definition window_ok {T} (src : csx T) (w : window) : Prop :=
  row_start w <= row_end w /\ row_end w <= nrows src /\ col_start w <= col_end w /\ col_end w <= ncols src.

Lemma window_values {T} (src : csx T) w i j : i < row_end w - row_start w -> j < col_end w - col_start w ->
  vals_in (map (shifted (row_start w) (col_start w)) (filter (in_window w) (entries src))) i j =
  values_at src (row_start w + i) (col_start w + j).
Proof.
  intros Hi Hj. unfold vals_in, values_at. rewrite filter_map, map_map. induction (entries src) as [|e E IH]; auto. cbn [filter].
  destruct (in_window w e) eqn:W; cbn [filter].
  - unfold in_window in W. rewrite !andb_true_iff, !Nat.leb_le, !Nat.ltb_lt in W.
    replace (here i j (shifted (row_start w) (col_start w) e)) with ((e_row e =? row_start w + i) && (e_col e =? col_start w + j)).
    + destruct ((e_row e =? row_start w + i) && (e_col e =? col_start w + j)); cbn [map]; rewrite IH; reflexivity.
    + unfold here, shifted, e_row, e_col in *. cbn [fst snd].
      f_equal; apply eq_true_iff_eq; rewrite !Nat.eqb_eq; lia.
  - destruct ((e_row e =? row_start w + i) && (e_col e =? col_start w + j)) eqn:X; auto.
    exfalso. rewrite andb_true_iff, !Nat.eqb_eq in X. unfold in_window in W.
    enough ((row_start w <=? e_row e) && (e_row e <? row_end w) && (col_start w <=? e_col e) && (e_col e <? col_end w) = true) by congruence.
    rewrite !andb_true_iff, !Nat.leb_le, !Nat.ltb_lt. lia.
Qed.

(** every element of the dense matrix is written: with the stored value of the window, or zero (also outside of a declared triangle) *)
Theorem submatrix_csx_dny_window {T} (zero : T) (src : csx T) (dst : dnx T) (w : window) :
  valid src -> ascending src -> window_ok src w -> S_Dnx.fits dst ->
  d_rows dst = row_end w - row_start w -> d_cols dst = col_end w - col_start w ->
  exists d, submatrix_csx_dny zero src dst w = Ok d /\
    updates dst d (fun _ _ => true) (fun i j => Some (last (values_at src (row_start w + i) (col_start w + j)) zero)).
Proof.
  intros V As (W1 & W2 & W3 & W4) F Er Ec. pose proof (valid_rep src V) as H. set (rs := map (line src) (seq 0 (size_primary src))) in *.
  assert (HF : L_Csx3.fits src w) by (unfold L_Csx3.fits; auto).
  destruct (fits_prim src w HF) as (P1 & P2 & P3 & P4).
  unfold submatrix_csx_dny, sub_zerofill.
  destruct (Nat.ltb_spec (row_end w) (row_start w)); [lia|]. destruct (Nat.ltb_spec (nrows src) (row_end w)); [lia|].
  destruct (Nat.ltb_spec (col_end w) (col_start w)); [lia|]. destruct (Nat.ltb_spec (ncols src) (col_end w)); [lia|]. cbn [orb].
  rewrite Er, Ec, !Nat.eqb_refl. cbn [andb negb].
  destruct (zero_lines zero dst F) as (v1 & E1 & U). rewrite E1. cbn [obind].
  unfold sub_copyvals. cbn [d_rows d_cols d_ord d_ld with_vals]. rewrite Er, Ec, !Nat.eqb_refl. cbn [andb negb].
  set (E := map (shifted (row_start w) (col_start w)) (filter (in_window w) (entries src))).
  destruct (zero_then_assign dst (with_vals dst v1) zero (fun _ _ => true) E
     (fun v e => wr v (S_Dnx.pos dst (e_row e) (e_col e)) (e_val e)) F U) as (v' & Ev & Uv).
  - intros e He. unfold E in He. apply in_map_iff in He. destruct He as (x & <- & Hx). apply filter_In in Hx. destruct Hx as (_ & Hx).
    unfold in_window in Hx. rewrite !andb_true_iff, !Nat.leb_le, !Nat.ltb_lt in Hx. unfold shifted, e_row, e_col in *. cbn [fst snd]. lia.
  - auto.
  - set (fe := fun v (e : entry T) => wr v (S_Dnx.pos dst (e_row e) (e_col e)) (e_val e)) in *.
    rewrite (window_fold src rs w (sub_dense_elem src w (order_eqb (ord src) (d_ord dst)) (d_ld dst))
               (fun p v x => fe v (coords (ord src) p (fst x - start_sec src w, snd x)))); auto.
    + assert (EE : forall v, foldM (fun s p => foldM (fun v (x : nat * T) => fe v (coords (ord src) p (fst x - start_sec src w, snd x)))
          (filter (fun x => in_range (start_sec src w) (end_sec src w) (fst x)) (nth (start_prim src w + p) rs [])) s)
          (seq 0 (end_prim src w - start_prim src w)) v = foldM fe E v).
      { intros v. unfold E. rewrite <- (sub_entries src rs w H HF). unfold sub_rows at 2. rewrite map_length, seq_length.
        rewrite <- foldM_flat_map. apply foldM_ext_in. intros s p Hp. apply in_seq in Hp.
        unfold sub_rows. rewrite nth_map_seq by lia. unfold sub_line. rewrite !foldM_map. reflexivity. }
      rewrite EE. cbn [d_vals with_vals] in Ev. cbn [d_vals with_vals]. rewrite Ev. cbn [obind]. eexists. split; [reflexivity|].
      eapply updates_ext; [| |exact Uv].
      * intros. reflexivity.
      * intros i j Hi Hj _. cbv beta. unfold E. rewrite window_values by lia. reflexivity.
    + intros p s i x E2 E3. unfold sub_dense_elem. rewrite (rd_some _ _ _ E3). cbn [obind].
      replace (start_prim src w + p - start_prim src w) with p by lia.
      pose proof (dense_pos_ok src dst p (fst x - start_sec src w, snd x)) as DP. cbn [fst] in DP. rewrite DP. unfold fe. f_equal. destruct (ord src); reflexivity.
Qed.

Theorem submatrix_csx_dny_checks {T} (zero : T) (src : csx T) (dst : dnx T) (w : window) :
  (row_end w < row_start w \/ nrows src < row_end w \/ col_end w < col_start w \/ ncols src < col_end w \/
   d_rows dst <> row_end w - row_start w \/ d_cols dst <> col_end w - col_start w) ->
  submatrix_csx_dny zero src dst w = Fail.
Proof.
  intros H. unfold submatrix_csx_dny, sub_zerofill.
  destruct (Nat.ltb_spec (row_end w) (row_start w)); auto. destruct (Nat.ltb_spec (nrows src) (row_end w)); auto.
  destruct (Nat.ltb_spec (col_end w) (col_start w)); auto. destruct (Nat.ltb_spec (ncols src) (col_end w)); auto. cbn [orb].
  destruct (Nat.eqb_spec (d_rows dst) (row_end w - row_start w)); auto. destruct (Nat.eqb_spec (d_cols dst) (col_end w - col_start w)); auto. lia.
Qed.

(** ** prune_csx_matx with a dense destination *)
(** the loop over the lines that store something *)
Lemma used_lines {T} (src : csx T) rs inv ld (h : nat -> list T -> nat * T -> outcome (list T)) l n v : rep src rs ->
  (forall p, In p l -> p < length rs) ->
  (forall ipd s i x, nth_error (idxs src) i = Some (fst x) -> nth_error (vals src) i = Some (snd x) -> prune_elem src inv ld ipd s i = h ipd s x) ->
  foldM (prune_used_line src inv ld) l (v, n) =
  (v' <- foldM (fun v q => foldM (h (fst q)) (nth (snd q) rs []) v)
           (combine (seq n (length (filter (fun p => nonempty (nth p rs [])) l))) (filter (fun p => nonempty (nth p rs [])) l)) v ;;
   Ok (v', n + length (filter (fun p => nonempty (nth p rs [])) l))).
Proof.
  intros H Hl Hh. revert n v. induction l as [|p l IH]; intros n v.
  - cbn. now rewrite Nat.add_0_r.
  - cbn [foldM filter]. assert (Hp : p < length rs) by (apply Hl; left; auto).
    assert (HP : nth_error rs p = Some (nth p rs [])) by (apply nth_error_nth'; auto).
    unfold prune_used_line at 1. pose proof (row_loop' src rs p (nth p rs []) (prune_elem src inv ld n) (h n) v H HP (Hh n)) as RL.
    rewrite (r_ptrs _ _ H) in *.
    rewrite (rd_some _ _ _ (nth_error_map_offs rs (length rs) p ltac:(lia))) in *.
    rewrite (rd_some _ _ _ (nth_error_map_offs rs (length rs) (p + 1) ltac:(lia))) in *. cbn [obind fst snd] in *.
    rewrite Nat.add_1_r in *. rewrite (offs_S rs p _ HP) in *.
    destruct (nonempty (nth p rs [])) eqn:Er.
    + unfold nonempty in Er. apply Nat.ltb_lt in Er.
      destruct (Nat.eqb_spec (offs rs p) (offs rs p + length (nth p rs []))); [lia|].
      rewrite RL. cbn [length combine seq]. cbn [foldM fst snd].
      destruct (foldM (h n) (nth p rs []) v) as [v1| |]; cbn [obind]; auto.
      rewrite IH by (intros; apply Hl; right; auto). rewrite Nat.add_1_r.
      destruct (foldM _ (combine _ _) v1); cbn [obind]; auto. f_equal. f_equal. lia.
    + apply nonempty_nil in Er. rewrite Er. cbn [length]. rewrite Nat.add_0_r, Nat.eqb_refl. cbn [obind]. apply IH. intros; apply Hl; right; auto.
Qed.

Lemma combine_nth_seq (U : list nat) n : combine (seq n (length U)) U = map (fun p => (n + p, nth p U 0)) (seq 0 (length U)).
Proof.
  revert n. induction U as [|a U IH]; intros n; auto. cbn [length seq combine map]. rewrite Nat.add_0_r. cbn [nth]. f_equal.
  rewrite IH. rewrite <- seq_shift, map_map. apply map_ext. intros p. cbn [nth]. f_equal. lia.
Qed.

(** every element whose row and column are kept is written: with its stored value, or with zero *)
Theorem prune_dense_writes {T} (zero : T) (src : csx T) (dst : dnx T) (rows cols : bool) fill vr vc :
  valid src -> S_Dnx.fits dst -> square_part dst -> d_ord dst = ord src -> rows || cols = true ->
  d_rows dst = length (kept_rows src rows) -> d_cols dst = length (kept_cols src cols) ->
  (rows = true -> exists v, vr = Some v /\ length v = length (used_rows src)) ->
  (cols = true -> exists v, vc = Some v /\ length v = length (used_cols src)) ->
  exists d, prune_csx_dense zero src dst rows cols fill vr vc =
      Ok (d, if rows then Some (used_rows src) else None, if cols then Some (used_cols src) else None) /\
    updates dst d
      (fun i j => in_part (d_upl dst) i j || stored_at src (nth i (kept_rows src rows) 0) (nth j (kept_cols src cols) 0))
      (fun i j => Some (last (values_at src (nth i (kept_rows src rows) 0) (nth j (kept_cols src cols) 0)) zero)).
Proof.
  intros V F Q HO RC HR HC VR VC. pose proof (valid_rep src V) as H. set (rs := map (line src) (seq 0 (size_primary src))) in *.
  destruct (pruning_lists_used src rows cols (if rows then vr else None) (if cols then vc else None) V) as (st & ES & P1 & P2 & EP).
  { intros ->. destruct (VR eq_refl) as (v & -> & _). discriminate. }
  { intros ->. destruct (VC eq_refl) as (v & -> & _). discriminate. }
  { destruct rows; cbn [given]; auto. destruct (VR eq_refl) as (v & -> & L). exact L. }
  { destruct cols; cbn [given]; auto. destruct (VC eq_refl) as (v & -> & L). exact L. }
  unfold prune_csx_dense. rewrite ES. cbn [obind].
  assert (F1 : rows && unset vr = false) by (destruct rows; auto; destruct (VR eq_refl) as (v & -> & _); auto).
  assert (F2 : cols && unset vc = false) by (destruct cols; auto; destruct (VC eq_refl) as (v & -> & _); auto).
  assert (F3 : rows && negb (length (match vr with Some v => v | None => [] end) =? pruned_nrows src st) = false).
  { destruct rows; auto. destruct (VR eq_refl) as (v & -> & L). rewrite P1, L. cbn [kept_rows andb]. now rewrite Nat.eqb_refl. }
  assert (F4 : cols && negb (length (match vc with Some v => v | None => [] end) =? pruned_ncols src st) = false).
  { destruct cols; auto. destruct (VC eq_refl) as (v & -> & L). rewrite P2, L. cbn [kept_cols andb]. now rewrite Nat.eqb_refl. }
  rewrite F1, F2, F3, F4, EP. cbn [obind].
  assert (EO : (match (if rows then vr else None) with None => None | Some _ => Some (kept_rows src rows) end,
                match (if cols then vc else None) with None => None | Some _ => Some (kept_cols src cols) end) =
               (if rows then Some (used_rows src) else None, if cols then Some (used_cols src) else None)).
  { f_equal; [destruct rows|destruct cols]; auto; [destruct (VR eq_refl) as (v & -> & _)|destruct (VC eq_refl) as (v & -> & _)]; reflexivity. }
  rewrite EO. clear EP EO F1 F2 F3 F4. cbn [fst snd].
  set (pp := prune_primary src rows cols). set (ps := prune_secdary src rows cols).
  set (U := if pp then used_p src else seq 0 (size_primary src)).
  set (W := if ps then used_s src else seq 0 (size_secdary src)).
  (* the inverse numbering *)
  set (iv := fun inv : list nat => if ps then Some inv else None).
  assert (HI : exists inv g, (if ps then match (match ord src with OrdR => if cols then Some (used_cols src) else None | OrdC => if rows then Some (used_rows src) else None end) with Some v => prune_inverse v (size_secdary src) fill | None => UB end else Ok []) = Ok inv
      /\ (forall ld ipd s i x, nth_error (idxs src) i = Some (fst x) -> nth_error (vals src) i = Some (snd x) ->
             prune_elem src (iv inv) ld ipd s i = wr s (ipd * ld + g (fst x)) (snd x))
      /\ (forall c, In c (idxs src) -> g c < length W /\ nth (g c) W 0 = c)).
  { unfold W, iv. destruct ps eqn:Eps.
    - destruct (prune_inverse_ok src rs fill H) as (inv & EI & I1 & I2). exists inv, (fun c => nth c inv 0). split; [|split]; auto.
      + unfold ps in Eps. rewrite prune_sec in Eps. rewrite used_s_cols in EI. destruct (ord src); rewrite Eps; exact EI.
      + intros ld ipd s i x E1 E2. unfold prune_elem. rewrite (rd_some _ _ _ E1), (rd_some _ _ _ E2). cbn [obind].
        rewrite (rd_ok inv (fst x) 0). { reflexivity. } rewrite I1. apply (v_range _ V). apply nth_error_In in E1. auto.
    - exists [], (fun c => c). split; auto. split.
      + intros ld ipd s i x E1 E2. unfold prune_elem. rewrite (rd_some _ _ _ E1), (rd_some _ _ _ E2). reflexivity.
      + intros c Hc. rewrite seq_length. pose proof (v_range _ V c Hc). split; auto. now rewrite seq_nth. }
  destruct HI as (inv & g & EI & EX & Hg). cbn [fst snd] in EI. rewrite EI. cbn [obind].
  assert (SP : d_prim dst = length U).
  { unfold U, pp. rewrite prune_prim, used_p_rows. unfold d_prim, size_primary. rewrite HO, HR, HC. unfold kept_rows, kept_cols.
    destruct (ord src), rows, cols; rewrite ?seq_length; reflexivity. }
  assert (SS : d_sec dst = length W).
  { unfold W, ps. rewrite prune_sec, used_s_cols. unfold d_sec, size_secdary. rewrite HO, HR, HC. unfold kept_rows, kept_cols.
    destruct (ord src), rows, cols; rewrite ?seq_length; reflexivity. }
  unfold prune_dense. rewrite HO. destruct (order_eqb_spec (ord src) (ord src)) as [_|]; [|congruence]. cbn [negb].
  rewrite HR, HC, P1, P2, !Nat.eqb_refl. cbn [andb negb].
  destruct (fill_updates dst zero F Q) as (d1 & E1 & Uf). rewrite E1. cbn [obind]. fold pp ps.
  set (fe := fun v (e : entry T) => wr v (S_Dnx.pos dst (e_row e) (e_col e)) (e_val e)).
  set (E := flat_map (fun p => map (fun x => coords (ord src) p (rename g x)) (nth (nth p U 0) rs [])) (seq 0 (length U))).
  assert (HU : forall p, p < length U -> nth p U 0 < length rs).
  { intros p Hp. assert (HIn : In (nth p U 0) U) by (apply nth_In; auto). revert HIn. generalize (nth p U 0). intros q Hq. rewrite (r_len _ _ H).
    unfold U in Hq. destruct pp; [unfold used_p in Hq; apply filter_In in Hq; destruct Hq as (Hq & _)|]; apply in_seq in Hq; lia. }
  assert (HX : forall p x, p < length U -> In x (nth (nth p U 0) rs []) -> In (fst x) (idxs src)).
  { intros p x Hp Hx. rewrite (r_idxs _ _ H). apply in_map. apply in_concat. exists (nth (nth p U 0) rs []). split; auto. apply nth_In. auto. }
  destruct (zero_then_assign dst d1 zero (in_part (d_upl dst)) E fe F Uf) as (v' & Ev & Uv).
  { intros e He. unfold E in He. apply in_flat_map in He. destruct He as (p & Hp & He). apply in_seq in Hp. apply in_map_iff in He.
    destruct He as (x & <- & Hx). destruct (Hg (fst x) (HX p x ltac:(lia) Hx)) as (G & _).
    unfold d_prim, d_sec in SP, SS. rewrite HO in SP, SS. unfold coords, rename, e_row, e_col. destruct (ord src); cbn [fst snd]; lia. }
  { auto. }
  assert (HE : forall p v, foldM (fun v (x : nat * T) => wr v (p * d_ld dst + g (fst x)) (snd x)) (nth (nth p U 0) rs []) v =
                           foldM fe (map (fun x => coords (ord src) p (rename g x)) (nth (nth p U 0) rs [])) v).
  { intros p v. rewrite foldM_map. apply foldM_ext_in. intros s x _. unfold fe, S_Dnx.pos, coords, rename, e_row, e_col, e_val. rewrite HO.
    destruct (ord src); cbn [fst snd]; reflexivity. }
  assert (HL : (match pp, ps with
    | true, false => r <- foldM (prune_used_line src None (d_ld dst)) (seq 0 (size_primary src)) (d_vals d1, 0) ;; Ok (with_vals d1 (fst r))
    | false, true => v <- foldM (prune_line src (Some inv) (d_ld dst)) (seq 0 (size_primary src)) (d_vals d1) ;; Ok (with_vals d1 v)
    | true, true => r <- foldM (prune_used_line src (Some inv) (d_ld dst)) (seq 0 (size_primary src)) (d_vals d1, 0) ;; Ok (with_vals d1 (fst r))
    | false, false => Ok d1
    end) = Ok (with_vals d1 v')).
  { assert (PS : pp || ps = true).
    { unfold pp, ps. rewrite prune_prim, prune_sec. destruct (ord src), rows, cols; auto. }
    assert (GU : pp = true -> foldM (prune_used_line src (iv inv) (d_ld dst)) (seq 0 (size_primary src)) (d_vals d1, 0) = Ok (v', length U)).
    { intros Epp. rewrite (used_lines src rs (iv inv) (d_ld dst) (fun ipd s x => wr s (ipd * d_ld dst + g (fst x)) (snd x))); auto.
      2: { intros p Hp. apply in_seq in Hp. rewrite (r_len _ _ H). lia. }
      assert (UE : filter (fun p => nonempty (nth p rs [])) (seq 0 (size_primary src)) = U).
      { unfold U. rewrite Epp, (used_p_ne src rs H), (r_len _ _ H). reflexivity. }
      rewrite UE, combine_nth_seq, foldM_map. cbn [fst snd].
      rewrite (foldM_ext_in _ (fun v p => foldM fe (map (fun x => coords (ord src) p (rename g x)) (nth (nth p U 0) rs [])) v)).
      2: { intros s p _. apply HE. }
      rewrite foldM_flat_map. fold E. rewrite Ev. reflexivity. }
    assert (GP : pp = false -> ps = true -> foldM (prune_line src (Some inv) (d_ld dst)) (seq 0 (size_primary src)) (d_vals d1) = Ok v').
    { intros Epp Eps. rewrite <- Ev. unfold E. rewrite <- foldM_flat_map.
      assert (UE : U = seq 0 (size_primary src)) by (unfold U; now rewrite Epp).
      assert (LU : length U = size_primary src) by (rewrite UE; apply seq_length). rewrite LU.
      apply foldM_ext_in. intros s p Hp. apply in_seq in Hp. rewrite <- HE. unfold prune_line.
      replace (nth p U 0) with p by (rewrite UE, seq_nth; lia).
      apply (row_loop' src rs); auto.
      - apply (rep_nth src); auto. lia.
      - intros s0 i x G1 G2. pose proof (EX (d_ld dst) p s0 i x G1 G2) as G. unfold iv in G. rewrite Eps in G. exact G. }
    unfold iv in GU. destruct pp, ps; try discriminate.
    - rewrite GU by auto. reflexivity.
    - rewrite GU by auto. reflexivity.
    - rewrite GP by auto. reflexivity. }
  rewrite HL. cbn [obind]. eexists. split; [reflexivity|].
  (* the entries in the numbering of the source *)
  assert (HEo : map (original (kept_rows src rows) (kept_cols src cols)) E = entries src).
  { rewrite (rep_entries _ _ H). unfold E. rewrite flat_map_map.
    transitivity (flat_map (fun q => map (coords (ord src) q) (nth q rs [])) U).
    { transitivity (flat_map (fun q => map (coords (ord src) q) (nth q rs [])) (map (fun p => nth p U 0) (seq 0 (length U)))).
      - rewrite !flat_map_concat_map, map_map. f_equal. apply map_ext_in. intros p Hp. apply in_seq in Hp. rewrite map_map. apply map_ext_in.
        intros x Hx. destruct (Hg _ (HX p x ltac:(lia) Hx)) as (_ & G).
        unfold original, U, W, pp, ps, kept_rows, kept_cols, e_row, e_col, e_val, rename, coords in *. rewrite prune_prim, used_p_rows.
        rewrite prune_sec, used_s_cols in G. unfold size_primary. unfold size_secdary in G.
        destruct (ord src); cbn [fst snd]; rewrite G; reflexivity.
      - f_equal. apply (nth_list_eq 0); [now rewrite map_length, seq_length|]. intros i Hi. rewrite map_length, seq_length in Hi. now rewrite nth_map_seq. }
    unfold U. destruct pp; [|now rewrite (r_len _ _ H)].
    rewrite (used_p_ne src rs H). apply flat_map_filter. intros q Hq X. apply nonempty_nil in X. now rewrite X. }
  assert (NR : NoDup (kept_rows src rows)) by (unfold kept_rows; destruct rows; [apply NoDup_filter|]; apply seq_NoDup).
  assert (NC : NoDup (kept_cols src cols)) by (unfold kept_cols; destruct cols; [apply NoDup_filter|]; apply seq_NoDup).
  assert (HH : forall i j e, i < d_rows dst -> j < d_cols dst -> In e E ->
     here i j e = here (nth i (kept_rows src rows) 0) (nth j (kept_cols src cols) 0) (original (kept_rows src rows) (kept_cols src cols) e)).
  { intros i j e Hi Hj He. assert (HB : e_row e < d_rows dst /\ e_col e < d_cols dst).
    { unfold E in He. apply in_flat_map in He. destruct He as (p & Hp & He). apply in_seq in Hp. apply in_map_iff in He.
      destruct He as (x & <- & Hx). destruct (Hg (fst x) (HX p x ltac:(lia) Hx)) as (G & _).
      unfold d_prim, d_sec in SP, SS. rewrite HO in SP, SS. unfold coords, rename, e_row, e_col. destruct (ord src); cbn [fst snd]; lia. }
    destruct HB as [B1 B2]. rewrite HR in Hi, B1. rewrite HC in Hj, B2. unfold here, original. cbn [e_row e_col fst snd] in *.
    change (e_row (?a, ?b, ?c)) with a. change (e_col (?a, ?b, ?c)) with b.
    f_equal; apply eq_true_iff_eq; rewrite !Nat.eqb_eq; split; intros X; try congruence.
    - apply (proj1 (NoDup_nth _ 0) NR); auto.
    - apply (proj1 (NoDup_nth _ 0) NC); auto. }
  eapply updates_ext; [| |exact Uv].
  - intros i j Hi Hj. cbv beta. f_equal. unfold stored_at. rewrite <- HEo.
    assert (G : forall l, (forall e, In e l -> In e E) -> existsb (here i j) l =
      existsb (fun e => (e_row e =? nth i (kept_rows src rows) 0) && (e_col e =? nth j (kept_cols src cols) 0)) (map (original (kept_rows src rows) (kept_cols src cols)) l)).
    { induction l as [|e l IH]; intros Hl; auto. cbn [existsb map]. rewrite IH by (intros; apply Hl; right; auto). f_equal.
      apply HH; auto. apply Hl. left; auto. }
    apply G; auto.
  - intros i j Hi Hj _. cbv beta. f_equal. f_equal. unfold vals_in, values_at. rewrite <- HEo, filter_map, map_map.
    rewrite (filter_ext_in (here i j) (fun e => (e_row (original (kept_rows src rows) (kept_cols src cols) e) =? nth i (kept_rows src rows) 0) &&
        (e_col (original (kept_rows src rows) (kept_cols src cols) e) =? nth j (kept_cols src cols) 0))) by (intros; apply HH; auto).
    apply map_ext. intros e. reflexivity.
Qed.

(** with neither direction pruned the dense result is filled with zeros only: the values are not copied *)
Theorem prune_dense_nothing {T} (zero : T) (src : csx T) (dst : dnx T) fill vr vc :
  valid src -> S_Dnx.fits dst -> square_part dst -> d_ord dst = ord src -> d_rows dst = nrows src -> d_cols dst = ncols src ->
  exists d, prune_csx_dense zero src dst false false fill vr vc = Ok (d, None, None) /\
    updates dst d (in_part (d_upl dst)) (fun _ _ => Some zero).
Proof.
  intros V F Q HO HR HC. destruct (pruning_lists_used src false false None None V) as (st & ES & P1 & P2 & EP); [discriminate|discriminate|exact I|exact I|].
  unfold prune_csx_dense. rewrite ES. cbn [obind andb]. rewrite EP. cbn [obind fst snd].
  assert (PS : prune_secdary src false false = false) by reflexivity. rewrite PS. cbn [obind].
  unfold prune_dense. rewrite HO. destruct (order_eqb_spec (ord src) (ord src)) as [_|]; [|congruence]. cbn [negb].
  rewrite P1, P2. unfold kept_rows, kept_cols. rewrite !seq_length, HR, HC, !Nat.eqb_refl. cbn [andb negb].
  destruct (fill_updates dst zero F Q) as (d1 & E1 & Uf). rewrite E1. cbn [obind].
  change (prune_primary src false false) with false. rewrite PS. cbn [obind]. exists d1. auto.
Qed.

(** so the statement of prune_dense_writes is false there *)
Definition ex_s : csx nat := Csx 2 2 1 OrdR UploNone [0; 1; 1] [1] [7].
Definition ex_d : dnx nat := Dnx 2 2 3 OrdR UploNone SymGeneral [9; 9; 8; 9; 9; 8].

Theorem prune_dense_none_refuted : valid ex_s /\ S_Dnx.fits ex_d /\
  exists d, prune_csx_dense 0 ex_s ex_d false false 0 None None = Ok (d, None, None) /\
    values_at ex_s 0 1 = [7] /\ at_ d 0 1 = Some 0.
Proof.
  split; [|split].
  - split; try reflexivity.
    + repeat split.
    + intros p Hp. cbn in Hp. destruct p as [|[|p]]; cbn; lia.
    + intros c Hc. cbn in *. lia.
  - split; [cbn; lia|]. intros i j Hi Hj. cbn in *. unfold S_Dnx.pos. cbn. lia.
  - eexists. split; [vm_compute; reflexivity|]. split; reflexivity.
Qed.

(** ** Examples *)
Example convert_csx_dny_ex : convert_csx_dny 0 ex_p (Dnx 4 5 4 OrdC UploNone SymGeneral (repeat 9 20)) =
  Ok (Dnx 4 5 4 OrdC UploNone SymGeneral [0; 12; 0; 0; 0; 0; 0; 0; 0; 0; 0; 13; 0; 0; 0; 0; 0; 11; 0; 0]).
Proof. vm_compute. reflexivity. Qed.

Example submatrix_csx_dny_ex :
  submatrix_csx_dny 0 (Csx 2 3 3 OrdR UploNone [0; 2; 3] [0; 2; 1] [5; 6; 7]) (Dnx 1 2 3 OrdR UploNone SymGeneral [9; 9; 9]) (Window 0 1 1 3) =
  Ok (Dnx 1 2 3 OrdR UploNone SymGeneral [0; 6; 9]).
Proof. vm_compute. reflexivity. Qed.

(** rows 0 and 2 of the source store nothing, its columns 1 and 3 neither *)
Example prune_dense_ex : prune_csx_dense 0 ex_p (Dnx 2 3 4 OrdR UploNone SymGeneral (repeat 9 8)) true true 99 (Some [0; 0]) (Some [0; 0; 0]) =
  Ok (Dnx 2 3 4 OrdR UploNone SymGeneral [12; 0; 11; 9; 0; 13; 0; 9], Some [1; 3], Some [0; 2; 4]).
Proof. vm_compute. reflexivity. Qed.

Print Assumptions convert_csx_dny_writes.
Print Assumptions convert_csx_dny_value.
Print Assumptions convert_csx_dny_checks.
Print Assumptions submatrix_csx_dny_window.
Print Assumptions submatrix_csx_dny_checks.
Print Assumptions prune_dense_writes.
Print Assumptions prune_dense_nothing.
Print Assumptions prune_dense_none_refuted.
