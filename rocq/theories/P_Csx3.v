(** * C45: sub-matrices, quadrisection, concatenation *)
From Coq Require Import List Bool Arith Lia Permutation Sorted.
From Verif Require Import Base S_Order M_Csx S_Csx L_Utils L_Csx L_Csx2 P_Csx P_Csx2 L_Csx3.
Import ListNotations.
Local Open Scope out_scope.

Lemma coords_inj {T} o p q (x y : nat * T) : coords o p x = coords o q y -> p = q /\ x = y.
Proof. unfold coords. destruct o, x, y; cbn [fst snd]; intros E; inversion E; auto. Qed.

Lemma NoDup_filter_map {A B} (f : A -> bool) (g : A -> B) l : NoDup (map g l) -> NoDup (map g (filter f l)).
Proof.
  induction l as [|a l IH]; simpl; intros H; auto. inversion H; subst. destruct (f a); simpl; auto. constructor; auto.
  intros C. apply H2. apply in_map_iff in C. destruct C as (b & <- & Hb). apply filter_In in Hb. apply in_map. tauto.
Qed.

Lemma shifted_distinct {T} (src : csx T) w (l : list (entry T)) : distinct src ->
  Permutation l (map (shifted (row_start w) (col_start w)) (filter (in_window w) (entries src))) -> NoDup (map fst l).
Proof.
  intros D HP. eapply Permutation_NoDup; [apply Permutation_map; symmetry; exact HP|].
  rewrite map_map.
  replace (map (fun x : entry T => fst (shifted (row_start w) (col_start w) x)) (filter (in_window w) (entries src)))
    with (map (fun ij : nat * nat => (fst ij - row_start w, snd ij - col_start w)) (map fst (filter (in_window w) (entries src)))).
  - apply NoDup_map_inj; [|apply NoDup_filter_map; exact D].
    intros [a b] [a' b'] Hx Hy E. inversion E.
    apply in_map_iff in Hx. destruct Hx as (e & Ee & He). apply filter_In in He. destruct He as [_ He].
    apply in_map_iff in Hy. destruct Hy as (e' & Ee' & He'). apply filter_In in He'. destruct He' as [_ He'].
    unfold in_window, e_row, e_col in *. rewrite Ee in He. rewrite Ee' in He'. cbn [fst snd] in *.
    rewrite !andb_true_iff, !Nat.leb_le in *. f_equal; lia.
  - rewrite map_map. reflexivity.
Qed.

Lemma submatrix_reps {T} (src dst : csx T) rs w : rep src rs -> ascending src -> fits src w ->
  allocated dst -> nrows dst = row_end w - row_start w -> ncols dst = col_end w - col_start w ->
  nnz dst = length (concat (sub_rows src rs w)) ->
  exists d, submatrix_perform src dst w (nnz dst) = Ok d /\
    nrows d = nrows dst /\ ncols d = ncols dst /\ ord d = ord dst /\ nnz d = nnz dst /\
    valid d /\ ascending d /\
    Permutation (entries d) (map (shifted (row_start w) (col_start w)) (filter (in_window w) (entries src))).
Proof.
  intros H HAs HF HA S1 S2 S3. unfold submatrix_perform. rewrite S1, S2, !Nat.eqb_refl. cbn [andb negb].
  destruct (order_eqb_spec (ord src) (ord dst)) as [HO|HO].
  - destruct (submatrix_same_rep src dst rs w (nnz dst) H HAs HF HA (eq_sym HO) S1 S2 S3 eq_refl) as (d & E & Hd & D1 & D2 & D3 & D4).
    exists d. split; auto. rewrite D1, D2. do 4 (split; auto). split; [eapply rep_valid; eauto|]. split.
    + apply (rep_ascending d _ Hd). intros r Hr. unfold sub_rows in Hr. apply in_map_iff in Hr. destruct Hr as (p & <- & Hp).
      apply in_seq in Hp. destruct (fits_prim src w HF) as (P1 & P2 & P3 & P4).
      apply sorted_map_sub. apply (proj1 (rep_ascending src rs H) HAs). apply nth_In. rewrite (r_len _ _ H). lia.
    + apply perm_of_eq. rewrite (rep_entries d _ Hd), D3, <- HO. apply sub_entries; auto.
  - destruct (submatrix_diff_rep src dst rs w H HAs HF HA (not_eq_sym HO) S1 S2 S3) as (d & E & Hd & D1 & D2 & D3 & D4).
    exists d. split; auto. rewrite D1, D2. do 4 (split; auto). split; [eapply rep_valid; eauto|]. split.
    + apply (rep_ascending d _ Hd). intros r Hr. apply in_map_iff in Hr. destruct Hr as (c & <- & Hc). apply col_sorted.
    + rewrite <- (sub_entries src rs w H HF).
      set (rs' := sub_rows src rs w) in *.
      assert (HK : forall x, In x (items rs') -> fst (fst x) < size_primary dst).
      { intros x Hx. apply items_in in Hx. destruct Hx as (r & _ & Hr & Hx).
        rewrite (proj2 (sub_sizes_diff src dst w (not_eq_sym HO) S1 S2)). unfold rs', sub_rows in Hx, Hr.
        rewrite map_length, seq_length in Hr. rewrite nth_map_seq in Hx by auto. apply (sub_line_range _ _ _ _ Hx). }
      transitivity (map (fun x => coords (ord src) (snd (fst x)) (fst (fst x), snd x)) (items rs')).
      * assert (E' : entries d = map (fun x : nat * nat * T => coords (ord src) (snd (fst x)) (fst (fst x), snd x)) (concat (buckets (items rs') (size_primary dst)))).
        { rewrite (rep_entries d _ Hd). rewrite map_length, seq_length. unfold buckets.
          rewrite <- flat_map_concat_map, flat_map_map, !flat_map_concat_map. f_equal. apply map_ext_in. intros c Hc. apply in_seq in Hc.
          rewrite nth_map_seq by lia. rewrite <- bucket_col, map_map. apply map_ext_in. intros x Hx.
          unfold bucket in Hx. apply filter_In in Hx. destruct Hx as [_ Hx]. apply Nat.eqb_eq in Hx. subst c.
          apply coords_flip. congruence. }
        rewrite E'. apply Permutation_map. symmetry. apply buckets_perm. auto.
      * apply perm_of_eq. unfold items. rewrite flat_map_map, !flat_map_concat_map. f_equal. apply map_ext. intros p.
        rewrite map_map. apply map_ext. intros x. cbn [fst snd]. now rewrite <- surjective_pairing.
Qed.

Lemma sub_count {T} (src : csx T) rs w : rep src rs -> fits src w ->
  length (concat (sub_rows src rs w)) = length (filter (in_window w) (entries src)).
Proof.
  intros H HF. rewrite <- (map_length (shifted (row_start w) (col_start w))), <- (sub_entries src rs w H HF).
  rewrite <- (seq_nth_concat (sub_rows src rs w)). rewrite !flat_map_concat_map.
  generalize (seq 0 (length (sub_rows src rs w))). intros l. induction l as [|p l IH]; auto. cbn [map concat].
  rewrite !app_length, map_length, IH. auto.
Qed.

(** C45, sub-matrix *)
Theorem submatrix_is_window : forall (T : Type) (src : csx T) (w : window),
  valid src -> ascending src ->
  row_start w <= row_end w -> row_end w <= nrows src -> col_start w <= col_end w -> col_end w <= ncols src ->
  submatrix_setup src w = Ok (length (filter (in_window w) (entries src))) /\
  forall dst : csx T, allocated dst ->
    nrows dst = row_end w - row_start w -> ncols dst = col_end w - col_start w ->
    nnz dst = length (filter (in_window w) (entries src)) ->
    exists d, submatrix_perform src dst w (nnz dst) = Ok d /\
      nrows d = nrows dst /\ ncols d = ncols dst /\ ord d = ord dst /\ nnz d = nnz dst /\
      valid d /\ ascending d /\ (distinct src -> strictly_ascending d) /\
      Permutation (entries d) (map (shifted (row_start w) (col_start w)) (filter (in_window w) (entries src))).
Proof.
  intros T src w V HAs F1 F2 F3 F4. assert (HF : fits src w) by (unfold fits; auto).
  pose proof (valid_rep src V) as H. split.
  - rewrite (setup_ok src _ w H HAs HF). f_equal. apply sub_count; auto.
  - intros dst HA S1 S2 S3. rewrite <- (sub_count src _ w H HF) in S3.
    destruct (submatrix_reps src dst _ w H HAs HF HA S1 S2 S3) as (d & E & D1 & D2 & D3 & D4 & D5 & D6 & D7).
    exists d. do 7 (split; [auto|]). split; [|auto]. intros HD. apply ascending_strict; auto. eapply shifted_distinct; eauto.
Qed.

Theorem submatrix_checks_window : forall (T : Type) (src : csx T) (w : window),
  row_end w < row_start w \/ nrows src < row_end w \/ col_end w < col_start w \/ ncols src < col_end w ->
  submatrix_setup src w = Fail.
Proof.
  intros T src w H. unfold submatrix_setup.
  destruct (Nat.ltb_spec (row_end w) (row_start w)), (Nat.ltb_spec (nrows src) (row_end w)),
    (Nat.ltb_spec (col_end w) (col_start w)), (Nat.ltb_spec (ncols src) (col_end w)); cbn [orb]; auto. lia.
Qed.

(** ** Concatenation *)
Definition opt_entries {T} (m : option (csx T)) : list (entry T) := match m with None => [] | Some m => entries m end.
Definition offset {T} (dr dc : nat) (e : entry T) : entry T := (e_row e + dr, e_col e + dc, e_val e).

Definition block_fits {T} (m : option (csx T)) (nr nc : nat) : Prop :=
  match m with None => True | Some m => valid m /\ nrows m = nr /\ ncols m = nc end.

Definition opt_ascending {T} (m : option (csx T)) : Prop := match m with None => True | Some m => ascending m end.

Definition brow {T} (m : option (csx T)) (p : nat) : list (nat * T) := match m with None => [] | Some m => line m p end.

Definition bprim {T} (o : order) (m : option (csx T)) (np ns : nat) : Prop :=
  match m with None => True | Some m => valid m /\ ord m = o /\ size_primary m = np /\ size_secdary m = ns end.

Lemma incorporate_ok {T} (o : order) (m : option (csx T)) np ns ipd offp off n s W :
  bprim o m np ns -> ipd - offp < np -> written n s W -> length W + length (brow m (ipd - offp)) <= n ->
  exists s', incorporate m ipd offp off s = Ok s' /\ written n s' (W ++ map (fun x => (fst x + off, snd x)) (brow m (ipd - offp))).
Proof.
  intros HB Hp HW HL. destruct m as [m|]; cbn [incorporate brow bprim] in *.
  - destruct HB as (V & _ & <- & _). pose proof (valid_rep m V) as H.
    assert (E : nth_error (map (line m) (seq 0 (size_primary m))) (ipd - offp) = Some (line m (ipd - offp))).
    { rewrite nth_error_map, nth_error_nth' with (d := 0) by (rewrite seq_length; auto). rewrite seq_nth by auto. reflexivity. }
    rewrite (row_loop' m _ (ipd - offp) _ (part_entry m off) (fun s x => emit s (fst x + off) (snd x)) s H E).
    + destruct (emits_ok n (fun s x => emit s (fst x) (snd x)) (map (fun x => (fst x + off, snd x)) (line m (ipd - offp)))
        ltac:(auto) s W HW ltac:(rewrite map_length; auto)) as (s' & Es & Ws).
      rewrite foldM_map in Es. eauto.
    + intros s0 i x E1 E2. unfold part_entry. rewrite (rd_some _ _ _ E1), (rd_some _ _ _ E2). reflexivity.
  - exists s. rewrite app_nil_r. auto.
Qed.

Lemma convert_block {T} fresh_i fresh_v (m : option (csx T)) o nr nc :
  (forall n, length (fresh_i n) = n) -> (forall n, length (fresh_v n) = n) -> block_fits m nr nc ->
  exists m', concat_convert fresh_i fresh_v m o = Ok m' /\
    bprim o m' (match o with OrdR => nr | OrdC => nc end) (match o with OrdR => nc | OrdC => nr end) /\
    Permutation (opt_entries m') (opt_entries m) /\ (opt_ascending m -> opt_ascending m').
Proof.
  intros FI FV HB. destruct m as [m|]; cbn [concat_convert block_fits] in *.
  - destruct HB as (V & <- & <-). destruct (order_eqb_spec (ord m) o) as [E|E].
    + exists (Some m). split; auto. unfold bprim, size_primary, size_secdary. rewrite E. auto.
    + set (t := Csx (nrows m) (ncols m) (nnz m) o UploNone (fresh_i (match o with OrdR => nrows m | OrdC => ncols m end + 1)) (fresh_i (nnz m)) (fresh_v (nnz m))).
      destruct (convert_keeps_matrix T m t V) as (d & Ed & D1 & D2 & D3 & D4 & D5 & D6 & D7 & _); auto.
      { unfold allocated, t, size_primary. cbn [ptrs idxs vals ord nrows ncols nnz]. rewrite !FI, FV. auto. }
      rewrite Ed. cbn [obind]. exists (Some d). split; auto. cbn [t ord] in D4, D7. unfold bprim, size_primary, size_secdary.
      rewrite D4, D1, D2. split; [auto|]. split; auto. intros _. apply D7. auto.
  - exists None. cbn. auto.
Qed.

Lemma opt_nnz_entries {T} (m : csx T) : valid m -> nnz m = length (entries m).
Proof.
  intros V. pose proof (valid_rep m V) as H. rewrite (r_nnz _ _ H), (entries_items m _ H), map_length. symmetry. apply items_length.
Qed.

(** entries of a block from its rows *)
Lemma brow_entries {T} o (m : option (csx T)) np ns : bprim o m np ns ->
  opt_entries m = flat_map (fun p => map (coords o p) (brow m p)) (seq 0 np).
Proof.
  intros H. destruct m as [m|]; cbn [opt_entries brow bprim] in *.
  - destruct H as (V & <- & <- & _). reflexivity.
  - symmetry. apply flat_map_nil. auto.
Qed.

Lemma flat_map_app_perm {A B} (f g : A -> list B) l : Permutation (flat_map (fun a => f a ++ g a) l) (flat_map f l ++ flat_map g l).
Proof.
  induction l as [|a l IH]; simpl; auto. rewrite <- !app_assoc. apply Permutation_app_head.
  rewrite IH. rewrite Permutation_app_comm, <- app_assoc. apply Permutation_app_head. apply Permutation_app_comm.
Qed.

(** row [p] of the concatenation *)
Definition cat_row {T} (q11 q12 q21 q22 : option (csx T)) (mp ms p : nat) : list (nat * T) :=
  if p <? mp then brow q11 p ++ map (fun x => (fst x + ms, snd x)) (brow q12 p)
  else brow q21 (p - mp) ++ map (fun x => (fst x + ms, snd x)) (brow q22 (p - mp)).

Definition prim_offset {T} (o : order) (dp ds : nat) : entry T -> entry T :=
  match o with OrdR => offset dp ds | OrdC => offset ds dp end.

Lemma map_shift_coords {T} o p dp ds (l : list (nat * T)) :
  map (coords o (p + dp)) (map (fun x => (fst x + ds, snd x)) l) = map (prim_offset o dp ds) (map (coords o p) l).
Proof.
  rewrite !map_map. apply map_ext. intros x. unfold coords, prim_offset, offset, e_row, e_col, e_val. destruct o; reflexivity.
Qed.

Lemma cat_entries {T} o (q11 q12 q21 q22 : option (csx T)) mp np2 ms ns2 :
  bprim o q11 mp ms -> bprim o q12 mp ns2 -> bprim o q21 np2 ms -> bprim o q22 np2 ns2 ->
  Permutation (flat_map (fun p => map (coords o p) (cat_row q11 q12 q21 q22 mp ms p)) (seq 0 (mp + np2)))
    (opt_entries q11 ++ map (prim_offset o 0 ms) (opt_entries q12) ++
     map (prim_offset o mp 0) (opt_entries q21) ++ map (prim_offset o mp ms) (opt_entries q22)).
Proof.
  intros H11 H12 H21 H22.
  rewrite seq_app, flat_map_app, app_assoc. cbn [Nat.add]. apply Permutation_app.
  - rewrite (brow_entries o q11 mp ms H11), (brow_entries o q12 mp ns2 H12), flat_map_map.
    etransitivity; [|apply flat_map_app_perm]. apply perm_of_eq. rewrite !flat_map_concat_map. f_equal. apply map_ext_in.
    intros p Hp. apply in_seq in Hp. unfold cat_row. destruct (Nat.ltb_spec p mp); [|lia]. rewrite map_app. f_equal.
    rewrite <- map_shift_coords, Nat.add_0_r. auto.
  - rewrite (brow_entries o q21 np2 ms H21), (brow_entries o q22 np2 ns2 H22), !flat_map_map.
    etransitivity; [|apply flat_map_app_perm]. apply perm_of_eq.
    replace (seq mp np2) with (map (fun p => mp + p) (seq 0 np2)).
    + rewrite !flat_map_concat_map, map_map. f_equal. apply map_ext_in.
      intros p Hp. apply in_seq in Hp. unfold cat_row. destruct (Nat.ltb_spec (mp + p) mp); [lia|]. rewrite map_app.
      replace (mp + p - mp) with p by lia. rewrite <- !map_shift_coords, (Nat.add_comm mp p). f_equal. f_equal.
      rewrite <- (map_id (brow q21 p)) at 1. apply map_ext. intros x. rewrite Nat.add_0_r. apply surjective_pairing.
    + clear. assert (G : forall k, map (fun p => mp + p) (seq k np2) = seq (mp + k) np2).
      { induction np2 as [|n IH]; intros k; auto. simpl. f_equal. rewrite IH. f_equal. lia. }
      rewrite G, Nat.add_0_r. auto.
Qed.

Lemma cat_row_sorted {T} o (q11 q12 q21 q22 : option (csx T)) mp np2 ms ns2 p :
  bprim o q11 mp ms -> bprim o q12 mp ns2 -> bprim o q21 np2 ms -> bprim o q22 np2 ns2 -> p < mp + np2 ->
  opt_ascending q11 -> opt_ascending q12 -> opt_ascending q21 -> opt_ascending q22 ->
  sorted Nat.ltb (map fst (cat_row q11 q12 q21 q22 mp ms p)).
Proof.
  intros H11 H12 H21 H22 Hp A11 A12 A21 A22.
  assert (G : forall (l r : option (csx T)) np n2 p, bprim o l np ms -> bprim o r np n2 -> opt_ascending l -> opt_ascending r -> p < np ->
     sorted Nat.ltb (map fst (brow l p ++ map (fun x => (fst x + ms, snd x)) (brow r p)))).
  { clear. intros l r np n2 p HL HR AL AR Hp. rewrite map_app. apply sorted_app.
    - destruct l as [l|]; [|constructor]. destruct HL as (_ & _ & <- & _). apply AL; auto.
    - destruct r as [r|]; [|constructor]. destruct HR as (_ & _ & <- & _). specialize (AR p Hp). cbn [brow].
      rewrite map_map. cbn [fst]. clear -AR. unfold sorted in *. induction (line r p) as [|x t IH]; cbn [map] in *; constructor; inversion AR; subst; auto.
      rewrite Forall_forall in *. intros c Hc. apply in_map_iff in Hc. destruct Hc as (y & <- & Hy).
      specialize (H2 (fst y) (in_map fst _ _ Hy)). unfold le_of in *. rewrite Nat.ltb_ge in *. lia.
    - intros a b Ha Hb. apply Nat.ltb_ge. rewrite map_map in Hb. apply in_map_iff in Hb. destruct Hb as (y & <- & _). cbn [fst].
      destruct l as [l|]; [|destruct Ha]. destruct HL as (V & _ & Hs & Hq). cbn [brow] in Ha. apply in_map_iff in Ha. destruct Ha as (x & <- & Hx).
      enough (fst x < ms) by lia. rewrite <- Hq. eapply (r_range _ _ (valid_rep l V) (line l p)); eauto.
      apply in_map_iff. exists p. split; auto. apply in_seq. lia. }
  unfold cat_row. destruct (Nat.ltb_spec p mp).
  - eapply G with (np := mp); eauto.
  - eapply G with (np := np2); eauto. lia.
Qed.

Lemma cat_row_range {T} o (q11 q12 q21 q22 : option (csx T)) mp np2 ms ns2 p x :
  bprim o q11 mp ms -> bprim o q12 mp ns2 -> bprim o q21 np2 ms -> bprim o q22 np2 ns2 -> p < mp + np2 ->
  In x (cat_row q11 q12 q21 q22 mp ms p) -> fst x < ms + ns2.
Proof.
  intros H11 H12 H21 H22 Hp.
  assert (G : forall (l : option (csx T)) np n2 p x, bprim o l np n2 -> p < np -> In x (brow l p) -> fst x < n2).
  { clear. intros [l|] np n2 p x H Hp Hx; [|destruct Hx]. destruct H as (V & _ & <- & <-).
    eapply (r_range _ _ (valid_rep l V) (line l p)); eauto. apply in_map_iff. exists p. split; auto. apply in_seq. lia. }
  unfold cat_row. destruct (Nat.ltb_spec p mp); intros Hx; apply in_app_or in Hx; destruct Hx as [Hx|Hx].
  - specialize (G q11 mp ms p x H11 H Hx). lia.
  - apply in_map_iff in Hx. destruct Hx as (y & <- & Hy). cbn [fst]. specialize (G q12 mp ns2 p y H12 H Hy). lia.
  - specialize (G q21 np2 ms (p - mp) x H21 ltac:(lia) Hx). lia.
  - apply in_map_iff in Hx. destruct Hx as (y & <- & Hy). cbn [fst]. specialize (G q22 np2 ns2 (p - mp) y H22 ltac:(lia) Hy). lia.
Qed.

(** C45, concatenation *)
Theorem concat_joins_blocks : forall (T : Type) (fresh_i : nat -> list nat) (fresh_v : nat -> list T)
  (a11 a12 a21 a22 : option (csx T)) (a : csx T) (top bottom left right : nat),
  (forall n, length (fresh_i n) = n) -> (forall n, length (fresh_v n) = n) ->
  block_fits a11 top left -> block_fits a12 top right -> block_fits a21 bottom left -> block_fits a22 bottom right ->
  ~ (a11 = None /\ a12 = None /\ a21 = None /\ a22 = None) ->
  allocated a -> nrows a = top + bottom -> ncols a = left + right ->
  nnz a = length (opt_entries a11) + length (opt_entries a12) + length (opt_entries a21) + length (opt_entries a22) ->
  exists d, concat_csx fresh_i fresh_v a11 a12 a21 a22 a = Ok d /\
    nrows d = nrows a /\ ncols d = ncols a /\ ord d = ord a /\ nnz d = nnz a /\ valid d /\
    Permutation (entries d)
      (opt_entries a11 ++ map (offset 0 left) (opt_entries a12) ++
       map (offset top 0) (opt_entries a21) ++ map (offset top left) (opt_entries a22)) /\
    (opt_ascending a11 -> opt_ascending a12 -> opt_ascending a21 -> opt_ascending a22 -> ascending d).
Proof.
  intros T fresh_i fresh_v a11 a12 a21 a22 a top bottom left right FI FV B11 B12 B21 B22 HNE HA HR HC HN.
  assert (EN : forall m nr nc, block_fits m nr nc -> @opt_nnz T m = length (opt_entries m)).
  { intros [m|] nr nc H; auto. cbn. apply opt_nnz_entries. apply H. }
  unfold concat_csx. rewrite (EN _ _ _ B11), (EN _ _ _ B12), (EN _ _ _ B21), (EN _ _ _ B22), <- HN, Nat.eqb_refl. cbn [negb].
  assert (EZ : concat_sizes a11 a12 a21 a22 a = Ok (top, bottom, left, right)).
  { unfold concat_sizes, block_fits in *.
    destruct a11 as [m|]; [destruct B11 as (_ & -> & ->); repeat f_equal; lia|].
    destruct a12 as [m|]; [destruct B12 as (_ & -> & ->); repeat f_equal; lia|].
    destruct a21 as [m|]; [destruct B21 as (_ & -> & ->); repeat f_equal; lia|].
    destruct a22 as [m|]; [destruct B22 as (_ & -> & ->); repeat f_equal; lia|]. exfalso. apply HNE. auto. }
  rewrite EZ. cbn [obind].
  assert (EB : forall m nr nc, @block_fits T m nr nc -> block_ok m nr nc = true).
  { intros [m|] nr nc H; auto. destruct H as (_ & <- & <-). cbn. now rewrite !Nat.eqb_refl. }
  rewrite (EB _ _ _ B11), (EB _ _ _ B12), (EB _ _ _ B21), (EB _ _ _ B22). cbn [andb negb].
  destruct (convert_block fresh_i fresh_v a11 (ord a) top left FI FV B11) as (b11 & E11 & P11 & Q11 & S11).
  destruct (convert_block fresh_i fresh_v a12 (ord a) top right FI FV B12) as (b12 & E12 & P12 & Q12 & S12).
  destruct (convert_block fresh_i fresh_v a21 (ord a) bottom left FI FV B21) as (b21 & E21 & P21 & Q21 & S21).
  destruct (convert_block fresh_i fresh_v a22 (ord a) bottom right FI FV B22) as (b22 & E22 & P22 & Q22 & S22).
  rewrite E11, E12, E21, E22. cbn [obind].
  set (mp := match ord a with OrdR => top | OrdC => left end) in *.
  set (ms := match ord a with OrdR => left | OrdC => top end) in *.
  set (np2 := match ord a with OrdR => bottom | OrdC => right end).
  set (ns2 := match ord a with OrdR => right | OrdC => bottom end).
  set (c12 := match ord a with OrdR => b12 | OrdC => b21 end).
  set (c21 := match ord a with OrdR => b21 | OrdC => b12 end).
  assert (C12 : bprim (ord a) c12 mp ns2) by (unfold c12, mp, ns2; destruct (ord a); auto).
  assert (C21 : bprim (ord a) c21 np2 ms) by (unfold c21, np2, ms; destruct (ord a); auto).
  assert (C22 : bprim (ord a) b22 np2 ns2) by (unfold np2, ns2; destruct (ord a); auto).
  assert (Z1 : size_primary a = mp + np2) by (unfold size_primary, mp, np2; destruct (ord a); lia).
  assert (Z2 : size_secdary a = ms + ns2) by (unfold size_secdary, ms, ns2; destruct (ord a); lia).
  set (f := cat_row b11 c12 c21 b22 mp ms).
  assert (PE : Permutation (flat_map (fun p => map (coords (ord a) p) (f p)) (seq 0 (mp + np2)))
      (opt_entries a11 ++ map (offset 0 left) (opt_entries a12) ++ map (offset top 0) (opt_entries a21) ++ map (offset top left) (opt_entries a22))).
  { unfold f. rewrite (cat_entries (ord a) b11 c12 c21 b22 mp np2 ms ns2); auto.
    unfold c12, c21, mp, ms, prim_offset. destruct (ord a).
    - rewrite Q11, Q12, Q21, Q22. reflexivity.
    - rewrite Q11, Q12, Q21, Q22. apply Permutation_app_head.
      rewrite !app_assoc. apply Permutation_app_tail. apply Permutation_app_comm. }
  assert (HT : length (concat (map f (seq 0 (mp + np2)))) = nnz a).
  { transitivity (length (flat_map (fun p => map (coords (ord a) p) (f p)) (seq 0 (mp + np2)))).
    - rewrite <- flat_map_concat_map. generalize (seq 0 (mp + np2)). intros l. induction l as [|p l IH]; auto. simpl.
      rewrite !app_length, map_length, IH. auto.
    - rewrite (Permutation_length PE), !app_length, !map_length. lia. }
  set (body := fun (st : list nat * list T * nat) ipd =>
     if ipd <? mp then
       st1 <- incorporate b11 ipd 0 0 st ;; incorporate c12 ipd 0 ms st1
     else
       st1 <- incorporate c21 ipd mp 0 st ;; incorporate b22 ipd mp ms st1).
  destruct (build_rows a body f (mp + np2) Z1 HA ltac:(lia)) as (pt & st & E & L & W & O).
  { intros st W p Hp HW HL. unfold body. unfold f, cat_row in HL |- *. destruct (Nat.ltb_spec p mp) as [Hlt|Hge].
    - rewrite app_length, map_length in HL.
      assert (Ep : p - 0 = p) by lia.
      destruct (incorporate_ok (ord a) b11 mp ms p 0 0 (nnz a) st W P11) as (s1 & Es & Ws); try rewrite Ep; auto; try lia.
      rewrite Es. cbn [obind]. rewrite Ep in Ws.
      destruct (incorporate_ok (ord a) c12 mp ns2 p 0 ms (nnz a) s1 (W ++ map (fun x => (fst x + 0, snd x)) (brow b11 p)) C12) as (s2 & Es2 & Ws2); try rewrite Ep; auto; try lia.
      { rewrite app_length, map_length. lia. }
      rewrite Es2. eexists; split; eauto. rewrite Ep in Ws2. rewrite app_assoc.
      replace (map (fun x => (fst x + 0, snd x)) (brow b11 p)) with (brow b11 p) in Ws2; auto.
      rewrite <- (map_id (brow b11 p)) at 1. apply map_ext. intros x. rewrite Nat.add_0_r. apply surjective_pairing.
    - rewrite app_length, map_length in HL.
      destruct (incorporate_ok (ord a) c21 np2 ms p mp 0 (nnz a) st W C21) as (s1 & Es & Ws); auto; try lia.
      rewrite Es. cbn [obind].
      destruct (incorporate_ok (ord a) b22 np2 ns2 p mp ms (nnz a) s1 (W ++ map (fun x => (fst x + 0, snd x)) (brow c21 (p - mp))) C22) as (s2 & Es2 & Ws2); auto; try lia.
      { rewrite app_length, map_length. lia. }
      rewrite Es2. eexists; split; eauto. rewrite app_assoc.
      replace (map (fun x => (fst x + 0, snd x)) (brow c21 (p - mp))) with (brow c21 (p - mp)) in Ws2; auto.
      rewrite <- (map_id (brow c21 (p - mp))) at 1. apply map_ext. intros x. rewrite Nat.add_0_r. apply surjective_pairing. }
  rewrite Z1.
  rewrite foldM_ext_in with (g := build_step body).
  2: { intros [pt0 st0] p Hp. unfold concat_row, build_step, body. cbn [fst snd]. reflexivity. }
  rewrite E. cbn [obind]. destruct (written_all _ _ _ W HT) as (_ & _ & Wk).
  pose proof (build_rep a f (mp + np2) pt st Z1 HT L W O) as HB.
  destruct st as [[ix vs] k]. cbn [fst snd] in *. subst k.
  rewrite wr_ok by lia. cbn [obind]. eexists; split; [reflexivity|]. cbn [with_data nrows ncols ord nnz].
  do 4 (split; auto). specialize (HB ltac:(intros p x Hp Hx; rewrite Z2; exact (cat_row_range (ord a) b11 c12 c21 b22 mp np2 ms ns2 p x P11 C12 C21 C22 Hp Hx))).
  split; [eapply rep_valid; eauto|]. split.
  - rewrite (rep_entries _ _ HB), map_length, seq_length. cbn [with_data ord]. rewrite <- PE. apply perm_of_eq.
    rewrite !flat_map_concat_map. f_equal. apply map_ext_in. intros p Hp. apply in_seq in Hp. rewrite nth_map_seq by lia. auto.
  - intros A11 A12 A21 A22. apply (rep_ascending _ _ HB). intros r Hr. apply in_map_iff in Hr. destruct Hr as (p & <- & Hp). apply in_seq in Hp.
    eapply cat_row_sorted with (np2 := np2) (ns2 := ns2); eauto; try lia.
    + unfold c12. destruct (ord a); auto.
    + unfold c21. destruct (ord a); auto.
Qed.

(** ** Quadrisection *)
Lemma four_windows {T} (src : csx T) rc cc (l : list (entry T)) :
  (forall e, In e l -> e_row e < nrows src /\ e_col e < ncols src) ->
  Permutation l (filter (in_window (win11 src rc cc)) l ++ filter (in_window (win12 src rc cc)) l ++
    filter (in_window (win21 src rc cc)) l ++ filter (in_window (win22 src rc cc)) l).
Proof.
  induction l as [|e l IH]; intros H; auto. specialize (IH ltac:(intros; apply H; right; auto)).
  destruct (H e (or_introl eq_refl)) as [R1 R2]. cbn [filter].
  assert (C : (in_window (win11 src rc cc) e = true /\ in_window (win12 src rc cc) e = false /\ in_window (win21 src rc cc) e = false /\ in_window (win22 src rc cc) e = false) \/
     (in_window (win11 src rc cc) e = false /\ in_window (win12 src rc cc) e = true /\ in_window (win21 src rc cc) e = false /\ in_window (win22 src rc cc) e = false) \/
     (in_window (win11 src rc cc) e = false /\ in_window (win12 src rc cc) e = false /\ in_window (win21 src rc cc) e = true /\ in_window (win22 src rc cc) e = false) \/
     (in_window (win11 src rc cc) e = false /\ in_window (win12 src rc cc) e = false /\ in_window (win21 src rc cc) e = false /\ in_window (win22 src rc cc) e = true)).
  { unfold in_window, win11, win12, win21, win22. cbn [row_start row_end col_start col_end].
    destruct (Nat.leb_spec 0 (e_row e)), (Nat.leb_spec 0 (e_col e)), (Nat.leb_spec rc (e_row e)), (Nat.leb_spec cc (e_col e)),
      (Nat.ltb_spec (e_row e) rc), (Nat.ltb_spec (e_col e) cc), (Nat.ltb_spec (e_row e) (nrows src)), (Nat.ltb_spec (e_col e) (ncols src));
      try lia; cbn; auto 10. }
  destruct C as [(-> & -> & -> & ->)|[(-> & -> & -> & ->)|[(-> & -> & -> & ->)|(-> & -> & -> & ->)]]].
  - simpl. constructor. auto.
  - apply Permutation_cons_app. auto.
  - cbn [app]. rewrite app_assoc. apply Permutation_cons_app. rewrite <- app_assoc. auto.
  - rewrite !app_assoc. apply Permutation_cons_app. rewrite <- !app_assoc. auto.
Qed.

Lemma unshift {T} dr dc w (l : list (entry T)) : row_start w = dr -> col_start w = dc ->
  map (offset dr dc) (map (shifted dr dc) (filter (in_window w) l)) = filter (in_window w) l.
Proof.
  intros <- <-. rewrite map_map. rewrite <- (map_id (filter (in_window w) l)) at 2. apply map_ext_in. intros [[i j] v] He.
  apply filter_In in He. destruct He as [_ He]. unfold in_window, e_row, e_col in He. cbn [fst snd] in He.
  rewrite !andb_true_iff, !Nat.leb_le in He. unfold offset, shifted, e_row, e_col, e_val. cbn [fst snd]. repeat f_equal; lia.
Qed.

(** C45, quadrisection followed by concatenation *)
Theorem quadrisect_concat_restores : forall (T : Type) (fresh_i : nat -> list nat) (fresh_v : nat -> list T)
  (src : csx T) (rc cc : nat),
  (forall n, length (fresh_i n) = n) -> (forall n, length (fresh_v n) = n) ->
  valid src -> ascending src -> distinct src -> rc <= nrows src -> cc <= ncols src ->
  exists n11 n12 n21 n22, quadrisect_setup src rc cc = Ok (n11, n12, n21, n22) /\
  n11 + n12 + n21 + n22 = nnz src /\
  forall d11 d12 d21 d22 a : csx T,
    allocated d11 -> allocated d12 -> allocated d21 -> allocated d22 ->
    nrows d11 = rc -> ncols d11 = cc -> nnz d11 = n11 ->
    nrows d12 = rc -> ncols d12 = ncols src - cc -> nnz d12 = n12 ->
    nrows d21 = nrows src - rc -> ncols d21 = cc -> nnz d21 = n21 ->
    nrows d22 = nrows src - rc -> ncols d22 = ncols src - cc -> nnz d22 = n22 ->
    allocated a -> nrows a = nrows src -> ncols a = ncols src -> nnz a = nnz src ->
    exists r11 r12 r21 r22 d,
      quadrisect_perform src d11 d12 d21 d22 rc cc (n11, n12, n21, n22) = Ok (r11, r12, r21, r22) /\
      ord r11 = ord d11 /\ ord r12 = ord d12 /\ ord r21 = ord d21 /\ ord r22 = ord d22 /\
      concat_csx fresh_i fresh_v (Some r11) (Some r12) (Some r21) (Some r22) a = Ok d /\
      valid d /\ strictly_ascending d /\ ord d = ord a /\ Permutation (entries d) (entries src) /\
      (ord a = ord src -> ptrs d = ptrs src /\ idxs d = idxs src /\ vals d = vals src).
Proof.
  intros T fresh_i fresh_v src rc cc FI FV V HAs HD HRc HCc.
  set (cnt := fun w => length (filter (in_window w) (entries src))).
  assert (W : forall w, (w = win11 src rc cc \/ w = win12 src rc cc \/ w = win21 src rc cc \/ w = win22 src rc cc) ->
     row_start w <= row_end w /\ row_end w <= nrows src /\ col_start w <= col_end w /\ col_end w <= ncols src).
  { intros w [->|[->|[->| ->]]]; cbn; lia. }
  assert (S : forall w, (w = win11 src rc cc \/ w = win12 src rc cc \/ w = win21 src rc cc \/ w = win22 src rc cc) ->
     submatrix_setup src w = Ok (cnt w)).
  { intros w Hw. destruct (W w Hw) as (W1 & W2 & W3 & W4). apply (submatrix_is_window T src w V HAs W1 W2 W3 W4). }
  pose proof (four_windows src rc cc (entries src) ltac:(intros e He; apply (entries_range src e V He))) as FW.
  exists (cnt (win11 src rc cc)), (cnt (win12 src rc cc)), (cnt (win21 src rc cc)), (cnt (win22 src rc cc)). split; [|split].
  - unfold quadrisect_setup. destruct (Nat.ltb_spec (nrows src) rc); [lia|]. destruct (Nat.ltb_spec (ncols src) cc); [lia|]. cbn [orb].
    rewrite !S by auto. reflexivity.
  - rewrite (opt_nnz_entries src V), (Permutation_length FW), !app_length. unfold cnt. lia.
  - intros d11 d12 d21 d22 a A11 A12 A21 A22 R11 C11 N11 R12 C12 N12 R21 C21 N21 R22 C22 N22 HA HR HC HN.
    assert (Sub : forall w dst, (w = win11 src rc cc \/ w = win12 src rc cc \/ w = win21 src rc cc \/ w = win22 src rc cc) ->
       allocated dst -> nrows dst = row_end w - row_start w -> ncols dst = col_end w - col_start w -> nnz dst = cnt w ->
       exists d, submatrix_perform src dst w (cnt w) = Ok d /\
      nrows d = nrows dst /\ ncols d = ncols dst /\ ord d = ord dst /\
      valid d /\ ascending d /\
      Permutation (entries d) (map (shifted (row_start w) (col_start w)) (filter (in_window w) (entries src)))).
    { intros w dst Hw HA' S1 S2 S3. destruct (W w Hw) as (W1 & W2 & W3 & W4).
      destruct (submatrix_is_window T src w V HAs W1 W2 W3 W4) as [_ Q]. destruct (Q dst HA' S1 S2 S3) as (d & E & Q1 & Q2 & Q3 & Q4 & Q5 & Q6 & Q7 & Q8).
      rewrite S3 in E. exists d. auto 10. }
    destruct (Sub (win11 src rc cc) d11) as (r11 & E11 & X11 & Y11 & O11 & V11 & S11 & P11); auto; cbn; try lia.
    destruct (Sub (win12 src rc cc) d12) as (r12 & E12 & X12 & Y12 & O12 & V12 & S12 & P12); auto; cbn; try lia.
    destruct (Sub (win21 src rc cc) d21) as (r21 & E21 & X21 & Y21 & O21 & V21 & S21 & P21); auto; cbn; try lia.
    destruct (Sub (win22 src rc cc) d22) as (r22 & E22 & X22 & Y22 & O22 & V22 & S22 & P22); auto; cbn; try lia.
    assert (L11 : length (entries r11) = cnt (win11 src rc cc)) by (rewrite (Permutation_length P11), map_length; auto).
    assert (L12 : length (entries r12) = cnt (win12 src rc cc)) by (rewrite (Permutation_length P12), map_length; auto).
    assert (L21 : length (entries r21) = cnt (win21 src rc cc)) by (rewrite (Permutation_length P21), map_length; auto).
    assert (L22 : length (entries r22) = cnt (win22 src rc cc)) by (rewrite (Permutation_length P22), map_length; auto).
    destruct (concat_joins_blocks T fresh_i fresh_v (Some r11) (Some r12) (Some r21) (Some r22) a rc (nrows src - rc) cc (ncols src - cc) FI FV)
      as (d & Ed & D1 & D2 & D3 & D4 & D5 & D6 & D7); cbn [block_fits opt_entries opt_ascending]; auto.
    { split; [auto|split; congruence]. }
    { split; [auto|split; congruence]. }
    { split; [auto|split; congruence]. }
    { split; [auto|split; congruence]. }
    { intros (C & _). discriminate. }
    { lia. }
    { lia. }
    { rewrite HN, (opt_nnz_entries src V), (Permutation_length FW), !app_length, L11, L12, L21, L22. unfold cnt. lia. }
    assert (PE : Permutation (entries d) (entries src)).
    { rewrite D6. cbn [opt_entries]. rewrite FW, P11, P12, P21, P22. cbn [win11 win12 win21 win22 row_start col_start].
      rewrite (unshift 0 cc (win12 src rc cc)), (unshift rc 0 (win21 src rc cc)), (unshift rc cc (win22 src rc cc)) by reflexivity.
      apply Permutation_app_tail. apply perm_of_eq. rewrite <- (map_id (filter (in_window (win11 src rc cc)) (entries src))) at 2.
      apply map_ext. intros [[i j] v]. unfold shifted, e_row, e_col, e_val. cbn [fst snd]. rewrite !Nat.sub_0_r. auto. }
    assert (SA : strictly_ascending d) by (apply ascending_strict; [auto|eapply distinct_perm; eauto]).
    exists r11, r12, r21, r22, d. split.
    + unfold quadrisect_perform, wrong_size. rewrite R11, C11, N11, R12, C12, N12, R21, C21, N21, R22, C22, N22, !Nat.eqb_refl. cbn [andb negb].
      rewrite E11, E12, E21, E22. reflexivity.
    + do 9 (split; auto). intros HO. apply arrays_unique; auto; try congruence. apply ascending_strict; auto.
Qed.

(** a matrix cut in two orders *)
Definition ex_w : window := Window 1 3 1 4.
Example submatrix_is_window_ex : exists d,
  submatrix_setup ex_s ex_w = Ok (length (filter (in_window ex_w) (entries ex_s))) /\
  submatrix_perform ex_s (Csx 2 3 (length (filter (in_window ex_w) (entries ex_s))) OrdC UploNone [7; 7; 7; 7]
     (repeat 7 (length (filter (in_window ex_w) (entries ex_s)))) (repeat 0 (length (filter (in_window ex_w) (entries ex_s)))))
     ex_w (length (filter (in_window ex_w) (entries ex_s))) = Ok d /\ 0 < nnz d.
Proof. eexists. split; [reflexivity|]. split; [reflexivity|]. cbn. lia. Qed.

Example quadrisect_hyps : valid ex_s /\ ascending ex_s /\ distinct ex_s /\ 1 <= nrows ex_s /\ 2 <= ncols ex_s.
Proof.
  split; [apply ex_s_valid|]. split; [apply ex_s_asc|]. split; [|cbn; lia].
  unfold distinct. cbn. repeat constructor; cbn; intuition congruence.
Qed.

Example quadrisect_ex : quadrisect_setup ex_s 1 2 = Ok (1, 2, 0, 1).
Proof. reflexivity. Qed.

Print Assumptions submatrix_is_window.
Print Assumptions submatrix_checks_window.
Print Assumptions concat_joins_blocks.
Print Assumptions quadrisect_concat_restores.
