(** * C79: converting the storage of a dense matrix (order, triangle), and views *)
From Coq Require Import List Bool Arith Lia ZArith.
From Verif Require Import Base M_Csx M_CsxMap M_Dnx S_Csx S_Dnx L_Utils L_Csx L_Csx2 L_Dnx P_Dnx.
Import ListNotations.
Local Open Scope out_scope.

(** ** Views *)
(** the transposed view holds the transposed matrix *)
Theorem transposed_view_at {T} (m : dnx T) i j : at_ (transposed_view m) i j = at_ m j i.
Proof. unfold at_, pos, transposed_view. cbn [d_vals d_ord d_ld]. destruct (d_ord m); cbn; reflexivity. Qed.

Lemma transposed_fits {T} (m : dnx T) : fits m -> fits (transposed_view m).
Proof.
  intros [A B]. unfold fits, d_sec, pos in *. unfold transposed_view. cbn [d_rows d_cols d_ld d_ord d_vals].
  destruct (d_ord m); cbn; split; auto.
Qed.

Lemma part_changed u i j : in_part (change_uplo u) i j = in_part u j i.
Proof. destruct u; reflexivity. Qed.

(** the view of a window holds the window, and fits *)
Theorem submatrix_view_at {T} (m : dnx T) w : fits m ->
  row_start w <= row_end w -> row_end w <= d_rows m -> col_start w <= col_end w -> col_end w <= d_cols m ->
  exists v, submatrix_view m w = Ok v /\ fits v /\ d_rows v = row_end w - row_start w /\ d_cols v = col_end w - col_start w /\
    forall i j, i < d_rows v -> j < d_cols v -> at_ v i j = at_ m (row_start w + i) (col_start w + j).
Proof.
  intros [A B] H1 H2 H3 H4. unfold submatrix_view.
  destruct (Nat.ltb_spec (row_end w) (row_start w)); [lia|]. destruct (Nat.ltb_spec (d_rows m) (row_end w)); [lia|].
  destruct (Nat.ltb_spec (col_end w) (col_start w)); [lia|]. destruct (Nat.ltb_spec (d_cols m) (col_end w)); [lia|].
  cbn [orb]. eexists. split; [reflexivity|].
  assert (P : forall i j, i < row_end w - row_start w -> j < col_end w - col_start w ->
     row_start w * stride_row m + col_start w * stride_col m +
     pos (Dnx (row_end w - row_start w) (col_end w - col_start w) (d_ld m) (d_ord m) (d_upl m) (d_sym m)
               (skipn (row_start w * stride_row m + col_start w * stride_col m) (d_vals m))) i j
     = pos m (row_start w + i) (col_start w + j)).
  { intros i j _ _. unfold pos, stride_row, stride_col. cbn [d_ord d_ld]. destruct (d_ord m); lia. }
  split; [|split; [reflexivity|split; [reflexivity|]]].
  - split.
    + unfold d_sec in *. cbn [d_ord d_rows d_cols d_ld]. destruct (d_ord m); lia.
    + cbn [d_rows d_cols d_vals]. intros i j Hi Hj. rewrite skipn_length. specialize (P i j Hi Hj).
      specialize (B (row_start w + i) (col_start w + j) ltac:(lia) ltac:(lia)). lia.
  - cbn [d_rows d_cols]. intros i j Hi Hj. unfold at_. rewrite <- (P i j Hi Hj). cbn [d_vals].
    generalize (row_start w * stride_row m + col_start w * stride_col m). intros k.
    match goal with |- nth_error _ ?q = _ => generalize q end. intros q. clear. revert k.
    induction (d_vals m) as [|a l IH]; intros k. { now rewrite skipn_nil; destruct q, k. }
    destruct k; simpl; auto.
Qed.

Theorem submatrix_view_checks {T} (m : dnx T) w :
  (row_end w < row_start w \/ d_rows m < row_end w \/ col_end w < col_start w \/ d_cols m < col_end w) -> submatrix_view m w = Fail.
Proof.
  intros H. unfold submatrix_view.
  destruct (Nat.ltb_spec (row_end w) (row_start w)); auto. destruct (Nat.ltb_spec (d_rows m) (row_end w)); auto.
  destruct (Nat.ltb_spec (col_end w) (col_start w)); auto. destruct (Nat.ltb_spec (d_cols m) (col_end w)); auto. lia.
Qed.

(** ** convert_dnx *)
Section Convert.
Context {T : Type} (cplx : bool) (conj : T -> T).
Variable btrans : nat -> nat -> list T -> nat -> list T -> nat -> order -> bool -> list T.
Hypothesis BT : transposes cplx conj btrans.
Variable alloc : nat -> nat -> order -> dnx T.
Hypothesis AL : allocates alloc.
Variable of_index : nat -> T.

(** conjugation is applied to hermitian matrices of a complex type only *)
Definition mirror (s : symmetry) (x : T) : T := if cplx then match s with SymHermitian => conj x | _ => x end else x.

(** a matrix of which both halves (or the diagonal) are stored agrees with its declared symmetry *)
Definition consistent (m : dnx T) : Prop :=
  forall i j, i < d_rows m -> j < d_cols m -> in_part (d_upl m) i j = true -> in_part (d_upl m) j i = true ->
    at_ m i j = option_map (mirror (d_sym m)) (at_ m j i).

Definition the_herm (s : symmetry) : bool := cplx && symmetry_eqb s SymHermitian.

Lemma cnj_mirror s x : cnj cplx conj (the_herm s) x = mirror s x.
Proof. unfold cnj, the_herm, mirror. destruct cplx, s; reflexivity. Qed.

Lemma map_cnj s (o : option T) : option_map (cnj cplx conj (the_herm s)) o = option_map (mirror s) o.
Proof. destruct o; cbn; auto. now rewrite cnj_mirror. Qed.

Lemma map_id_cnj (o : option T) : option_map (cnj cplx conj false) o = o.
Proof. unfold cnj. rewrite andb_false_r. destruct o; reflexivity. Qed.

Lemma part_total u i j : in_part u i j = false -> in_part u j i = true.
Proof.
  destruct u; cbn; auto; rewrite Nat.leb_le; intros H; apply Nat.leb_gt in H; lia.
Qed.

Lemma change_other o o' : o <> o' -> change_order o = o'.
Proof. destruct o, o'; intros H; try reflexivity; exfalso; apply H; reflexivity. Qed.

(** a mirrored read in the other triangle *)
Lemma mirrored_read (src : dnx T) i j : consistent src -> i < d_rows src -> j < d_cols src -> in_part (d_upl src) j i = true ->
  option_map (mirror (d_sym src)) (at_ src j i) = meaning (mirror (d_sym src)) src i j.
Proof.
  intros C Hi Hj P. unfold meaning. destruct (in_part (d_upl src) i j) eqn:Q; auto. symmetry. apply C; auto.
Qed.

Theorem convert_keeps_matrix_dense (src dst : dnx T) :
  fits src -> fits dst -> d_rows src = d_rows dst -> d_cols src = d_cols dst -> d_sym src = d_sym dst ->
  d_sym src <> SymGeneral -> d_rows src = d_cols src -> consistent src ->
  ~ (cplx = true /\ d_sym src = SymHermitian /\ d_ord src <> d_ord dst /\ d_upl src <> UploNone /\ d_upl dst = UploNone) ->
  exists d, convert_dnx cplx conj btrans alloc of_index src dst = Ok d /\
    updates dst d (in_part (d_upl dst)) (meaning (mirror (d_sym src)) src).
Proof.
  intros Fs Fd Er Ec Ey Ny Sq C NB. unfold convert_dnx.
  replace (same_dims src dst) with true by (symmetry; apply same_dims_spec; auto). cbn [negb].
  rewrite <- Ey. replace (symmetry_eqb (d_sym src) (d_sym src)) with true by (destruct (d_sym src); reflexivity). cbn [negb].
  replace (is_structurally_symmetric (d_sym src)) with true by (destruct (d_sym src); auto; congruence).
  rewrite <- Sq, Nat.eqb_refl. cbn [negb andb]. fold (the_herm (d_sym src)).
  assert (SD : forall m : dnx T, d_rows m = d_rows dst -> d_cols m = d_cols dst -> square_part m).
  { intros m H1 H2 _. congruence. }
  destruct (order_eqb_spec (d_ord src) (d_ord dst)) as [Eo|Eo].
  - unfold convert_same_order. destruct (uplo_eqb_spec (d_upl src) (d_upl dst)) as [Eu|Eu].
    + destruct (copy_updates cplx conj src dst false) as [d [E U]]; auto. exists d. split; auto.
      eapply updates_ext; [| |exact U]; auto. intros i j Hi Hj P. cbv beta. rewrite map_id_cnj. unfold meaning. rewrite Eu, P. reflexivity.
    + destruct (is_uplo (d_upl src)) eqn:Us, (is_uplo (d_upl dst)) eqn:Ud; cbn [andb negb].
      * destruct (AL (d_rows src) (d_cols src) (change_order (d_ord src))) as [Q1 [Q2 [Q3 [Q4 Q5]]]].
        set (t0 := alloc (d_rows src) (d_cols src) (change_order (d_ord src))) in *.
        destruct (reorder_updates cplx conj btrans BT src (with_upl t0 (d_upl src)) false) as [t [E U]]; auto;
          cbn [d_rows d_cols d_ord with_upl]; try congruence.
        { rewrite Q3. destruct (d_ord src); discriminate. }
        rewrite E. cbn [obind]. assert (Ft := updates_fits _ _ _ _ U (fits_len _ _ eq_refl eq_refl eq_refl eq_refl eq_refl Q5)).
        destruct U as [A1 [A2 [A3 [A4 [A5 [A6 [L [V O]]]]]]]]. cbn [d_rows d_cols d_ld d_ord d_upl d_sym d_vals with_upl] in *.
        destruct (copy_updates cplx conj (transposed_view t) dst (the_herm (d_sym src))) as [d [E2 U2]];
          auto using transposed_fits; unfold transposed_view; cbn [d_rows d_cols d_ord d_upl]; try congruence.
        { rewrite A4, Q3, <- Eo. destruct (d_ord src); reflexivity. }
        { rewrite A5. destruct (d_upl src), (d_upl dst); try discriminate; try reflexivity; congruence. }
        exists d. split; auto. eapply updates_ext; [| |exact U2]; auto. intros i j Hi Hj P. cbv beta.
        change (Dnx _ _ _ _ _ _ _) with (transposed_view t). rewrite transposed_view_at, map_cnj.
        rewrite (V j i) by (auto; congruence). rewrite map_id_cnj.
        apply mirrored_read; auto; try congruence.
        revert P Eu Us Ud. destruct (d_upl src), (d_upl dst); cbn; auto; congruence.
      * destruct (complete_updates cplx conj btrans BT src dst (the_herm (d_sym src))) as [d [E U]]; auto.
        exists d. split; auto. eapply updates_ext; [| |exact U].
        -- intros. destruct (d_upl dst); auto; discriminate.
        -- intros i j Hi Hj _. unfold meaning. destruct (in_part (d_upl src) i j); auto. apply map_cnj.
      * destruct (copy_updates cplx conj (with_upl src (d_upl dst)) dst false) as [d [E U]]; auto.
        exists d. split; auto. eapply updates_ext; [| |exact U]; auto. intros i j Hi Hj P. cbv beta. rewrite map_id_cnj.
        change (at_ (with_upl src (d_upl dst)) i j) with (at_ src i j). unfold meaning.
        destruct (d_upl src); try discriminate. reflexivity.
      * destruct (d_upl src), (d_upl dst); try discriminate. congruence.
  - unfold convert_diff_order. destruct (uplo_eqb_spec (d_upl src) (d_upl dst)) as [Eu|Eu].
    + destruct (is_uplo (d_upl src)) eqn:Us.
      * destruct (AL (d_rows src) (d_cols src) (d_ord dst)) as [Q1 [Q2 [Q3 [Q4 Q5]]]].
        set (t0 := alloc (d_rows src) (d_cols src) (d_ord dst)) in *.
        destruct (reorder_updates cplx conj btrans BT src (with_upl t0 (d_upl src)) false) as [t [E U]]; auto;
          cbn [d_rows d_cols d_ord with_upl]; try congruence.
        rewrite E. cbn [obind]. assert (Ft := updates_fits _ _ _ _ U (fits_len _ _ eq_refl eq_refl eq_refl eq_refl eq_refl Q5)).
        destruct U as [A1 [A2 [A3 [A4 [A5 [A6 [L [V O]]]]]]]]. cbn [d_rows d_cols d_ld d_ord d_upl d_sym d_vals with_upl] in *.
        destruct (copy_updates cplx conj t dst false) as [d [E2 U2]]; auto; try congruence.
        exists d. split; auto. eapply updates_ext; [| |exact U2]; auto. intros i j Hi Hj P. cbv beta.
        rewrite map_id_cnj. rewrite (V i j) by (auto; congruence). rewrite map_id_cnj. unfold meaning. rewrite Eu, P. reflexivity.
      * destruct (reorder_updates cplx conj btrans BT src dst false) as [d [E U]]; auto. exists d. split; auto.
        assert (Un : d_upl src = UploNone) by (destruct (d_upl src); auto; discriminate).
        eapply updates_ext; [| |exact U]. { intros. rewrite <- Eu, Un. reflexivity. }
        intros i j Hi Hj _. cbv beta. rewrite map_id_cnj. unfold meaning. rewrite Un. reflexivity.
    + destruct (is_uplo (d_upl src)) eqn:Us, (is_uplo (d_upl dst)) eqn:Ud; cbn [andb negb].
      * destruct (copy_updates cplx conj (transposed_view src) dst (the_herm (d_sym src))) as [d [E2 U2]];
          auto using transposed_fits; unfold transposed_view; cbn [d_rows d_cols d_ord d_upl]; try congruence.
        { now apply change_other. }
        { destruct (d_upl src), (d_upl dst); try discriminate; try reflexivity; congruence. }
        exists d. split; auto. eapply updates_ext; [| |exact U2]; auto. intros i j Hi Hj P. cbv beta.
        change (Dnx _ _ _ _ _ _ _) with (transposed_view src). rewrite transposed_view_at, map_cnj.
        apply mirrored_read; auto; try congruence.
        revert P Eu Us Ud. destruct (d_upl src), (d_upl dst); cbn; auto; congruence.
      * assert (NH : the_herm (d_sym src) = false).
        { unfold the_herm. destruct (cplx) eqn:Ex; auto. destruct (d_sym src) eqn:Ed; auto. exfalso. apply NB.
          split; auto. split; auto. split; auto. split. { intros X. rewrite X in Us. discriminate. }
          destruct (d_upl dst); auto; discriminate. }
        assert (MI : forall x, mirror (d_sym src) x = x).
        { intros x. rewrite <- cnj_mirror, NH. unfold cnj. now rewrite andb_false_r. }
        destruct (complete_updates cplx conj btrans BT (transposed_view src) dst (the_herm (d_sym src))) as [d [E U]];
          auto using transposed_fits; unfold transposed_view; cbn [d_rows d_cols d_ord d_upl]; try congruence.
        { now apply change_other. }
        { destruct (d_upl src); auto. }
        change (Dnx _ _ _ _ _ _ _) with (transposed_view src) in *. rewrite E. cbn [obind]. rewrite NH, andb_false_r.
        exists d. split; auto. eapply updates_ext; [| |exact U].
        -- intros. destruct (d_upl dst); auto; discriminate.
        -- intros i j Hi Hj _. unfold meaning. change (d_upl (transposed_view src)) with (change_uplo (d_upl src)).
           rewrite part_changed, !transposed_view_at, map_cnj.
           assert (MO : forall o, option_map (mirror (d_sym src)) o = o) by (intros [x|]; cbn; auto; now rewrite MI).
           rewrite !MO. destruct (in_part (d_upl src) j i) eqn:P1, (in_part (d_upl src) i j) eqn:P2; auto.
           ++ rewrite C by (auto; congruence). now rewrite MO.
           ++ apply part_total in P1. congruence.
      * destruct (copy_updates cplx conj (with_upl (transposed_view src) (d_upl dst)) dst (the_herm (d_sym src))) as [d [E2 U2]];
          auto; unfold transposed_view; cbn [d_rows d_cols d_ord d_upl with_upl]; try congruence.
        { apply (transposed_fits src Fs). }
        { now apply change_other. }
        exists d. split; auto. eapply updates_ext; [| |exact U2]; auto. intros i j Hi Hj P. cbv beta.
        change (at_ (with_upl _ _) i j) with (at_ (transposed_view src) i j). rewrite transposed_view_at, map_cnj.
        apply mirrored_read; auto; try congruence. destruct (d_upl src); auto; discriminate.
      * destruct (d_upl src), (d_upl dst); try discriminate. congruence.
Qed.

(** no symmetry declared: the whole matrix is stored on both sides *)
Theorem convert_general_dense (src dst : dnx T) :
  fits src -> fits dst -> d_rows src = d_rows dst -> d_cols src = d_cols dst ->
  d_sym src = SymGeneral -> d_sym dst = SymGeneral -> d_upl src = UploNone -> d_upl dst = UploNone ->
  exists d, convert_dnx cplx conj btrans alloc of_index src dst = Ok d /\ updates dst d (fun _ _ => true) (at_ src).
Proof.
  intros Fs Fd Er Ec Y1 Y2 U1 U2. unfold convert_dnx.
  replace (same_dims src dst) with true by (symmetry; apply same_dims_spec; auto). cbn [negb]. rewrite Y1, Y2. cbn [symmetry_eqb negb is_structurally_symmetric andb].
  destruct (order_eqb_spec (d_ord src) (d_ord dst)) as [Eo|Eo].
  - unfold convert_dnx_dny. replace (same_dims src dst) with true by (symmetry; apply same_dims_spec; auto). cbn [negb].
    destruct (order_eqb_spec (d_ord src) (d_ord dst)); [|contradiction].
    destruct (copy_updates cplx conj src dst false) as [d [E U]]; auto; try congruence.
    { intros H. rewrite U2 in H. discriminate. }
    exists d. split; auto. eapply updates_ext; [| |exact U]. { intros. now rewrite U2. } intros. apply map_id_cnj.
  - destruct (reorder_updates cplx conj btrans BT src dst false) as [d [E U]]; auto.
    exists d. split; auto. eapply updates_ext; [| |exact U]; auto. intros. apply map_id_cnj.
Qed.

Theorem convert_dense_checks (src dst : dnx T) :
  (d_rows src <> d_rows dst \/ d_cols src <> d_cols dst \/ d_sym src <> d_sym dst \/
   (d_sym src <> SymGeneral /\ d_rows src <> d_cols src)) ->
  convert_dnx cplx conj btrans alloc of_index src dst = Fail.
Proof.
  intros H. unfold convert_dnx. destruct (same_dims src dst) eqn:E; auto. apply same_dims_spec in E. cbn [negb].
  destruct (symmetry_eqb (d_sym src) (d_sym dst)) eqn:S; auto. cbn [negb].
  assert (d_sym src = d_sym dst) by (destruct (d_sym src), (d_sym dst); auto; discriminate).
  assert (N : d_sym src <> SymGeneral /\ d_rows src <> d_cols src) by tauto. destruct N as [N1 N2].
  apply Nat.eqb_neq in N2. rewrite N2. destruct (d_sym src); auto; congruence.
Qed.

(** the excluded case: the destination receives the (conjugated) secondary indices, whatever the matrix is *)
Theorem convert_hermitian_writes_indices (src dst : dnx T) :
  fits src -> fits dst -> d_rows src = d_rows dst -> d_cols src = d_cols dst -> d_sym src = d_sym dst ->
  d_rows src = d_cols src -> cplx = true -> d_sym src = SymHermitian -> d_ord src <> d_ord dst ->
  d_upl src <> UploNone -> d_upl dst = UploNone ->
  exists d, convert_dnx cplx conj btrans alloc of_index src dst = Ok d /\
    updates dst d (fun _ _ => true) (fun i j => Some (of_index (sec_of (d_ord dst) i j))).
Proof.
  intros Fs Fd Er Ec Ey Sq X Hy Eo U1 U2. unfold convert_dnx.
  replace (same_dims src dst) with true by (symmetry; apply same_dims_spec; auto). cbn [negb].
  rewrite <- Ey, Hy. cbn [symmetry_eqb is_structurally_symmetric negb]. rewrite <- Sq, Nat.eqb_refl. cbn [negb andb].
  destruct (order_eqb_spec (d_ord src) (d_ord dst)); [contradiction|]. unfold convert_diff_order.
  destruct (uplo_eqb_spec (d_upl src) (d_upl dst)); [congruence|].
  assert (Us : is_uplo (d_upl src) = true) by (destruct (d_upl src); auto; congruence). rewrite Us, U2. cbn [is_uplo andb negb].
  destruct (complete_updates cplx conj btrans BT (transposed_view src) dst (cplx && true)) as [d [E U]];
    auto using transposed_fits; unfold transposed_view; cbn [d_rows d_cols d_ord d_upl]; try congruence.
  { now apply change_other. }
  { destruct (d_upl src); auto. }
  change (Dnx _ _ _ _ _ _ _) with (transposed_view src) in *. rewrite E. cbn [obind].
  rewrite X in *. cbn [andb]. assert (F2 := updates_fits _ _ _ _ U Fd).
  destruct U as [A1 [A2 [A3 [A4 [A5 [A6 [L [V O]]]]]]]].
  assert (Pd : d_prim d = d_prim dst) by (unfold d_prim; rewrite A1, A2, A4; reflexivity).
  assert (Sd : d_sec d = d_sec dst) by (unfold d_sec; rewrite A1, A2, A4; reflexivity).
  unfold conj_all.
  destruct (lines_loop d (fun _ z => z) (fun _ => seq 0 (d_sec d)) (fun _ s => Some (of_index s))
              (fun v p s => wr v (p * d_ld d + s) (of_index s)) (d_vals d)) as [v' [R [L' [V' O']]]]; auto.
  - intros p _. split; [apply seq_NoDup|]. intros s S. apply in_seq in S. lia.
  - eauto.
  - intros w p s b P S W Eb. inversion Eb; subst b. apply in_seq in S. apply assign_step. rewrite W. apply fits_pos; auto; lia.
  - exists (with_vals d v'). split.
    + unfold conj_all_line. rewrite R. reflexivity.
    + unfold updates. cbn [d_rows d_cols d_ld d_ord d_upl d_sym d_vals with_vals].
      split; [auto|]. split; [auto|]. split; [auto|]. split; [auto|]. split; [auto|]. split; [auto|]. split; [congruence|]. split.
      * intros i j Hi Hj _. rewrite <- A1 in Hi. rewrite <- A2 in Hj. unfold at_. change (pos (with_vals d v') i j) with (pos d i j). cbn [d_vals with_vals].
        destruct (prim_lt d i j Hi Hj) as [P S]. rewrite pos_prim, V' by (auto; apply in_seq; lia).
        destruct (rd_lt (d_vals d) _ (fits_pos d _ _ F2 P S)) as [a [-> _]]. rewrite A4. reflexivity.
      * intros k Hk. rewrite O'. { apply O. intros. apply Hk; auto. }
        intros p s P S. apply in_seq in S. rewrite <- pos_back. destruct (back_lt d p s P ltac:(lia)) as [Hi Hj].
        rewrite A1 in Hi. rewrite A2 in Hj. specialize (Hk _ _ Hi Hj eq_refl). unfold pos in *. rewrite A3, A4 in *. auto.
Qed.
End Convert.

(** ** A library that meets the contracts, for the examples *)
Section Reference.
Context {T : Type} (cplx : bool) (conj : T -> T) (dflt : T).

Definition ref_cell (nr nc : nat) (sv : list T) (sld dld : nat) (o : order) (c : bool) (old : T) (k : nat) : T :=
  let p := k / dld in let s := k mod dld in
  let np := match o with OrdR => nc | OrdC => nr end in
  let ns := match o with OrdR => nr | OrdC => nc end in
  if (p <? np) && (s <? ns) then match nth_error sv (s * sld + p) with Some a => cnj cplx conj c a | None => old end else old.

Definition btrans_ref (nr nc : nat) (sv : list T) (sld : nat) (dv : list T) (dld : nat) (o : order) (c : bool) : list T :=
  map (fun x => ref_cell nr nc sv sld dld o c (snd x) (fst x)) (combine (seq 0 (length dv)) dv).

Lemma ref_nth nr nc sv sld dv dld o c k :
  nth_error (btrans_ref nr nc sv sld dv dld o c) k = option_map (fun a => ref_cell nr nc sv sld dld o c a k) (nth_error dv k).
Proof.
  unfold btrans_ref. rewrite nth_error_map, nth_error_combine.
  destruct (nth_error dv k) eqn:E.
  - assert (k < length dv) by (apply nth_error_Some; congruence).
    assert (N : nth_error (seq 0 (length dv)) k = Some k).
    { rewrite (nth_error_nth' _ 0) by (rewrite seq_length; auto). now rewrite seq_nth. }
    rewrite N. reflexivity.
  - destruct (nth_error (seq 0 (length dv)) k); reflexivity.
Qed.

Lemma btrans_ref_ok : transposes cplx conj btrans_ref.
Proof.
  intros nr nc sv sld dv dld o c s d Fs Fd. unfold updates, s, d. cbn [d_rows d_cols d_ld d_ord d_upl d_sym d_vals with_vals].
  split; [reflexivity|]. split; [reflexivity|]. split; [reflexivity|]. split; [reflexivity|]. split; [reflexivity|]. split; [reflexivity|].
  split. { unfold btrans_ref. rewrite map_length, combine_length, seq_length. lia. }
  assert (DM : forall p q, q < dld -> (p * dld + q) / dld = p /\ (p * dld + q) mod dld = q).
  { intros p q H. split.
    - rewrite Nat.div_add_l by lia. rewrite Nat.div_small by auto. lia.
    - rewrite Nat.add_comm, Nat.mod_add by lia. now apply Nat.mod_small. }
  split.
  - intros i j Hi Hj _. destruct (fits_at d i j Fd Hi Hj) as [old Eold]. destruct (fits_at s j i Fs Hj Hi) as [a Ea].
    fold s. rewrite Ea. unfold s, d in Ea, Eold. unfold at_, pos in *. cbn [d_ord d_ld d_vals with_vals] in *. rewrite ref_nth, Eold. cbn [option_map]. f_equal.
    destruct Fd as [Ld _]. unfold d_sec in Ld. cbn [d_ord d_rows d_cols d_ld] in Ld. unfold ref_cell.
    destruct o.
    + destruct (DM i j ltac:(cbn in *; lia)) as [-> ->]. destruct (Nat.ltb_spec i nc); [|cbn in *; lia]. destruct (Nat.ltb_spec j nr); [|cbn in *; lia].
      cbn [andb]. rewrite Ea. reflexivity.
    + destruct (DM j i ltac:(cbn in *; lia)) as [-> ->]. destruct (Nat.ltb_spec j nr); [|cbn in *; lia]. destruct (Nat.ltb_spec i nc); [|cbn in *; lia].
      cbn [andb]. rewrite Ea. reflexivity.
  - intros k Hk. rewrite ref_nth. destruct (nth_error dv k) eqn:E; auto. cbn [option_map]. f_equal. unfold ref_cell.
    destruct (_ && _) eqn:B; auto. exfalso. apply andb_true_iff in B. destruct B as [B1 B2].
    apply Nat.ltb_lt in B1. apply Nat.ltb_lt in B2.
    assert (dld <> 0).
    { intros Z. destruct Fd as [Ld _]. unfold d_sec in Ld. unfold d in Ld. cbn [d_ord d_rows d_cols d_ld] in Ld. destruct o; lia. }
    pose proof (Nat.div_mod k dld ltac:(auto)) as D.
    destruct o.
    + apply (Hk (k / dld) (k mod dld)); auto. unfold pos, d. cbn [d_ord d_ld]. lia.
    + apply (Hk (k mod dld) (k / dld)); auto. unfold pos, d. cbn [d_ord d_ld]. lia.
Qed.

Definition alloc_ref (r c : nat) (o : order) : dnx T :=
  let s := match o with OrdR => c | OrdC => r end in
  Dnx r c (s + 1) o UploNone SymGeneral (repeat dflt (match o with OrdR => r | OrdC => c end * (s + 1))).

Lemma alloc_ref_ok : allocates alloc_ref.
Proof.
  intros r c o. split; [reflexivity|]. split; [reflexivity|]. split; [reflexivity|]. split; [reflexivity|].
  unfold alloc_ref, fits, d_sec, pos. cbn [d_ord d_ld d_rows d_cols d_vals]. split; [destruct o; lia|].
  intros i j Hi Hj. rewrite repeat_length. destruct o; nia.
Qed.
End Reference.

(** ** The claim for every conversion is false: hermitian triangle of the other order -> full *)
Definition conjZ (x : Z * Z) : Z * Z := (fst x, (- snd x)%Z).
Definition indexZ (n : nat) : Z * Z := (Z.of_nat n, 0%Z).

(** lower triangle, row-major, of [[5, 1-2i], [1+2i, 7]]; the destination is column-major and full *)
Definition herm_src : dnx (Z * Z) := Dnx 2 2 2 OrdR UploL SymHermitian [(5, 0); (9, 9); (1, 2); (7, 0)]%Z.
Definition herm_dst : dnx (Z * Z) := Dnx 2 2 2 OrdC UploNone SymHermitian (repeat (0, 0)%Z 4).

Theorem convert_dense_refuted : forall btrans alloc, transposes true conjZ btrans -> allocates alloc ->
  fits herm_src /\ fits herm_dst /\ consistent true conjZ herm_src /\
  exists d, convert_dnx true conjZ btrans alloc indexZ herm_src herm_dst = Ok d /\
    at_ d 0 0 = Some (0, 0)%Z /\ meaning (mirror true conjZ SymHermitian) herm_src 0 0 = Some (5, 0)%Z.
Proof.
  intros btrans alloc BT AL.
  assert (F1 : fits herm_src).
  { split; [cbn; lia|]. intros i j Hi Hj. cbn in *. unfold pos. cbn. lia. }
  assert (F2 : fits herm_dst).
  { split; [cbn; lia|]. intros i j Hi Hj. cbn in *. unfold pos. cbn. lia. }
  split; [exact F1|]. split; [exact F2|]. split.
  - intros i j Hi Hj P Q. cbn in P, Q. apply Nat.leb_le in P. apply Nat.leb_le in Q. assert (i = j) by lia. subst j.
    cbn in Hi. destruct i as [|[|i]]; [vm_compute; reflexivity|vm_compute; reflexivity|lia].
  - destruct (convert_hermitian_writes_indices true conjZ btrans BT alloc indexZ herm_src herm_dst) as [d [E U]]; auto; try reflexivity; try (cbn; discriminate).
    exists d. split; auto. destruct U as [_ [_ [_ [_ [_ [_ [_ [V _]]]]]]]].
    rewrite (V 0 0) by (cbn; auto; lia). split; reflexivity.
Qed.

(** ** Examples *)
(** [[1,2],[3,4]] stored column-major with leading dimension 3 *)
Definition ex_full : dnx Z := Dnx 2 2 3 OrdC UploNone SymGeneral [1; 3; 9; 2; 4; 9]%Z.
Definition ex_out : dnx Z := Dnx 2 2 2 OrdR UploNone SymGeneral [7; 7; 7; 7; 8]%Z.
Example ex_full_fits : fits ex_full. Proof. split; [cbn; lia|]. intros i j Hi Hj. unfold pos. cbn in *. lia. Qed.
Example ex_out_fits : fits ex_out. Proof. split; [cbn; lia|]. intros i j Hi Hj. unfold pos. cbn in *. lia. Qed.
Example ex_convert : convert_dnx false (fun x => x) (btrans_ref false (fun x => x)) (alloc_ref 0%Z) Z.of_nat ex_full ex_out
  = Ok (with_vals ex_out [1; 2; 3; 4; 8]%Z).
Proof. vm_compute. reflexivity. Qed.

(** upper triangle [[1,2],[.,4]], row-major, to the lower triangle, row-major *)
Definition ex_up : dnx Z := Dnx 2 2 2 OrdR UploU SymSymmetric [1; 2; 9; 4]%Z.
Definition ex_low : dnx Z := Dnx 2 2 2 OrdR UploL SymSymmetric [0; 0; 0; 0]%Z.
Example ex_triangle : convert_dnx false (fun x => x) (btrans_ref false (fun x => x)) (alloc_ref 0%Z) Z.of_nat ex_up ex_low
  = Ok (with_vals ex_low [1; 0; 2; 4]%Z).
Proof. vm_compute. reflexivity. Qed.
Example ex_up_consistent : consistent false (fun x => x) ex_up.
Proof.
  intros i j Hi Hj P Q. cbn in P, Q. apply Nat.leb_le in P. apply Nat.leb_le in Q. assert (i = j) by lia. subst j.
  destruct (at_ ex_up i i); reflexivity.
Qed.

(** a permutation of the rows and columns of the symmetric matrix given by its upper triangle *)
Definition ex_swap : perm := Perm [1; 0] [1; 0].
Example ex_swap_ok : perm_ok ex_swap 2.
Proof. split; [reflexivity|]. split; [reflexivity|]. intros i H. destruct i as [|[|i]]; [cbn; lia|cbn; lia|lia]. Qed.
Example ex_permute : permute_dnx false (fun x => x) (btrans_ref false (fun x => x)) (alloc_ref 0%Z) ex_up (with_vals ex_up [0; 0; 0; 0]%Z) (Some ex_swap) (Some ex_swap)
  = Ok (with_vals ex_up [4; 2; 0; 1]%Z).
Proof. vm_compute. reflexivity. Qed.
Example ex_permute_inplace : permute_inplace false (fun x => x) (btrans_ref false (fun x => x)) (alloc_ref 0%Z) ex_full None (Some ex_swap)
  = Ok (with_vals ex_full [2; 4; 9; 1; 3; 9]%Z).
Proof. vm_compute. reflexivity. Qed.
Example ex_view : submatrix_view ex_full (Window 1 2 0 2) = Ok (Dnx 1 2 3 OrdC UploNone SymGeneral [3; 9; 2; 4; 9]%Z).
Proof. reflexivity. Qed.

Print Assumptions transposed_view_at.
Print Assumptions submatrix_view_at.
Print Assumptions submatrix_view_checks.
Print Assumptions convert_keeps_matrix_dense.
Print Assumptions convert_general_dense.
Print Assumptions convert_dense_checks.
Print Assumptions convert_hermitian_writes_indices.
Print Assumptions convert_dense_refuted.
