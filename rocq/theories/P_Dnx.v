(** * C77, C78: filling, copying, transposing, completing and permuting dense matrices *)
From Coq Require Import List Bool Arith Lia.
From Verif Require Import Base M_Csx M_CsxMap M_Dnx S_Csx S_Dnx L_Utils L_Csx L_Csx2 L_Dnx.
Import ListNotations.
Local Open Scope out_scope.

Lemma uplo_eqb_spec a b : reflect (a = b) (uplo_eqb a b).
Proof. destruct a, b; constructor; congruence. Qed.

Lemma same_dims_spec {A B} (s : dnx A) (d : dnx B) : same_dims s d = true <-> d_rows s = d_rows d /\ d_cols s = d_cols d.
Proof. unfold same_dims. rewrite andb_true_iff, !Nat.eqb_eq. tauto. Qed.

(** ** fill *)
Theorem fill_updates {T} (m : dnx T) (x : T) : fits m -> square_part m ->
  exists m', fill_dnx m x = Ok m' /\ updates m m' (in_part (d_upl m)) (fun _ _ => Some x).
Proof.
  intros F Q. unfold fill_dnx.
  assert (E : is_uplo (d_upl m) && negb (d_rows m =? d_cols m) = false).
  { destruct (is_uplo (d_upl m)) eqn:U; auto. rewrite (Q U), Nat.eqb_refl. reflexivity. }
  rewrite E.
  destruct (lines_loop m (fun _ z => z) (fun p => seq (line_start m p) (line_end m p - line_start m p))
              (fun _ _ => Some x) (fun v p s => wr v (p * d_ld m + s) x) (d_vals m)) as [v' [R [L [V O]]]]; auto.
  - intros p Hp. apply span_js; auto.
  - intros p s _ _. eauto.
  - intros w p s b Hp Hs Hw Eb. inversion Eb; subst b. apply assign_step. rewrite Hw. apply fits_pos; auto.
    apply (span_js m p Q Hp); auto.
  - exists (with_vals m v'). split.
    + rewrite (foldM_ext_in _ (fun v p => foldM (fun v s => wr v (p * d_ld m + s) x) (seq (line_start m p) (line_end m p - line_start m p)) v)).
      * rewrite R. reflexivity.
      * intros v p Hp. apply in_seq in Hp. unfold fill_line. rewrite line_span_ok by (auto; lia). reflexivity.
    + apply (lines_updates m (fun p => seq (line_start m p) (line_end m p - line_start m p))); auto.
      * intros. apply part_span; auto.
      * intros p s Hp. apply (span_js m p Q Hp).
      * intros i j Hi Hj H. apply part_span in H; auto. rewrite pos_prim. destruct (prim_lt m i j Hi Hj).
        rewrite V by auto. destruct (rd_lt (d_vals m) _ (fits_pos m _ _ F H0 H1)) as [a [-> _]]. reflexivity.
Qed.

Section Copy.
Context {T : Type} (cplx : bool) (conj : T -> T).

(** ** copy *)
Theorem copy_updates (src dst : dnx T) c :
  fits src -> fits dst -> d_rows src = d_rows dst -> d_cols src = d_cols dst -> d_ord src = d_ord dst ->
  d_upl src = d_upl dst -> square_part dst ->
  exists d, copy_dnx cplx conj src dst c = Ok d /\
    updates dst d (in_part (d_upl dst)) (fun i j => option_map (cnj cplx conj c) (at_ src i j)).
Proof.
  intros Fs Fd Er Ec Eo Eu Q. unfold copy_dnx.
  replace (same_dims src dst) with true by (symmetry; apply same_dims_spec; auto). cbn [negb].
  destruct (order_eqb_spec (d_ord src) (d_ord dst)); [|contradiction]. cbn [negb].
  destruct (uplo_eqb_spec (d_upl src) (d_upl dst)); [|contradiction]. cbn [negb].
  assert (Ep : d_prim src = d_prim dst /\ d_sec src = d_sec dst).
  { unfold d_prim, d_sec. rewrite Eo, Er, Ec. auto. }
  destruct Ep as [Ep Es].
  set (js := fun p => seq (line_start dst p) (line_end dst p - line_start dst p)).
  assert (SR : forall p s, p < d_prim dst -> In s (js p) -> p * d_ld src + s < length (d_vals src)).
  { intros p s Hp Hs. apply fits_pos; auto. { now rewrite Ep. } rewrite Es. apply (span_js dst p Q Hp); auto. }
  destruct (lines_loop dst (fun _ z => z) js (fun p s => option_map (cnj cplx conj c) (nth_error (d_vals src) (p * d_ld src + s)))
              (fun v p s => copy_elem cplx conj src dst c p v s) (d_vals dst)) as [v' [R [L [V O]]]]; auto.
  - intros p Hp. apply span_js; auto.
  - intros p s Hp Hs. destruct (rd_lt _ _ (SR p s Hp Hs)) as [a [-> _]]. simpl. eauto.
  - intros w p s b Hp Hs Hw Eb. unfold copy_elem. destruct (rd_lt _ _ (SR p s Hp Hs)) as [a [Ea ->]]. rewrite Ea in Eb.
    simpl in Eb. inversion Eb; subst b. cbn [obind]. apply assign_step. rewrite Hw. apply fits_pos; auto.
    apply (span_js dst p Q Hp); auto.
  - exists (with_vals dst v'). split.
    + rewrite (foldM_ext_in _ (fun v p => foldM (fun v s => copy_elem cplx conj src dst c p v s) (js p) v)).
      * rewrite R. reflexivity.
      * intros v p Hp. apply in_seq in Hp. unfold copy_line. rewrite line_span_ok by (auto; lia). reflexivity.
    + apply (lines_updates dst js); auto.
      * intros. apply part_span; auto.
      * intros p s Hp. apply (span_js dst p Q Hp).
      * intros i j Hi Hj H. apply part_span in H; auto. rewrite pos_prim. destruct (prim_lt dst i j Hi Hj) as [Hp Hs].
        rewrite V by auto. unfold at_. rewrite pos_prim. rewrite Eo.
        destruct (rd_lt (d_vals dst) _ (fits_pos dst _ _ Fd Hp Hs)) as [a [-> _]].
        destruct (rd_lt _ _ (SR _ _ Hp H)) as [b [-> _]]. reflexivity.
Qed.

Theorem copy_checks (src dst : dnx T) c :
  (d_rows src <> d_rows dst \/ d_cols src <> d_cols dst \/ d_ord src <> d_ord dst \/ d_upl src <> d_upl dst) ->
  copy_dnx cplx conj src dst c = Fail.
Proof.
  intros H. unfold copy_dnx.
  destruct (same_dims src dst) eqn:E; auto. cbn [negb]. apply same_dims_spec in E.
  destruct (order_eqb_spec (d_ord src) (d_ord dst)); auto. cbn [negb].
  destruct (uplo_eqb_spec (d_upl src) (d_upl dst)); auto. tauto.
Qed.

(** ** transpose *)
Variable btrans : nat -> nat -> list T -> nat -> list T -> nat -> order -> bool -> list T.
Hypothesis BT : transposes cplx conj btrans.

Lemma fits_plain (m : dnx T) : fits m -> fits (Dnx (d_rows m) (d_cols m) (d_ld m) (d_ord m) UploNone SymGeneral (d_vals m)).
Proof. apply fits_len; reflexivity. Qed.

Theorem transpose_updates (src dst : dnx T) c :
  fits src -> fits dst -> d_rows src = d_cols dst -> d_cols src = d_rows dst -> d_ord src = d_ord dst ->
  exists d, transpose_dnx btrans src dst c = Ok d /\
    updates dst d (fun _ _ => true) (fun i j => option_map (cnj cplx conj c) (at_ src j i)).
Proof.
  intros Fs Fd Er Ec Eo. unfold transpose_dnx. rewrite Er, Ec, !Nat.eqb_refl. cbn [andb negb].
  destruct (order_eqb_spec (d_ord src) (d_ord dst)); [|contradiction]. cbn [negb]. eexists. split; [reflexivity|].
  pose proof (BT (d_rows src) (d_cols src) (d_vals src) (d_ld src) (d_vals dst) (d_ld dst) (d_ord src) c) as H. cbv zeta in H.
  assert (H1 := H (fits_plain src Fs)). clear H.
  rewrite Er, Ec, Eo in H1. specialize (H1 (fits_plain dst Fd)).
  destruct H1 as [_ [_ [_ [_ [_ [_ [L [V O]]]]]]]]. cbn [d_rows d_cols d_ld d_ord d_upl d_sym d_vals with_vals] in *.
  unfold updates. cbn [d_rows d_cols d_ld d_ord d_upl d_sym d_vals with_vals]. rewrite Eo.
  split; [reflexivity|]. split; [reflexivity|]. split; [reflexivity|]. split; [reflexivity|]. split; [reflexivity|]. split; [reflexivity|].
  split; [exact L|]. split.
  - intros i j Hi Hj _. specialize (V i j Hi Hj eq_refl). revert V. unfold at_, pos. cbn [d_vals d_ord d_ld with_vals]. rewrite Eo. auto.
  - exact O.
Qed.

Variable btrans_in : nat -> list T -> nat -> order -> bool -> list T.
Hypothesis BTI : transposes_inplace cplx conj btrans_in.

Theorem transpose_inplace_updates (m : dnx T) c : fits m -> d_rows m = d_cols m ->
  exists d, transpose_inplace btrans_in m c = Ok d /\
    updates m d (fun _ _ => true) (fun i j => option_map (cnj cplx conj c) (at_ m j i)).
Proof.
  intros F E. unfold transpose_inplace. rewrite E, Nat.eqb_refl. cbn [negb]. eexists. split; [reflexivity|].
  pose proof (BTI (d_cols m) (d_vals m) (d_ld m) (d_ord m) c) as H. cbv zeta in H.
  assert (Fp := fits_plain m F). rewrite E in Fp. specialize (H Fp).
  destruct H as [_ [_ [_ [_ [_ [_ [L [V O]]]]]]]]. cbn [d_rows d_cols d_ld d_ord d_upl d_sym d_vals with_vals] in *.
  unfold updates. cbn [d_rows d_cols d_ld d_ord d_upl d_sym d_vals with_vals].
  split; [reflexivity|]. split; [reflexivity|]. split; [reflexivity|]. split; [reflexivity|]. split; [reflexivity|]. split; [reflexivity|].
  split; [exact L|]. rewrite E. split; [exact V|exact O].
Qed.

(** ** reordering *)
Theorem reorder_updates (src dst : dnx T) c :
  fits src -> fits dst -> d_rows src = d_rows dst -> d_cols src = d_cols dst -> d_ord src <> d_ord dst ->
  exists d, convert_dnx_dny cplx conj btrans src dst c = Ok d /\
    updates dst d (fun _ _ => true) (fun i j => option_map (cnj cplx conj c) (at_ src i j)).
Proof.
  intros Fs Fd Er Ec Eo. unfold convert_dnx_dny.
  replace (same_dims src dst) with true by (symmetry; apply same_dims_spec; auto). cbn [negb].
  destruct (order_eqb_spec (d_ord src) (d_ord dst)); [contradiction|]. eexists. split; [reflexivity|].
  pose proof (BT (d_rows src) (d_cols src) (d_vals src) (d_ld src) (d_vals dst) (d_ld dst) (d_ord src) c) as H. cbv zeta in H.
  assert (H1 := H (fits_plain src Fs)). clear H.
  assert (Fd' : fits (Dnx (d_cols src) (d_rows src) (d_ld dst) (d_ord src) UploNone SymGeneral (d_vals dst))).
  { destruct Fd as [A B]. unfold fits, d_sec, pos in *. cbn [d_rows d_cols d_ld d_ord d_vals] in *. rewrite Er, Ec.
    destruct (d_ord src), (d_ord dst); try congruence; split; auto; intros i j Hi Hj; rewrite Nat.add_comm; specialize (B j i); lia. }
  specialize (H1 Fd').
  destruct H1 as [_ [_ [_ [_ [_ [_ [L [V O]]]]]]]]. cbn [d_rows d_cols d_ld d_ord d_upl d_sym d_vals with_vals] in *.
  unfold updates. cbn [d_rows d_cols d_ld d_ord d_upl d_sym d_vals with_vals].
  split; [reflexivity|]. split; [reflexivity|]. split; [reflexivity|]. split; [reflexivity|]. split; [reflexivity|]. split; [reflexivity|].
  split; [exact L|]. split.
  - intros i j Hi Hj _. rewrite <- Er in Hi. rewrite <- Ec in Hj. specialize (V j i Hj Hi eq_refl).
    revert V. unfold at_, pos. cbn [d_vals d_ord d_ld with_vals]. destruct (d_ord src), (d_ord dst); try congruence; auto.
  - intros k Hk. apply O. intros i j Hi Hj _. rewrite Ec in Hi. rewrite Er in Hj. specialize (Hk j i Hj Hi eq_refl).
    revert Hk. unfold pos. cbn [d_ord d_ld]. destruct (d_ord src), (d_ord dst); try congruence; auto.
Qed.

(** ** complete: the other triangle is the mirror image of the stored one *)
Theorem complete_updates (src dst : dnx T) c :
  fits src -> fits dst -> d_rows src = d_rows dst -> d_cols src = d_cols dst -> d_ord src = d_ord dst ->
  d_rows src = d_cols src -> is_uplo (d_upl src) = true ->
  exists d, complete_dnx cplx conj btrans src dst c = Ok d /\
    updates dst d (fun _ _ => true) (meaning (cnj cplx conj c) src).
Proof.
  intros Fs Fd Er Ec Eo Sq Up. unfold complete_dnx.
  replace (same_dims src dst) with true by (symmetry; apply same_dims_spec; auto). cbn [negb].
  rewrite <- Sq, Nat.eqb_refl. cbn [negb].
  destruct (order_eqb_spec (d_ord src) (d_ord dst)); [|contradiction]. cbn [negb]. rewrite Up. cbn [negb].
  destruct (transpose_updates src dst c Fs Fd) as [d [E U]]; try congruence. rewrite E. cbn [obind].
  assert (Fd2 := updates_fits _ _ _ _ U Fd).
  destruct U as [A1 [A2 [A3 [A4 [A5 [A6 [L [V O]]]]]]]].
  destruct (copy_updates src (with_upl d (d_upl src)) false) as [r [E2 U2]]; auto; cbn [d_rows d_cols d_ord d_upl with_upl]; try congruence.
  { intros _. cbn [d_rows d_cols d_ord d_upl with_upl]. congruence. }
  rewrite E2. cbn [obind]. eexists. split; [reflexivity|].
  destruct U2 as [B1 [B2 [B3 [B4 [B5 [B6 [L2 [V2 O2]]]]]]]]. cbn [d_rows d_cols d_ld d_ord d_upl d_sym d_vals with_upl] in *.
  unfold updates. cbn [d_rows d_cols d_ld d_ord d_upl d_sym d_vals with_upl].
  split; [congruence|]. split; [congruence|]. split; [congruence|]. split; [congruence|]. split; [congruence|]. split; [congruence|].
  split; [congruence|]. rewrite A1, A2 in *.
  assert (PP : forall i j, pos r i j = pos dst i j) by (intros; unfold pos; rewrite B3, B4, A3, A4; reflexivity).
  assert (PD : forall i j, pos (with_upl d (d_upl src)) i j = pos dst i j) by (intros; unfold pos; cbn; rewrite A3, A4; reflexivity).
  split.
  - intros i j Hi Hj _. unfold meaning. destruct (in_part (d_upl src) i j) eqn:P.
    + change (at_ (with_upl r (d_upl dst)) i j) with (at_ r i j). rewrite (V2 i j Hi Hj P).
      unfold cnj. rewrite andb_false_r. destruct (at_ src i j); reflexivity.
    + rewrite <- (V i j Hi Hj eq_refl). unfold at_. change (pos (with_upl r (d_upl dst)) i j) with (pos r i j). cbn [d_vals with_upl].
      rewrite PP. replace (pos d i j) with (pos dst i j) by (unfold pos; rewrite A3, A4; reflexivity).
      apply O2. intros i' j' Hi' Hj' P' Ep. rewrite PD in Ep. apply pos_inj in Ep; auto. destruct Ep; subst. congruence.
  - intros k Hk. rewrite O2. { apply O; auto. } intros i j Hi Hj _. rewrite PD. auto.
Qed.

(** ** permute *)
Lemma source_ok p n i : opt_perm_ok p n -> i < n -> source_of p i = Ok (from_perm p i) /\ from_perm p i < n.
Proof.
  intros H Hi. destruct p as [p|]; cbn in *; auto. destruct H as [L [_ H]]. specialize (H i Hi).
  split; [|tauto]. apply rd_ok. lia.
Qed.

Lemma wrong_ok p n : opt_perm_ok p n -> wrong_perm p n = false.
Proof. destruct p as [p|]; cbn; auto. intros [L _]. unfold psize. rewrite L, Nat.eqb_refl. reflexivity. Qed.

Lemma permute_lines_updates (src dst : dnx T) pp ps :
  fits src -> fits dst -> d_prim src = d_prim dst -> d_sec src = d_sec dst -> d_ord src = d_ord dst ->
  opt_perm_ok pp (d_prim dst) -> opt_perm_ok ps (d_sec dst) ->
  exists d, permute_lines src dst pp ps = Ok d /\
    updates dst d (fun _ _ => true)
      (fun i j => nth_error (d_vals src) (from_perm pp (prim_of (d_ord dst) i j) * d_ld src + from_perm ps (sec_of (d_ord dst) i j))).
Proof.
  intros Fs Fd Ep Es Eo Hp Hs. unfold permute_lines.
  set (g := fun p s => nth_error (d_vals src) (from_perm pp p * d_ld src + from_perm ps s)).
  assert (G : forall p s, p < d_prim dst -> s < d_sec dst -> from_perm pp p * d_ld src + from_perm ps s < length (d_vals src)).
  { intros p s P S. apply fits_pos; auto. { rewrite Ep. apply (source_ok pp _ p); auto. } rewrite Es. apply (source_ok ps _ s); auto. }
  destruct (lines_loop dst (fun _ z => z) (fun _ => seq 0 (d_sec dst)) g
              (fun v p s => permute_elem src dst ps (from_perm pp p) p v s) (d_vals dst)) as [v' [R [L [V O]]]]; auto.
  - intros p P. split; [apply seq_NoDup|]. intros s S. apply in_seq in S. lia.
  - intros p s P S. apply in_seq in S. destruct (rd_lt _ _ (G p s P ltac:(lia))) as [a [E _]]. unfold g. eauto.
  - intros w p s b P S W E. apply in_seq in S. unfold permute_elem. destruct (source_ok ps _ s Hs ltac:(lia)) as [-> _]. cbn [obind].
    rewrite (rd_some _ _ _ E). cbn [obind]. apply assign_step. rewrite W. apply fits_pos; auto; lia.
  - exists (with_vals dst v'). split.
    + rewrite (foldM_ext_in _ (fun v p => foldM (fun v s => permute_elem src dst ps (from_perm pp p) p v s) (seq 0 (d_sec dst)) v)).
      * rewrite R. reflexivity.
      * intros v p P. apply in_seq in P. unfold permute_line. destruct (source_ok pp _ p Hp ltac:(lia)) as [-> _]. reflexivity.
    + apply (lines_updates dst (fun _ => seq 0 (d_sec dst))); auto.
      * intros i j Hi Hj. destruct (prim_lt dst i j Hi Hj). split; auto. intros _. apply in_seq. lia.
      * intros p s _ S. apply in_seq in S. lia.
      * intros i j Hi Hj _. destruct (prim_lt dst i j Hi Hj) as [P S]. rewrite pos_prim, V by (auto; apply in_seq; lia).
        destruct (rd_lt (d_vals dst) _ (fits_pos dst _ _ Fd P S)) as [a [-> _]].
        destruct (rd_lt _ _ (G _ _ P S)) as [b [E _]]. unfold g. rewrite E. reflexivity.
Qed.

Lemma updates_ext (dst d : dnx T) inside inside' g g' :
  (forall i j, i < d_rows dst -> j < d_cols dst -> inside i j = inside' i j) ->
  (forall i j, i < d_rows dst -> j < d_cols dst -> inside i j = true -> g i j = g' i j) -> updates dst d inside g -> updates dst d inside' g'.
Proof.
  intros I H [A1 [A2 [A3 [A4 [A5 [A6 [L [V O]]]]]]]]. unfold updates.
  split; [auto|]. split; [auto|]. split; [auto|]. split; [auto|]. split; [auto|]. split; [auto|]. split; [auto|]. split.
  - intros i j Hi Hj P. rewrite <- I in P by auto. rewrite V by auto. auto.
  - intros k Hk. apply O. intros i j Hi Hj P. apply Hk; auto. rewrite <- I; auto.
Qed.

Theorem permute_full_updates (src dst : dnx T) rows cols :
  fits src -> fits dst -> d_rows src = d_rows dst -> d_cols src = d_cols dst -> d_ord src = d_ord dst ->
  d_upl src = UploNone -> d_upl dst = UploNone ->
  opt_perm_ok rows (d_rows dst) -> opt_perm_ok cols (d_cols dst) ->
  exists d, permute_full cplx conj src dst rows cols = Ok d /\
    updates dst d (fun _ _ => true) (fun i j => at_ src (from_perm rows i) (from_perm cols j)).
Proof.
  intros Fs Fd Er Ec Eo Us Ud Hr Hc. unfold permute_full.
  assert (W : permute_wrong src dst rows cols = false).
  { unfold permute_wrong. destruct (order_eqb_spec (d_ord src) (d_ord dst)); [|contradiction].
    destruct (uplo_eqb_spec (d_upl src) (d_upl dst)); [|congruence].
    replace (same_dims src dst) with true by (symmetry; apply same_dims_spec; auto).
    rewrite Er, Ec, !wrong_ok by auto. reflexivity. }
  rewrite W.
  assert (L : exists d, match d_ord src with OrdR => permute_lines src dst rows cols | OrdC => permute_lines src dst cols rows end = Ok d /\
    updates dst d (fun _ _ => true) (fun i j => at_ src (from_perm rows i) (from_perm cols j))).
  { destruct (d_ord src) eqn:O.
    - destruct (permute_lines_updates src dst rows cols) as [d [E U]]; auto;
        try (unfold d_prim, d_sec; rewrite ?O, <- ?Eo; cbn; congruence || assumption).
      exists d. split; auto. eapply updates_ext; [| |exact U]; auto. intros i j _ _ _. unfold at_, pos. rewrite O, <- Eo. reflexivity.
    - destruct (permute_lines_updates src dst cols rows) as [d [E U]]; auto;
        try (unfold d_prim, d_sec; rewrite ?O, <- ?Eo; cbn; congruence || assumption).
      exists d. split; auto. eapply updates_ext; [| |exact U]; auto. intros i j _ _ _. unfold at_, pos. rewrite O, <- Eo. reflexivity. }
  destruct rows, cols; try exact L.
  destruct (copy_updates src dst false) as [d [E U]]; auto; try congruence.
  { intros C. rewrite Ud in C. discriminate. }
  exists d. split; auto. eapply updates_ext; [| |exact U].
  - intros. rewrite Ud. reflexivity.
  - intros i j _ _ _. unfold cnj. rewrite andb_false_r. cbn [from_perm]. destruct (at_ src i j); reflexivity.
Qed.

Variable alloc : nat -> nat -> order -> dnx T.
Hypothesis AL : allocates alloc.

Lemma permute_wrong_false (src dst : dnx T) rows cols : d_rows src = d_rows dst -> d_cols src = d_cols dst -> d_ord src = d_ord dst ->
  d_upl src = d_upl dst -> opt_perm_ok rows (d_rows dst) -> opt_perm_ok cols (d_cols dst) -> permute_wrong src dst rows cols = false.
Proof.
  intros Er Ec Eo Eu Hr Hc. unfold permute_wrong. destruct (order_eqb_spec (d_ord src) (d_ord dst)); [|contradiction].
  destruct (uplo_eqb_spec (d_upl src) (d_upl dst)); [|congruence].
  replace (same_dims src dst) with true by (symmetry; apply same_dims_spec; auto).
  rewrite Er, Ec, !wrong_ok by auto. reflexivity.
Qed.

(** the mirror image used for a triangle: conjugated for a hermitian matrix *)
Definition mirror_of (m : dnx T) : T -> T := cnj cplx conj (is_hermitian cplx (d_sym m)).

Lemma permute_triangle_updates (src dst : dnx T) rows cols :
  fits src -> fits dst -> d_rows src = d_rows dst -> d_cols src = d_cols dst -> d_ord src = d_ord dst ->
  d_upl src = d_upl dst -> is_uplo (d_upl src) = true -> d_rows src = d_cols src ->
  opt_perm_ok rows (d_rows dst) -> opt_perm_ok cols (d_cols dst) ->
  exists d, permute_triangle cplx conj btrans alloc src dst rows cols = Ok d /\
    updates dst d (in_part (d_upl dst)) (fun i j => meaning (mirror_of src) src (from_perm rows i) (from_perm cols j)).
Proof.
  intros Fs Fd Er Ec Eo Eu Up Sq Hr Hc. unfold permute_triangle. rewrite <- Sq, Nat.eqb_refl. cbn [negb].
  rewrite Sq. destruct (AL (d_cols src) (d_cols src) (d_ord src)) as [Q1 [Q2 [Q3 [Q4 Q5]]]].
  set (t := alloc (d_cols src) (d_cols src) (d_ord src)) in *.
  destruct (complete_updates src t (is_hermitian cplx (d_sym src))) as [t1 [E1 U1]]; auto; try congruence.
  rewrite E1. cbn [obind]. assert (F1 := updates_fits _ _ _ _ U1 Q5).
  destruct U1 as [A1 [A2 [A3 [A4 [A5 [A6 [L1 [V1 O1]]]]]]]].
  destruct (permute_full_updates t1 t rows cols) as [t2 [E2 U2]]; auto; try congruence.
  rewrite E2. cbn [obind]. assert (F2 := updates_fits _ _ _ _ U2 Q5).
  destruct U2 as [B1 [B2 [B3 [B4 [B5 [B6 [L2 [V2 O2]]]]]]]].
  destruct (copy_updates (with_upl t2 (d_upl dst)) dst false) as [d [E3 U3]]; auto; cbn [d_rows d_cols d_ord d_upl with_upl]; try congruence; try (intros _; congruence).
  exists d. split; auto. eapply updates_ext; [| |exact U3]; auto.
  intros i j Hi Hj _. cbv beta. change (at_ (with_upl t2 (d_upl dst)) i j) with (at_ t2 i j).
  rewrite (V2 i j) by (auto; congruence). rewrite V1; auto.
  - unfold cnj at 1. rewrite andb_false_r. unfold mirror_of. destruct (meaning _ src _ _); reflexivity.
  - rewrite Q1. rewrite <- Sq, Er. destruct (source_ok rows _ i Hr Hi); auto.
  - rewrite Q2. rewrite Ec. destruct (source_ok cols _ j Hc Hj); auto.
Qed.

Theorem permute_updates (src dst : dnx T) rows cols :
  fits src -> fits dst -> d_rows src = d_rows dst -> d_cols src = d_cols dst -> d_ord src = d_ord dst ->
  d_upl src = d_upl dst -> square_part dst -> opt_perm_ok rows (d_rows dst) -> opt_perm_ok cols (d_cols dst) ->
  exists d, permute_dnx cplx conj btrans alloc src dst rows cols = Ok d /\
    updates dst d (in_part (d_upl dst)) (fun i j => meaning (mirror_of src) src (from_perm rows i) (from_perm cols j)).
Proof.
  intros Fs Fd Er Ec Eo Eu Q Hr Hc. unfold permute_dnx. rewrite permute_wrong_false by auto.
  destruct (is_uplo (d_upl dst)) eqn:Up.
  - apply permute_triangle_updates; auto; try congruence. rewrite Er, Ec. auto.
  - assert (Ud : d_upl dst = UploNone) by (destruct (d_upl dst); auto; discriminate).
    destruct (permute_full_updates src dst rows cols) as [d [E U]]; auto; try congruence.
    exists d. split; auto. eapply updates_ext; [| |exact U].
    + intros. now rewrite Ud.
    + intros i j _ _ _. unfold meaning. rewrite Eu, Ud. reflexivity.
Qed.

Theorem permute_inplace_updates (m : dnx T) rows cols :
  fits m -> square_part m -> opt_perm_ok rows (d_rows m) -> opt_perm_ok cols (d_cols m) ->
  exists d, permute_inplace cplx conj btrans alloc m rows cols = Ok d /\
    updates m d (in_part (d_upl m)) (fun i j => meaning (mirror_of m) m (from_perm rows i) (from_perm cols j)).
Proof.
  intros F Q Hr Hc. unfold permute_inplace. rewrite permute_wrong_false by auto.
  destruct (is_uplo (d_upl m)) eqn:Up.
  - apply permute_triangle_updates; auto.
  - assert (Ud : d_upl m = UploNone) by (destruct (d_upl m); auto; discriminate).
    destruct (AL (d_rows m) (d_cols m) (d_ord m)) as [Q1 [Q2 [Q3 [Q4 Q5]]]].
    destruct (permute_full_updates m (alloc (d_rows m) (d_cols m) (d_ord m)) rows cols) as [t [E U]]; auto; try congruence.
    rewrite E. cbn [obind]. assert (F2 := updates_fits _ _ _ _ U Q5).
    destruct U as [B1 [B2 [B3 [B4 [B5 [B6 [L2 [V2 O2]]]]]]]].
    destruct (copy_updates t m false) as [d [E3 U3]]; auto; try congruence.
    exists d. split; auto. eapply updates_ext; [| |exact U3]; auto.
    intros i j Hi Hj _. cbv beta. rewrite V2 by (auto; congruence). unfold cnj. rewrite andb_false_r. unfold meaning. rewrite Ud. cbn [in_part].
    destruct (at_ m _ _); reflexivity.
Qed.

(** a disagreement of sizes, orders or triangles, or a permutation of another size, is reported *)
Theorem permute_checks (src dst : dnx T) rows cols :
  (d_rows src <> d_rows dst \/ d_cols src <> d_cols dst \/ d_ord src <> d_ord dst \/ d_upl src <> d_upl dst \/
   (exists p, rows = Some p /\ psize p <> d_rows src) \/ (exists p, cols = Some p /\ psize p <> d_cols src)) ->
  permute_dnx cplx conj btrans alloc src dst rows cols = Fail.
Proof.
  intros H. unfold permute_dnx. enough (W : permute_wrong src dst rows cols = true) by now rewrite W.
  unfold permute_wrong. destruct (order_eqb_spec (d_ord src) (d_ord dst)); auto.
  destruct (uplo_eqb_spec (d_upl src) (d_upl dst)); auto. cbn [negb orb].
  destruct (same_dims src dst) eqn:E; auto. cbn [negb orb]. apply same_dims_spec in E.
  destruct H as [H|[H|[H|[H|[[p [-> H]]|[p [-> H]]]]]]]; try tauto; cbn [wrong_perm].
  - apply Nat.eqb_neq in H. now rewrite H.
  - apply Nat.eqb_neq in H. rewrite H. apply orb_true_r.
Qed.
End Copy.

Print Assumptions fill_updates.
Print Assumptions copy_updates.
Print Assumptions copy_checks.
Print Assumptions transpose_updates.
Print Assumptions transpose_inplace_updates.
Print Assumptions reorder_updates.
Print Assumptions complete_updates.
Print Assumptions permute_full_updates.
Print Assumptions permute_updates.
Print Assumptions permute_inplace_updates.
Print Assumptions permute_checks.
