(** * C81, C82: gathering and spreading dense sub-matrices, linear combinations, sparse matrix times vector *)
From Coq Require Import List Bool Arith Lia Ring Ring_theory.
From Verif Require Import Base M_Csx M_CsxMap M_Prune M_Dnx S_Csx S_Dnx L_Utils L_Csx L_Csx2 L_Dnx L_Dnx2 P_Dnx.
Import ListNotations.
Local Open Scope out_scope.

(** ** Loops that change every cell of a part once *)
Lemma scatter_map {T X} (p : X -> nat) (F : X -> T -> T) (f : list T -> X -> outcome (list T)) L v :
  NoDup L -> (forall x y, In x L -> In y L -> p x = p y -> x = y) -> (forall x, In x L -> p x < length v) ->
  (forall w x, In x L -> length w = length v -> f w x = (a <- rd w (p x) ;; wr w (p x) (F x a))) ->
  exists v', foldM f L v = Ok v' /\ length v' = length v /\
    (forall x, In x L -> nth_error v' (p x) = option_map (F x) (nth_error v (p x))) /\
    (forall k, (forall x, In x L -> p x <> k) -> nth_error v' k = nth_error v k).
Proof.
  revert v. induction L as [|x L IH]; intros v D I P Hf.
  - exists v. split; [reflexivity|]. split; [reflexivity|]. split; [intros x []|reflexivity].
  - inversion D; subst. cbn [foldM]. rewrite Hf by (auto; left; auto).
    destruct (rd_lt v (p x) (P x (or_introl eq_refl))) as (a & Na & Ra). rewrite Ra. cbn [obind].
    rewrite wr_lt by (apply P; left; auto). cbn [obind].
    destruct (IH (upd v (p x) (F x a))) as (v' & E & Lv & V & O); auto.
    + intros; apply I; auto; right; auto.
    + intros y Hy. rewrite upd_length. apply P. right; auto.
    + intros w y Hy Hw. rewrite upd_length in Hw. apply Hf; auto. right; auto.
    + rewrite upd_length in Lv. exists v'. split; auto. split; auto. split.
      * intros y [<-|Hy].
        -- rewrite O. { rewrite nth_error_upd by (apply P; left; auto). rewrite Nat.eqb_refl, Na. reflexivity. }
           intros y Hy Ey. apply H1. rewrite (I x y); auto. { left; auto. } right; auto.
        -- rewrite V by auto. rewrite nth_error_upd by (apply P; left; auto).
           destruct (Nat.eqb_spec (p x) (p y)) as [Ep|]; auto. exfalso. apply H1. rewrite (I x y); auto; [left|right]; auto.
      * intros k Hk. rewrite O by (intros; apply Hk; right; auto). rewrite nth_error_upd by (apply P; left; auto).
        destruct (Nat.eqb_spec (p x) k) as [Ep|]; auto. exfalso. apply (Hk x); auto. left; auto.
Qed.

(** all cells of the spans given by [js], line by line *)
Lemma lines_map {T} (x : dnx T) (js : nat -> list nat) (inside : nat -> nat -> bool) (F : nat -> nat -> T -> T) (f : nat -> list T -> nat -> outcome (list T)) :
  fits x -> (forall p, p < d_prim x -> NoDup (js p) /\ forall s, In s (js p) -> s < d_sec x) ->
  (forall i j, i < d_rows x -> j < d_cols x -> inside i j = true <-> In (sec_of (d_ord x) i j) (js (prim_of (d_ord x) i j))) ->
  (forall w p s, p < d_prim x -> In s (js p) -> length w = length (d_vals x) ->
     f p w s = (a <- rd w (p * d_ld x + s) ;; wr w (p * d_ld x + s) (F p s a))) ->
  exists v', foldM (fun v p => foldM (f p) (js p) v) (seq 0 (d_prim x)) (d_vals x) = Ok v' /\
    updates x (with_vals x v') inside (fun i j => option_map (F (prim_of (d_ord x) i j) (sec_of (d_ord x) i j)) (at_ x i j)).
Proof.
  intros Fx J I Hf.
  set (L := flat_map (fun p => map (fun s => (p, s)) (js p)) (seq 0 (d_prim x))).
  set (q := fun c : nat * nat => fst c * d_ld x + snd c).
  assert (IL : forall c, In c L <-> fst c < d_prim x /\ In (snd c) (js (fst c))).
  { intros [p s]. unfold L. rewrite in_flat_map. cbn [fst snd]. split.
    - intros [p' [Hp' Hs]]. apply in_seq in Hp'. apply in_map_iff in Hs. destruct Hs as [s' [E Hs]]. inversion E; subst. split; auto; lia.
    - intros [Hp Hs]. exists p. split. { apply in_seq; lia. } apply in_map_iff. exists s. auto. }
  assert (ND : NoDup L).
  { unfold L. assert (S : forall n k, k + n <= d_prim x -> NoDup (flat_map (fun p => map (fun s => (p, s)) (js p)) (seq k n))).
    { induction n; intros k Hk; simpl; [constructor|].
      assert (App : forall (l1 l2 : list (nat * nat)), NoDup l1 -> NoDup l2 -> (forall x, In x l1 -> ~ In x l2) -> NoDup (l1 ++ l2)).
      { induction l1 as [|a l1 IH]; intros l2 N1 N2 D; simpl; auto. inversion N1; subst. constructor.
        - rewrite in_app_iff. intros [?|?]; auto. apply (D a); auto. left; auto.
        - apply IH; auto. intros y Hy. apply D. right; auto. }
      apply App.
      - destruct (J k ltac:(lia)) as [N _]. clear -N. induction N; simpl; constructor; auto.
        rewrite in_map_iff. intros [y [E Hy]]. inversion E; subst. auto.
      - apply IHn. lia.
      - intros [p s] H1 H2. apply in_map_iff in H1. destruct H1 as [s1 [E1 _]]. inversion E1; subst.
        apply in_flat_map in H2. destruct H2 as [p2 [Hp2 H2]]. apply in_seq in Hp2. apply in_map_iff in H2. destruct H2 as [s2 [E2 _]].
        inversion E2; subst. lia. }
    apply S. lia. }
  destruct (scatter_map q (fun c => F (fst c) (snd c)) (fun v c => f (fst c) v (snd c)) L (d_vals x)) as (v' & E & Lv & V & O); auto.
  - intros [p s] [p' s'] H1 H2 E. apply IL in H1. apply IL in H2. unfold q in E. cbn [fst snd] in *.
    destruct H1 as [P1 S1], H2 as [P2 S2]. destruct Fx as [Fs _].
    pose proof (proj2 (J p P1) s S1). pose proof (proj2 (J p' P2) s' S2). apply line_inj in E; try lia. destruct E; subst; auto.
  - intros c Hc. apply IL in Hc. destruct Hc as [H1 H2]. unfold q. apply fits_pos; auto. apply (J (fst c)); auto.
  - intros w c Hc Hw. apply IL in Hc. destruct Hc as [H1 H2]. apply Hf; auto.
  - exists v'. split.
    + rewrite <- E. unfold L. rewrite <- foldM_flat_map. apply foldM_ext_in. intros v p Hp. rewrite foldM_map. reflexivity.
    + apply (lines_updates x js); auto.
      * intros p s Hp Hs. apply (J p); auto.
      * intros i j Hi Hj H. apply I in H; auto. destruct (prim_lt x i j Hi Hj) as [Hp Hs].
        unfold at_. rewrite pos_prim. apply (V (prim_of (d_ord x) i j, sec_of (d_ord x) i j)). apply IL. auto.
      * intros k Hk. apply O. intros [p s] Hc Ec. apply IL in Hc. destruct Hc as [H1 H2]. apply (Hk p s); auto.
Qed.

Lemma all_lines {T} (x : dnx T) (F : nat -> nat -> T -> T) (f : nat -> list T -> nat -> outcome (list T)) : fits x ->
  (forall w p s, p < d_prim x -> s < d_sec x -> length w = length (d_vals x) ->
     f p w s = (a <- rd w (p * d_ld x + s) ;; wr w (p * d_ld x + s) (F p s a))) ->
  exists v', foldM (fun v p => foldM (f p) (seq 0 (d_sec x)) v) (seq 0 (d_prim x)) (d_vals x) = Ok v' /\
    updates x (with_vals x v') (fun _ _ => true) (fun i j => option_map (F (prim_of (d_ord x) i j) (sec_of (d_ord x) i j)) (at_ x i j)).
Proof.
  intros Fx Hf. apply (lines_map x (fun _ => seq 0 (d_sec x)) (fun _ _ => true) F f Fx).
  - intros p Hp. split; [apply seq_NoDup|]. intros s Hs. apply in_seq in Hs. lia.
  - intros i j Hi Hj. destruct (prim_lt x i j Hi Hj). split; auto. intros _. apply in_seq. lia.
  - intros w p s Hp Hs Hw. apply in_seq in Hs. apply Hf; auto. lia.
Qed.

Lemma part_lines {T} (x : dnx T) (F : nat -> nat -> T -> T) (f : nat -> list T -> nat -> outcome (list T)) : fits x -> square_part x ->
  (forall w p s, p < d_prim x -> s < d_sec x -> length w = length (d_vals x) ->
     f p w s = (a <- rd w (p * d_ld x + s) ;; wr w (p * d_ld x + s) (F p s a))) ->
  exists v', foldM (fun v p => foldM (f p) (seq (line_start x p) (line_end x p - line_start x p)) v) (seq 0 (d_prim x)) (d_vals x) = Ok v' /\
    updates x (with_vals x v') (in_part (d_upl x)) (fun i j => option_map (F (prim_of (d_ord x) i j) (sec_of (d_ord x) i j)) (at_ x i j)).
Proof.
  intros Fx Q Hf. apply (lines_map x (fun p => seq (line_start x p) (line_end x p - line_start x p)) (in_part (d_upl x)) F f Fx).
  - intros p Hp. apply span_js; auto.
  - intros i j Hi Hj. apply part_span; auto.
  - intros w p s Hp Hs Hw. apply Hf; auto. apply (span_js x p Q Hp); auto.
Qed.

(** ** submatrix_dnx_dnx_noncontig *)
Lemma mapped_ok mp i n : i < map_size mp n -> mapped mp i = Ok (from_map mp i).
Proof. destruct mp as [l|]; cbn [mapped from_map map_size]; auto. intros. apply rd_ok; auto. Qed.

Lemma from_map_lt mp i n : map_into mp n -> i < map_size mp n -> from_map mp i < n.
Proof. destruct mp as [l|]; cbn [map_into from_map map_size]; auto. intros H Hi. apply H. apply nth_In; auto. Qed.

(** element (i, j) of the result is element (rows[i], cols[j]) of the source; a missing map is the identity *)
Theorem submatrix_noncontig_gathers {T} cplx conj (src dst : dnx T) rows cols :
  fits src -> fits dst -> d_ord src = d_ord dst -> map_into rows (d_rows src) -> map_into cols (d_cols src) ->
  d_rows dst = map_size rows (d_rows src) -> d_cols dst = map_size cols (d_cols src) ->
  d_upl src = UploNone -> d_upl dst = UploNone ->
  exists d, submatrix_noncontig cplx conj src dst rows cols = Ok d /\
    updates dst d (fun _ _ => true) (fun i j => at_ src (from_map rows i) (from_map cols j)).
Proof.
  intros Fs Fd Eo MR MC ER EC Us Ud. unfold submatrix_noncontig.
  destruct (order_eqb_spec (d_ord src) (d_ord dst)) as [_|]; [|contradiction]. cbn [negb]. rewrite ER, EC, !Nat.eqb_refl. cbn [andb negb].
  set (mp := match d_ord src with OrdR => rows | OrdC => cols end).
  set (ms := match d_ord src with OrdR => cols | OrdC => rows end).
  assert (G : exists d, (v <- foldM (gather_line src dst mp ms) (seq 0 (d_prim dst)) (d_vals dst) ;; Ok (with_vals dst v)) = Ok d /\
    updates dst d (fun _ _ => true) (fun i j => at_ src (from_map rows i) (from_map cols j))).
  { assert (Sp : d_prim dst = map_size mp (d_prim src)) by (unfold d_prim, mp; rewrite <- Eo; destruct (d_ord src); auto).
    assert (Ss : d_sec dst = map_size ms (d_sec src)) by (unfold d_sec, ms; rewrite <- Eo; destruct (d_ord src); auto).
    assert (Mp : map_into mp (d_prim src)) by (unfold d_prim, mp; destruct (d_ord src); auto).
    assert (Ms : map_into ms (d_sec src)) by (unfold d_sec, ms; destruct (d_ord src); auto).
    assert (RD : forall p s, p < d_prim dst -> s < d_sec dst -> exists a,
       nth_error (d_vals src) (from_map mp p * d_ld src + from_map ms s) = Some a /\ rd (d_vals src) (from_map mp p * d_ld src + from_map ms s) = Ok a).
    { intros p s Hp Hs. apply rd_lt. apply fits_pos; auto; apply from_map_lt; auto; congruence. }
    destruct (lines_loop dst (fun _ z => z) (fun _ => seq 0 (d_sec dst)) (fun p s => nth_error (d_vals src) (from_map mp p * d_ld src + from_map ms s))
      (fun v p s => gather_elem src dst ms (from_map mp p) p v s) (d_vals dst)) as (v' & R & L & V & O); auto.
    - intros p Hp. split; [apply seq_NoDup|]. intros s Hs. apply in_seq in Hs. lia.
    - intros p s Hp Hs. apply in_seq in Hs. destruct (RD p s Hp ltac:(lia)) as (a & Ea & _). eauto.
    - intros w p s b Hp Hs Hw Eb. apply in_seq in Hs. unfold gather_elem. rewrite (mapped_ok ms s (d_sec src)) by lia. cbn [obind].
      destruct (RD p s Hp ltac:(lia)) as (a & Ea & ->). cbn [obind]. rewrite Ea in Eb. inversion Eb; subst. apply assign_step. rewrite Hw. apply fits_pos; auto. lia.
    - exists (with_vals dst v'). split.
      + rewrite (foldM_ext_in _ (fun v p => foldM (fun v s => gather_elem src dst ms (from_map mp p) p v s) (seq 0 (d_sec dst)) v)).
        * rewrite R. reflexivity.
        * intros v p Hp. apply in_seq in Hp. unfold gather_line. rewrite (mapped_ok mp p (d_prim src)) by lia. reflexivity.
      + apply (lines_updates dst (fun _ => seq 0 (d_sec dst))); auto.
        * intros i j Hi Hj. destruct (prim_lt dst i j Hi Hj). split; auto. intros _. apply in_seq. lia.
        * intros p s Hp Hs. apply in_seq in Hs. lia.
        * intros i j Hi Hj _. destruct (prim_lt dst i j Hi Hj) as [Hp Hs]. rewrite pos_prim, V by (auto; apply in_seq; lia).
          destruct (rd_lt (d_vals dst) _ (fits_pos dst _ _ Fd Hp Hs)) as (a & -> & _). destruct (RD _ _ Hp Hs) as (b & Eb & _). rewrite Eb. cbn [lift2].
          rewrite <- Eb. unfold at_. f_equal. rewrite pos_prim. unfold mp, ms. rewrite <- Eo. destruct (d_ord src); reflexivity. }
  destruct rows as [r|], cols as [c|]; auto.
  destruct (copy_updates cplx conj src dst false) as (d & E & U); auto; try (cbn [map_size] in *; congruence).
  { intros X. rewrite Ud in X. discriminate. }
  exists d. split; auto. eapply updates_ext; [| |exact U].
  - intros. now rewrite Ud.
  - intros i j _ _ _. cbv beta. unfold cnj. rewrite andb_false_r. cbn [from_map]. destruct (at_ src i j); reflexivity.
Qed.

Theorem submatrix_noncontig_checks {T} cplx conj (src dst : dnx T) rows cols :
  (d_ord src <> d_ord dst \/ d_rows dst <> map_size rows (d_rows src) \/ d_cols dst <> map_size cols (d_cols src)) ->
  submatrix_noncontig cplx conj src dst rows cols = Fail.
Proof.
  intros H. unfold submatrix_noncontig. destruct (order_eqb_spec (d_ord src) (d_ord dst)); auto. cbn [negb].
  destruct (Nat.eqb_spec (d_rows dst) (map_size rows (d_rows src))); auto. destruct (Nat.eqb_spec (d_cols dst) (map_size cols (d_cols src))); auto. tauto.
Qed.

(** ** supermatrix_dnx_dnx_noncontig *)
Lemma dense_entries_in {T} (m : dnx T) e : fits m -> In e (dense_entries m) <->
  e_row e < d_rows m /\ e_col e < d_cols m /\ at_ m (e_row e) (e_col e) = Some (e_val e).
Proof.
  intros F. unfold dense_entries. rewrite in_flat_map. split.
  - intros (p & Hp & He). apply in_seq in Hp. apply in_flat_map in He. destruct He as (s & Hs & He). apply in_seq in Hs.
    destruct (nth_error (d_vals m) (p * d_ld m + s)) eqn:N; [|destruct He]. destruct He as [<-|[]].
    destruct (back_lt m p s ltac:(lia) ltac:(lia)) as [B1 B2]. unfold at_. rewrite <- (pos_back m p s) in N.
    unfold coords, prim_of, sec_of, e_row, e_col, e_val in *. destruct (d_ord m); cbn [fst snd]; auto.
  - intros (H1 & H2 & H3). destruct (prim_lt m _ _ H1 H2) as [P1 P2]. exists (prim_of (d_ord m) (e_row e) (e_col e)).
    split; [apply in_seq; lia|]. apply in_flat_map. exists (sec_of (d_ord m) (e_row e) (e_col e)). split; [apply in_seq; lia|].
    unfold at_ in H3. rewrite pos_prim in H3. rewrite H3. left. destruct e as [[a b] c]. unfold coords, prim_of, sec_of, e_row, e_col, e_val. destruct (d_ord m); reflexivity.
Qed.

(** every element of the source is written to (added to) its mapped position, in storage order; nothing else is touched *)
Theorem supermatrix_noncontig_spreads {T} add (src dst : dnx T) rows cols md :
  fits src -> fits dst -> d_ord src = d_ord dst -> map_into rows (d_rows dst) -> map_into cols (d_cols dst) ->
  d_rows src = map_size rows (d_rows dst) -> d_cols src = map_size cols (d_cols dst) ->
  let E := map (placed rows cols) (dense_entries src) in
  exists d, supermatrix_noncontig add src dst rows cols md = Ok d /\
    updates dst d (fun i j => existsb (fun e => (e_row e =? i) && (e_col e =? j)) E)
      (fun i j => option_map (fold_left (fun a x => match md with Assign => x | _ => add a x end) (values_in E i j)) (at_ dst i j)).
Proof.
  intros Fs Fd Eo MR MC ER EC E. unfold supermatrix_noncontig.
  destruct (order_eqb_spec (d_ord src) (d_ord dst)) as [_|]; [|contradiction]. cbn [negb]. rewrite ER, EC, !Nat.eqb_refl. cbn [andb negb].
  set (mp := match d_ord dst with OrdR => rows | OrdC => cols end).
  set (ms := match d_ord dst with OrdR => cols | OrdC => rows end).
  assert (Sp : d_prim src = map_size mp (d_prim dst)) by (unfold d_prim, mp; rewrite Eo; destruct (d_ord dst); auto).
  assert (Ss : d_sec src = map_size ms (d_sec dst)) by (unfold d_sec, ms; rewrite Eo; destruct (d_ord dst); auto).
  set (fe := fun w (e : entry T) => a <- rd w (pos dst (e_row e) (e_col e)) ;; wr w (pos dst (e_row e) (e_col e)) (mode_op add md a (e_val e))).
  destruct (scatter_entries dst E (mode_op add md) fe Fd) as (v' & Ev & Uv).
  - intros e He. unfold E in He. apply in_map_iff in He. destruct He as (x & <- & Hx). apply dense_entries_in in Hx; auto. destruct Hx as (H1 & H2 & _).
    split; apply from_map_lt; auto; congruence.
  - auto.
  - exists (with_vals dst v'). split.
    + assert (EL : foldM (spread_line add src dst md mp ms) (seq 0 (d_prim src)) (d_vals dst) = Ok v'); [|now rewrite EL].
      rewrite <- Ev. unfold E. rewrite foldM_map. unfold dense_entries. rewrite <- foldM_flat_map. apply foldM_ext_in. intros w p Hp. apply in_seq in Hp.
      rewrite <- foldM_flat_map. unfold spread_line. rewrite (mapped_ok mp p (d_prim dst)) by lia. cbn [obind].
      apply foldM_ext_in. intros w' s Hs. apply in_seq in Hs. unfold spread_elem. rewrite (mapped_ok ms s (d_sec dst)) by lia. cbn [obind].
      destruct (rd_lt (d_vals src) _ (fits_pos src p s Fs ltac:(lia) ltac:(lia))) as (a & Na & Ra). rewrite Ra, Na. cbn [obind foldM].
      assert (PE : pos dst (e_row (placed rows cols (coords (d_ord src) p (s, a)))) (e_col (placed rows cols (coords (d_ord src) p (s, a)))) =
                   from_map mp p * d_ld dst + from_map ms s).
      { rewrite Eo. unfold pos, placed, coords, mp, ms, e_row, e_col. destruct (d_ord dst); reflexivity. }
      assert (VE : e_val (placed rows cols (coords (d_ord src) p (s, a))) = a) by (destruct (d_ord src); reflexivity).
      unfold fe. rewrite PE, VE. destruct (rd w' (from_map mp p * d_ld dst + from_map ms s)); cbn [obind]; auto.
      destruct (wr w' (from_map mp p * d_ld dst + from_map ms s) (mode_op add md a0 a)); reflexivity.
    + exact Uv.
Qed.

Theorem supermatrix_noncontig_checks {T} add (src dst : dnx T) rows cols md :
  (d_ord src <> d_ord dst \/ d_rows src <> map_size rows (d_rows dst) \/ d_cols src <> map_size cols (d_cols dst)) ->
  supermatrix_noncontig add src dst rows cols md = Fail.
Proof.
  intros H. unfold supermatrix_noncontig. destruct (order_eqb_spec (d_ord src) (d_ord dst)); auto. cbn [negb].
  destruct (Nat.eqb_spec (d_rows src) (map_size rows (d_rows dst))); auto. destruct (Nat.eqb_spec (d_cols src) (map_size cols (d_cols dst))); auto. tauto.
Qed.

(** with maps that repeat no index, spreading and gathering are inverse to each other *)
Definition injective_map (mp : option (list nat)) : Prop := match mp with None => True | Some l => NoDup l end.

Lemma from_map_inj mp n i j : injective_map mp -> i < map_size mp n -> j < map_size mp n -> from_map mp i = from_map mp j -> i = j.
Proof. destruct mp as [l|]; cbn; auto. intros D Hi Hj E. apply (proj1 (NoDup_nth l 0) D); auto. Qed.

Lemma dense_positions {T} (m : dnx T) : fits m -> NoDup (map fst (dense_entries m)).
Proof.
  intros F. unfold dense_entries.
  set (pr := fun p s : nat => match d_ord m with OrdR => (p, s) | OrdC => (s, p) end).
  assert (M : map fst (flat_map (fun p => flat_map (fun s => match nth_error (d_vals m) (p * d_ld m + s) with
     | Some v => [coords (d_ord m) p (s, v)] | None => [] end) (seq 0 (d_sec m))) (seq 0 (d_prim m))) =
     flat_map (fun p => map (pr p) (seq 0 (d_sec m))) (seq 0 (d_prim m))).
  { rewrite flat_map_map, !flat_map_concat_map. f_equal. apply map_ext_in. intros p Hp. apply in_seq in Hp.
    rewrite flat_map_map, flat_map_concat_map. transitivity (concat (map (fun s => [pr p s]) (seq 0 (d_sec m)))).
    - f_equal. apply map_ext_in. intros s Hs. apply in_seq in Hs.
      destruct (rd_lt (d_vals m) _ (fits_pos m p s F ltac:(lia) ltac:(lia))) as (a & -> & _). unfold pr, coords. destruct (d_ord m); reflexivity.
    - induction (seq 0 (d_sec m)); cbn; congruence. }
  rewrite M. clear M.
  assert (S : forall n k, NoDup (flat_map (fun p => map (pr p) (seq 0 (d_sec m))) (seq k n)) /\
     forall x, In x (flat_map (fun p => map (pr p) (seq 0 (d_sec m))) (seq k n)) -> k <= match d_ord m with OrdR => fst x | OrdC => snd x end).
  { induction n as [|n IH]; intros k; cbn [seq flat_map]; [split; [constructor|intros x []]|].
    destruct (IH (Datatypes.S k)) as [N B]. split.
    - assert (G : forall l, NoDup l -> NoDup (map (pr k) l ++ flat_map (fun p => map (pr p) (seq 0 (d_sec m))) (seq (Datatypes.S k) n))).
      { induction l as [|a l IHl]; intros Nl; cbn [map app]; auto. inversion Nl; subst. constructor; auto.
        rewrite in_app_iff. intros [X|X].
        - apply in_map_iff in X. destruct X as (b & Eb & Hb). apply H1. unfold pr in Eb. destruct (d_ord m); inversion Eb; subst; auto.
        - apply B in X. unfold pr in X. destruct (d_ord m); cbn [fst snd] in X; lia. }
      apply G. apply seq_NoDup.
    - intros x Hx. apply in_app_iff in Hx. destruct Hx as [Hx|Hx].
      + apply in_map_iff in Hx. destruct Hx as (b & <- & _). unfold pr. destruct (d_ord m); cbn; lia.
      + apply B in Hx. lia. }
  apply S.
Qed.

Theorem supermatrix_noncontig_injective {T} add (src dst : dnx T) rows cols md :
  fits src -> fits dst -> d_ord src = d_ord dst -> map_into rows (d_rows dst) -> map_into cols (d_cols dst) ->
  d_rows src = map_size rows (d_rows dst) -> d_cols src = map_size cols (d_cols dst) -> injective_map rows -> injective_map cols ->
  exists d, supermatrix_noncontig add src dst rows cols md = Ok d /\
    (forall i j, i < d_rows src -> j < d_cols src -> exists a b, at_ src i j = Some a /\ at_ dst (from_map rows i) (from_map cols j) = Some b /\
       at_ d (from_map rows i) (from_map cols j) = Some (match md with Assign => a | _ => add b a end)) /\
    (forall k, (forall i j, i < d_rows src -> j < d_cols src -> k <> pos dst (from_map rows i) (from_map cols j)) ->
       nth_error (d_vals d) k = nth_error (d_vals dst) k).
Proof.
  intros Fs Fd Eo MR MC ER EC IR IC.
  destruct (supermatrix_noncontig_spreads add src dst rows cols md Fs Fd Eo MR MC ER EC) as (d & E & U). exists d. split; auto.
  destruct U as (_ & _ & _ & _ & _ & _ & _ & V & O). split.
  - intros i j Hi Hj. destruct (fits_at src i j Fs Hi Hj) as (a & Ea).
    assert (Ri : from_map rows i < d_rows dst) by (apply from_map_lt; auto; congruence).
    assert (Rj : from_map cols j < d_cols dst) by (apply from_map_lt; auto; congruence).
    destruct (fits_at dst _ _ Fd Ri Rj) as (b & Eb). exists a, b. split; auto. split; auto.
    assert (HI : In (i, j, a) (dense_entries src)) by (apply dense_entries_in; auto).
    rewrite V; auto.
    + rewrite Eb. cbn [option_map]. f_equal.
      assert (VE : values_in (map (placed rows cols) (dense_entries src)) (from_map rows i) (from_map cols j) = [a]).
      { unfold values_in. rewrite filter_map, map_map.
        assert (G : forall l : list (entry T), NoDup (map fst l) -> (forall e, In e l -> e_row e < d_rows src /\ e_col e < d_cols src) -> In (i, j, a) l ->
          map (fun x => e_val (placed rows cols x)) (filter (fun x => (e_row (placed rows cols x) =? from_map rows i) && (e_col (placed rows cols x) =? from_map cols j)) l) = [a]).
        { assert (SP : forall e : entry T, e_row e < d_rows src /\ e_col e < d_cols src ->
             (e_row (placed rows cols e) =? from_map rows i) && (e_col (placed rows cols e) =? from_map cols j) = true -> fst e = (i, j)).
          { intros [[r c] v] [R1 R2] H. unfold placed, e_row, e_col in *. cbn [fst snd] in *. rewrite andb_true_iff, !Nat.eqb_eq in H. destruct H as [H1 H2].
            f_equal; [apply (from_map_inj rows (d_rows dst))|apply (from_map_inj cols (d_cols dst))]; auto; congruence. }
          induction l as [|e l IH]; intros D R X; [destruct X|]. inversion D; subst. cbn [filter]. destruct X as [->|X].
          - change (e_row (placed rows cols (i, j, a))) with (from_map rows i). change (e_col (placed rows cols (i, j, a))) with (from_map cols j).
            rewrite !Nat.eqb_refl. cbn [andb map]. f_equal.
            destruct (filter _ l) as [|e' l'] eqn:Q; auto. exfalso. assert (In e' (e' :: l')) by (left; auto). rewrite <- Q in H. apply filter_In in H.
            destruct H as (He & Hm). apply H1. cbn [fst]. rewrite <- (SP e'); auto. { apply in_map; auto. } apply R. right; auto.
          - destruct ((e_row (placed rows cols e) =? from_map rows i) && (e_col (placed rows cols e) =? from_map cols j)) eqn:M.
            + exfalso. apply H1. rewrite (SP e); auto. { apply (in_map fst) in X. exact X. } apply R. left; auto.
            + apply IH; auto. intros; apply R; right; auto. }
        apply G; auto. { apply dense_positions; auto. } intros e He. apply dense_entries_in in He; auto. tauto. }
      rewrite VE. destruct md; reflexivity.
    + apply existsb_exists. exists (placed rows cols (i, j, a)). split; [apply in_map; auto|].
      change (e_row (placed rows cols (i, j, a))) with (from_map rows i). change (e_col (placed rows cols (i, j, a))) with (from_map cols j).
      now rewrite !Nat.eqb_refl.
  - intros k Hk. apply O. intros i j Hi Hj X. apply existsb_exists in X. destruct X as (e & He & Hm). apply in_map_iff in He. destruct He as (x & <- & Hx).
    apply dense_entries_in in Hx; auto. destruct Hx as (X1 & X2 & _). rewrite andb_true_iff, !Nat.eqb_eq in Hm. destruct Hm as [<- <-].
    apply Hk; auto.
Qed.

(** ** Examples: padding (8) stays; rows 2 and 0, columns 1 and 2 of a 3 x 3 matrix *)
Definition ex_m : dnx nat := Dnx 3 3 4 OrdR UploNone SymGeneral [1; 2; 3; 8; 4; 5; 6; 8; 7; 9; 10; 8].
Example gather_ex : submatrix_noncontig false (fun x => x) ex_m (Dnx 2 2 2 OrdR UploNone SymGeneral [0; 0; 0; 0]) (Some [2; 0]) (Some [1; 2]) =
  Ok (Dnx 2 2 2 OrdR UploNone SymGeneral [9; 10; 2; 3]).
Proof. vm_compute. reflexivity. Qed.
Example spread_ex : supermatrix_noncontig Nat.add (Dnx 2 2 2 OrdR UploNone SymGeneral [100; 200; 300; 400]) ex_m (Some [2; 0]) (Some [1; 2]) Accumulate =
  Ok (with_vals ex_m [1; 302; 403; 8; 4; 5; 6; 8; 7; 109; 210; 8]).
Proof. vm_compute. reflexivity. Qed.
(** a repeated row index accumulates both source rows *)
Example spread_twice_ex : supermatrix_noncontig Nat.add (Dnx 2 1 2 OrdR UploNone SymGeneral [100; 0; 300; 0]) ex_m (Some [1; 1]) (Some [0]) Accumulate =
  Ok (with_vals ex_m [1; 2; 3; 8; 404; 5; 6; 8; 7; 9; 10; 8]).
Proof. vm_compute. reflexivity. Qed.

Print Assumptions submatrix_noncontig_gathers.
Print Assumptions submatrix_noncontig_checks.
Print Assumptions supermatrix_noncontig_spreads.
Print Assumptions supermatrix_noncontig_checks.
Print Assumptions supermatrix_noncontig_injective.
