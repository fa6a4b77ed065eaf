(** * C82: linear combinations with dense results, sparse matrix times vector *)
From Coq Require Import List Bool Arith Lia ZArith Ring Ring_theory.
From Verif Require Import Base M_Csx M_CsxMap M_Prune M_Dnx S_Csx S_Dnx L_Utils L_Csx L_Csx2 L_Dnx L_Dnx2 P_Dnx P_Dnx4.
Import ListNotations.
Local Open Scope out_scope.

Section Exact.
(** exact arithmetic: a commutative ring with a decidable test for equality *)
Context {T : Type} (zero one : T) (add mul sub : T -> T -> T) (opp : T -> T).
Hypothesis RT : ring_theory zero one add mul sub opp (@eq T).
Variable eqb : T -> T -> bool.
Hypothesis EQ : forall a b, eqb a b = true <-> a = b.
Add Ring Tring : RT.

Notation lc := (lincomb_dnx add mul zero eqb).

Lemma lincomb_wrong_ok (x : dnx T) a : operand_ok x (Some a) -> lincomb_wrong x a = false.
Proof.
  intros H. unfold lincomb_wrong. assert (D : d_rows (deref x (d_vals x) a) = d_rows x /\ d_cols (deref x (d_vals x) a) = d_cols x /\ d_ord (deref x (d_vals x) a) = d_ord x).
  { destruct a as [m|]; cbn [deref]; [destruct H as (_ & H); exact H|]. auto. }
  destruct D as (D1 & D2 & D3). replace (same_dims (deref x (d_vals x) a) x) with true by (symmetry; apply same_dims_spec; auto).
  rewrite D3. destruct (order_eqb_spec (d_ord x) (d_ord x)); [reflexivity|congruence].
Qed.

(** the element an operand contributes, read while [x] is being overwritten *)
Definition cell (x : dnx T) (a : option (dnx T)) (p s : nat) (old : T) : T :=
  match a with None => old | Some m => nth (p * d_ld m + s) (d_vals m) zero end.

Lemma cell_ok (x : dnx T) a w p s o : fits x -> operand_ok x (Some a) -> p < d_prim x -> s < d_sec x ->
  rd w (p * d_ld x + s) = Ok o -> rd (d_vals (deref x w a)) (p * d_ld (deref x w a) + s) = Ok (cell x a p s o).
Proof.
  intros F H Hp Hs Ho. destruct a as [m|]; cbn [deref cell]; auto.
  destruct H as (Fm & H1 & H2 & H3). apply rd_ok. apply fits_pos; auto; unfold d_prim, d_sec in *; rewrite H1, H2, H3; auto.
Qed.

Lemma cell_at (x : dnx T) a i j : fits x -> operand_ok x (Some a) -> i < d_rows x -> j < d_cols x ->
  option_map (cell x a (prim_of (d_ord x) i j) (sec_of (d_ord x) i j)) (at_ x i j) = Some (operand_at zero x (Some a) i j).
Proof.
  intros F H Hi Hj. destruct (fits_at x i j F Hi Hj) as (o & Eo). unfold operand_at. destruct a as [m|].
  - destruct H as (Fm & H1 & H2 & H3). rewrite Eo. cbn [option_map cell]. f_equal. unfold at_. rewrite pos_prim, H3.
    destruct (nth_error (d_vals m) _) eqn:N; [apply (nth_error_nth _ _ _ N)|]. apply nth_error_None in N. now apply nth_overflow.
  - rewrite Eo. reflexivity.
Qed.

Lemma lincomb_one_ok (x : dnx T) alpha a : fits x -> square_part x -> operand_ok x (Some a) ->
  exists d, lincomb_one mul x alpha a = Ok d /\ updates x d (in_part (d_upl x)) (fun i j => Some (mul alpha (operand_at zero x (Some a) i j))).
Proof.
  intros F Q H. unfold lincomb_one. rewrite lincomb_wrong_ok by auto.
  destruct (part_lines x (fun p s o => mul alpha (cell x a p s o)) (one_elem mul x alpha a) F Q) as (v' & E & U).
  - intros w p s Hp Hs Hw. unfold one_elem.
    destruct (rd_lt w (p * d_ld x + s)) as (o & _ & Ro). { rewrite Hw. apply fits_pos; auto. }
    rewrite (cell_ok x a w p s o) by auto. rewrite Ro. reflexivity.
  - change (foldM (one_line mul x alpha a) (seq 0 (d_prim x)) (d_vals x)) with
      (foldM (fun v p => foldM (one_elem mul x alpha a p) (seq (line_start x p) (line_end x p - line_start x p)) v) (seq 0 (d_prim x)) (d_vals x)).
    rewrite E. cbn [obind]. eexists. split; [reflexivity|]. eapply updates_ext; [reflexivity| |exact U].
    intros i j Hi Hj _. cbv beta. pose proof (cell_at x a i j F H Hi Hj) as C. destruct (at_ x i j); [|discriminate]. cbn [option_map] in *. congruence.
Qed.

Lemma lincomb_two_ok (x : dnx T) alpha a beta b : fits x -> square_part x -> operand_ok x (Some a) -> operand_ok x (Some b) ->
  exists d, lincomb_two add mul x alpha a beta b = Ok d /\
    updates x d (in_part (d_upl x)) (fun i j => Some (add (mul alpha (operand_at zero x (Some a) i j)) (mul beta (operand_at zero x (Some b) i j)))).
Proof.
  intros F Q HA HB. unfold lincomb_two. rewrite !lincomb_wrong_ok by auto. cbn [orb].
  destruct (part_lines x (fun p s o => add (mul alpha (cell x a p s o)) (mul beta (cell x b p s o))) (two_elem add mul x alpha a beta b) F Q) as (v' & E & U).
  - intros w p s Hp Hs Hw. unfold two_elem.
    destruct (rd_lt w (p * d_ld x + s)) as (o & _ & Ro). { rewrite Hw. apply fits_pos; auto. }
    rewrite (cell_ok x a w p s o) by auto. rewrite (cell_ok x b w p s o) by auto. rewrite Ro. reflexivity.
  - change (foldM (two_line add mul x alpha a beta b) (seq 0 (d_prim x)) (d_vals x)) with
      (foldM (fun v p => foldM (two_elem add mul x alpha a beta b p) (seq (line_start x p) (line_end x p - line_start x p)) v) (seq 0 (d_prim x)) (d_vals x)).
    rewrite E. cbn [obind]. eexists. split; [reflexivity|]. eapply updates_ext; [reflexivity| |exact U].
    intros i j Hi Hj _. cbv beta. pose proof (cell_at x a i j F HA Hi Hj) as C. pose proof (cell_at x b i j F HB Hi Hj) as D.
    destruct (at_ x i j); [|discriminate]. cbn [option_map] in *. congruence.
Qed.

(** X = alpha A + beta B on the stored part of X; A and B may be missing where the factor is zero, and may be X itself *)
Theorem lincomb_dnx_combines (x : dnx T) alpha a beta b : fits x -> square_part x -> operand_ok x a -> operand_ok x b ->
  (alpha <> zero -> a <> None) -> (beta <> zero -> b <> None) ->
  exists d, lc x alpha a beta b = Ok d /\
    updates x d (in_part (d_upl x)) (fun i j => Some (add (mul alpha (operand_at zero x a i j)) (mul beta (operand_at zero x b i j)))).
Proof.
  intros F Q HA HB NA NB. unfold lincomb_dnx.
  destruct (eqb alpha zero) eqn:Ea.
  - apply EQ in Ea. subst alpha. destruct (eqb beta zero) eqn:Eb.
    + apply EQ in Eb. subst beta. destruct (fill_updates x zero F Q) as (d & E & U).
      exists d. split; [destruct a, b; auto|]. eapply updates_ext; [reflexivity| |exact U]. intros. cbv beta. f_equal. ring.
    + assert (beta <> zero) by (intros X; apply EQ in X; congruence). destruct b as [b|]; [|exfalso; now apply NB].
      destruct (lincomb_one_ok x beta b F Q HB) as (d & E & U). exists d. split; [destruct a; auto|].
      eapply updates_ext; [reflexivity| |exact U]. intros. cbv beta. f_equal. ring.
  - assert (alpha <> zero) by (intros X; apply EQ in X; congruence). destruct a as [a|]; [|exfalso; now apply NA].
    destruct (eqb beta zero) eqn:Eb.
    + apply EQ in Eb. subst beta. destruct (lincomb_one_ok x alpha a F Q HA) as (d & E & U). exists d. split; [destruct b; auto|].
      eapply updates_ext; [reflexivity| |exact U]. intros. cbv beta. f_equal. ring.
    + assert (beta <> zero) by (intros X; apply EQ in X; congruence). destruct b as [b|]; [|exfalso; now apply NB].
      apply lincomb_two_ok; auto.
Qed.

(** a missing operand with a factor other than zero is rejected *)
Theorem lincomb_dnx_checks (x : dnx T) alpha a beta b : (alpha <> zero /\ a = None) \/ (beta <> zero /\ b = None) -> lc x alpha a beta b = Fail.
Proof.
  intros H. unfold lincomb_dnx. destruct (eqb alpha zero) eqn:Ea; destruct (eqb beta zero) eqn:Eb; try (apply EQ in Ea); try (apply EQ in Eb);
    destruct H as [[H ->]|[H ->]]; try contradiction; auto; destruct a; auto.
Qed.

(** ** lincomb_dnx_csy *)
(** a sparse operand of the same size and triangle that stores entries of that triangle only *)
Definition sparse_ok (x : dnx T) (b : option (csx T)) : Prop :=
  match b with
  | None => True
  | Some b => valid b /\ nrows b = d_rows x /\ ncols b = d_cols x /\ upl b = d_upl x /\
              forall e, In e (entries b) -> in_part (d_upl x) (e_row e) (e_col e) = true
  end.
Definition upl_ok (x : dnx T) (a : operand (T := T)) : Prop := match a with Some (Some m) => d_upl m = d_upl x | _ => True end.
(** sum of all values stored at a position *)
Definition sum (l : list T) : T := fold_right add zero l.
Definition sparse_at (b : option (csx T)) (i j : nat) : T := match b with None => zero | Some b => sum (values_at b i j) end.

Lemma fold_axpy beta l a : fold_left (fun o v => add o (mul beta v)) l a = add a (mul beta (sum l)).
Proof. revert a. induction l as [|v l IH]; intros a; cbn [fold_left sum fold_right]; [ring|]. rewrite IH. unfold sum. ring. Qed.

(** X = alpha A + beta B with a sparse B; values stored repeatedly are summed up *)
Theorem lincomb_dnx_csy_combines (x : dnx T) alpha a beta b : fits x -> square_part x -> operand_ok x a -> upl_ok x a -> sparse_ok x b ->
  (alpha <> zero -> a <> None) -> (beta <> zero -> b <> None) ->
  exists d, lincomb_dnx_csy add mul zero one eqb x alpha a beta b = Ok d /\
    updates x d (in_part (d_upl x)) (fun i j => Some (add (mul alpha (operand_at zero x a i j)) (mul beta (sparse_at b i j)))).
Proof.
  intros F Q HA UA HB NA NB. unfold lincomb_dnx_csy.
  assert (W1 : negb (eqb alpha zero) && unset a = false).
  { destruct (eqb alpha zero) eqn:E; auto. destruct a; auto. exfalso. apply NA; auto. intros X. apply EQ in X. congruence. }
  assert (W2 : negb (eqb beta zero) && unset b = false).
  { destruct (eqb beta zero) eqn:E; auto. destruct b; auto. exfalso. apply NB; auto. intros X. apply EQ in X. congruence. }
  assert (W3 : wrong_a x a = false).
  { destruct a as [a|]; auto. cbn [wrong_a]. rewrite lincomb_wrong_ok by auto. cbn [orb].
    assert (D : d_upl (deref x (d_vals x) a) = d_upl x) by (destruct a; auto). rewrite D. destruct (uplo_eqb_spec (d_upl x) (d_upl x)); [reflexivity|congruence]. }
  assert (W4 : wrong_b x b = false).
  { destruct b as [b|]; auto. cbn [wrong_b]. destruct HB as (_ & -> & -> & -> & _). rewrite !Nat.eqb_refl. cbn [andb negb orb].
    destruct (uplo_eqb_spec (d_upl x) (d_upl x)); [reflexivity|congruence]. }
  rewrite W1, W2, W3, W4.
  assert (Y : exists y, (match a with Some None => if eqb alpha one then Ok x else lc x alpha a zero None | _ => lc x alpha a zero None end) = Ok y /\
     updates x y (in_part (d_upl x)) (fun i j => Some (mul alpha (operand_at zero x a i j)))).
  { assert (G : exists y, lc x alpha a zero None = Ok y /\ updates x y (in_part (d_upl x)) (fun i j => Some (mul alpha (operand_at zero x a i j)))).
    { destruct (lincomb_dnx_combines x alpha a zero None F Q HA I NA) as (y & E & U). { intros X. contradiction X. reflexivity. }
      exists y. split; auto. eapply updates_ext; [reflexivity| |exact U]. intros. cbv beta. f_equal. ring. }
    destruct a as [[m|]|]; auto. destruct (eqb alpha one) eqn:E1; auto. apply EQ in E1. subst alpha.
    exists x. split; auto. unfold updates. split; [auto|]. split; [auto|]. split; [auto|]. split; [auto|]. split; [auto|]. split; [auto|]. split; [auto|]. split; auto.
    intros i j Hi Hj _. unfold operand_at. destruct (fits_at x i j F Hi Hj) as (o & ->). f_equal. ring. }
  destruct Y as (y & EY & UY). rewrite EY. cbn [obind].
  destruct (eqb beta zero) eqn:Eb.
  { apply EQ in Eb. subst beta. exists y. split; auto. eapply updates_ext; [reflexivity| |exact UY]. intros. cbv beta. f_equal. ring. }
  destruct b as [b|]; [|discriminate]. destruct HB as (V & B1 & B2 & B3 & B4).
  pose proof UY as (A1 & A2 & A3 & A4 & A5 & A6 & A7 & A8 & A9).
  assert (PP : forall i j, pos y i j = pos x i j) by (intros; unfold pos; rewrite A3, A4; reflexivity).
  set (fe := fun w (e : entry T) => o <- rd w (pos y (e_row e) (e_col e)) ;; wr w (pos y (e_row e) (e_col e)) (add o (mul beta (e_val e)))).
  destruct (scatter_entries y (entries b) (fun o v => add o (mul beta v)) fe (updates_fits _ _ _ _ UY F)) as (v' & Ev & Uv).
  { intros e He. rewrite A1, A2, <- B1, <- B2. apply entry_range; auto. }
  { auto. }
  change (foldM (add_line add mul beta b (order_eqb (ord b) (d_ord x)) (d_ld x)) (seq 0 (size_primary b)) (d_vals y)) with
    (foldM (fun s r => p <- rd (ptrs b) r ;; e <- rd (ptrs b) (r + 1) ;;
       foldM (add_elem add mul beta b (order_eqb (ord b) (d_ord x)) (d_ld x) r) (seq p (e - p)) s) (seq 0 (size_primary b)) (d_vals y)).
  rewrite (entries_loop b (add_elem add mul beta b (order_eqb (ord b) (d_ord x)) (d_ld x)) fe); auto.
  2: { intros p s i z Hp E2 E3. unfold add_elem. rewrite (rd_some _ _ _ E2), (rd_some _ _ _ E3). cbn [obind]. rewrite dense_pos_ok. unfold fe. rewrite PP.
       replace (e_val (coords (ord b) p z)) with (snd z) by (destruct (ord b); reflexivity). reflexivity. }
  rewrite Ev. cbn [obind]. exists (with_vals x v'). split; auto.
  assert (U2 : updates x (with_vals y v') (in_part (d_upl x)) (fun i j => Some (add (mul alpha (operand_at zero x a i j)) (mul beta (sparse_at (Some b) i j))))).
  { eapply updates_ext; [| |exact (updates_trans _ _ _ _ _ _ _ F UY Uv)].
    - intros i j Hi Hj. cbv beta. destruct (existsb (here i j) (entries b)) eqn:X; [|apply orb_false_r].
      apply existsb_exists in X. destruct X as (e & He & Hh). apply here_spec in Hh. destruct Hh as [<- <-]. now rewrite B4.
    - intros i j Hi Hj P. cbv beta. destruct (existsb (here i j) (entries b)) eqn:X.
      + assert (P' : in_part (d_upl x) i j = true).
        { apply existsb_exists in X. destruct X as (e & He & Hh). apply here_spec in Hh. destruct Hh as [<- <-]. now rewrite B4. }
        rewrite A8 by auto. cbn [option_map]. f_equal. rewrite fold_axpy. reflexivity.
      + f_equal. unfold sparse_at. rewrite <- (vals_in_at b), vals_in_nil by auto. cbn [sum fold_right]. ring. }
  destruct U2 as (C1 & C2 & C3 & C4 & C5 & C6 & C7 & C8 & C9).
  split; [auto|]. split; [auto|]. split; [auto|]. split; [auto|]. split; [auto|]. split; [auto|]. split; [auto|]. split; auto.
  intros i j Hi Hj P. rewrite <- C8 by auto. unfold at_, pos. cbn [d_ord d_ld d_vals with_vals]. rewrite A3, A4. reflexivity.
Qed.

Theorem lincomb_dnx_csy_checks (x : dnx T) alpha a beta b :
  (alpha <> zero /\ a = None) \/ (beta <> zero /\ b = None) \/
  (exists m, a = Some (Some m) /\ (d_rows m <> d_rows x \/ d_cols m <> d_cols x \/ d_ord m <> d_ord x \/ d_upl m <> d_upl x)) \/
  (exists m, b = Some m /\ (nrows m <> d_rows x \/ ncols m <> d_cols x \/ upl m <> d_upl x)) ->
  lincomb_dnx_csy add mul zero one eqb x alpha a beta b = Fail.
Proof.
  intros H. unfold lincomb_dnx_csy.
  destruct (negb (eqb alpha zero) && unset a) eqn:W1; auto. destruct (negb (eqb beta zero) && unset b) eqn:W2; auto.
  destruct H as [[H ->]|[[H ->]|[(m & -> & H)|(m & -> & H)]]].
  - destruct (eqb alpha zero) eqn:E; [apply EQ in E; contradiction|discriminate].
  - destruct (eqb beta zero) eqn:E; [apply EQ in E; contradiction|discriminate].
  - enough (G : wrong_a x (Some (Some m)) = true) by now rewrite G. cbn [wrong_a]. unfold lincomb_wrong. cbn [deref].
    destruct (same_dims m x) eqn:S; auto. apply same_dims_spec in S. cbn [negb orb].
    destruct (order_eqb_spec (d_ord m) (d_ord x)); auto. cbn [negb orb]. destruct (uplo_eqb_spec (d_upl m) (d_upl x)); auto. tauto.
  - destruct (wrong_a x a); auto. enough (G : wrong_b x (Some m) = true) by now rewrite G. cbn [wrong_b].
    destruct (Nat.eqb_spec (nrows m) (d_rows x)); auto. destruct (Nat.eqb_spec (ncols m) (d_cols x)); auto. cbn [andb negb orb].
    destruct (uplo_eqb_spec (upl m) (d_upl x)); auto. tauto.
Qed.

(** ** gemv_csx *)
Lemma filter_lines (f : nat -> list (entry T)) i n k : (forall p e, In e (f p) -> e_row e = p) -> k <= i -> i < k + n ->
  filter (fun e => e_row e =? i) (flat_map f (seq k n)) = f i.
Proof.
  intros Hf. revert k. induction n as [|n IH]; intros k H1 H2; [lia|]. cbn [seq flat_map]. rewrite filter_app.
  assert (All : forall l p, (forall e, In e l -> e_row e = p) -> filter (fun e : entry T => e_row e =? i) l = if p =? i then l else []).
  { induction l as [|e l IHl]; intros p Hl; cbn [filter]; [now destruct (p =? i)|]. rewrite (Hl e (or_introl eq_refl)), (IHl p) by (intros; apply Hl; right; auto).
    destruct (p =? i); reflexivity. }
  rewrite (All (f k) k) by (intros; eapply Hf; eauto). destruct (Nat.eqb_spec k i).
  - subst i. rewrite filter_flat_map. rewrite <- (app_nil_r (f k)) at 2. f_equal.
    assert (N : forall l, (forall p, In p l -> p <> k) -> flat_map (fun p => filter (fun e => e_row e =? k) (f p)) l = []).
    { induction l as [|p l IHl]; intros Hl; auto. cbn [flat_map]. rewrite IHl by (intros; apply Hl; right; auto).
      rewrite (All (f p) p) by (intros; eapply Hf; eauto). destruct (Nat.eqb_spec p k); auto. exfalso. apply (Hl p); auto. left; auto. }
    apply N. intros p Hp. apply in_seq in Hp. lia.
  - cbn [app]. apply IH; lia.
Qed.

Lemma fold_dot (x : list T) (l : list (nat * T)) s : fold_left (fun s z => add s (mul (snd z) (nth (fst z) x zero))) l s =
  add s (fold_right add zero (map (fun z => mul (snd z) (nth (fst z) x zero)) l)).
Proof. revert s. induction l as [|z l IH]; intros s; cbn [fold_left map fold_right]; [ring|]. rewrite IH. ring. Qed.

(** y = alpha A x + beta y *)
Theorem gemv_csx_multiplies (a : csx T) (x y : list T) alpha beta : valid a -> length x = ncols a -> length y = nrows a ->
  exists y', gemv_csx add mul zero eqb a x y alpha beta = Ok y' /\ length y' = length y /\
    forall i, i < nrows a -> nth_error y' i = Some (add (mul alpha (row_times zero add mul a x i)) (mul beta (nth i y zero))).
Proof.
  intros V Lx Ly. unfold gemv_csx. rewrite Lx, Ly, !Nat.eqb_refl. cbn [negb].
  pose proof (valid_rep a V) as H. set (rs := map (line a) (seq 0 (size_primary a))) in *.
  destruct (ord a) eqn:O.
  - set (y0 := if eqb beta zero then repeat zero (nrows a) else y).
    assert (L0 : length y0 = nrows a) by (unfold y0; destruct (eqb beta zero); [apply repeat_length|auto]).
    assert (P : size_primary a = nrows a) by (unfold size_primary; now rewrite O).
    assert (S : size_secdary a = ncols a) by (unfold size_secdary; now rewrite O).
    assert (RT' : forall r, r < nrows a -> row_times zero add mul a x r = fold_right add zero (map (fun z => mul (snd z) (nth (fst z) x zero)) (nth r rs []))).
    { intros r Hr. unfold row_times. rewrite (rep_entries a rs H), O. rewrite filter_lines.
      - rewrite map_map. reflexivity.
      - intros p e He. apply in_map_iff in He. destruct He as (z & <- & _). reflexivity.
      - lia.
      - rewrite (r_len _ _ H). lia. }
    destruct (scatter_map (fun r => r) (fun r o => add (mul alpha (row_times zero add mul a x r)) (mul beta o)) (gemv_row add mul zero a x alpha beta) (seq 0 (nrows a)) y0)
      as (y' & E & L & Vy & _); auto.
    + apply seq_NoDup.
    + intros r Hr. apply in_seq in Hr. lia.
    + intros w r Hr Hw. apply in_seq in Hr. unfold gemv_row.
      pose proof (row_loop' a rs r (nth r rs []) (dot_elem add mul a x) (fun s z => u <- rd x (fst z) ;; Ok (add s (mul (snd z) u))) zero H) as RL.
      assert (RX : foldM (fun s z => u <- rd x (fst z) ;; Ok (add s (mul (snd z) u))) (nth r rs []) zero = Ok (row_times zero add mul a x r)).
      { rewrite RT' by lia. transitivity (foldM (fun s z => Ok (add s (mul (snd z) (nth (fst z) x zero)))) (nth r rs []) zero).
        - apply foldM_ext_in. intros s z Hz. rewrite (rd_ok x (fst z) zero). { reflexivity. }
          rewrite Lx, <- S. apply (r_range _ _ H (nth r rs [])); auto. apply nth_In. rewrite (r_len _ _ H). lia.
        - assert (G : forall l s, foldM (fun s (z : nat * T) => Ok (add s (mul (snd z) (nth (fst z) x zero)))) l s =
             Ok (fold_left (fun s z => add s (mul (snd z) (nth (fst z) x zero))) l s)) by (induction l; intros; cbn [foldM fold_left obind]; auto).
          rewrite G, fold_dot. f_equal. ring. }
      rewrite RX in RL. clear RX.
      assert (R1 : rd (ptrs a) r = Ok (offs rs r)) by (apply rd_some; rewrite (r_ptrs _ _ H); apply nth_error_map_offs; rewrite (r_len _ _ H); lia).
      assert (R2 : rd (ptrs a) (r + 1) = Ok (offs rs (r + 1))) by (apply rd_some; rewrite (r_ptrs _ _ H); apply nth_error_map_offs; rewrite (r_len _ _ H); lia).
      rewrite R1, R2 in *. cbn [obind] in *. rewrite RL; auto.
      * apply (rep_nth a); auto. lia.
      * intros s i z E1 E2. unfold dot_elem. rewrite (rd_some _ _ _ E1), (rd_some _ _ _ E2). reflexivity.
    + exists y'. split; auto. split; [congruence|]. intros i Hi. rewrite (Vy i) by (apply in_seq; lia).
      unfold y0. destruct (eqb beta zero) eqn:Eb.
      * apply EQ in Eb. subst beta. rewrite nth_error_repeat by auto. cbn [option_map]. f_equal. ring.
      * rewrite (nth_error_nth' y zero) by lia. reflexivity.
  - set (y0 := if eqb beta zero then Ok (repeat zero (nrows a)) else foldM (scale_elem mul beta) (seq 0 (nrows a)) y).
    assert (P : size_primary a = ncols a) by (unfold size_primary; now rewrite O).
    assert (Y0 : exists w, y0 = Ok w /\ length w = nrows a /\ forall i, i < nrows a -> nth_error w i = Some (mul beta (nth i y zero))).
    { unfold y0. destruct (eqb beta zero) eqn:Eb.
      - apply EQ in Eb. subst beta. eexists. split; [reflexivity|]. split; [apply repeat_length|]. intros i Hi. rewrite nth_error_repeat by auto. f_equal. ring.
      - destruct (scatter_map (fun r => r) (fun _ o => mul o beta) (scale_elem mul beta) (seq 0 (nrows a)) y) as (w & E & L & Vy & _); auto.
        + apply seq_NoDup.
        + intros r Hr. apply in_seq in Hr. lia.
        + exists w. split; auto. split; [congruence|]. intros i Hi. rewrite (Vy i) by (apply in_seq; lia).
          rewrite (nth_error_nth' y zero) by lia. cbn [option_map]. f_equal. ring. }
    destruct Y0 as (w & E0 & L0 & V0). rewrite E0. cbn [obind].
    set (fe := fun v (e : entry T) => o <- rd v (e_row e) ;; wr v (e_row e) (add o (mul (mul alpha (e_val e)) (nth (e_col e) x zero)))).
    assert (EL : foldM (gemv_col add mul a x alpha) (seq 0 (ncols a)) w = foldM fe (entries a) w).
    { rewrite <- P. rewrite <- (entries_loop a (fun col => axpy_elem add mul a alpha (nth col x zero)) fe w V).
      - apply foldM_ext_in. intros s col Hc. apply in_seq in Hc. unfold gemv_col. rewrite (rd_ok x col zero) by lia. reflexivity.
      - intros p s i z Hp E1 E2. unfold axpy_elem. rewrite (rd_some _ _ _ E1), (rd_some _ _ _ E2), O. reflexivity. }
    rewrite EL.
    destruct (scatter_ok add e_row (fun e => Some (mul (mul alpha (e_val e)) (nth (e_col e) x zero))) fe (entries a) w) as (y' & E & L & N).
    + eauto.
    + intros e He. rewrite L0. apply entry_range; auto.
    + intros v e b He Hv Eb. inversion Eb; subst b. reflexivity.
    + exists y'. split; auto. split; [congruence|]. intros i Hi. rewrite N, V0 by auto.
      assert (G : forall l b, fold_left (hits add e_row (fun e => Some (mul (mul alpha (e_val e)) (nth (e_col e) x zero))) i) l (Some b) =
        Some (add (mul alpha (fold_right add zero (map (fun e => mul (e_val e) (nth (e_col e) x zero)) (filter (fun e => e_row e =? i) l)))) b)).
      { induction l as [|e l IH]; intros b; cbn [fold_left filter map fold_right]; [f_equal; ring|].
        unfold hits at 2. destruct (e_row e =? i); cbn [lift2]; rewrite IH; cbn [map fold_right]; f_equal; ring. }
      rewrite G. reflexivity.
Qed.

Theorem gemv_csx_checks (a : csx T) (x y : list T) alpha beta : (length x <> ncols a \/ length y <> nrows a) ->
  gemv_csx add mul zero eqb a x y alpha beta = Fail.
Proof.
  intros H. unfold gemv_csx. destruct (Nat.eqb_spec (length x) (ncols a)); auto. destruct (Nat.eqb_spec (length y) (nrows a)); auto. lia.
Qed.
End Exact.

(** ** Examples over the integers *)
Lemma Z_ring : ring_theory 0%Z 1%Z Z.add Z.mul Z.sub Z.opp (@eq Z).
Proof. exact InitialRing.Zth. Qed.
Lemma Z_eqb a b : Z.eqb a b = true <-> a = b.
Proof. apply Z.eqb_eq. Qed.

(** X = 2 X + 3 B on a lower triangle with padding *)
Definition ex_x : dnx Z := Dnx 2 2 3 OrdR UploL SymGeneral [1; 7; 8; 2; 3; 9]%Z.
Definition ex_b : csx Z := Csx 2 2 2 OrdC UploL [0; 1; 2] [1; 1] [10; 20]%Z.
Example ex_hyps : fits ex_x /\ square_part ex_x /\ sparse_ok ex_x (Some ex_b).
Proof.
  split; [|split].
  - split; [cbn; lia|]. intros i j Hi Hj. cbn in *. unfold pos. cbn. lia.
  - intros _. reflexivity.
  - split; [|repeat split].
    + split; try reflexivity.
      * repeat split.
      * intros p Hp. cbn in Hp. destruct p as [|[|p]]; cbn; lia.
      * intros c Hc. cbn in *. lia.
    + intros e He. cbn in He. destruct He as [<-|[<-|[]]]; reflexivity.
Qed.
Example lincomb_dnx_csy_ex : lincomb_dnx_csy Z.add Z.mul 0%Z 1%Z Z.eqb ex_x 2%Z (Some None) 3%Z (Some ex_b) =
  Ok (with_vals ex_x [2; 7; 8; 34; 66; 9]%Z).
Proof. vm_compute. reflexivity. Qed.
Example lincomb_dnx_ex : lincomb_dnx Z.add Z.mul 0%Z Z.eqb ex_x 2%Z (Some None) 5%Z (Some (Some ex_x)) = Ok (with_vals ex_x [7; 7; 8; 14; 21; 9]%Z).
Proof. vm_compute. reflexivity. Qed.
Example gemv_ex : gemv_csx Z.add Z.mul 0%Z Z.eqb ex_b [1; 2]%Z [5; 6]%Z 2%Z 3%Z = Ok [15; 118]%Z.
Proof. vm_compute. reflexivity. Qed.

Print Assumptions lincomb_dnx_combines.
Print Assumptions lincomb_dnx_checks.
Print Assumptions lincomb_dnx_csy_combines.
Print Assumptions lincomb_dnx_csy_checks.
Print Assumptions gemv_csx_multiplies.
Print Assumptions gemv_csx_checks.
