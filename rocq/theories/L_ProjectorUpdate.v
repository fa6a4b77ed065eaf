(** * Lemmas on the update of the projector *)
From Coq Require Import List Arith ZArith Lia Bool Reals Lra.
From Verif Require Import Base S_Order S_Mpi M_Mpi M_Comm M_Nb S_Nb M_Exchange M_Distribute M_Scan S_Scan P_Scan M_Dual S_Dual L_Dual L_Dual2 L_Dual4 P_Dual M_DualGraph S_DualGraph L_DualGraph L_DualGraph3 L_DualGraph4 P_DualGraph S_Equality L_Equality6 M_TotalFeti S_Feti
  L_TotalFeti L_TotalFeti2 M_Projector S_Projector L_Projector L_Projector2 L_Projector3 M_ProjectorRanks S_ProjectorRanks P_Projector M_ProjectorG S_ProjectorG L_ProjectorG L_ProjectorG2 L_ProjectorG3 P_ProjectorG M_ProjectorGGt S_ProjectorGGt
  L_ProjectorGGt L_ProjectorGGt2 L_ProjectorGGt4 P_ProjectorGGt S_ProjectorInverse L_ProjectorInverse P_ProjectorInverse M_ProjectorUpdate S_ProjectorUpdate.
Import ListNotations.
Local Open Scope out_scope.
Local Open Scope nat_scope.

Section Update.
  Variables (n limit chunk nthreads : nat) (first : nat -> nat) (nb : nat -> list nat) (sort : list nat -> list nat).
  Variables (u1 u2 u3 : Z) (allocG allocGGt : nat -> nat -> nat -> list nat * list nat * list R) (fresh : nat -> nat -> list R).
  Variables (solve forward backward : list nat -> list nat -> list R -> list R -> list R).
  Hypothesis Hn : 0 < n.
  Hypothesis Hc : 0 < chunk.
  Hypothesis Ht : 0 < nthreads.
  Hypothesis HS : sort_contract Nat.ltb sort.
  Hypothesis Hlimit : forall r, r < n -> 3 * (first (r + 1) - first r) <= limit.
  Hypothesis HaG : forall r nr nz, let '(rows, cols, vals) := allocG r nr nz in length rows = nr + 1 /\ length cols = nz /\ length vals = nz.
  Hypothesis HaGGt : forall r nr nz, let '(rows, cols, vals) := allocGGt r nr nz in length rows = nr + 1 /\ length cols = nz /\ length vals = nz.
  Hypothesis Hf : forall r k, length (fresh r k) = k.
  Local Notation D := (decomposed first nb).
  Local Notation posed := (posed n limit first nb u1 u2 solve forward backward).
  Local Notation input_of := (input_of first).
  Local Notation all := (everything n first).

  (** what depends only on the multipliers and on the numbers of kernels *)
  Definition patterned (L : list (list nat)) (ksize : nat -> nat) (s : nat -> pstate R) : Prop :=
    exists g oldG oldGGt, forall r, r < n -> vertices_set n first L nb ksize r (g r) (s_vs (s r)) /\ graph_ok n first L nb ksize r (s_vs (s r), s_es (s r)) /\
      s_sizes (s r) = map ksize (own first r) /\ s_lambdas (s r) = length (held first L r) /\ s_roffset (s r) = first_kernel first ksize (first r) /\ s_rsize (s r) = length (kidx ksize (own first r)) /\
      s_total (s r) = length (kidx ksize all) /\ distribution nthreads (s_dist (s r)) (length (kidx ksize (own first r))) /\
      s_G (s r) = stored_G n first L ksize r (oldG r) /\ length (oldG r) = list_sum (lens first L ksize r (own first r ++ above n first L r)) /\
      s_GGt (s r) = GGt_stored n first L ksize (oldGGt r) r /\ length (oldGGt r) = nnz_of n first L ksize /\
      length (s_Gx (s r)) = length (kidx ksize all) /\ length (s_iGGtGx (s r)) = length (kidx ksize (own first r)) /\ length (s_e (s r)) = length (kidx ksize all).

  Lemma nrows_R len ksize Rk r : map nrows (R_stored first len ksize Rk r) = map ksize (own first r).
  Proof. unfold R_stored. rewrite map_map. reflexivity. Qed.
  Lemma R_length len ksize Rk r : length (R_stored first len ksize Rk r) = length (own first r).
  Proof. unfold R_stored. apply map_length. Qed.
  Lemma kernel_size_R len ksize Rk r : kernel_size (R_stored first len ksize Rk r) = list_sum (map ksize (own first r)).
  Proof.
    unfold kernel_size, R_stored. assert (G : forall l s, fold_left (fun s R => s + nrows R) (map (fun d => {| nrows := ksize d; ncols := len d; vals := flat_map (fun k => map (Rk d k) (seq 0 (len d))) (seq 0 (ksize d)) |}) l) s = s + list_sum (map ksize l)).
    { clear. induction l as [|d l IH]; intros s; cbn [map fold_left list_sum fold_right]; [lia|]. rewrite IH. cbn [nrows]. unfold list_sum. lia. }
    rewrite G. reflexivity.
  Qed.
  Lemma kidx_sum ksize ds : length (kidx ksize ds) = list_sum (map ksize ds).
  Proof. unfold kidx. induction ds as [|d ds IH]; auto. cbn [flat_map map list_sum fold_right]. rewrite app_length, map_length, seq_length, IH. reflexivity. Qed.
  Lemma push_R len ksize Rk r : push_vertices (first r) (R_stored first len ksize Rk r) = pushed_vertices first ksize r.
  Proof.
    unfold push_vertices, pushed_vertices. rewrite nrows_R, R_length. unfold own, own_domains. rewrite seq_length.
    assert (G : forall k b vs, fold_left (fun vs p => push_vertex (fst p) (first r + fst p) (snd p) vs) (combine (seq b k) (map ksize (seq (first r + b) k))) vs = fold_left (fun vs i => push_vertex i (first r + i) (ksize (first r + i)) vs) (seq b k) vs).
    { induction k as [|k IH]; intros b vs; auto. cbn [seq map combine fold_left fst snd]. replace (S (first r + b)) with (first r + S b) by lia. apply IH. }
    specialize (G (first (r + 1) - first r) 0 []). rewrite Nat.add_0_r in G. exact G.
  Qed.

  (** ** The decision *)
  Lemma needs_same q ksize s r : s_sizes s = map ksize (own first r) -> s_lambdas s = length (held first (p_L q) r) -> (forall d, In d (own first r) -> ksize d = p_ksize q d) -> needs_reset s (input_of q r) = false.
  Proof.
    intros E1 E2 E3. unfold needs_reset. cbn [in_R1 in_lambdas S_ProjectorUpdate.input_of]. rewrite E1, E2, map_length, R_length, !Nat.eqb_refl. cbn [negb orb].
    unfold R_stored. revert E3. generalize (own first r). induction l as [|d l IH]; intros E3; auto. cbn [map combine existsb fst snd nrows]. rewrite E3 by (left; auto). rewrite Nat.eqb_refl. cbn [negb orb]. apply IH. intros x Hx. apply E3. right; auto.
  Qed.
  Lemma needs_resized q ksize s r : s_sizes s = map ksize (own first r) -> (s_lambdas s <> length (held first (p_L q) r) \/ exists d, In d (own first r) /\ ksize d <> p_ksize q d) -> needs_reset s (input_of q r) = true.
  Proof.
    intros E1 [E2|(d & Id & E3)]; unfold needs_reset; cbn [in_R1 in_lambdas S_ProjectorUpdate.input_of].
    - apply Nat.eqb_neq in E2. rewrite E2. cbn [negb]. now rewrite !orb_true_r.
    - apply orb_true_iff. right. rewrite E1. unfold R_stored. revert Id. generalize (own first r). induction l as [|x l IH]; intros Id; [contradiction|]. cbn [map combine existsb fst snd nrows]. destruct Id as [->|Id]; apply orb_true_iff.
      + left. apply Nat.eqb_neq in E3. now rewrite E3.
      + right. auto.
  Qed.
  Lemma any_true s i : any_reset n s i = true <-> exists r : nat, r < n /\ needs_reset (s r) (i r : pinput R) = true.
  Proof.
    unfold any_reset. rewrite existsb_exists. split; intros (r & H1 & H2); exists r; split; auto; [apply in_seq in H1; lia|apply in_seq; lia].
  Qed.
  Lemma any_same p q s : patterned (p_L p) (p_ksize p) s -> p_L p = p_L q -> p_ksize p = p_ksize q -> any_reset n s (input_of q) = false.
  Proof.
    intros (g & oG & oM & H) E1 E2. apply not_true_is_false. intros A. apply any_true in A. destruct A as (r & Hr & A). destruct (H r Hr) as (_ & _ & S1 & S2 & _). rewrite (needs_same q (p_ksize p)) in A; auto; [discriminate|now rewrite S2, E1|]. now rewrite E2.
  Qed.
  Lemma any_resized p q s : patterned (p_L p) (p_ksize p) s -> resized n first p q -> any_reset n s (input_of q) = true.
  Proof.
    intros (g & oG & oM & H) (r & Hr & A). apply any_true. exists r. split; auto. destruct (H r Hr) as (_ & _ & S1 & S2 & _). apply (needs_resized q (p_ksize p)); auto. rewrite S2. exact A.
  Qed.

  Lemma set_GGt_ext D' vs es ro ro' nr nr' u al al' (M : nat -> ggt R) : (forall r, r < n -> ro r = ro' r /\ nr r = nr' r /\ al r = al' r) -> run_set_GGt n D' vs es ro nr u al M -> run_set_GGt n D' vs es ro' nr' u al' M.
  Proof.
    intros E (cnt & offs & rows & cols & H1 & H2 & H3 & rows' & cols' & H4 & H5 & H6). exists cnt, offs, rows, cols. split; auto. split; auto. cbv zeta in *. split; [|exists rows', cols'; split; [|split; auto]].
    - intros r Hr. destruct (E r Hr) as (<- & _ & <-). apply H3, Hr.
    - unfold gather_all in *. erewrite map_ext_in; [exact H4|]. intros r Hr. apply in_seq in Hr. cbv beta. destruct (E r ltac:(lia)) as (<- & <- & _). reflexivity.
    - intros r Hr. destruct (E r Hr) as (_ & _ & <-). apply H6, Hr.
  Qed.
  (** ** The reset *)
  Lemma reset_runs q s : posed q -> (forall r, r < n -> s_dist (s r) <> [] /\ nth 0 (s_dist (s r)) 0 = 0) ->
    exists s', run_reset sort n limit chunk nthreads D u1 u2 u3 allocG allocGGt fresh (input_of q) s s' /\ patterned (p_L q) (p_ksize q) s' /\ forall r, r < n -> s_type (s' r) = s_type (s r).
  Proof.
    intros HQ HD. destruct HQ as [HC HN HB HI HK HZ HU HL HSol]. set (L := p_L q) in *. set (ksize := p_ksize q) in *.
    destruct (dual_graph_exact n limit first L nb (p_cmap q) ksize sort HC HN HS Hlimit u2 HK (fun H => proj2 (HU H))) as (goffs & G1 & g & G2 & G3).
    set (total := length (kidx ksize all)).
    assert (KS : forall r, kernel_size (in_R1 (input_of q r)) = length (kidx ksize (own first r))) by (intros r; cbn [in_R1 S_ProjectorUpdate.input_of]; rewrite kernel_size_R, kidx_sum; reflexivity).
    assert (ET : first_kernel first ksize (first n) = total) by (rewrite first_kernel_length; reflexivity).
    assert (FR : forall r, r <= n -> first_kernel first ksize (first r) <= total).
    { intros r Hr. rewrite first_kernel_length. pose proof (before_le n first L nb (p_cmap q) HC ksize r Hr) as B. unfold kernels_before in B. rewrite kernel_vector_length in B. exact B. }
    assert (SB : forall i, i <= n -> sum_below (map (fun r => Z.of_nat (kernel_size (in_R1 (input_of q r)))) (seq 0 n)) i = Z.of_nat (first_kernel first ksize (first i))).
    { intros i Hi. rewrite <- (kernels_upto n first L nb (p_cmap q) ksize HC i Hi). f_equal. apply map_ext. intros r. f_equal. cbn [in_R1 S_ProjectorUpdate.input_of]. rewrite kernel_size_R, local_kernels_ok. reflexivity. }
    set (koffs := map (fun r => (Z.of_nat (first_kernel first ksize (first r)), Z.of_nat total)) (seq 0 n)).
    assert (K1 : exscan (Signed 32) u1 (map (fun r => Z.of_nat (kernel_size (in_R1 (input_of q r)))) (seq 0 n)) = Ok koffs).
    { rewrite exscan_sums.
      - rewrite map_length, seq_length. f_equal. apply map_ext_in. intros r Hr. apply in_seq in Hr. rewrite !SB by lia. rewrite ET. reflexivity.
      - rewrite map_length, seq_length. intros i Hi. rewrite SB by auto. specialize (FR i Hi). rewrite ET in HK. unfold representable. change (32 - 1)%Z with 31%Z. lia.
      - rewrite map_length, seq_length. intros H1. specialize (HU H1). rewrite (nth_of_seq (fun r => Z.of_nat (kernel_size (in_R1 (input_of q r))))) by lia. rewrite KS, kidx_sum. apply HU. }
    assert (KO : forall r, r < n -> nth r koffs (0, 0)%Z = (Z.of_nat (first_kernel first ksize (first r)), Z.of_nat total)) by (intros r Hr; unfold koffs; now rewrite nth_of_seq).
    set (dist := fun r => match kernel_distribution chunk nthreads (length (kidx ksize (own first r))) (s_dist (s r)) with Ok d => d | _ => [] end).
    assert (DI : forall r, r < n -> kernel_distribution chunk nthreads (length (kidx ksize (own first r))) (s_dist (s r)) = Ok (dist r) /\ distribution nthreads (dist r) (length (kidx ksize (own first r)))).
    { intros r Hr. destruct (HD r Hr) as (D1 & D2). destruct (kernel_distribution_covers chunk nthreads (length (kidx ksize (own first r))) _ Hc Ht D1 D2) as (d & E & Hd). unfold dist. rewrite E. auto. }
    set (vs := fun r => match set_G (allocG r) (D r) (fst (g r)) with Ok (vs, _) => vs | _ => [] end).
    set (vals := fun r => match set_G (allocG r) (D r) (fst (g r)) with Ok (_, M) => g_vals M | _ => [] end).
    assert (S0 : forall r, r < n -> set_G (allocG r) (D r) (fst (g r)) = Ok (vs r, stored_G n first L ksize r (vals r)) /\ vertices_set n first L nb ksize r (g r) (vs r) /\ length (vals r) = list_sum (lens first L ksize r (own first r ++ above n first L r))).
    { intros r Hr. destruct (set_G_ok n first L nb (p_cmap q) ksize HC r Hr (allocG r) (g r) (G3 r Hr) (HaG r)) as (v & w & E & HL' & HV). unfold vs, vals. rewrite E. cbn [g_vals stored_G]. auto. }
    assert (GO : forall r, r < n -> graph_ok n first L nb ksize r (vs r, snd (g r))) by (intros r Hr; destruct (S0 r Hr) as (_ & HV & _); apply (set_graph_ok n first L nb ksize r (g r)); auto).
    pose proof (set_GGt_runs n first L nb (p_cmap q) ksize HC Hn u3 vs (fun r => snd (g r)) (fun r => length (kidx ksize (own first r))) (fun r => allocGGt r total) GO) as SG.
    assert (LG : forall r, length (snd (allocGGt r total (nnz_of n first L ksize))) = nnz_of n first L ksize).
    { intros r. specialize (HaGGt r total (nnz_of n first L ksize)). destruct (allocGGt r total (nnz_of n first L ksize)) as ((?, ?), ?). apply HaGGt. }
    eexists. split; [|split].
    - exists koffs, goffs, g, vs, (fun r => stored_G n first L ksize r (vals r)), (fun r => GGt_stored n first L ksize (snd (allocGGt r total (nnz_of n first L ksize))) r), dist.
      split; [exact K1|]. split.
      { rewrite <- G1. f_equal. apply map_ext. intros r. do 2 f_equal. cbn [in_R1 S_ProjectorUpdate.input_of dbegin decomposed]. now rewrite push_R. }
      cbv zeta. split; [intros r Hr; rewrite KS; apply DI, Hr|]. split.
      { erewrite map_ext; [exact G2|]. intros r. cbn [in_R1 in_cmap S_ProjectorUpdate.input_of]. cbn [dbegin decomposed]. now rewrite push_R. }
      split; [intros r Hr; apply S0, Hr|]. split.
      { refine (set_GGt_ext _ _ _ _ _ _ _ _ _ _ _ _ (SG (fun r Hr => eq_sym (kernel_vector_length ksize (own first r) (fun _ _ => 0%R))) (fun r nz => HaGGt r total nz) HZ)).
        intros r Hr. rewrite KO by auto. cbn [fst snd g_nrows stored_G]. rewrite !Nat2Z.id. auto. }
      intros r Hr. reflexivity.
    - exists g, vals, (fun r => snd (allocGGt r total (nnz_of n first L ksize))). intros r Hr. cbn [s_sizes s_lambdas s_roffset s_rsize s_total s_dist s_vs s_es s_G s_GGt s_Gx s_iGGtGx s_e]. rewrite KO by auto. cbn [fst snd]. rewrite !Nat2Z.id, !Hf, !KS. fold total.
      destruct (S0 r Hr) as (_ & V1 & V2). split; [exact V1|split; [exact (GO r Hr)|split; [apply nrows_R|do 5 (split; [first [reflexivity|exact (proj2 (DI r Hr))]|])]]].
      split; [reflexivity|split; [exact V2|split; [reflexivity|split; [apply LG|auto]]]].
    - reflexivity.
  Qed.

  (** ** The right side *)
  Lemma patterned_e L ksize s s' e : patterned L ksize s -> (forall r, r < n -> s' r = with_e (s r) (e r)) -> (forall r, r < n -> length (e r) = length (kidx ksize all)) -> patterned L ksize s'.
  Proof.
    intros (g & oG & oM & H) E HE. exists g, oG, oM. intros r Hr. rewrite E by auto. cbn [with_e s_sizes s_lambdas s_roffset s_rsize s_total s_dist s_vs s_es s_G s_GGt s_Gx s_iGGtGx s_e]. rewrite HE by auto.
    destruct (H r Hr) as (H1 & H2 & H3 & H4 & H5 & H6 & H7 & H8 & H9 & H10 & H11 & H12 & H13 & H14 & H15). do 14 (split; [assumption|]). reflexivity.
  Qed.
  Lemma goffsets_ok L cmap ksize r vs es : consistent n first L nb cmap -> r < n -> graph_ok n first L nb ksize r (vs, es) ->
    goffsets (first r) vs (length (own first r)) = Ok (map (first_kernel first ksize) (own first r)).
  Proof.
    intros HC Hr HG. unfold goffsets. assert (G : forall k, k <= length (own first r) -> foldM (fun l d => match mget (first r + d) vs with Some v => Ok (l ++ [v_goffset v]) | None => Fail end) (seq 0 k) [] = Ok (map (first_kernel first ksize) (seq (first r) k))).
    { induction k as [|k IH]; intros Hk; auto. rewrite !seq_S, foldM_app, IH by lia. cbn [obind foldM map Nat.add].
      assert (Id : In (first r + k) (own first r)) by (unfold own, own_domains in *; rewrite seq_length in Hk; apply in_seq; lia).
      destruct (vert_ok n first L nb cmap ksize HC r vs es Hr HG (first r + k)) as (E1 & _ & E3); [now apply own_vis|]. rewrite E1, map_app. cbn [map obind]. now rewrite (vo_goffset _ _ _ _ _ _ _ _ E3). }
    specialize (G _ (le_n _)). rewrite G. do 2 f_equal. unfold own, own_domains. now rewrite seq_length.
  Qed.
  Lemma kernel_offsets_R L cmap len ksize Rk r : consistent n first L nb cmap -> r < n ->
    map (fun o => first_kernel first ksize (first r) + o) (kernel_offsets 0 (R_stored first len ksize Rk r)) = map (first_kernel first ksize) (own first r).
  Proof.
    intros HC Hr. pose proof (first_le n first L nb cmap HC 0 r ltac:(lia)) as F0.
    assert (G : forall k o, map (fun x => first_kernel first ksize (first r) + x) (kernel_offsets (first_kernel first ksize (first r + o) - first_kernel first ksize (first r)) (map (fun d => {| nrows := ksize d; ncols := len d; vals := flat_map (fun k => map (Rk d k) (seq 0 (len d))) (seq 0 (ksize d)) |}) (seq (first r + o) k))) =
      map (first_kernel first ksize) (seq (first r + o) k)).
    { assert (FK : forall o, first_kernel first ksize (first r + S o) = first_kernel first ksize (first r + o) + ksize (first r + o)).
      { intros o. unfold first_kernel. replace (first r + S o - first 0) with (S (first r + o - first 0)) by lia. rewrite seq_S, map_app, list_sum_app. cbn [map list_sum fold_right]. replace (first 0 + (first r + o - first 0)) with (first r + o) by lia. lia. }
      assert (M : forall o, first_kernel first ksize (first r) <= first_kernel first ksize (first r + o)) by (induction o; [rewrite Nat.add_0_r; lia|rewrite FK; lia]).
      induction k as [|k IH]; intros o; auto. cbn [seq map kernel_offsets nrows]. pose proof (M o). f_equal; [lia|]. replace (S (first r + o)) with (first r + S o) by lia. rewrite <- IH. do 2 f_equal. rewrite FK. lia. }
    specialize (G (first (r + 1) - first r) 0). rewrite Nat.add_0_r, Nat.sub_diag in G. exact G.
  Qed.
  Lemma rhs_runs q s : posed q -> patterned (p_L q) (p_ksize q) s ->
    exists s', run_dual_rhs 0%R 1%R Rplus Rmult Ropp n D (input_of q) s s' /\ forall r, r < n -> s' r = with_e (s r) (kernel_vector (p_ksize q) all (e_of (p_len q) (p_Rk q) (p_f q))).
  Proof.
    intros HQ (g & oG & oM & H). pose proof (po_maps _ _ _ _ _ _ _ _ _ _ HQ) as HC. set (ksize := p_ksize q) in *. set (ev := e_of (p_len q) (p_Rk q) (p_f q)).
    eexists. split; [|intros r Hr; reflexivity].
    exists (fun r => put (kernels_before first ksize r) (kernels_before first ksize r + length (kidx ksize (own first r))) (s_e (s r)) (kernel_vector ksize (own first r) ev)), (fun _ => kernel_vector ksize all ev).
    assert (KB : forall r, first_kernel first ksize (first r) = kernels_before first ksize r) by (intros r; rewrite first_kernel_length; unfold kernels_before; rewrite kernel_vector_length; reflexivity).
    assert (Room : forall r, r < n -> kernels_before first ksize r + length (kidx ksize (own first r)) <= length (kidx ksize all)).
    { intros r Hr. apply (before_room n first (p_L q) nb (p_cmap q) HC ksize r Hr). }
    split; [|split; [|intros; reflexivity]].
    - intros r Hr. destruct (H r Hr) as (_ & H2 & _ & _ & H5 & _ & _ & _ & _ & _ & _ & _ & _ & _ & H15). unfold local_e. cbn [in_R1 in_f S_ProjectorUpdate.input_of dbegin decomposed]. rewrite R_length. rewrite (goffsets_ok _ _ ksize r _ _ HC Hr H2). cbn [obind].
      rewrite <- (kernel_offsets_R _ _ (p_len q) ksize (p_Rk q) r HC Hr). unfold compute_e. rewrite KB. apply e_ok. rewrite H15. apply Room, Hr.
    - unfold gather_all. set (arr := fun r => put (kernels_before first ksize r) (kernels_before first ksize r + length (kidx ksize (own first r))) (s_e (s r)) (kernel_vector ksize (own first r) ev)).
      assert (LE : forall r, r < n -> length (s_e (s r)) = length (kidx ksize all)) by (intros r Hr; apply (H r Hr)).
      erewrite map_ext_in; [apply (kernels_gathered n first (p_L q) nb (p_cmap q) HC ksize ev arr Hn)|].
      + intros r Hr. pose proof (Room r Hr) as RR. unfold arr. rewrite Base.put_length; rewrite ?kernel_vector_length; auto; rewrite ?LE by auto; lia.
      + intros r Hr. exists (s_e (s r)). split; auto.
      + intros r Hr. apply in_seq in Hr. destruct (H r ltac:(lia)) as (_ & _ & _ & _ & H5 & H6 & _). cbv beta. rewrite H5, H6, KB. reflexivity.
  Qed.

  (** ** The matrices *)
  Definition assembled (q : problem) (J : inverse) (s : nat -> pstate R) : Prop :=
    forall r, r < n -> s_G (s r) = G_values n first (p_L q) (p_ksize q) (p_len q) (p_row q) (p_Rk q) r /\ rows_of_inverse n first (p_ksize q) J r (s_inv (s r), s_type (s r)).
  Lemma matrices_run q s type : posed q -> patterned (p_L q) (p_ksize q) s -> (kernel_list n first (p_ksize q) <> [] -> type = GGT \/ type = LU) -> (forall r, r < n -> s_type (s r) = type) ->
    exists s' J, run_matrices 0%R 1%R Rplus Rminus Rmult n limit D solve forward backward (input_of q) s s' /\ patterned (p_L q) (p_ksize q) s' /\ inverts n first (p_L q) (p_len q) (p_row q) (p_ksize q) (p_Rk q) J /\
      assembled q J s' /\ forall r, r < n -> s_e (s' r) = s_e (s r).
  Proof.
    intros HQ (g & oG & oM & H) HT Hty. destruct HQ as [HC HN HB HI HK HZ HU HL HSol]. set (L := p_L q) in *. set (ksize := p_ksize q) in *. set (len := p_len q) in *. set (row := p_row q) in *. set (Rk := p_Rk q) in *.
    assert (EG : forall r, r < n -> s_G (s r) = stored_G n first L ksize r (oG r)) by (intros r Hr; apply (H r Hr)).
    assert (EM : forall r, r < n -> s_GGt (s r) = GGt_stored n first L ksize (oM r) r) by (intros r Hr; apply (H r Hr)).
    destruct (update_G_runs n limit first L nb (p_cmap q) ksize HC g (fun r => s_vs (s r)) len row Rk oG HB) as (R1 & R2); auto; [intros r Hr; apply (H r Hr)|intros r Hr; apply (H r Hr)|].
    destruct (values_run n first L nb (p_cmap q) ksize HC Hn (fun r => s_vs (s r)) (fun r => s_es (s r)) len row Rk (G_values n first L ksize len row Rk) oM HB) as (V1 & V2); auto; [intros r Hr; apply (H r Hr)|intros r Hr; apply (H r Hr)|].
    assert (TY : exists type', (type' = GGT \/ type' = LU) /\ forall r M, invert 0%R 1%R (fun r => first_kernel first ksize (first r)) (length (kernel_list n first ksize)) (fun r => length (kidx ksize (own first r))) solve forward backward type r M =
      invert 0%R 1%R (fun r => first_kernel first ksize (first r)) (length (kernel_list n first ksize)) (fun r => length (kidx ksize (own first r))) solve forward backward type' r M).
    { destruct (kernel_list n first ksize) as [|k ks] eqn:EK; [exists GGT; split; auto|exists type; split; auto]. apply HT. discriminate. }
    destruct TY as (type' & HT' & ET). destruct (projector_inverse_exact n first L nb (p_cmap q) ksize HC len row Rk type' (GGt_values n first L ksize len row Rk) (fun r => length (kidx ksize (own first r))) solve forward backward HI HT') as (J & inv & I1 & I2); auto.
    { intros r Hr. now rewrite kernel_vector_length. }
    exists (fun r => with_matrices (s r) (G_values n first L ksize len row Rk r) (GGt_values n first L ksize len row Rk r) (inv r)), J. split; [|split; [|split; [|split]]]; auto.
    - exists (G_values n first L ksize len row Rk), (GGt_values n first L ksize len row Rk), inv. split; [|split; [|split; [|intros; reflexivity]]].
      + erewrite map_ext_in; [exact R1|]. intros r Hr. apply in_seq in Hr. destruct (H r ltac:(lia)) as (_ & _ & _ & _ & H5 & _). cbv beta. rewrite H5, EG by lia. reflexivity.
      + destruct V1 as (va & vb & W1 & W2 & W3). exists va, vb. split; [|split].
        * intros r Hr. rewrite EM by auto. apply W1, Hr.
        * unfold gather_all in *. erewrite map_ext_in; [exact W2|]. intros r Hr. apply in_seq in Hr. cbv beta. rewrite EM by lia. reflexivity.
        * intros r Hr. rewrite EM by auto. apply W3, Hr.
      + intros r Hr. destruct (H r Hr) as (_ & _ & _ & _ & H5 & _ & H7 & _). rewrite H7, Hty by auto. destruct (I2 r Hr) as (I3 & _). rewrite <- ET in I3. rewrite <- I3. unfold invert. rewrite H5. reflexivity.
    - exists g, (fun r => g_vals (G_values n first L ksize len row Rk r)), (fun r => gg_vals (GGt_values n first L ksize len row Rk r)). intros r Hr. cbn [with_matrices s_sizes s_lambdas s_roffset s_rsize s_total s_dist s_vs s_es s_G s_GGt s_Gx s_iGGtGx s_e].
      destruct (H r Hr) as (H1 & H2 & H3 & H4 & H5 & H6 & H7 & H8 & H9 & H10 & H11 & H12 & H13 & H14 & H15). do 8 (split; [assumption|]). split; [reflexivity|]. split; [symmetry; apply lens_vals|]. split; [reflexivity|]. split; [apply uvals_length|]. auto.
    - intros r Hr. cbn [with_matrices s_G s_inv s_type]. split; auto. destruct (I2 r Hr) as (_ & I4). destruct (inv r); exact I4.
  Qed.
End Update.
