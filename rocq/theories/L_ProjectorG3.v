(** * Lemmas: G and Gt of a rank *)
From Coq Require Import List Arith Lia Bool Reals Lra.
From Verif Require Import Base M_Nb S_Nb M_Exchange M_Dual S_Dual L_Dual2 L_Dual4 M_DualGraph S_DualGraph L_DualGraph3 L_DualGraph4 S_Equality L_Equality6 M_TotalFeti S_Feti L_TotalFeti L_TotalFeti2
  M_Projector S_Projector L_Projector2 L_Projector3 M_ProjectorG S_ProjectorG L_ProjectorG L_ProjectorG2.
Import ListNotations.
Local Open Scope out_scope.

(** ** CSR *)
Lemma combine_fst_snd {A B} (l : list (A * B)) : combine (map fst l) (map snd l) = l.
Proof. induction l as [|(a, b) l IH]; cbn; auto. now rewrite IH. Qed.
Lemma slice_concat {A} (bs : list (list A)) : forall pre i, i < length bs -> slice (nth i (psums (length pre) (map (@length A) bs)) 0) (nth (i + 1) (psums (length pre) (map (@length A) bs)) 0) (pre ++ concat bs) = nth i bs [].
Proof.
  induction bs as [|b bs IH]; intros pre i Hi; [cbn in Hi; lia|]. destruct i as [|i].
  - cbn [map psums nth Nat.add concat]. assert (E : forall s l, nth 0 (psums s l) 0 = s) by (intros s [|x l]; reflexivity). rewrite E. unfold slice. rewrite skipn_app, skipn_all, Nat.sub_diag. cbn [app skipn].
    replace (length pre + length b - length pre) with (length b) by lia. rewrite firstn_app, firstn_all, Nat.sub_diag. cbn [firstn]. now rewrite app_nil_r.
  - cbn [map psums nth Nat.add concat]. specialize (IH (pre ++ b) i ltac:(cbn in Hi; lia)). rewrite app_length, <- app_assoc in IH. exact IH.
Qed.
Lemma csr_blocks {T} (bs : list (list (nat * T))) k : k <= length bs ->
  csr_rows k (psums 0 (map (@length _) bs)) (concat (map (map fst) bs)) (concat (map (map snd) bs)) = firstn k bs.
Proof.
  intros Hk. unfold csr_rows. rewrite <- !concat_map. rewrite combine_fst_snd. apply (nth_ext _ _ [] []); [rewrite map_length, seq_length, firstn_length; lia|].
  intros i Hi. rewrite map_length, seq_length in Hi. rewrite map_seq_nth by auto. pose proof (slice_concat bs [] i ltac:(lia)) as SC. cbn [length app] in SC. rewrite SC. rewrite <- (firstn_skipn k bs) at 1. rewrite app_nth1; auto. rewrite firstn_length. lia.
Qed.

Section Rank.
  Variables (n : nat) (first : nat -> nat) (L : list (list nat)) (nb cmap : nat -> list nat) (ksize : nat -> nat).
  Variables (len : nat -> nat) (row : nat -> nat -> list (nat * R)) (Rk : nat -> nat -> nat -> R).
  Hypothesis HC : consistent n first L nb cmap.
  Hypothesis HB : entries_ok L len row.
  Local Notation own := (S_Feti.own first).
  Local Notation kidx := (kidx ksize).
  Local Notation multipliers_of := (multipliers_of first L).
  Local Notation mults r d := (map snd (multipliers_of r d)).
  Local Notation above := (above n first L).
  Local Notation G := (G len row Rk).
  Local Notation vertex_ok := (vertex_ok n first L nb ksize).

  Lemma vertex_loffset r d v s : vertex_ok r d v -> vertex_ok r d (with_loffset s v).
  Proof. intros []. constructor; auto. Qed.
  Lemma vertex_cols r d v : vertex_ok r d v -> vcols v = map fst (multipliers_of r d).
  Proof.
    intros H. pose proof (f_equal (map fst) (vo_indices _ _ _ _ _ _ _ _ H)) as E. rewrite map_map in E. cbn [fst] in E. etransitivity; [|exact E]. unfold vcols. rewrite flat_map_concat_map, (flat_map_concat_map (fun i => map _ _)), concat_map, map_map.
    f_equal. apply map_ext. intros i. rewrite map_map. cbn [fst]. now rewrite map_id.
  Qed.
  Lemma flat_map_map {A B C} (f : B -> C) (h : A -> list B) l : map f (flat_map h l) = flat_map (fun a => map f (h a)) l.
  Proof. induction l as [|a l IH]; cbn; auto. now rewrite map_app, IH. Qed.
  Lemma vertex_lows r d v : mine first r d = true -> vertex_ok r d v -> lows (v_indices v) = map (lower_copies first L nb r) (mults r d).
  Proof.
    intros M H. pose proof (f_equal (map snd) (vo_indices _ _ _ _ _ _ _ _ H)) as E. rewrite M, map_map in E. cbn [snd] in E. rewrite map_map. etransitivity; [|exact E]. rewrite flat_map_map. unfold lows. apply flat_map_ext. intros i. rewrite map_map. cbn [snd].
    generalize (fst (fst i)). induction (snd (fst i)) as [|k IH]; intros b; cbn; auto. now rewrite <- IH.
  Qed.
  Lemma vertex_blocks r d v : mine first r d = true -> vertex_ok r d v -> forall i, In i (v_indices v) -> 0 < snd (fst i) -> NoDup (snd i) /\ forall k, In k (snd i) -> k < length (nb r).
  Proof.
    intros M H i Hi Hs. assert (I : In (snd i) (lows (v_indices v))). { unfold lows. apply in_flat_map. exists i. split; auto. destruct (snd (fst i)); [lia|]. left; auto. }
    rewrite (vertex_lows r d v M H) in I. apply in_map_iff in I. destruct I as (m & <- & _). unfold lower_copies. split; [apply NoDup_filter, seq_NoDup|]. intros k Hk. apply filter_In in Hk. destruct Hk as (Hk & _). apply in_seq in Hk. lia.
  Qed.
  Lemma first_kernel_idx vs : forall b, first 0 <= b -> map fst vs = seq b (length vs) -> (forall d v, In (d, v) vs -> v_goffset v = first_kernel first ksize d /\ v_ksize v = ksize d) ->
    forall i p, nth_error (kernels_of vs) i = Some p -> v_goffset (fst p) + snd p = first_kernel first ksize b + i.
  Proof.
    induction vs as [|(d, v) vs IH]; intros b Hb K H i p E; [destruct i; discriminate|]. cbn [map fst length seq] in K. injection K as -> K. destruct (H b v (or_introl eq_refl)) as (H1 & H2).
    unfold kernels_of in E. cbn [flat_map snd] in E. fold (kernels_of vs) in E. destruct (Nat.lt_ge_cases i (ksize b)) as [C|C].
    - rewrite nth_error_app1 in E by (rewrite map_length, seq_length; lia). rewrite H2 in E. assert (X : p = (v, i)).
      { erewrite map_nth_error in E; [injection E as <-; reflexivity|]. rewrite nth_error_nth' with (d := 0) by (rewrite seq_length; lia). now rewrite seq_nth by auto. }
      subst. cbn [fst snd]. lia.
    - rewrite nth_error_app2 in E by (rewrite map_length, seq_length; lia). rewrite map_length, seq_length, H2 in E. specialize (IH (S b) ltac:(lia) K ltac:(intros; apply H; right; auto) _ _ E). rewrite first_kernel_S in IH by auto. lia.
  Qed.

  Definition line_vals (r : nat) (dk : nat * nat) : list R := map (G (fst dk) (snd dk)) (mults r (fst dk)).
  Definition lens (r : nat) (ds : list nat) : list nat := map (fun dk => length (multipliers_of r (fst dk))) (kidx ds).
  Lemma lens_app r a b : lens r (a ++ b) = lens r a ++ lens r b.
  Proof. unfold lens, L_Projector2.kidx. now rewrite flat_map_app, map_app. Qed.
  Lemma lens_vals r ds : list_sum (lens r ds) = length (concat (map (line_vals r) (kidx ds))).
  Proof. rewrite concat_length, map_map. unfold lens, line_vals. f_equal. apply map_ext. intros. now rewrite !map_length. Qed.

  Section Rank.
    Variable r : nat.
    Hypothesis Hr : r < n.
    Local Notation D := (decomposed first nb r).
    Definition stored_G (vals : list R) : gmatrix R :=
      {| g_rows := psums 0 (lens r (own r ++ above r)); g_cols := concat (map (fun dk => map fst (multipliers_of r (fst dk))) (kidx (own r ++ above r))); g_vals := vals;
         gt_nrows := length (kidx (own r ++ above r)); g_nrows := length (kidx (own r)); g_nnz := list_sum (lens r (own r)) |}.
    (** the vertices after _setG *)
    Definition vertices_set (g : smap vertex * smap (list nat)) (vs : smap vertex) : Prop := exists lo go up, fst g = lo ++ go ++ up /\ (forall d, In d (map fst lo) -> d < first r) /\ map fst go = own r /\ map fst up = above r /\
      vs = lo ++ loffsets 0 (go ++ up) /\ forall d v, In (d, v) (go ++ up) -> vertex_ok r d v.

    Lemma set_G_ok alloc g : graph_ok n first L nb ksize r g -> (forall nr nz, let '(rows, cols, vals) := alloc nr nz in length rows = nr + 1 /\ length cols = nz /\ length vals = nz) ->
      exists vs vals, set_G alloc D (fst g) = Ok (vs, stored_G vals) /\ length vals = list_sum (lens r (own r ++ above r)) /\ vertices_set g vs.
    Proof.
      intros HG HA. destruct (vertices_split n first L nb cmap ksize HC r g Hr HG) as (lo & go & up & E & H1 & H2 & H3).
      assert (OK : forall d v, In (d, v) (go ++ up) -> vertex_ok r d v). { intros d v I. apply (g_vertices _ _ _ _ _ _ _ HG). rewrite E. apply in_or_app. right; auto. }
      assert (OKL : forall d v, In (d, v) (loffsets 0 (go ++ up)) -> vertex_ok r d v).
      { intros d v I. apply loffsets_in in I. destruct I as (v' & a & b & E' & ->). apply vertex_loffset. apply OK. rewrite E'. apply in_or_app. right; left; auto. }
      assert (KL : map fst (loffsets 0 (go ++ up)) = own r ++ above r) by (now rewrite loffsets_keys, map_app, H2, H3).
      unfold set_G. rewrite E. cbn [dbegin dend decomposed]. rewrite set_loffsets_app by (intros d I; apply H1 in I; lia). rewrite (set_loffsets_own n first L nb cmap HC r Hr go up H2 H3).
      assert (C1 : forall (vs : smap vertex) ds, map fst vs = ds -> (forall d v, In (d, v) vs -> vertex_ok r d v) -> length (kernels_of vs) = length (kidx ds) /\ map (fun p => v_total (fst p)) (kernels_of vs) = lens r ds).
      { intros vs ds K O. split.
        - rewrite <- (map_length (fun _ => tt)). rewrite (kernels_idx ksize (fun _ => tt) (fun _ => tt)); auto; [rewrite map_length, K; auto|]. intros d v I. apply (vo_ksize _ _ _ _ _ _ _ _ (O d v I)).
        - rewrite <- K. unfold lens. apply kernels_idx; [intros d v I; apply (vo_ksize _ _ _ _ _ _ _ _ (O d v I))|]. intros d v k I _. cbn [fst]. apply (vo_total _ _ _ _ _ _ _ _ (O d v I)). }
      destruct (C1 (go ++ up) (own r ++ above r)) as (C2 & C3); [now rewrite map_app, H2, H3|auto|]. destruct (C1 go (own r) H2) as (C4 & C5); [intros; apply OK, in_or_app; auto|].
      cbn [Gtrows Gtnnz Grows Gnnz]. rewrite C2, C3, C4, C5. specialize (HA (length (kidx (own r ++ above r))) (list_sum (lens r (own r ++ above r)))).
      destruct (alloc (length (kidx (own r ++ above r))) (list_sum (lens r (own r ++ above r)))) as ((rows, cols), vals). destruct HA as (A1 & A2 & A3).
      destruct rows as [|x jr]; [cbn in A1; lia|]. rewrite (wr_app_at [] x jr 0) by auto. cbn [obind app].
      rewrite from_key_app by (intros d I; apply H1 in I; lia). replace (from_key (first r) (loffsets 0 (go ++ up))) with (loffsets 0 (go ++ up)).
      2: { symmetry. rewrite loffsets_app. apply (from_own n first L r Hr); rewrite loffsets_keys; auto. }
      rewrite foldM_kernels. destruct (C1 (loffsets 0 (go ++ up)) (own r ++ above r) KL OKL) as (C6 & C7).
      pose proof (set_rows_ok (kernels_of (loffsets 0 (go ++ up))) [] jr cols) as S. cbn [map psums app concat length] in S. rewrite S; clear S.
      2: { intros (v, k) I. unfold kernels_of in I. apply in_flat_map in I. destruct I as ((d, v') & I & J). apply in_map_iff in J. destruct J as (k' & J & _). injection J as <- <-. cbn [fst snd]. rewrite (vertex_cols r d v') by auto. rewrite map_length. apply (vo_total _ _ _ _ _ _ _ _ (OKL d v' I)). }
      2: { rewrite C6. cbn in A1. lia. }
      2: { rewrite C7. exact A2. }
      cbn [obind]. exists (lo ++ loffsets 0 (go ++ up)), vals. split; [|split; [auto|exists lo, go, up; repeat (split; [now auto|]); exact OK]].
      assert (C8 : map (fun p => vcols (fst p)) (kernels_of (loffsets 0 (go ++ up))) = map (fun dk => map fst (multipliers_of r (fst dk))) (kidx (own r ++ above r))).
      { rewrite <- KL. apply kernels_idx; [intros d v I; apply (vo_ksize _ _ _ _ _ _ _ _ (OKL d v I))|]. intros d v k I _. cbn [fst]. now apply vertex_cols, OKL. }
      rewrite C8. unfold stored_G. do 3 f_equal. unfold lens. rewrite map_map. f_equal. apply map_ext. intros. now rewrite map_length.
    Qed.

    Lemma set_graph_ok g vs : graph_ok n first L nb ksize r g -> vertices_set g vs -> graph_ok n first L nb ksize r (vs, snd g).
    Proof.
      intros [K V Ed] (lo & go & up & E & H1 & H2 & H3 & -> & OK). constructor; cbn [fst snd]; auto.
      - rewrite map_app, loffsets_keys. rewrite <- K, E, !map_app. reflexivity.
      - intros d v I. apply in_app_iff in I. destruct I as [I|I]; [apply V; rewrite E; apply in_or_app; auto|]. apply loffsets_in in I. destruct I as (v' & a & b & E' & ->). apply vertex_loffset, OK. rewrite E'. apply in_or_app. right; left; auto.
    Qed.

    (** *** Own rows *)
    Lemma gentry_G d k m : m < length L -> gentry 0%R Rminus Rmult (fun j => Rk d k j) (row m d) = G d k m.
    Proof.
      intros Hm. unfold gentry, S_Projector.G. assert (E : forall es s, fold_left (fun s e => (s - Rk d k (fst e) * snd e)%R) es s = (s - Sum es (fun e => (snd e * Rk d k (fst e))%R))%R).
      { induction es as [|e es IH]; intros s; cbn [fold_left]; [rewrite Sum_nil; lra|]. rewrite IH, Sum_cons. lra. }
      rewrite E. rewrite <- (entry_sum_dot (row m d) (len d) (fun j => Rk d k j)).
      - unfold entry_sum. rewrite Rminus_0_l. f_equal. apply Sum_ext. intros j. unfold B. lra.
      - apply Forall_forall. intros e He. apply (proj1 (HB m d Hm) e He).
    Qed.
    Lemma member_lt d m : In m (mults r d) -> m < length L.
    Proof. intros I. apply mults_in in I. tauto. Qed.

    Section Updated.
      Variables (g : smap vertex * smap (list nat)) (vs : smap vertex).
      Hypothesis HV : vertices_set g vs.
      Local Notation B1 := (map (stored_rows first L row r) (own r)).
      Local Notation R1 := (R_stored first len ksize Rk r).

      Lemma own_vertices : exists go, below (first (r + 1)) (from_key (first r) vs) = go /\ map fst go = own r /\ forall d v, In (d, v) go -> vertex_ok r d v.
      Proof.
        destruct HV as (lo & go & up & E & H1 & H2 & H3 & -> & OK). exists (loffsets 0 go). split; [|split].
        - rewrite from_key_app by (intros d I; apply H1 in I; lia). rewrite loffsets_app. rewrite (from_own n first L r Hr) by (rewrite loffsets_keys; auto). apply below_app; rewrite loffsets_keys.
          + rewrite H2. intros d Hd. apply in_seq in Hd. lia.
          + rewrite H3. intros d Hd. apply filter_In in Hd. destruct Hd as (Hd & _). apply in_seq in Hd. lia.
        - now rewrite loffsets_keys.
        - intros d v I. apply loffsets_in in I. destruct I as (v' & a & b & E' & ->). apply vertex_loffset. apply OK. rewrite E'. apply in_or_app. left. apply in_or_app. right; left; auto.
      Qed.

      Lemma update_own_ok vals : length vals = list_sum (lens r (own r ++ above r)) ->
        exists rest, update_own 0%R Rminus Rmult D vs (stored_G vals) B1 R1 = Ok (concat (map (line_vals r) (kidx (own r))) ++ rest) /\ length rest = list_sum (lens r (above r)).
      Proof.
        intros HL. destruct own_vertices as (go & E & K & OK). rewrite lens_app, list_sum_app in HL. unfold update_own, clear_G. cbn [dbegin dend decomposed g_nnz g_vals g_rows stored_G].
        pose proof (clear_ok 0%R (list_sum (lens r (own r))) [] vals ltac:(lia)) as CL. cbn [length app] in CL. rewrite CL. clear CL. cbn [obind]. rewrite E, foldM_kernels.
        assert (V : forall v k, In (v, k) (kernels_of go) -> exists d, In d (own r) /\ k < ksize d /\ vertex_ok r d v /\ v_offset v = d - first r /\ mine first r d = true).
        { intros v k I. unfold kernels_of in I. apply in_flat_map in I. destruct I as ((d, v') & I & J). apply in_map_iff in J. destruct J as (k' & J & Ik). cbn [snd] in *. injection J as <- <-. pose proof (OK d v' I) as O.
          rewrite (vo_ksize _ _ _ _ _ _ _ _ O) in Ik. apply in_seq in Ik. assert (Id : In d (own r)) by (rewrite <- K; apply in_map_iff; exists (d, v'); auto). exists d. repeat split; auto; try lia; try apply O; apply (own_iff first r d), Id. }
        pose proof (update_rows_ok 0%R Rminus Rmult B1 R1 (fun v => stored_rows first L row r (first r + v_offset v))
          (fun v => {| nrows := ksize (first r + v_offset v); ncols := len (first r + v_offset v); vals := flat_map (fun k => map (Rk (first r + v_offset v) k) (seq 0 (len (first r + v_offset v)))) (seq 0 (ksize (first r + v_offset v))) |})
          (fun p j => Rk (first r + v_offset (fst p)) (snd p) j) (kernels_of go) [] (lens r (above r)) (skipn (list_sum (lens r (own r))) vals)) as U.
        assert (LT : map (fun p => v_total (fst p)) (kernels_of go) = lens r (own r)).
        { rewrite <- K. unfold lens. apply kernels_idx; [intros d v I; apply (vo_ksize _ _ _ _ _ _ _ _ (OK d v I))|]. intros d v k I _. cbn [fst]. apply (vo_total _ _ _ _ _ _ _ _ (OK d v I)). }
        destruct U as (ri & U).
        - intros (v, k) I. destruct (V v k I) as (d & Id & Hk & O & EO & M). cbn [fst snd]. assert (ED : first r + v_offset v = d) by (apply in_seq in Id; lia). rewrite ED, EO. rewrite (own_rd first r (stored_rows first L row r) d Id). unfold R_stored.
          rewrite (own_rd first r _ d Id). repeat split; auto.
          + unfold stored_rows. rewrite map_length. symmetry. apply (vo_total _ _ _ _ _ _ _ _ O).
          + intros rw e Hrw He. unfold stored_rows in Hrw. apply in_map_iff in Hrw. destruct Hrw as (pm & <- & Hpm). cbn [snd] in He.
            assert (Hm : snd pm < length L) by (apply (member_lt d); apply in_map; exact Hpm). pose proof (proj1 (HB (snd pm) d Hm) e He) as He'. cbn [M_Projector.vals M_Projector.ncols]. rewrite Nat.mul_comm.
            rewrite (rd_ok _ _ 0%R) by (rewrite (flat_map_length_const _ (len d)) by (intros; now rewrite map_length, seq_length); rewrite seq_length; nia).
            rewrite (flat_map_nth_const (fun k => map (Rk d k) (seq 0 (len d))) (len d) (ksize d) 0 k (fst e)) by (auto; intros; now rewrite map_length, seq_length). cbn [Nat.add]. now rewrite map_seq_nth.
        - cbn [map app concat length] in U. rewrite LT, <- lens_app in U. rewrite U. cbn [obind]. exists (skipn (list_sum (lens r (own r))) vals). split; [|rewrite skipn_length; lia].
          do 3 f_equal. rewrite <- K. apply kernels_idx; [intros d v I; apply (vo_ksize _ _ _ _ _ _ _ _ (OK d v I))|]. intros d v k I Hk. cbn [fst snd].
          assert (Id : In d (own r)) by (rewrite <- K; apply in_map_iff; exists (d, v); auto). assert (ED : first r + v_offset v = d). { rewrite (vo_offset _ _ _ _ _ _ _ _ (OK d v I)) by (apply (own_iff first r d), Id). apply in_seq in Id. lia. }
          rewrite ED. unfold line_vals, stored_rows. rewrite !map_map. cbn [fst snd]. apply map_ext_in. intros pm Hpm. apply gentry_G. apply (member_lt d). apply in_map. exact Hpm.
      Qed.

      (** *** Messages *)
      Lemma to_neighbour_map {A} (f : A -> R) (h : A -> list nat) j l : to_neighbour j (map f l) (map h l) = map f (filter (fun a => has j (h a)) l).
      Proof. unfold to_neighbour. induction l as [|a l IH]; cbn [map combine filter snd]; auto. destruct (has j (h a)); cbn [map fst]; rewrite IH; auto. Qed.
      Definition message (q q' : nat) : list R := if q' <? q then flat_map (fun dk => map (G (fst dk) (snd dk)) (mults q' (fst dk))) (kidx (own q)) else [].
      Lemma has_lower j m : j < length (nb r) -> has j (lower_copies first L nb r m) = (nth j (nb r) 0 <? r) && touches first (nth j (nb r) 0) (domains L m).
      Proof.
        intros Hj. unfold has, lower_copies. apply eq_iff_eq_true. rewrite existsb_exists. split.
        - intros (x & Hx & E). apply Nat.eqb_eq in E. subst. apply filter_In in Hx. tauto.
        - intros H. exists j. split; [|apply Nat.eqb_refl]. apply filter_In. split; auto. apply in_seq. lia.
      Qed.
      Lemma send_G_ok rest : send_G D (first_kernel first ksize (first r)) vs (g_rows (stored_G [])) (concat (map (line_vals r) (kidx (own r))) ++ rest) = Ok (map (message r) (nb r)).
      Proof.
        destruct own_vertices as (go & E & K & OK). unfold send_G. cbn [dbegin dend neighbors decomposed g_rows stored_G]. rewrite E, foldM_kernels.
        assert (F0 : repeat (@nil R) (length (nb r)) = map (fun _ => []) (seq 0 (length (nb r)))). { rewrite <- (seq_length (length (nb r)) 0) at 1. induction (seq 0 (length (nb r))); cbn; congruence. }
        rewrite F0. set (xs := fun p : vertex * nat => line_vals r (first r + v_offset (fst p), snd p)).
        assert (ED : forall d v, In (d, v) go -> In d (own r) /\ first r + v_offset v = d /\ mine first r d = true).
        { intros d v I. assert (Id : In d (own r)) by (rewrite <- K; apply in_map_iff; exists (d, v); auto). assert (M : mine first r d = true) by (apply (own_iff first r d), Id). repeat split; auto. rewrite (vo_offset _ _ _ _ _ _ _ _ (OK d v I)) by auto. apply in_seq in Id. lia. }
        assert (KS : forall d v, In (d, v) go -> v_ksize v = ksize d) by (intros d v I; apply (vo_ksize _ _ _ _ _ _ _ _ (OK d v I))).
        assert (XS : map xs (kernels_of go) = map (line_vals r) (kidx (own r))).
        { rewrite <- K. apply kernels_idx; auto. intros d v k I Hk. unfold xs. cbn [fst snd]. destruct (ED d v I) as (_ & -> & _). reflexivity. }
        rewrite <- XS. rewrite (send_rows_ok _ _ _ (length (nb r)) xs (kernels_of go) [] rest) with (F := fun _ : nat => @nil R).
        - f_equal. cbn [app].
          transitivity (map (fun j => message r (nth j (nb r) 0)) (seq 0 (length (nb r)))).
          + apply map_ext_in. intros j Hj. apply in_seq in Hj. unfold message.
            rewrite flat_map_concat_map. rewrite (kernels_idx ksize _ (fun dk => if nth j (nb r) 0 <? r then map (G (fst dk) (snd dk)) (mults (nth j (nb r) 0) (fst dk)) else [])); auto.
            * rewrite K. destruct (nth j (nb r) 0 <? r); [now rewrite flat_map_concat_map|]. rewrite <- (flat_map_concat_map (fun _ => [])). now apply flat_map_nil.
            * intros d v k I Hk. cbn [fst snd]. destruct (ED d v I) as (Id & E1 & M). unfold xs, line_vals. cbn [fst snd]. rewrite E1, (vertex_lows r d v M (OK d v I)), to_neighbour_map.
              rewrite (filter_ext _ (fun m => (nth j (nb r) 0 <? r) && touches first (nth j (nb r) 0) (domains L m))) by (intros m; apply has_lower; lia).
              destruct (nth j (nb r) 0 <? r); cbn [andb].
              -- rewrite (mults_common first L (nth j (nb r) 0) r d Id). reflexivity.
              -- rewrite filter_none; auto.
          + apply (map_nth_seq nb r (message r)).
        - cbn [concat app]. reflexivity.
        - intros i p Hp. cbn [length concat Nat.add]. assert (I : In p (kernels_of go)) by (eapply nth_error_In; eauto). assert (Hi : i < length (kernels_of go)) by (apply nth_error_Some; congruence).
          assert (VP : exists d, In (d, fst p) go). { unfold kernels_of in I. apply in_flat_map in I. destruct I as ((d, v') & I & J). apply in_map_iff in J. destruct J as (k' & <- & _). exists d. exact I. }
          destruct VP as (d & Id). destruct (ED d (fst p) Id) as (I1 & I2 & I3). repeat split.
          + apply (first_kernel_idx go); auto.
            * destruct (ranks_le n first L nb cmap HC r Hr). lia.
            * rewrite K. unfold S_Feti.own, own_domains. f_equal. rewrite <- (map_length fst), K. unfold S_Feti.own, own_domains. now rewrite seq_length.
            * intros d' v' I'. split; [apply (vo_goffset _ _ _ _ _ _ _ _ (OK d' v' I'))|auto].
          + assert (LK : length (kernels_of go) = length (kidx (own r))). { rewrite <- (map_length xs), XS, map_length. reflexivity. }
            rewrite (rd_ok _ _ 0) by (rewrite psums_length, lens_app, app_length; unfold lens; rewrite map_length; lia). f_equal. rewrite psums_nth by (rewrite lens_app, app_length; unfold lens; rewrite map_length; lia).
            cbn [Nat.add]. rewrite lens_app, firstn_app. unfold lens at 2. rewrite map_length. replace (i - length (kidx (own r))) with 0 by lia. cbn [firstn]. rewrite app_nil_r. rewrite <- firstn_map, XS, firstn_map, concat_length, map_map.
            unfold lens. rewrite firstn_map. f_equal. apply map_ext. intros dk. unfold line_vals. now rewrite !map_length.
          + unfold xs, line_vals. cbn [fst snd]. rewrite I2, (vertex_lows r d (fst p) I3 (OK d (fst p) Id)). now rewrite !map_length.
          + apply (vertex_blocks r d (fst p) I3 (OK d (fst p) Id) j); auto.
          + apply (vertex_blocks r d (fst p) I3 (OK d (fst p) Id) j); auto.
      Qed.
      Lemma finish_G vals rest : length rest = list_sum (lens r (above r)) ->
        update_finish (stored_G vals) (concat (map (line_vals r) (kidx (own r))) ++ rest) (Some (map (fun q => message q r) (nb r))) = Ok (stored_G (concat (map (line_vals r) (kidx (own r ++ above r))))).
      Proof.
        intros HR. assert (CR : concat (map (fun q => message q r) (nb r)) = concat (map (line_vals r) (kidx (above r)))).
        { rewrite <- !flat_map_concat_map. symmetry. apply (rows_above n first L nb cmap ksize HC (fun d k m => G d k m) r Hr). }
        unfold update_finish, receive_G. cbn [g_rows g_nrows stored_G]. rewrite (rd_ok _ _ 0) by (rewrite psums_length, lens_app, app_length; unfold lens; rewrite map_length; lia). cbn [obind].
        rewrite psums_nth by (rewrite lens_app, app_length; unfold lens; rewrite map_length; lia). rewrite lens_app, firstn_app. cbn [Nat.add]. unfold lens at 2. rewrite map_length, Nat.sub_diag. cbn [firstn]. rewrite app_nil_r, firstn_all2 by (unfold lens; rewrite map_length; lia).
        rewrite lens_vals. destruct (receive_all (map (fun q => message q r) (nb r)) (concat (map (line_vals r) (kidx (own r)))) rest) as (o & E); [rewrite CR, HR; apply lens_vals|]. rewrite E. cbn [obind]. unfold with_vals. cbn [g_rows g_cols gt_nrows g_nrows g_nnz stored_G].
        unfold stored_G. do 2 f_equal. rewrite CR, <- concat_app, <- map_app. do 2 f_equal. unfold L_Projector2.kidx. now rewrite flat_map_app.
      Qed.

      Theorem stored_G_ok : G_ok n first L len row ksize Rk r vs (stored_G (concat (map (line_vals r) (kidx (own r ++ above r))))).
      Proof.
        set (bs := map (fun dk => G_line first L len row Rk r (fst dk) (snd dk)) (kidx (own r ++ above r))).
        assert (E1 : lens r (own r ++ above r) = map (@length _) bs). { unfold bs. rewrite map_map. unfold lens. apply map_ext. intros. unfold G_line. now rewrite map_length. }
        assert (E2 : concat (map (fun dk => map fst (multipliers_of r (fst dk))) (kidx (own r ++ above r))) = concat (map (map fst) bs)). { unfold bs. rewrite map_map. f_equal. apply map_ext. intros. unfold G_line. rewrite map_map. reflexivity. }
        assert (E3 : concat (map (line_vals r) (kidx (own r ++ above r))) = concat (map (map snd) bs)). { unfold bs. rewrite map_map. f_equal. apply map_ext. intros. unfold G_line, line_vals. rewrite !map_map. reflexivity. }
        assert (LB : length bs = length (kidx (own r ++ above r))) by apply map_length.
        assert (GS : forall ds, flat_map (fun d => map (G_line first L len row Rk r d) (seq 0 (ksize d))) ds = map (fun dk => G_line first L len row Rk r (fst dk) (snd dk)) (kidx ds)).
        { intros ds. unfold L_Projector2.kidx. rewrite flat_map_map. apply flat_map_ext. intros d. rewrite map_map. reflexivity. }
        assert (KA : kidx (own r ++ above r) = kidx (own r) ++ kidx (above r)) by (unfold L_Projector2.kidx; apply flat_map_app).
        constructor; cbn [gt_nrows g_rows g_cols g_vals g_nrows g_nnz stored_G].
        - rewrite E1, E2, E3, csr_blocks by lia. rewrite firstn_all2 by lia. unfold Gt_stored. rewrite (in_Gt_split n first L nb cmap HC r Hr). now rewrite GS.
        - rewrite E1, E2, E3, csr_blocks by (rewrite LB, KA, app_length; lia). unfold bs, G_stored. rewrite GS, KA, map_app, firstn_app, map_length, Nat.sub_diag. cbn [firstn]. rewrite app_nil_r. apply firstn_all2. now rewrite map_length.
        - rewrite psums_length, E1, map_length, LB. repeat split; [lia|destruct bs; reflexivity|]. rewrite <- E1. rewrite psums_nth by (unfold lens; rewrite map_length, KA, app_length; lia). cbn [Nat.add].
          rewrite lens_app, firstn_app. unfold lens at 2. rewrite map_length, Nat.sub_diag. cbn [firstn]. rewrite app_nil_r, firstn_all2; auto. unfold lens. now rewrite map_length.
        - intros i Hi. apply psums_le. unfold lens. rewrite map_length. lia.
        - assert (E4 : nth (length (kidx (own r ++ above r))) (psums 0 (lens r (own r ++ above r))) 0 = list_sum (lens r (own r ++ above r))).
          { rewrite psums_nth by (unfold lens; rewrite map_length; lia). rewrite firstn_all2; auto. unfold lens. now rewrite map_length. }
          rewrite E4. split; [|symmetry; apply lens_vals]. rewrite concat_length, map_map. unfold lens. f_equal. apply map_ext. intros. now rewrite map_length.
        - intros d v I Hd. destruct HV as (lo & go & up & E & H1 & H2 & H3 & -> & OK). apply in_app_iff in I. destruct I as [I|I]; [exfalso; specialize (H1 d (in_map fst _ _ I)); lia|].
          apply loffsets_in in I. destruct I as (v' & a & b & E' & ->). cbn [v_loffset with_loffset Nat.add]. rewrite (in_Gt_split n first L nb cmap HC r Hr). pose proof (go_up_incr n first L nb cmap HC r Hr) as INC. assert (EK : own r ++ above r = map fst (a ++ (d, v') :: b)) by (now rewrite <- E', map_app, H2, H3). rewrite EK in INC |- *.
          rewrite map_app in INC |- *. cbn [map fst] in INC |- *. rewrite filter_app. cbn [filter]. rewrite Nat.ltb_irrefl. rewrite (filter_none _ (map fst b)).
          2: { intros x Hx. apply Nat.ltb_ge. assert (X : d < x); [|lia]. revert INC Hx. generalize (map fst b). generalize (map fst a). clear. intros l l'. induction l as [|y l IH]; cbn [app incr]; intros (A & B) H; auto. }
          rewrite filter_all.
          2: { intros x Hx. apply Nat.ltb_lt. revert INC Hx. generalize (map fst b). generalize (map fst a). clear. intros l l'. induction l as [|y l IH]; cbn [app incr]; intros H Hx; [destruct Hx|]. destruct H as (A & B). destruct Hx as [<-|Hx]; auto. apply A, in_or_app. right; left; auto. }
          rewrite app_nil_r. assert (OKa : forall d v, In (d, v) a -> v_ksize v = ksize d). { intros d' w I. apply (vo_ksize _ _ _ _ _ _ _ _ (OK d' w ltac:(rewrite E'; apply in_or_app; auto))). }
          clear - OKa. unfold kernels_of. induction a as [|(d, w) a IH]; auto. cbn [flat_map map fst snd]. rewrite !app_length, IH by (intros; apply OKa; right; auto). rewrite map_length, (OKa d w) by (left; auto). reflexivity.
      Qed.
    End Updated.
  End Rank.
End Rank.
