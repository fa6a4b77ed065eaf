(** * Lemmas: the values of G G^T on a rank *)
From Coq Require Import List Arith Lia Bool Reals Lra.
From Verif Require Import Base M_Indexing M_Nb S_Nb M_Exchange M_Dual S_Dual L_Dual2 L_Dual4 M_DualGraph S_DualGraph L_DualGraph L_DualGraph3 L_DualGraph4 S_Equality L_Equality6 M_TotalFeti S_Feti L_TotalFeti
  M_Projector S_Projector L_Projector L_Projector2 L_Projector3 M_ProjectorG S_ProjectorG L_ProjectorG L_ProjectorG2 L_ProjectorG3 M_ProjectorGGt S_ProjectorGGt L_ProjectorGGt L_ProjectorGGt2 L_ProjectorGGt3.
Import ListNotations.
Local Open Scope out_scope.

Lemma incr_split l d : incr l -> In d l -> exists b, l = filter (fun x => x <? d) l ++ d :: b.
Proof.
  intros I H. apply in_split in H. destruct H as (a & b & ->). exists b. rewrite filter_app. cbn [filter]. rewrite Nat.ltb_irrefl. rewrite (filter_none _ b).
  2: { intros x Hx. apply Nat.ltb_ge. assert (X : d < x); [|lia]. clear - I Hx. induction a as [|y a IH]; cbn [app incr] in I; destruct I as (A & B); auto. }
  rewrite filter_all, app_nil_r; auto. intros x Hx. apply Nat.ltb_lt. clear - I Hx. induction a as [|y a IH]; cbn [app incr] in I; [destruct Hx|]. destruct I as (A & B). destruct Hx as [<-|Hx]; auto. apply A, in_or_app. right; left; auto.
Qed.
Lemma value_upper_eq {T} (zero : T) add mul G v kr w kc vals c : value_upper zero add mul G v kr w kc (vals, c) =
  (vals <- wr vals c zero ;;
   k1 <- rd (g_rows G) (v_loffset v + kr) ;; ke1 <- rd (g_rows G) (v_loffset v + kr + 1) ;;
   k2 <- rd (g_rows G) (v_loffset w + kc) ;; ke2 <- rd (g_rows G) (v_loffset w + kc + 1) ;;
   vals <- merge_rows add mul ((ke1 - k1) + (ke2 - k2)) (g_cols G) (g_vals G) c k1 ke1 k2 ke2 vals ;;
   Ok (vals, c + 1)).
Proof. reflexivity. Qed.

Section Values.
  Variables (n : nat) (first : nat -> nat) (L : list (list nat)) (nb cmap : nat -> list nat) (ksize : nat -> nat).
  Variables (len : nat -> nat) (row : nat -> nat -> list (nat * R)) (Rk : nat -> nat -> nat -> R).
  Hypothesis HC : consistent n first L nb cmap.
  Hypothesis HB : entries_ok L len row.
  Local Notation own := (S_Feti.own first).
  Local Notation all := (all_of n first).
  Local Notation kidx := (kidx ksize).
  Local Notation gidx := (gidx first ksize).
  Local Notation ups := (ups n first L ksize).
  Local Notation ulens := (ulens n first L ksize).
  Local Notation first_kernel := (first_kernel first ksize).
  Definition prod (p q : nat * nat) : R := GGt L len row Rk (fst p) (snd p) (fst q) (snd q).
  Definition uvals (ks : list (nat * nat)) : list R := concat (map (fun p => map (prod p) (ups p)) ks).
  Lemma uvals_length ks : length (uvals ks) = list_sum (ulens ks).
  Proof. unfold uvals, L_ProjectorGGt2.ulens. rewrite concat_length, map_map. f_equal. apply map_ext. intros. apply map_length. Qed.

  (** kernels of lower domains have lower numbers *)
  Lemma gidx_lt p q : first 0 <= fst p -> fst p < fst q -> snd p < ksize (fst p) -> gidx p < gidx q.
  Proof.
    intros H0 H K. unfold L_ProjectorGGt.gidx. assert (G : first_kernel (fst p) + ksize (fst p) <= first_kernel (fst q)); [|lia]. rewrite <- (first_kernel_S first ksize) by auto. unfold S_DualGraph.first_kernel.
    replace (fst q - first 0) with ((S (fst p) - first 0) + (fst q - S (fst p))) by lia. rewrite seq_app, map_app, list_sum_app. lia.
  Qed.

  Section Rank.
    Variables (r : nat) (vs : smap vertex) (es : smap (list nat)) (G : gmatrix R).
    Hypothesis Hr : r < n.
    Hypothesis HG : graph_ok n first L nb ksize r (vs, es).
    Hypothesis HO : G_ok n first L len row ksize Rk r vs G.
    Local Notation D := (decomposed first nb r).
    Local Notation vert := (vert vs).
    Local Notation line p := (G_line first L len row Rk r (fst p) (snd p)).
    Local Notation ds := (in_Gt n first L r).

    Lemma lines_dot p q : In (fst p) (own r) -> mdot (line p) (line q) = prod p q.
    Proof.
      intros Hp. unfold prod, GGt. transitivity (G_of L len row Rk (fun m => S_Projector.G len row Rk (fst q) (snd q) m) (fst p) (snd p)); [|reflexivity].
      rewrite <- (line_sum first L len row HB Rk r (fst p) (snd p) (fun m => S_Projector.G len row Rk (fst q) (snd q) m) Hp). unfold mdot, row_sum. apply Sum_ext_in. intros e I. f_equal.
      pose proof (line_cols first L len row Rk r _ _ _ I) as Hc. rewrite (line_entry first L len row HB Rk r) by auto. unfold dual, vector. rewrite (nth_indep _ 0%R (S_Projector.G len row Rk (fst q) (snd q) 0)) by (rewrite map_length; auto). rewrite map_nth. reflexivity.
    Qed.
    Lemma line_incr p : incr (map fst (line p)).
    Proof.
      unfold G_line. rewrite map_map. cbn [fst]. assert (Q : forall (f : nat * nat -> bool) l o, incr (map fst (filter f (combine (seq o (length l)) l))) /\ forall x, In x (map fst (filter f (combine (seq o (length l)) l))) -> o <= x).
      { induction l as [|a l IH]; intros o; cbn [length seq combine filter map incr]; [split; auto; intros x []|]. destruct (IH (S o)) as (A & B). destruct (f (o, a)); cbn [map fst incr].
        - split; [split; auto; intros x Hx; specialize (B x Hx); lia|]. intros x [<-|Hx]; auto. specialize (B x Hx). lia.
        - split; auto. intros x Hx. specialize (B x Hx). lia. }
      apply Q.
    Qed.

    (** the position of the row of a kernel in Gt *)
    Definition gpos (p : nat * nat) : nat := length (kidx (filter (fun d => d <? fst p) ds)) + snd p.
    Lemma ds_incr : incr ds.
    Proof. apply incr_filter, incr_filter, incr_seq. Qed.
    Lemma gpos_room p : In (fst p) ds -> snd p < ksize (fst p) -> gpos p < length (kidx ds) /\ nth (gpos p) (kidx ds) (0, 0) = p.
    Proof.
      intros I K. destruct (incr_split ds (fst p) ds_incr I) as (b & E). unfold gpos. assert (EK : kidx ds = kidx (filter (fun d => d <? fst p) ds) ++ map (pair (fst p)) (seq 0 (ksize (fst p))) ++ kidx b).
      { rewrite E at 1. rewrite kidx_app. reflexivity. }
      rewrite EK. rewrite !app_length, map_length, seq_length. split; [lia|]. rewrite app_nth2 by lia. replace (length (kidx (filter (fun d => d <? fst p) ds)) + snd p - length (kidx (filter (fun d => d <? fst p) ds))) with (snd p) by lia.
      rewrite app_nth1 by (rewrite map_length, seq_length; auto). rewrite (nth_indep _ _ (pair (fst p) 0)) by (rewrite map_length, seq_length; auto). rewrite (map_nth (pair (fst p))), seq_nth by auto. destruct p; reflexivity.
    Qed.
    Lemma gpos_le p q : In (fst p) ds -> In (fst q) ds -> snd p < ksize (fst p) -> snd q < ksize (fst q) -> gidx p <= gidx q -> gpos p <= gpos q.
    Proof.
      intros Ip Iq Kp Kq H. assert (F : forall d, In d ds -> first 0 <= d). { intros d I. apply filter_In in I. destruct I as (I & _). apply filter_In in I. destruct I as (I & _). apply in_seq in I. lia. }
      destruct (Nat.lt_trichotomy (fst p) (fst q)) as [C|[C|C]].
      - unfold gpos. assert (Y : length (kidx (filter (fun d => d <? fst p) ds)) + ksize (fst p) <= length (kidx (filter (fun d => d <? fst q) ds))); [|lia].
        destruct (incr_split ds (fst p) ds_incr Ip) as (b & E). assert (EF : filter (fun d => d <? fst q) ds = filter (fun d => d <? fst p) ds ++ fst p :: filter (fun d => d <? fst q) b).
        { rewrite E at 1. rewrite filter_app. cbn [filter]. destruct (Nat.ltb_spec (fst p) (fst q)); [|lia]. f_equal. apply filter_all. intros x Hx. apply filter_In in Hx. destruct Hx as (_ & Hx). apply Nat.ltb_lt in Hx. apply Nat.ltb_lt. lia. }
        rewrite EF, kidx_app. unfold L_Projector2.kidx at 3. cbn [flat_map]. rewrite !app_length, map_length, seq_length. lia.
      - unfold gpos, L_ProjectorGGt.gidx in *. rewrite C in *. lia.
      - pose proof (gidx_lt q p (F _ Iq) C Kq). lia.
    Qed.
    Lemma own_in_Gt (p : nat * nat) : In (fst p) (own r) -> In (fst p) ds.
    Proof. intros H. rewrite (in_Gt_split n first L nb cmap HC r Hr). apply in_or_app. auto. Qed.
    Lemma ups_in_Gt p q : In p (kidx (own r)) -> In q (ups p) -> In (fst q) ds /\ snd q < ksize (fst q).
    Proof.
      intros Hp Hq. destruct p as (d, k). apply kidx_in in Hp. destruct Hp as (Hd & Hk). destruct q as (d', k'). apply ups_in in Hq. cbn [fst snd] in *. destruct Hq as (I & Gl & LE). apply kidx_in in I. destruct I as (I & K). split; auto.
      unfold in_Gt. apply filter_In. split; [apply filter_In; split; auto; apply (glued_vis first L r d d' Hd Gl)|]. apply Nat.leb_le. destruct (Nat.le_gt_cases (first r) d') as [C|C]; auto. exfalso.
      apply in_seq in I. apply in_seq in Hd. pose proof (gidx_lt (d', k') (d, k) ltac:(cbn [fst]; lia) ltac:(cbn [fst]; lia) K). lia.
    Qed.
    Lemma loffset_pos p : In (fst p) ds -> v_loffset (vert (fst p)) + snd p = gpos p.
    Proof.
      intros I. pose proof I as I0. apply filter_In in I. destruct I as (I & F). apply Nat.leb_le in F. apply filter_In in I. destruct I as (_ & V). destruct (vert_ok n first L nb cmap ksize HC r vs es Hr HG (fst p) V) as (_ & Iv & _).
      rewrite (go_loffset _ _ _ _ _ _ _ _ _ _ HO (fst p) _ Iv F). unfold gpos. f_equal. unfold L_Projector2.kidx. generalize (filter (fun d' => d' <? fst p) ds). induction l as [|x l IH]; auto. cbn [flat_map]. now rewrite !app_length, IH, map_length.
    Qed.
    Lemma Gt_rows_count : gt_nrows G = length (kidx ds).
    Proof.
      pose proof (f_equal (@length _) (go_Gt _ _ _ _ _ _ _ _ _ _ HO)) as E. unfold csr_rows in E. rewrite map_length, seq_length in E. rewrite E. unfold Gt_stored, L_Projector2.kidx. generalize ds. induction l as [|x l IH]; auto. cbn [flat_map]. now rewrite !app_length, !map_length, IH.
    Qed.
    Lemma Gt_row p : In (fst p) ds -> snd p < ksize (fst p) -> slice (nth (gpos p) (g_rows G) 0) (nth (gpos p + 1) (g_rows G) 0) (combine (g_cols G) (g_vals G)) = line p.
    Proof.
      intros I K. destruct (gpos_room p I K) as (R1 & R2). pose proof (f_equal (fun l => nth (gpos p) l []) (go_Gt _ _ _ _ _ _ _ _ _ _ HO)) as E. cbn beta in E. unfold csr_rows in E. rewrite Gt_rows_count in E.
      rewrite (nth_indep _ _ (slice (nth 0 (g_rows G) 0) (nth (0 + 1) (g_rows G) 0) (combine (g_cols G) (g_vals G)))) in E by (rewrite map_length, seq_length; auto).
      rewrite (map_nth (fun i => slice (nth i (g_rows G) 0) (nth (i + 1) (g_rows G) 0) (combine (g_cols G) (g_vals G)))), seq_nth in E by auto. cbn [Nat.add] in E. rewrite E. unfold Gt_stored.
      assert (ES : flat_map (fun d => map (G_line first L len row Rk r d) (seq 0 (ksize d))) ds = map (fun p => line p) (kidx ds)).
      { unfold L_Projector2.kidx. rewrite flat_map_map. apply flat_map_ext. intros d. rewrite map_map. reflexivity. }
      rewrite ES. rewrite (nth_indep _ _ (line (0, 0))) by (rewrite map_length; auto). rewrite (map_nth (fun p => line p)), R2. reflexivity.
    Qed.
    Lemma rows_mono i j : i <= j -> j <= gt_nrows G -> nth i (g_rows G) 0 <= nth j (g_rows G) 0.
    Proof. intros H. induction H as [|j H IH]; intros HJ; auto. specialize (IH ltac:(lia)). pose proof (go_sorted _ _ _ _ _ _ _ _ _ _ HO j ltac:(lia)) as S. rewrite Nat.add_1_r in S. lia. Qed.

    Lemma value_ok p q vpre x vpost : In p (kidx (own r)) -> In q (ups p) ->
      value_upper 0%R Rplus Rmult G (vert (fst p)) (snd p) (vert (fst q)) (snd q) (vpre ++ x :: vpost, length vpre) = Ok (vpre ++ prod p q :: vpost, length vpre + 1).
    Proof.
      intros Hp Hq. assert (Hp0 : In (fst p) (own r) /\ snd p < ksize (fst p)) by (destruct p as (d, k); apply kidx_in in Hp; exact Hp). destruct Hp0 as (Hd & Kp). pose proof (own_in_Gt p Hd) as Ip. destruct (ups_in_Gt p q Hp Hq) as (Iq & Kq).
      rewrite value_upper_eq. rewrite (wr_app_at vpre) by auto. cbn [obind]. rewrite !loffset_pos by auto. destruct (gpos_room p Ip Kp) as (P1 & _). destruct (gpos_room q Iq Kq) as (Q1 & _). rewrite <- Gt_rows_count in P1, Q1.
      destruct (go_rows _ _ _ _ _ _ _ _ _ _ HO) as (LR & _ & _). destruct (go_nnz _ _ _ _ _ _ _ _ _ _ HO) as (LC & LV). rewrite !(rd_ok (g_rows G) _ 0) by lia. cbn [obind].
      assert (PQ : gpos p <= gpos q). { apply gpos_le; auto. apply ups_in in Hq. tauto. }
      pose proof (rows_mono (gpos p) (gpos p + 1) ltac:(lia) ltac:(lia)). pose proof (rows_mono (gpos q) (gpos q + 1) ltac:(lia) ltac:(lia)). pose proof (rows_mono (gpos q + 1) (gt_nrows G) ltac:(lia) ltac:(lia)). pose proof (rows_mono (gpos p + 1) (gt_nrows G) ltac:(lia) ltac:(lia)).
      rewrite merge_ok; try lia; rewrite ?Gt_row by auto; [|intros C|apply line_incr|apply line_incr].
      - cbn [obind]. rewrite lines_dot by auto. now rewrite Rplus_0_l.
      - destruct (Nat.eq_dec (gpos p) (gpos q)) as [E|NE]; [right; rewrite E; auto|]. left. pose proof (rows_mono (gpos p + 1) (gpos q) ltac:(lia) ltac:(lia)). lia.
    Qed.
    Lemma value_many p : In p (kidx (own r)) -> forall qs vpre junk vpost, incl qs (ups p) -> length junk = length qs ->
      foldM (fun st q => value_upper 0%R Rplus Rmult G (vert (fst p)) (snd p) (vert (fst q)) (snd q) st) qs (vpre ++ junk ++ vpost, length vpre) = Ok (vpre ++ map (prod p) qs ++ vpost, length vpre + length qs).
    Proof.
      intros Hp. induction qs as [|q qs IH]; intros vpre junk vpost HI HJ.
      - destruct junk; [|discriminate]. cbn. now rewrite Nat.add_0_r.
      - destruct junk as [|x junk]; [discriminate|]. cbn [foldM app]. rewrite value_ok by (auto; apply HI; left; auto). cbn [obind].
        specialize (IH (vpre ++ [prod p q]) junk vpost ltac:(intros z Hz; apply HI; right; auto) ltac:(cbn in HJ; lia)). rewrite app_length in IH. cbn [length] in IH. rewrite <- !app_assoc in IH. cbn [app] in IH. rewrite IH. cbn [map length app]. do 2 f_equal. lia.
    Qed.

    Section Rows.
      Variable M : ggt R.
      Lemma value_rows_ok ks : forall vpre junk vpost, incl ks (kidx (own r)) -> (forall i, i < length ks -> row_begin (gg_rows M) (gidx (nth i ks (0, 0))) = Ok (length vpre + list_sum (firstn i (ulens ks)))) -> length junk = list_sum (ulens ks) ->
        foldM (fun st p => value_row 0%R Rplus Rmult G M vs es (fst p) (vert (fst p)) (snd p) st) ks (vpre ++ junk ++ vpost) = Ok (vpre ++ uvals ks ++ vpost).
      Proof.
        induction ks as [|p ks IH]; intros vpre junk vpost HI HR HL.
        - destruct junk; [|discriminate]. reflexivity.
        - assert (Hp : In p (kidx (own r))) by (apply HI; left; auto). assert (Hd : In (fst p) (own r)) by (destruct p as (d, k); apply kidx_in in Hp; apply Hp).
          unfold L_ProjectorGGt2.ulens in HL. cbn [map list_sum fold_right] in HL. fold (ulens ks) in HL. change (fold_right Nat.add 0 (ulens ks)) with (list_sum (ulens ks)) in HL.
          rewrite <- (firstn_skipn (length (ups p)) junk). assert (L1 : length (firstn (length (ups p)) junk) = length (ups p)) by (rewrite firstn_length; lia). assert (L2 : length (skipn (length (ups p)) junk) = list_sum (ulens ks)) by (rewrite skipn_length; lia).
          revert L1 L2. generalize (firstn (length (ups p)) junk) as j1, (skipn (length (ups p)) junk) as j2. intros j1 j2 L1 L2. cbn [foldM]. unfold value_row at 1. 
          pose proof (HR 0 ltac:(cbn; lia)) as R0. cbn [nth firstn list_sum fold_right] in R0. rewrite (own_gidx n first L nb cmap ksize HC r vs es Hr HG p Hd). rewrite R0. cbn [obind]. rewrite Nat.add_0_r.
          rewrite (over_upper_ok n first L nb cmap ksize HC r vs es Hr HG) by auto. rewrite <- surjective_pairing. rewrite <- (app_assoc j1). rewrite (value_many p Hp (ups p)) by (auto using incl_refl). cbn [obind]. rewrite (app_assoc vpre).
          rewrite IH; auto.
          + unfold uvals. cbn [map concat]. rewrite <- !app_assoc. reflexivity.
          + intros x Hx. apply HI. right; auto.
          + intros i Hi. specialize (HR (S i) ltac:(cbn; lia)). cbn [nth] in HR. rewrite HR. f_equal. rewrite app_length, map_length. unfold L_ProjectorGGt2.ulens. cbn [map firstn list_sum fold_right]. unfold list_sum. lia.
      Qed.
      Lemma values_ok vpre junk vpost : gg_rows M = psums Indexing_CSR (ulens (kidx all)) -> gg_vals M = vpre ++ junk ++ vpost -> length vpre = list_sum (firstn (first_kernel (first r)) (ulens (kidx all))) -> length junk = list_sum (ulens (kidx (own r))) ->
        value_GGt 0%R Rplus Rmult D vs es G M = Ok (vpre ++ uvals (kidx (own r)) ++ vpost).
      Proof.
        intros ER EV LP LJ. unfold value_GGt. rewrite (over_rows_ok n first L nb cmap ksize HC r vs es Hr HG), EV. apply value_rows_ok; auto using incl_refl.
        intros i Hi. destruct (ranks_le n first L nb cmap HC r Hr) as (A & B & C). assert (EA : kidx all = kidx (seq (first 0) (first r - first 0)) ++ kidx (own r) ++ kidx (seq (first (r + 1)) (first n - first (r + 1)))).
        { unfold all_of. replace (first n - first 0) with ((first r - first 0) + ((first (r + 1) - first r) + (first n - first (r + 1)))) by lia. rewrite !seq_app, !kidx_app. replace (first 0 + (first r - first 0)) with (first r) by lia. unfold S_Feti.own, own_domains. do 4 f_equal. lia. }
        assert (EI : gidx (nth i (kidx (own r)) (0, 0)) = first_kernel (first r) + i).
        { rewrite <- (map_nth gidx). rewrite (gidx_own n first L nb cmap ksize HC r Hr). rewrite (nth_indep _ _ 0) by (rewrite seq_length; auto). now rewrite seq_nth. }
        rewrite EI. unfold row_begin. rewrite ER. rewrite (rd_ok _ _ 0) by (rewrite psums_length; unfold L_ProjectorGGt2.ulens; rewrite map_length, EA, !app_length, <- first_kernel_length; lia). cbn [obind].
        rewrite psums_nth by (unfold L_ProjectorGGt2.ulens; rewrite map_length, EA, !app_length, <- first_kernel_length; lia). replace (_ <? Indexing_CSR) with false by (symmetry; apply Nat.ltb_ge; lia). rewrite Nat.add_comm, Nat.add_sub. f_equal. rewrite LP. unfold L_ProjectorGGt2.ulens. rewrite EA, !map_app. rewrite (first_kernel_length first ksize (first r)).
        rewrite !firstn_app, !map_length. replace (length (kidx (seq (first 0) (first r - first 0))) + i - length (kidx (seq (first 0) (first r - first 0)))) with i by lia. rewrite Nat.sub_diag. cbn [firstn]. replace (i - length (kidx (own r))) with 0 by lia. cbn [firstn]. rewrite !app_nil_r.
        rewrite list_sum_app. rewrite !(firstn_all2 (n := length (kidx (seq (first 0) (first r - first 0))))) by (rewrite map_length; lia). rewrite firstn_all2 by (rewrite map_length; lia). reflexivity.
      Qed.
    End Rows.
  End Rank.
End Values.
