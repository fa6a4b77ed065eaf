(** * Lemmas: G G^T on all ranks *)
From Coq Require Import List Arith ZArith Lia Bool Reals Lra.
From Verif Require Import Base M_Indexing M_Nb S_Nb S_Comm L_Coll M_Exchange S_Scan P_Scan M_Dual S_Dual L_Dual2 L_Dual4 M_DualGraph S_DualGraph L_DualGraph L_DualGraph3 L_DualGraph4 S_Equality L_Equality6 M_TotalFeti S_Feti L_TotalFeti
  M_Projector S_Projector L_Projector L_Projector2 L_Projector3 M_ProjectorG S_ProjectorG L_ProjectorG L_ProjectorG2 L_ProjectorG3 M_ProjectorGGt S_ProjectorGGt L_ProjectorGGt L_ProjectorGGt2 L_ProjectorGGt3 L_ProjectorGGt4.
Import ListNotations.
Local Open Scope out_scope.

Lemma psums_app a b s : psums s (a ++ b) = psums s a ++ tl (psums (s + list_sum a) b).
Proof. revert s. induction a as [|x a IH]; intros s; cbn [app psums list_sum fold_right]; [rewrite Nat.add_0_r; destruct b; reflexivity|]. rewrite IH. cbn [app]. do 3 f_equal. unfold list_sum. now rewrite Nat.add_assoc. Qed.
Lemma incr_unique_pos (l : list (nat * R)) a x y b : incr (map fst l) -> l = a ++ x :: y :: b -> fst x < fst y.
Proof. intros I ->. induction a as [|z a IH]; cbn [app map incr] in I; destruct I as (A & B); auto. apply A. left; auto. Qed.

Section All.
  Variables (n : nat) (first : nat -> nat) (L : list (list nat)) (nb cmap : nat -> list nat) (ksize : nat -> nat).
  Variables (len : nat -> nat) (row : nat -> nat -> list (nat * R)) (Rk : nat -> nat -> nat -> R).
  Hypothesis HC : consistent n first L nb cmap.
  Local Notation own := (S_Feti.own first).
  Local Notation all := (all_of n first).
  Local Notation kidx := (kidx ksize).
  Local Notation gidx := (gidx first ksize).
  Local Notation ups := (ups n first L ksize).
  Local Notation ulens := (ulens n first L ksize).
  Local Notation ucols := (ucols n first L ksize).
  Local Notation uvals := (uvals n first L ksize len row Rk).
  Local Notation prod := (prod L len row Rk).
  Local Notation first_kernel := (first_kernel first ksize).
  Local Notation upto i := (kidx (seq (first 0) (first i - first 0))).

  Lemma upto_S i : i < n -> upto (i + 1) = upto i ++ kidx (own i).
  Proof.
    intros Hi. destruct (ranks_le n first L nb cmap HC i Hi) as (A & B & C). replace (first (i + 1) - first 0) with ((first i - first 0) + (first (i + 1) - first i)) by lia. rewrite seq_app, kidx_app. replace (first 0 + (first i - first 0)) with (first i) by lia. reflexivity.
  Qed.
  Lemma ulens_app a b : ulens (a ++ b) = ulens a ++ ulens b.
  Proof. apply map_app. Qed.
  Lemma upto_all i : i <= n -> exists rest, kidx all = upto i ++ rest.
  Proof.
    intros Hi. exists (kidx (seq (first i) (first n - first i))). pose proof (first_le n first L nb cmap HC 0 i ltac:(lia)). pose proof (first_le n first L nb cmap HC i n ltac:(lia)). unfold all_of.
    replace (first n - first 0) with ((first i - first 0) + (first n - first i)) by lia. rewrite seq_app, kidx_app. replace (first 0 + (first i - first 0)) with (first i) by lia. reflexivity.
  Qed.
  Lemma upto_firstn i : i <= n -> firstn (first_kernel (first i)) (ulens (kidx all)) = ulens (upto i).
  Proof. intros Hi. destruct (upto_all i Hi) as (rest & ->). rewrite first_kernel_length, ulens_app, firstn_app. unfold L_ProjectorGGt2.ulens. rewrite map_length, Nat.sub_diag. cbn [firstn]. rewrite app_nil_r. apply firstn_all2. rewrite map_length. lia. Qed.
  Lemma upto_le i : i <= n -> list_sum (ulens (upto i)) <= list_sum (ulens (kidx all)).
  Proof. intros Hi. destruct (upto_all i Hi) as (rest & ->). rewrite ulens_app, list_sum_app. lia. Qed.

  (** gathering *)
  Lemma gathered_concat {A} (F : list (nat * nat) -> list A) : F [] = [] -> (forall a b, F (a ++ b) = F a ++ F b) -> forall i, i <= n -> gathered (fun r => F (kidx (own r))) 0 i = F (upto i).
  Proof.
    intros F0 FA. induction i as [|i IH]; intros Hi; [rewrite Nat.sub_diag; symmetry; exact F0|]. rewrite <- Nat.add_1_r. rewrite (gathered_split _ 0 i (i + 1)) by lia. rewrite gathered_one, IH, upto_S, FA by lia. reflexivity.
  Qed.
  Definition row_part (r : nat) : list nat := tl (psums (list_sum (ulens (upto r)) + Indexing_CSR) (ulens (kidx (own r)))).
  Lemma row_part_length r : length (row_part r) = length (kidx (own r)).
  Proof. unfold row_part. pose proof (psums_length (list_sum (ulens (upto r)) + Indexing_CSR) (ulens (kidx (own r)))) as E. destruct (psums _ _); [discriminate|]. cbn [tl length] in *. injection E as ->. apply map_length. Qed.
  Lemma gathered_rows i : i <= n -> gathered row_part 0 i = tl (psums Indexing_CSR (ulens (upto i))).
  Proof.
    induction i as [|i IH]; intros Hi; [rewrite Nat.sub_diag; reflexivity|]. rewrite <- Nat.add_1_r. rewrite (gathered_split _ 0 i (i + 1)) by lia. rewrite gathered_one, IH, upto_S by lia. rewrite ulens_app, psums_app. unfold row_part.
    assert (E : forall l s (x : list nat), tl (psums s l ++ x) = tl (psums s l) ++ x) by (intros [|y l] s x; reflexivity). rewrite E. do 3 f_equal. lia.
  Qed.
  Lemma rows_offset i : i <= n -> S_Comm.offset row_part i = first_kernel (first i).
  Proof.
    intros Hi. unfold S_Comm.offset. rewrite gathered_rows by auto. pose proof (psums_length Indexing_CSR (ulens (upto i))) as E. destruct (psums Indexing_CSR (ulens (upto i))); [discriminate|]. cbn [tl length] in *. injection E as ->. unfold L_ProjectorGGt2.ulens. rewrite map_length. symmetry. apply first_kernel_length.
  Qed.
  Lemma ucols_app a b : ucols (a ++ b) = ucols a ++ ucols b.
  Proof. unfold L_ProjectorGGt2.ucols. now rewrite map_app, concat_app. Qed.
  Lemma uvals_app a b : uvals (a ++ b) = uvals a ++ uvals b.
  Proof. unfold L_ProjectorGGt4.uvals. now rewrite map_app, concat_app. Qed.
  Lemma counts_upto i : i <= n -> sum_below (map (fun r => Z.of_nat (list_sum (ulens (kidx (own r))))) (seq 0 n)) i = Z.of_nat (list_sum (ulens (upto i))).
  Proof.
    induction i as [|i IH]; intros Hi; [rewrite sum_below_0, Nat.sub_diag; reflexivity|]. rewrite sum_below_S by (rewrite map_length, seq_length; lia). rewrite IH by lia.
    rewrite (nth_indep _ 0%Z (Z.of_nat (list_sum (ulens (kidx (own 0)))))) by (rewrite map_length, seq_length; lia). rewrite (map_nth (fun r => Z.of_nat (list_sum (ulens (kidx (own r)))))), seq_nth by lia. cbn [Nat.add].
    rewrite <- Nat2Z.inj_add. f_equal. rewrite <- Nat.add_1_r, upto_S, ulens_app, list_sum_app by lia. reflexivity.
  Qed.
  Lemma upper_pairs_length : length (upper_pairs n first L ksize) = list_sum (ulens (kidx all)).
  Proof.
    unfold upper_pairs. change (kernel_list n first ksize) with (kidx all). rewrite flat_map_concat_map, concat_length, map_map. unfold L_ProjectorGGt2.ulens. f_equal.
    transitivity (map (fun i => length (ups (nth i (kidx all) (0, 0)))) (seq 0 (length (kidx all)))).
    - apply map_ext_in. intros i Hi. apply in_seq in Hi. rewrite map_length. unfold L_ProjectorGGt.ups.
      assert (E : filter (fun q => glued L (all_multipliers L) (fst (nth i (kidx all) (0, 0))) (fst q) && (gidx (nth i (kidx all) (0, 0)) <=? gidx q)) (kidx all) =
                  map (fun j => nth j (kidx all) (0, 0)) (filter (fun j => (i <=? j) && on_kernels n first ksize (fun d _ d' _ => glued L (all_multipliers L) d d') i j) (seq 0 (length (kidx all))))).
      { transitivity (filter (fun q => glued L (all_multipliers L) (fst (nth i (kidx all) (0, 0))) (fst q) && (gidx (nth i (kidx all) (0, 0)) <=? gidx q)) (map (fun j => nth j (kidx all) (0, 0)) (seq 0 (length (kidx all))))).
        - f_equal. apply (nth_ext _ _ (0, 0) (0, 0)); [now rewrite map_length, seq_length|]. intros j Hj. now rewrite map_seq_nth by auto.
        - rewrite filter_map_comm. f_equal. apply filter_ext_in. intros j Hj. apply in_seq in Hj. rewrite !(gidx_nth n first ksize) by lia. unfold on_kernels. change (kernel_list n first ksize) with (kidx all). apply andb_comm. }
      rewrite E. now rewrite map_length.
    - rewrite <- (map_map (fun i => nth i (kidx all) (0, 0)) (fun p => length (ups p))). f_equal. apply (nth_ext _ _ (0, 0) (0, 0)); [now rewrite map_length, seq_length|]. intros j Hj. rewrite map_length, seq_length in Hj. now rewrite map_seq_nth by auto.
  Qed.

  (** ** The whole matrix *)
  Hypothesis HB : entries_ok L len row.
  Lemma not_glued p q : glued L (all_multipliers L) (fst p) (fst q) = false -> prod p q = 0%R.
  Proof.
    intros H. unfold L_ProjectorGGt4.prod, GGt. apply Sum_zero. intros m Hm. apply in_seq in Hm. destruct (in_dec Nat.eq_dec (fst p) (domains L m)) as [A|A]; [|rewrite (G_zero L len row HB) by (auto; lia); lra].
    destruct (in_dec Nat.eq_dec (fst q) (domains L m)) as [B|B]; [|rewrite (G_zero L len row HB Rk (fst q)) by (auto; lia); lra]. exfalso. assert (X : glued L (all_multipliers L) (fst p) (fst q) = true) by (apply (glued_iff L); exists m; split; [lia|auto]). congruence.
  Qed.
  Definition ublock (p : nat * nat) : list (nat * R) := map (fun q => (gidx q + Indexing_CSR, prod p q)) (ups p).
  Lemma csr_line_all i : i < length (kidx all) -> csr_line (psums Indexing_CSR (ulens (kidx all))) (ucols (kidx all)) (uvals (kidx all)) i = ublock (nth i (kidx all) (0, 0)).
  Proof.
    intros Hi. unfold csr_line. assert (LL : length (ulens (kidx all)) = length (kidx all)) by (unfold L_ProjectorGGt2.ulens; now rewrite map_length).
    assert (SH : forall j, j <= length (kidx all) -> nth j (psums Indexing_CSR (ulens (kidx all))) 0 - Indexing_CSR = nth j (psums 0 (ulens (kidx all))) 0) by (intros j Hj; rewrite !psums_nth by lia; lia). rewrite !SH by lia. set (bs := map ublock (kidx all)).
    assert (E1 : ulens (kidx all) = map (@length _) bs). { unfold bs, L_ProjectorGGt2.ulens. rewrite map_map. apply map_ext. intros. unfold ublock. now rewrite map_length. }
    assert (E2 : combine (ucols (kidx all)) (uvals (kidx all)) = concat bs).
    { rewrite <- (combine_fst_snd (concat bs)). unfold bs. rewrite !concat_map, !map_map. unfold L_ProjectorGGt2.ucols, L_ProjectorGGt4.uvals. f_equal; f_equal; apply map_ext; intros p; unfold ublock; rewrite map_map; reflexivity. }
    rewrite E1, E2. pose proof (slice_concat bs [] i ltac:(unfold bs; now rewrite map_length)) as S. cbn [length app] in S. rewrite S. unfold bs. rewrite (nth_indep _ _ (ublock (0, 0))) by (now rewrite map_length). apply map_nth.
  Qed.
  Lemma filter_incr (l : list (nat * nat)) f : incr (map gidx l) -> incr (map gidx (filter f l)).
  Proof.
    induction l as [|x l IH]; cbn [map filter incr]; auto. intros (A & B). destruct (f x); auto. cbn [map incr]. split; auto. intros y Hy. apply A. apply in_map_iff in Hy. destruct Hy as (z & <- & Hz). apply filter_In in Hz. apply in_map. tauto.
  Qed.
  Lemma upper_ok : upper_csr (length (kernel_list n first ksize)) (GGt_of n first L len row ksize Rk) (psums Indexing_CSR (ulens (kidx all))) (ucols (kidx all)) (uvals (kidx all)).
  Proof.
    change (kernel_list n first ksize) with (kidx all). assert (LU : length (ulens (kidx all)) = length (kidx all)) by apply map_length. constructor.
    - split; [rewrite psums_length; lia|]. split; [destruct (ulens (kidx all)); reflexivity|]. intros i Hi. apply psums_le. lia.
    - rewrite psums_nth by lia. rewrite firstn_all2 by lia. rewrite ucols_length, uvals_length. split; lia.
    - intros i a b x y Hi E. rewrite csr_line_all in E by auto. refine (incr_unique_pos _ a x y b _ E). unfold ublock. rewrite map_map. cbn [fst].
      assert (I : incr (map gidx (ups (nth i (kidx all) (0, 0))))). { apply filter_incr. rewrite gidx_all. apply incr_seq. }
      clear - I. induction (ups (nth i (kidx all) (0, 0))) as [|q l IH]; cbn [map incr] in *; auto. destruct I as (A & B). split; auto. intros z Hz. apply in_map_iff in Hz. destruct Hz as (w & <- & Hw). specialize (A _ (in_map gidx _ _ Hw)). lia.
    - intros i x Hi I. rewrite csr_line_all in I by auto. unfold ublock in I. apply in_map_iff in I. destruct I as (q & <- & Hq). cbn [fst]. apply ups_in in Hq. destruct Hq as (Hq & _ & LE). rewrite gidx_nth in LE by auto. destruct (nth_gidx n first ksize q (0, 0) Hq). lia.
    - intros i j Hj. rewrite csr_line_all by lia. unfold ublock. rewrite Sum_map. cbn [fst snd]. set (p := nth i (kidx all) (0, 0)). set (q := nth j (kidx all) (0, 0)).
      assert (Iq : In q (kidx all)) by (apply nth_In; lia). assert (Gq : gidx q = j) by (apply gidx_nth; lia). assert (Gp : gidx p = i) by (apply gidx_nth; lia).
      change (GGt_of n first L len row ksize Rk i j) with (prod p q). unfold L_ProjectorGGt.ups. rewrite Sum_filter.
      rewrite (Sum_single (kidx all) q).
      + rewrite Gp, Gq. destruct (Nat.leb_spec i j); [|lia]. rewrite andb_true_r. rewrite Nat.eqb_refl. destruct (glued L (all_multipliers L) (fst p) (fst q)) eqn:E; auto. symmetry. now apply not_glued.
      + apply (NoDup_map_inv gidx). rewrite gidx_all. apply seq_NoDup.
      + exact Iq.
      + intros y Iy NE. destruct (glued L (all_multipliers L) (fst p) (fst y) && (gidx p <=? gidx y)); auto. destruct (Nat.eqb_spec (gidx y + Indexing_CSR) (j + Indexing_CSR)) as [E|E]; auto. exfalso. apply NE.
        destruct (nth_gidx n first ksize y (0, 0) Iy) as (_ & <-). unfold q. f_equal. lia.
  Qed.
End All.
