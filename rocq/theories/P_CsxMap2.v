(** * Permutation with a value map (C75) *)
From Coq Require Import List Bool Arith Lia Permutation Sorted.
From Verif Require Import Base S_Order M_Csx S_Csx M_CsxMap S_CsxMap L_Utils L_Csx L_Csx2 P_Csx P_Csx2 L_Csx3 P_Csx3 L_CsxMap P_CsxMap.
Import ListNotations.
Local Open Scope out_scope.

(** (primary, secondary, value) triples *)
Definition triple_entry {T} (o : order) (x : nat * nat * T) : entry T := coords o (fst (fst x)) (snd (fst x), snd x).
Definition tail_of {T} (x : nat * nat * T) : nat * T := (snd (fst x), snd x).

Lemma bucket_entries {T} (D : csx T) (L : list (nat * nat * T)) (r : nat -> list (nat * T)) :
  rep D (map r (seq 0 (size_primary D))) ->
  (forall x, In x L -> fst (fst x) < size_primary D) ->
  (forall p, p < size_primary D -> Permutation (r p) (map tail_of (bucket L p))) ->
  Permutation (entries D) (map (triple_entry (ord D)) L).
Proof.
  intros H HK HP. rewrite (rep_entries D _ H). rewrite map_length, seq_length.
  rewrite (buckets_perm L (size_primary D) HK). unfold buckets. rewrite <- flat_map_concat_map, flat_map_map.
  assert (G : forall l, (forall p, In p l -> p < size_primary D) ->
    Permutation (flat_map (fun p => map (coords (ord D) p) (nth p (map r (seq 0 (size_primary D))) [])) l)
                (flat_map (fun p => map (triple_entry (ord D)) (bucket L p)) l)).
  { induction l as [|p l IH]; intros Hl; auto. cbn [flat_map]. apply Permutation_app; [|apply IH; intros; apply Hl; right; auto].
    specialize (Hl p (or_introl eq_refl)). rewrite nth_map_seq by auto. rewrite (HP p Hl), map_map. apply perm_of_eq.
    apply map_ext_in. intros x Hx. unfold bucket in Hx. apply filter_In in Hx. destruct Hx as [_ Hx]. apply Nat.eqb_eq in Hx.
    unfold triple_entry, tail_of. rewrite Hx. reflexivity. }
  apply G. intros p Hp. apply in_seq in Hp. lia.
Qed.

Definition push_item {T} (o : list (list (nat * T))) (x : nat * nat * T) := push_back o (fst (fst x)) (tail_of x).

Lemma push_all {T} (L : list (nat * nat * T)) n : (forall x, In x L -> fst (fst x) < n) ->
  foldM push_item L (repeat [] n) = Ok (map (fun c => map tail_of (bucket L c)) (seq 0 n)).
Proof.
  intros HK.
  destruct (foldM_inv push_item (fun pre o => o = map (fun c => map tail_of (bucket pre c)) (seq 0 n)) L (repeat [] n)) as (o & E & ->); auto.
  - apply (nth_ext _ _ [] []); [now rewrite repeat_length, map_length, seq_length|]. intros j Hj. rewrite repeat_length in Hj.
    rewrite nth_repeat, nth_map_seq by auto. reflexivity.
  - intros pre a post o EL ->. assert (Ha : fst (fst a) < n) by (apply HK; rewrite EL; apply in_or_app; right; left; auto).
    unfold push_item, push_back. rewrite (rd_ok _ (fst (fst a)) []) by now rewrite map_length, seq_length. cbn [obind].
    rewrite wr_ok by now rewrite map_length, seq_length. eexists; split; [reflexivity|].
    apply (nth_ext _ _ [] []); [now rewrite upd_length, !map_length|]. intros j Hj. rewrite upd_length, map_length, seq_length in Hj.
    rewrite nth_upd by now rewrite map_length, seq_length.
    rewrite !nth_map_seq by auto. unfold bucket. rewrite filter_app, map_app. cbn [filter].
    destruct (Nat.eqb_spec (fst (fst a)) j) as [<-|N].
    + reflexivity.
    + cbn [map]. now rewrite app_nil_r.
Qed.

(** where the code puts an item (secondary, primary, position) *)
Definition target (pp ps : option perm) (tri toggle : bool) (x : nat * nat * nat) : nat * nat * nat :=
  let ipd := moved pp (snd (fst x)) in
  let isd := moved ps (fst (fst x)) in
  if negb tri || Bool.eqb (isd <? ipd) toggle then (ipd, isd, snd x) else (isd, ipd, snd x).

Lemma perm_rd_ok p n i : opt_perm_ok p n -> i < n -> perm_rd p i = Ok (moved p i).
Proof. destruct p as [p|]; simpl; auto. intros (_ & H & _) Hi. apply rd_ok. lia. Qed.

Lemma scatter_ok {T} (src : csx T) pp ps tri toggle :
  valid src -> opt_perm_ok pp (size_primary src) -> opt_perm_ok ps (size_secdary src) ->
  (tri = true -> size_primary src = size_secdary src) ->
  let L := map (target pp ps tri toggle) (items (map (line (positions src)) (seq 0 (size_primary src)))) in
  foldM (scatter_row src pp ps tri toggle) (seq 0 (size_primary src)) (repeat [] (size_primary src)) =
    Ok (map (fun c => map tail_of (bucket L c)) (seq 0 (size_primary src))) /\
  (forall x, In x L -> fst (fst x) < size_primary src /\ snd (fst x) < size_secdary src) /\ length L = nnz src.
Proof.
  intros V HP HS HT L. pose proof (valid_rep _ (positions_valid src V)) as H.
  change (size_primary (positions src)) with (size_primary src) in *.
  set (rs := map (line (positions src)) (seq 0 (size_primary src))) in *.
  assert (HI : forall x, In x (items rs) -> fst (fst x) < size_secdary src /\ snd (fst x) < size_primary src).
  { intros x Hx. apply items_in in Hx. destruct Hx as (r & -> & Hr & Hx). split.
    - apply (r_range _ _ H (nth (snd (fst x)) rs []) (fst (fst x), snd x)); auto. apply nth_In; auto.
    - rewrite (r_len _ _ H) in Hr. exact Hr. }
  assert (HL : forall x, In x L -> fst (fst x) < size_primary src /\ snd (fst x) < size_secdary src).
  { intros x Hx. apply in_map_iff in Hx. destruct Hx as (y & <- & Hy). destruct (HI y Hy) as (Q1 & Q2).
    pose proof (moved_lt _ _ _ HP Q2). pose proof (moved_lt _ _ _ HS Q1). unfold target.
    destruct tri; cbn [negb orb]; [|cbn [fst snd]; auto]. rewrite <- (HT eq_refl) in *. destruct (Bool.eqb _ _); cbn [fst snd]; auto. }
  split; [|split; auto].
  - rewrite <- (push_all L (size_primary src)) by (intros x Hx; apply HL; auto).
    unfold L. rewrite foldM_map. unfold items. rewrite <- foldM_flat_map, (r_len _ _ H). apply foldM_ext_in.
    intros o r Hr. apply in_seq in Hr. change (size_primary (positions src)) with (size_primary src) in Hr. rewrite foldM_map.
    unfold scatter_row. rewrite (perm_rd_ok pp _ r HP) by lia. cbn [obind].
    pose proof (rep_nth _ _ r H ltac:(change (size_primary (positions src)) with (size_primary src); lia)) as Hn.
    apply (row_loop' (positions src) rs r (nth r rs []) (scatter_entry src ps tri toggle (moved pp r))
       (fun o x => push_item o (target pp ps tri toggle (fst x, r, snd x))) o H Hn).
    intros o1 i x E1 E2. apply positions_pos in E2. cbn [positions set_values idxs] in E1. unfold scatter_entry.
    rewrite (rd_some _ _ _ E1). cbn [obind].
    rewrite (perm_rd_ok ps _ _ HS) by (apply (v_range src V), (nth_error_In _ _ E1)). cbn [obind].
    unfold target, push_item. cbn [fst snd]. rewrite E2. destruct (negb tri || _); reflexivity.
  - unfold L. rewrite map_length, items_length, <- (r_nnz _ _ H). reflexivity.
Qed.

Lemma sorted_total {T} (sort : list (nat * T) -> list (nat * T)) (g : nat -> list (nat * T)) l :
  sort_contract isd_lt sort -> length (concat (map (fun p => sort (g p)) l)) = length (concat (map g l)).
Proof.
  intros HS. induction l as [|p l IH]; auto. cbn [map concat]. rewrite !app_length, IH. f_equal. symmetry.
  apply Permutation_length, HS.
Qed.

(** the entry is moved; if only one triangle is stored, it is kept inside of it *)
Definition placed {T} (u : uplo) (rows cols : option perm) (e : entry T) : entry T := folded u (moved_entry rows cols e).

Lemma natural_placed u rows cols : natural (fun X => map (@placed X u rows cols)).
Proof.
  apply (natural_map (fun X => @placed X u rows cols)).
  - intros X Y f [[a b] x]. unfold placed, folded, moved_entry, retag_e, in_triangle, swapped, e_row, e_col, e_val. cbn [fst snd].
    destruct u; auto; match goal with |- context [if ?b then _ else _] => destruct b end; reflexivity.
  - intros X [[a b] x]. unfold placed, folded, moved_entry, in_triangle, swapped, e_row, e_col, e_val. cbn [fst snd].
    destruct u; auto; match goal with |- context [if ?b then _ else _] => destruct b end; reflexivity.
Qed.

Lemma target_placed (o : order) (u : uplo) rows cols (x : nat * nat * nat) :
  triple_entry o (target (match o with OrdR => rows | OrdC => cols end) (match o with OrdR => cols | OrdC => rows end)
     (is_uplo u) (triangle_toggle o u) x) =
  placed u rows cols (coords o (snd (fst x)) (fst (fst x), snd x)).
Proof.
  destruct x as [[s p] i]. unfold target, triple_entry, placed, folded, moved_entry, in_triangle, swapped, coords, e_row, e_col, e_val, triangle_toggle.
  destruct o, u; cbn [fst snd is_uplo negb orb order_eqb uplo_eqb Bool.eqb]; auto;
  match goal with |- context [Bool.eqb (?a <? ?b) _] => destruct (Nat.ltb_spec a b) end;
  match goal with |- context [?a <=? ?b] => destruct (Nat.leb_spec a b) end; cbn [Bool.eqb fst snd]; try lia; auto;
  match goal with H : ?a <= ?b, H' : ?b <= ?a |- _ => assert (Q : a = b) by lia; rewrite Q; auto end.
Qed.

Theorem permute_map_transports : forall (T : Type) (sort : list (nat * nat) -> list (nat * nat)) (src dst : csx T)
  (rows cols : option perm) (mp0 : list nat),
  sort_contract isd_lt sort ->
  valid src -> allocated dst -> ord dst = ord src -> upl dst = upl src ->
  nrows dst = nrows src -> ncols dst = ncols src -> nnz dst = nnz src ->
  (upl src <> UploNone -> nrows src = ncols src) ->
  opt_perm_ok rows (nrows src) -> opt_perm_ok cols (ncols src) -> length mp0 = nnz src ->
  exists d mp, permute_map_pattern sort src dst rows cols mp0 = Ok (d, mp) /\
    nrows d = nrows src /\ ncols d = ncols src /\ nnz d = nnz src /\ ord d = ord src /\ upl d = upl src /\
    forall v dv : list T, length v = nnz src -> length dv = nnz src ->
    exists r, map_values (set_values src v) (set_values d dv) mp = Ok (set_values d r) /\
      valid (set_values d r) /\ ascending (set_values d r) /\
      Permutation (entries (set_values d r)) (map (placed (upl src) rows cols) (entries (set_values src v))) /\
      (forall e, In e (entries (set_values d r)) -> in_triangle (upl src) e = true).
Proof.
  intros T sort src dst rows cols mp0 HSo V HA HO HU S1 S2 S3 HQ HR HC L0. pose proof HA as (A1 & A2 & A3).
  set (pp := match ord src with OrdR => rows | OrdC => cols end).
  set (ps := match ord src with OrdR => cols | OrdC => rows end).
  assert (Hpp : opt_perm_ok pp (size_primary src)) by (unfold pp, size_primary; destruct (ord src); auto).
  assert (Hps : opt_perm_ok ps (size_secdary src)) by (unfold ps, size_secdary; destruct (ord src); auto).
  assert (HT : is_uplo (upl src) = true -> size_primary src = size_secdary src).
  { intros Ht. unfold size_primary, size_secdary. destruct (ord src); [|symmetry]; apply HQ; intros C; rewrite C in Ht; discriminate. }
  assert (P1 : size_primary dst = size_primary src) by (unfold size_primary; rewrite HO; destruct (ord src); auto).
  assert (P2 : size_secdary dst = size_secdary src) by (unfold size_secdary; rewrite HO; destruct (ord src); auto).
  destruct (scatter_ok src pp ps (is_uplo (upl src)) (triangle_toggle (ord dst) (upl dst)) V Hpp Hps HT) as (E1 & HL & LL).
  set (L := map (target pp ps _ _) _) in *.
  set (g := fun c => sort (map tail_of (bucket L c))).
  set (dn := set_values dst mp0).
  assert (NN : length (concat (map g (seq 0 (size_primary src)))) = nnz dn).
  { unfold g. rewrite (sorted_total sort (fun c => map tail_of (bucket L c))) by auto.
    rewrite <- (map_map (fun c => bucket L c) (map tail_of)), <- concat_map, map_length.
    change (map (fun c => bucket L c) (seq 0 (size_primary src))) with (buckets L (size_primary src)).
    rewrite buckets_length by (intros x Hx; apply HL; auto). cbn. lia. }
  assert (HAn : allocated dn) by (unfold allocated, dn; cbn; change (size_primary (set_values dst mp0)) with (size_primary dst); auto with arith; repeat split; lia).
  destruct (build_rows dn (fun st p => l <- rd (map g (seq 0 (size_primary src))) p ;; foldM (fun st x => emit st (fst x) (snd x)) l st) g (size_primary src))
    as (pt & st & E2 & Lp & HW & Hp); auto.
  { lia. }
  { intros st W p Hp HW HN. rewrite (rd_ok _ p []) by now rewrite map_length, seq_length. rewrite nth_map_seq by auto.
    cbn [obind]. eapply emits_ok; eauto. }
  pose proof (build_rep dn g (size_primary src) pt st P1 NN Lp HW Hp) as HD.
  destruct st as [[ix mp] k]. cbn [fst snd] in HD.
  assert (Hk : k = nnz dn) by (destruct HW as (_ & _ & Q & _); cbn [snd] in Q; lia).
  set (D := with_data dn (upd pt (size_primary src) (nnz dn)) ix mp) in *.
  assert (HD' : rep D (map g (seq 0 (size_primary src)))).
  { apply HD. intros p x Hp' Hx. unfold g in Hx. apply (Permutation_in _ (Permutation_sym (proj1 (HSo _)))) in Hx.
    apply in_map_iff in Hx. destruct Hx as (y & <- & Hy). unfold bucket in Hy. apply filter_In in Hy.
    cbn [tail_of fst]. unfold dn. change (size_secdary (set_values dst mp0)) with (size_secdary dst). rewrite P2. apply HL. tauto. }
  assert (VD : valid D) by (eapply rep_valid; eauto).
  assert (AD : ascending D).
  { apply (rep_ascending _ _ HD'). intros r Hr. apply in_map_iff in Hr. destruct Hr as (c & <- & _). apply isd_sorted. apply HSo. }
  exists (with_data dst (upd pt (size_primary src) (nnz dn)) ix (vals dst)), mp. split.
  { unfold permute_map_pattern. rewrite HO. destruct (order_eqb_spec (ord src) (ord src)); [|congruence]. cbn [negb].
    rewrite HU. assert (uplo_eqb (upl src) (upl src) = true) as -> by (destruct (upl src); auto). cbn [negb].
    rewrite (proj2 (same_sizes_spec src dst)) by auto. cbn [negb].
    assert (W1 : wrong_perm rows (nrows src) = false).
    { destruct rows as [q|]; simpl; auto. destruct HR as (Q & _). unfold psize. rewrite Q, Nat.eqb_refl. auto. }
    assert (W2 : wrong_perm cols (ncols src) = false).
    { destruct cols as [q|]; simpl; auto. destruct HC as (Q & _). unfold psize. rewrite Q, Nat.eqb_refl. auto. }
    rewrite W1, W2. fold pp ps. rewrite P1. rewrite HO, HU in E1. rewrite E1. cbn [obind].
    rewrite map_map. fold g.
    rewrite (foldM_ext_in _ (build_step (fun st p => l <- rd (map g (seq 0 (size_primary src))) p ;; foldM (fun st x => emit st (fst x) (snd x)) l st))).
    - change (ptrs dst, (idxs dst, mp0, 0)) with (ptrs dn, (idxs dn, vals dn, 0)). rewrite E2. cbn [obind]. rewrite wr_ok by lia. cbn [obind]. rewrite Hk. reflexivity.
    - intros [pt0 st0] p _. unfold write_row, build_step. cbn [fst snd]. destruct (wr pt0 p (snd st0)); auto. cbn [obind].
      destruct (rd _ p); reflexivity. }
  split; [exact S1|]. split; [exact S2|]. split; [exact S3|]. split; [exact HO|]. split; [exact HU|].
  assert (HPE : Permutation (entries D) (map (placed (upl src) rows cols) (entries (positions src)))).
  { rewrite (bucket_entries D L g).
    - pose proof (valid_rep _ (positions_valid src V)) as H. rewrite (entries_items _ _ H). unfold L. rewrite !map_map. apply perm_of_eq.
      apply map_ext. intros x. cbn [positions set_values ord D dn with_data]. rewrite HO, HU. unfold pp, ps. apply target_placed.
    - replace (size_primary D) with (size_primary src) by (symmetry; exact P1). exact HD'.
    - intros x Hx. replace (size_primary D) with (size_primary src) by (symmetry; exact P1). apply HL; auto.
    - intros p _. symmetry. apply HSo. }
  intros v dv Lv Ld.
  destruct (finish src D _ (natural_placed (upl src) rows cols) V VD AD HPE v dv Lv ltac:(cbn; lia)) as (r & E3 & V1 & A1' & HP1).
  exists r. split.
  { unfold copy_values in E3. unfold map_values. cbn [set_values nnz vals with_data D dn] in *. rewrite <- S3. exact E3. }
  split; auto. split; auto. split; auto.
  intros e He. apply (Permutation_in _ HP1) in He. apply in_map_iff in He. destruct He as (e0 & <- & _).
  destruct (moved_entry rows cols e0) as [[a b] x] eqn:Em. unfold placed, folded. rewrite Em.
  unfold in_triangle, swapped, e_row, e_col, e_val. cbn [fst snd].
  destruct (upl src); auto; match goal with |- context [if ?b then _ else _] => destruct b eqn:Eb end; auto; cbn [fst snd];
    apply Nat.leb_gt in Eb; apply Nat.leb_le; lia.
Qed.

Example permute_map_ex : exists d mp d',
  permute_map_pattern sort_isd ex_m (Csx 3 4 4 OrdR UploNone [9; 9; 9; 9] [9; 9; 9; 9] [0; 0; 0; 0]) (Some ex_rows) (Some ex_cols) [9; 9; 9; 9] = Ok (d, mp) /\
  map_values ex_m d mp = Ok d' /\
  ptrs d' = [0; 1; 4; 4] /\ idxs d' = [3; 0; 2; 3] /\ vals d' = [40; 30; 20; 10].
Proof. do 3 eexists. split; [vm_compute; reflexivity|]. split; [vm_compute; reflexivity|]. cbn. auto. Qed.

(** a lower triangle, symmetrically permuted: entry (2,0) goes to (0,1), kept as (1,0) *)
Definition ex_tri : csx nat := Csx 3 3 4 OrdR UploL [0; 1; 2; 4] [0; 1; 0; 2] [11; 22; 31; 33].
Example permute_map_hyps : sort_contract isd_lt (@sort_isd nat) /\ valid ex_tri /\ opt_perm_ok (Some ex_rows) 3 /\ upl ex_tri <> UploNone /\ nrows ex_tri = ncols ex_tri.
Proof.
  split; [apply sort_isd_ok|]. split.
  { split; unfold allocated; cbn; auto. - intros p Hp. do 3 (destruct p as [|p]; [cbn; lia|]). lia.
    - intros c H. repeat destruct H as [<-|H]; try lia; auto. }
  split; [|split; [discriminate|reflexivity]].
  split; [reflexivity|]. split; [reflexivity|]. intros i Hi. do 3 (destruct i as [|i]; [cbn; lia|]). lia.
Qed.

Example permute_map_tri_ex : exists d mp d',
  permute_map_pattern sort_isd ex_tri (Csx 3 3 4 OrdR UploL [9; 9; 9; 9] [9; 9; 9; 9] [0; 0; 0; 0]) (Some ex_rows) (Some ex_rows) [9; 9; 9; 9] = Ok (d, mp) /\
  map_values ex_tri d mp = Ok d' /\
  ptrs d' = [0; 1; 3; 4] /\ idxs d' = [0; 0; 1; 2] /\ vals d' = [33; 31; 11; 22].
Proof. do 3 eexists. split; [vm_compute; reflexivity|]. split; [vm_compute; reflexivity|]. cbn. auto. Qed.

Print Assumptions permute_map_transports.
