(** * Lemmas on the synchronization of distributed matrices: the entries of all rows are numbered one after another and they are synchronized as the DOFs of a vector *)
From Coq Require Import List Arith Bool Lia Sorted.
From Verif Require Import Base M_Indexing M_Distributed M_DistMatrix M_DistMatrixSync L_Equality L_TotalFeti L_Csx2 L_Fill2 L_Utils L_Pattern3 L_Distributed L_Distributed2.
Import ListNotations.
Local Open Scope out_scope.

Lemma filter_none {A} (f : A -> bool) l : (forall x, In x l -> f x = false) -> filter f l = [].
Proof. induction l as [|x l IH]; intros H; auto. cbn [filter]. rewrite H by (left; auto). apply IH. intros; apply H; right; auto. Qed.
Lemma filter_all {A} (f : A -> bool) l : (forall x, In x l -> f x = true) -> filter f l = l.
Proof. induction l as [|x l IH]; intros H; auto. cbn [filter]. rewrite H by (left; auto). f_equal. apply IH. intros; apply H; right; auto. Qed.
Lemma filter_flat {A} (F : nat -> list A) (f : A -> bool) (h : nat -> bool) l : (forall g, In g l -> filter f (F g) = if h g then F g else []) -> filter f (flat_map F l) = flat_map F (filter h l).
Proof.
  induction l as [|g l IH]; intros H; auto. cbn [flat_map filter]. rewrite filter_app, H by (left; auto). rewrite IH by (intros; apply H; right; auto). destruct (h g); auto.
Qed.
Lemma filter_firstn b l : StronglySorted lt l -> filter (fun g => g <? b) l = firstn (below b l) l.
Proof.
  intros S. transitivity (filter (fun g => (0 <=? g) && (g <? b)) l); [apply filter_ext; auto|]. rewrite between_slice by (auto; lia). rewrite (below_none l 0) by (intros; lia). unfold slice. rewrite Nat.sub_0_r. auto.
Qed.
Lemma flat_map_length_eq {A B C} (F : A -> list B) (G : A -> list C) l : (forall x, In x l -> length (F x) = length (G x)) -> length (flat_map F l) = length (flat_map G l).
Proof. induction l as [|x l IH]; intros H; auto. cbn [flat_map]. rewrite !app_length, IH by (intros; apply H; right; auto). rewrite H by (left; auto). auto. Qed.
Lemma map_seq_shift a b n : map (fun e => e - a + b) (seq a n) = seq b n.
Proof.
  apply (nth_ext _ _ 0 0); rewrite ?map_length, ?seq_length; auto. intros i Hi. rewrite (nth_map _ _ i 0 0) by (rewrite seq_length; auto). rewrite !seq_nth by auto. lia.
Qed.

Section Entries.
  Variable row : nat -> list nat.
  Notation EG := (rowptr row).
  Definition ent (g : nat) : list nat := seq (EG g) (length (row g)).
  Lemma ent_in g e : In e (ent g) <-> EG g <= e < EG (S g).
  Proof. unfold ent. rewrite in_seq, rowptr_S. tauto. Qed.
  Lemma ent_length g : length (ent g) = length (row g).
  Proof. apply seq_length. Qed.
  Lemma ent_seq b n : flat_map ent (seq b n) = seq (EG b) (EG (b + n) - EG b).
  Proof.
    revert b. induction n as [|n IH]; intros b. { rewrite Nat.add_0_r, Nat.sub_diag. auto. } cbn [seq flat_map]. rewrite IH. unfold ent. rewrite rowptr_S. replace (S b + n) with (b + S n) by lia.
    pose proof (rowptr_mono row (S b) (b + S n) ltac:(lia)) as M. rewrite rowptr_S in M. replace (EG (b + S n) - EG b) with (length (row b) + (EG (b + S n) - (EG b + length (row b)))) by lia. rewrite seq_app. auto.
  Qed.
  Lemma ent_filter b g : filter (fun e => EG b <=? e) (ent g) = if b <=? g then ent g else [].
  Proof.
    destruct (Nat.leb_spec b g) as [L|L]; [apply filter_all|apply filter_none]; intros e He; apply ent_in in He.
    - pose proof (rowptr_mono row b g L). apply Nat.leb_le. lia.
    - pose proof (rowptr_mono row (S g) b L). apply Nat.leb_gt. lia.
  Qed.
  Lemma ent_filter_lt b g : filter (fun e => e <? EG b) (ent g) = if g <? b then ent g else [].
  Proof.
    destruct (Nat.ltb_spec g b) as [L|L]; [apply filter_all|apply filter_none]; intros e He; apply ent_in in He.
    - pose proof (rowptr_mono row (S g) b L). apply Nat.ltb_lt. lia.
    - pose proof (rowptr_mono row b g L). apply Nat.ltb_ge. lia.
  Qed.
  Lemma ent_sorted l : StronglySorted lt l -> StronglySorted lt (flat_map ent l).
  Proof.
    induction 1 as [|g l Sl IH F]; [constructor|]. cbn [flat_map]. apply ss_app_lt; auto; [apply ss_seq|]. intros x y Hx Hy. apply ent_in in Hx. apply in_flat_map in Hy. destruct Hy as (h & Hh & Hy). apply ent_in in Hy.
    rewrite Forall_forall in F. specialize (F h Hh). pose proof (rowptr_mono row (S g) h F). lia.
  Qed.
End Entries.

Section Sync.
  Variables (P : nat) (st fin : nat -> nat) (halo nb : nat -> list nat).
  Hypothesis st_fin : forall r, r < P -> st r <= fin r.
  Hypothesis ranks_ordered : forall r s, r < s -> s < P -> fin r <= st s.
  Hypothesis halo_sorted : forall r, r < P -> StronglySorted lt (halo r).
  Hypothesis halo_owner : forall r g, r < P -> In g (halo r) -> exists o, o < r /\ st o <= g < fin o /\ In o (nb r).
  Hypothesis nb_sorted : forall r, r < P -> StronglySorted lt (nb r).
  Hypothesis nb_sym : forall r j, r < P -> In j (nb r) -> j < P /\ j <> r /\ In r (nb j).
  Variable row : nat -> list nat.
  Hypothesis row_sorted : forall g, StronglySorted lt (row g).
  Definition sdofs (r : nat) : list nat := halo r ++ seq (st r) (fin r - st r).
  Definition RP (r i : nat) : nat := length (flat_map row (firstn i (sdofs r))).
  Variable pt : nat -> dpattern.
  Hypothesis pt_len : forall r, r < P -> length (dp_row (pt r)) = length (sdofs r) + 1.
  Hypothesis pt_row : forall r i, r < P -> i <= length (sdofs r) -> nth i (dp_row (pt r)) 0 = RP r i.
  Hypothesis pt_col : forall r, r < P -> dp_column (pt r) = flat_map row (sdofs r).

  Notation EG := (rowptr row).
  Definition vst (r : nat) : nat := EG (st r).
  Definition vfin (r : nat) : nat := EG (fin r).
  Definition vhalo (r : nat) : list nat := flat_map (ent row) (halo r).

  Lemma v_st_fin r : r < P -> vst r <= vfin r.
  Proof. intros H. apply rowptr_mono, st_fin; auto. Qed.
  Lemma v_ordered r s : r < s -> s < P -> vfin r <= vst s.
  Proof. intros H Hs. apply rowptr_mono, ranks_ordered; auto. Qed.
  Lemma v_halo_sorted r : r < P -> StronglySorted lt (vhalo r).
  Proof. intros H. apply ent_sorted, halo_sorted; auto. Qed.
  Lemma v_halo_owner r e : r < P -> In e (vhalo r) -> exists o, o < r /\ vst o <= e < vfin o /\ In o (nb r).
  Proof.
    intros Hr H. apply in_flat_map in H. destruct H as (g & Hg & He). destruct (halo_owner r g Hr Hg) as (o & L & G & I). exists o. split; auto. split; auto. apply ent_in in He.
    pose proof (rowptr_mono row (st o) g ltac:(lia)). pose proof (rowptr_mono row (S g) (fin o) ltac:(lia)). unfold vst, vfin. lia.
  Qed.
  Lemma vhalo_length r : length (vhalo r) = length (flat_map row (halo r)).
  Proof. apply flat_map_length_eq. intros. apply ent_length. Qed.
  Lemma v_seg r j : seg vst vfin vhalo r j = flat_map (ent row) (seg st fin halo r j).
  Proof.
    apply filter_flat. intros g _. unfold owned, vst, vfin. transitivity (filter (fun e => e <? EG (fin j)) (filter (fun e => EG (st j) <=? e) (ent row g))).
    - generalize (ent row g). induction l as [|x l IH]; auto. cbn [filter]. destruct (EG (st j) <=? x); cbn [andb filter]; rewrite IH; auto.
    - rewrite ent_filter. destruct (st j <=? g); cbn [andb]; auto. apply ent_filter_lt.
  Qed.
  Lemma v_sbuf r j : sbuf vst vfin vhalo r j = flat_map (ent row) (sbuf st fin halo r j).
  Proof. unfold sbuf. destruct (j <? r); auto. apply v_seg. Qed.
  Lemma v_off r j : r < P -> off vst vhalo r j = RP r (off st halo r j).
  Proof.
    intros Hr. unfold off at 1. unfold below. unfold vst, vhalo. rewrite (filter_flat (ent row) _ (fun g => g <? st j)) by (intros; apply ent_filter_lt). unfold RP, sdofs.
    rewrite filter_firstn by (apply halo_sorted; auto). fold (off st halo r j). change (below (st j) (halo r)) with (off st halo r j). rewrite firstn_app, (proj2 (Nat.sub_0_le _ _)) by apply below_le. cbn [firstn]. rewrite app_nil_r.
    apply flat_map_length_eq. intros. apply ent_length.
  Qed.
  Lemma RP_own r g : st r <= g < fin r -> RP r (lpos st halo r g) = EG g - vst r + length (vhalo r).
  Proof.
    intros H. unfold RP, sdofs, lpos. rewrite Nat.add_comm. rewrite firstn_app_2. rewrite flat_map_app, app_length, vhalo_length. rewrite Nat.add_comm. f_equal.
    replace (fin r - st r) with ((g - st r) + (fin r - g)) by lia. rewrite seq_app, firstn_app, seq_length, Nat.sub_diag, firstn_all2 by (rewrite seq_length; lia). cbn [firstn]. rewrite app_nil_r.
    rewrite <- (flat_map_length_eq (ent row)) by (intros; apply ent_length). rewrite ent_seq, seq_length. unfold vst. do 2 f_equal. lia.
  Qed.
  Lemma v_lpos r l : (forall g, In g l -> st r <= g < fin r) -> map (lpos vst vhalo r) (flat_map (ent row) l) = flat_map (fun g => seq (RP r (lpos st halo r g)) (length (row g))) l.
  Proof.
    induction l as [|g l IH]; intros H; auto. cbn [flat_map]. rewrite map_app, IH by (intros; apply H; right; auto). f_equal. rewrite RP_own by (apply H; left; auto). unfold ent.
    pose proof (rowptr_mono row (st r) g (proj1 (H g (or_introl eq_refl)))) as M. apply (nth_ext _ _ 0 0); rewrite ?map_length, ?seq_length; auto. intros i Hi. rewrite (nth_map _ _ i 0 0) by (rewrite seq_length; auto).
    rewrite !seq_nth by auto. unfold lpos, vst in *. lia.
  Qed.

  (** ** the rows of a pattern *)
  Lemma RP_S r i : i < length (sdofs r) -> RP r (S i) = RP r i + length (row (nth i (sdofs r) 0)).
  Proof. intros H. unfold RP. rewrite firstn_snoc by auto. rewrite flat_map_app, app_length. cbn [flat_map]. rewrite app_nil_r. auto. Qed.
  Lemma RP_split r i : r < P -> i < length (sdofs r) -> dp_column (pt r) = flat_map row (firstn i (sdofs r)) ++ row (nth i (sdofs r) 0) ++ flat_map row (skipn (S i) (sdofs r)).
  Proof.
    intros Hr H. rewrite pt_col by auto. rewrite <- (firstn_skipn (S i) (sdofs r)) at 1. rewrite firstn_snoc by auto. rewrite !flat_map_app. cbn [flat_map]. rewrite app_nil_r, <- app_assoc. auto.
  Qed.
  Lemma RP_slice r i : r < P -> i < length (sdofs r) -> slice (RP r i) (RP r (S i)) (dp_column (pt r)) = row (nth i (sdofs r) 0).
  Proof.
    intros Hr H. rewrite RP_S, (RP_split r i) by auto. unfold RP, slice. rewrite skipn_app, skipn_all, Nat.sub_diag. cbn [skipn app]. rewrite Nat.add_comm, Nat.add_sub. rewrite firstn_app, Nat.sub_diag, firstn_all. cbn [firstn]. apply app_nil_r.
  Qed.
  Lemma RP_le r i : r < P -> i <= length (sdofs r) -> RP r i <= length (dp_column (pt r)).
  Proof. intros Hr H. rewrite pt_col by auto. unfold RP. rewrite <- (firstn_skipn i (sdofs r)) at 2. rewrite flat_map_app, app_length. lia. Qed.
  Lemma columns_ok r i : r < P -> i < length (sdofs r) -> columns_of (pt r) (RP r i) (RP r (i + 1)) = Ok (row (nth i (sdofs r) 0)).
  Proof.
    intros Hr H. unfold columns_of, Indexing_CSR. rewrite !Nat.sub_0_r, Nat.add_1_r. pose proof (RP_S r i H). pose proof (RP_le r (S i) Hr ltac:(lia)).
    destruct (Nat.ltb_spec (RP r i) 0), (Nat.ltb_spec (RP r (S i)) (RP r i)), (Nat.ltb_spec (length (dp_column (pt r))) (RP r (S i))); try lia. cbn [orb]. rewrite RP_slice; auto.
  Qed.

  (** ** what is sent *)
  Definition mrow (g : nat) : list nat := g :: length (row g) :: row g.
  Lemma take_rows_ok r b : r < P -> forall fuel i buf size, i <= below b (halo r) -> length (halo r) <= fuel + i ->
    take_rows fuel (halo r) (pt r) b i buf size = Ok (below b (halo r), buf ++ flat_map mrow (slice i (below b (halo r)) (halo r)), size + length (flat_map row (slice i (below b (halo r)) (halo r)))).
  Proof.
    intros Hr. pose proof (below_le b (halo r)) as BL. pose proof (halo_sorted r Hr) as Sh.
    assert (Ls : length (halo r) <= length (sdofs r)) by (unfold sdofs; rewrite app_length; lia).
    induction fuel as [|fuel IH]; intros i buf size Hi Hf.
    - cbn [take_rows]. destruct (Nat.leb_spec (length (halo r)) i); [|lia]. replace i with (below b (halo r)) by lia. rewrite slice_nil. cbn [flat_map length]. rewrite app_nil_r, Nat.add_0_r. auto.
    - cbn [take_rows]. destruct (Nat.leb_spec (length (halo r)) i) as [L|L]. { assert (E : i = below b (halo r)) by lia. rewrite <- E, slice_nil. cbn [flat_map length]. rewrite app_nil_r, Nat.add_0_r. auto. }
      rewrite (rd_ok (halo r) _ 0) by auto. cbn [obind]. pose proof (below_nth (halo r) b Sh i L) as Nb. destruct (Nat.ltb_spec (nth i (halo r) 0) b) as [C|C].
      + rewrite (rd_ok (dp_row (pt r)) _ 0) by (rewrite pt_len by auto; lia). cbn [obind]. rewrite (rd_ok (dp_row (pt r)) _ 0) by (rewrite pt_len by auto; lia). cbn [obind].
        rewrite !pt_row by (auto; lia). rewrite columns_ok by (auto; lia). cbn [obind]. rewrite IH by lia. rewrite (slice_app i (i + 1) (below b (halo r))) by lia.
        assert (E1 : slice i (i + 1) (halo r) = [nth i (halo r) 0]) by (rewrite Nat.add_1_r; rewrite (L_Utils.slice_one 0) by auto; auto). rewrite E1, !flat_map_app, app_length.
        assert (En : nth i (sdofs r) 0 = nth i (halo r) 0) by (unfold sdofs; rewrite app_nth1; auto). assert (El : RP r (i + 1) - RP r i = length (row (nth i (halo r) 0))). { rewrite Nat.add_1_r, RP_S, En by lia. lia. }
        rewrite En, El. unfold mrow at 2. cbn [flat_map app]. rewrite !app_nil_r, <- app_assoc, Nat.add_assoc. reflexivity.
      + replace (below b (halo r)) with i by lia. rewrite slice_nil. cbn [flat_map length]. rewrite app_nil_r, Nat.add_0_r. auto.
  Qed.

  Section Values.
    Context {T : Type} (zero : T).

    Lemma minit_send_ok r : r < P ->
      minit_send zero r (D st fin halo nb r) (pt r) = Ok (map (fun j => RP r (off st halo r j)) (firstn (leading r (nb r)) (nb r)), map (fun j => flat_map mrow (sbuf st fin halo r j)) (nb r),
        map (fun j => repeat zero (length (flat_map row (sbuf st fin halo r j)))) (nb r)).
    Proof.
      intros Hr. unfold minit_send. cbn [d_neighbors D]. set (k := leading r (nb r)). pose proof (leading_le r (nb r)) as Lk. fold k in Lk.
      assert (Ls : length (halo r) <= length (sdofs r)) by (unfold sdofs; rewrite app_length; lia).
      set (sg := seg st fin halo r). set (bd := bound st nb r).
      pose (I := fun (i : nat) (s : nat * list nat * list (list nat) * list (list T)) =>
        exists sb sB, s = (if i =? 0 then 0 else below (bd i) (halo r), map (fun j => RP r (off st halo r j)) (firstn i (nb r)), sb, sB) /\ length sb = length (nb r) /\ length sB = length (nb r) /\
          forall n, n < length (nb r) -> nth n sb [] = (if n <? i then flat_map mrow (sg (nth n (nb r) 0)) else []) /\ nth n sB [] = (if n <? i then repeat zero (length (flat_map row (sg (nth n (nb r) 0)))) else [])).
      destruct (foldM_seq_inv (minit_neighbor zero (D st fin halo nb r) (pt r)) I 0 k (0, [], repeat [] (length (nb r)), repeat [] (length (nb r)))) as (s & E & sb & sB & -> & L1 & L2 & N).
      - exists (repeat [] (length (nb r))), (repeat [] (length (nb r))). rewrite !repeat_length. repeat split; auto; simpl; apply nth_repeat_lt; auto.
      - intros i s Hi (sb & sB & -> & L1 & L2 & N). unfold minit_neighbor. cbn [d_neighDOF d_halo D].
        destruct (seg_slice P st fin halo nb st_fin ranks_ordered halo_sorted halo_owner nb_sorted nb_sym r i Hr ltac:(lia)) as (Sg & Of & Bd). fold k in Lk. fold bd in Sg, Of, Bd. fold sg in Sg.
        assert (B0 : (if i =? 0 then 0 else below (bd i) (halo r)) = below (bd i) (halo r)).
        { destruct (Nat.eqb_spec i 0) as [->|]; auto. symmetry. apply (below_first P st fin halo nb st_fin ranks_ordered halo_owner nb_sorted); auto. lia. }
        rewrite B0. pose proof (below_le (bd i) (halo r)) as BL. rewrite (rd_ok (dp_row (pt r)) _ 0) by (rewrite pt_len by auto; lia). cbn [obind]. rewrite pt_row by (auto; lia). unfold Indexing_CSR at 1.
        destruct (Nat.ltb_spec (RP r (below (bd i) (halo r))) 0); [lia|]. rewrite (rd_ok (ndof st nb r) _ 0) by (unfold ndof; rewrite app_length, map_length; simpl; lia). cbn [obind].
        change (nth (i + 1) (ndof st nb r) 0) with (bd (i + 1)). rewrite (rd_ok sb _ []) by lia. cbn [obind]. rewrite (proj1 (N i ltac:(lia))), Nat.ltb_irrefl.
        rewrite (take_rows_ok r _ Hr); [|apply below_mono; auto|lia]. cbn [obind app]. rewrite wr_ok by lia. cbn [obind]. rewrite wr_ok by lia. cbn [obind].
        eexists. split; [reflexivity|]. rewrite <- Sg. exists (upd sb i (flat_map mrow (sg (nth i (nb r) 0)))), (upd sB i (repeat zero (length (flat_map row (sg (nth i (nb r) 0)))))).
        rewrite !upd_length. split; [|split; [auto|split; [auto|]]].
        + replace (S i =? 0) with false by auto. rewrite Nat.add_1_r. unfold Indexing_CSR. rewrite Nat.sub_0_r, Nat.add_0_l. repeat f_equal. rewrite (firstn_snoc (nb r) i) by lia. rewrite map_app. cbn [map]. do 2 f_equal. rewrite Of. auto.
        + intros n Hn. destruct (Nat.eq_dec n i) as [->|Ne].
          * rewrite !nth_upd, !Nat.eqb_refl by lia. destruct (Nat.ltb_spec i (S i)); [|lia]. split; auto.
          * rewrite !nth_upd_neq by auto. destruct (N n Hn) as [-> ->]. destruct (Nat.ltb_spec n i), (Nat.ltb_spec n (S i)); auto; lia.
      - rewrite E. cbn [obind]. rewrite Nat.add_0_l in *.
        assert (C : forall n, n < length (nb r) -> sbuf st fin halo r (nth n (nb r) 0) = if n <? k then sg (nth n (nb r) 0) else []).
        { intros n Hn. unfold sbuf. pose proof (leading_nth r (nb r) n (nb_sorted r Hr) Hn) as Q. fold k in Q. destruct (Nat.ltb_spec n k), (Nat.ltb_spec (nth n (nb r) 0) r); auto; lia. }
        do 2 f_equal; [f_equal|].
        + apply (list_by_nth _ _ _ [] 0); auto. intros n Hn. rewrite (proj1 (N n Hn)), C by auto. destruct (n <? k); auto.
        + apply (list_by_nth _ _ _ [] 0); auto. intros n Hn. rewrite (proj2 (N n Hn)), C by auto. destruct (n <? k); auto.
    Qed.
  End Values.

  (** ** where the received entries are *)
  Lemma find_next_ok p buf i b l n : StronglySorted lt l -> n <= length l ->
    (forall k, k < length l -> nth_error buf (i + k) = Some (nth k l 0)) -> (forall k, k < length l -> nth_error (dp_column p) (b + k) = Some (nth k l 0)) ->
    forall off, foldM (find_next p buf i) (seq 0 n) (b, off) = Ok (b + (n - 1), off ++ seq b n).
  Proof.
    intros Sl Hn HB HC off. induction n as [|n IH]. { cbn. rewrite Nat.add_0_r, app_nil_r. auto. }
    rewrite seq_S, foldM_app, IH by lia. cbn [obind foldM]. rewrite Nat.add_0_l. unfold find_next. cbn [fst snd].
    assert (RB : rd buf (i + n) = Ok (nth n l 0)). { unfold rd. rewrite HB by lia. auto. } assert (RC : forall k, k < length l -> rd (dp_column p) (b + k) = Ok (nth k l 0)). { intros k Hk. unfold rd. rewrite HC by lia. auto. }
    rewrite RB. cbn [obind]. assert (Lc : b + n < length (dp_column p)) by (apply nth_error_Some; rewrite HC by lia; discriminate).
    assert (F : find_column (length (dp_column p)) (dp_column p) (nth n l 0) (b + (n - 1)) = Ok (b + n)).
    { destruct (length (dp_column p)) as [|f] eqn:El; [lia|]. destruct n as [|n].
      - replace (b + (0 - 1)) with (b + 0) by lia. cbn [find_column]. rewrite RC by lia. cbn [obind]. rewrite Nat.eqb_refl. auto.
      - replace (S n - 1) with n by lia. cbn [find_column]. rewrite RC by lia. cbn [obind]. pose proof (L_Distributed.ss_nth l Sl n (S n) ltac:(lia)). destruct (Nat.eqb_spec (nth n l 0) (nth (S n) l 0)); [lia|].
        replace (b + n + 1) with (b + S n) by lia. destruct f; cbn [find_column]; rewrite RC by lia; cbn [obind]; rewrite Nat.eqb_refl; auto. }
    rewrite F. cbn [obind]. replace (S n - 1) with n by lia. rewrite <- app_assoc. do 3 f_equal. rewrite (seq_S n b). auto.
  Qed.
  Lemma read_rows_ok r : r < P -> forall l fuel pre off, (forall g, In g l -> st r <= g < fin r) -> length l <= fuel ->
    read_rows fuel (D st fin halo nb r) (pt r) (pre ++ flat_map mrow l) (length pre) off = Ok (off ++ flat_map (fun g => seq (RP r (lpos st halo r g)) (length (row g))) l).
  Proof.
    intros Hr. induction l as [|g l IH]; intros fuel pre off H Hf.
    - cbn [flat_map]. rewrite !app_nil_r. destruct fuel; cbn [read_rows]; rewrite Nat.leb_refl; auto.
    - cbn [length] in Hf. destruct fuel as [|fuel]; [lia|]. pose proof (H g (or_introl eq_refl)) as Hg. set (buf := pre ++ flat_map mrow (g :: l)).
      assert (EB : buf = pre ++ g :: length (row g) :: row g ++ flat_map mrow l) by reflexivity.
      assert (Lb : length buf = length pre + (2 + (length (row g) + length (flat_map mrow l)))) by (rewrite EB, !app_length; cbn [length]; rewrite app_length; lia).
      cbn [read_rows]. destruct (Nat.leb_spec (length buf) (length pre)); [lia|].
      assert (R0 : rd buf (length pre) = Ok g). { rewrite (rd_ok _ _ 0) by lia. f_equal. rewrite EB, app_nth2, Nat.sub_diag by lia. auto. }
      assert (R1 : rd buf (length pre + 1) = Ok (length (row g))). { rewrite (rd_ok _ _ 0) by lia. f_equal. rewrite EB, app_nth2_plus. auto. }
      rewrite R0. cbn [obind d_begin d_halo D]. destruct (Nat.ltb_spec g (st r)); [lia|]. fold (lpos st halo r g).
      assert (Lg : lpos st halo r g < length (sdofs r)) by (unfold lpos, sdofs; rewrite app_length, seq_length; lia).
      assert (Ng : nth (lpos st halo r g) (sdofs r) 0 = g). { unfold sdofs, lpos. rewrite app_nth2 by lia. rewrite seq_nth by lia. lia. }
      rewrite (rd_ok (dp_row (pt r)) _ 0) by (rewrite pt_len by auto; lia). cbn [obind]. rewrite R1. cbn [obind]. rewrite pt_row by (auto; lia). unfold Indexing_CSR. destruct (Nat.ltb_spec (RP r (lpos st halo r g)) 0); [lia|]. rewrite Nat.sub_0_r.
      rewrite (find_next_ok (pt r) buf (length pre + 2) (RP r (lpos st halo r g)) (row g)); auto.
      + cbn [obind]. replace buf with ((pre ++ mrow g) ++ flat_map mrow l) by (rewrite EB, <- app_assoc; auto). replace (length pre + 2 + length (row g)) with (length (pre ++ mrow g)) by (rewrite app_length; cbn [mrow length]; lia).
        rewrite IH by (try lia; intros; apply H; right; auto). cbn [flat_map]. rewrite <- app_assoc. auto.
      + intros k Hk. rewrite EB. rewrite nth_error_app2 by lia. replace (length pre + 2 + k - length pre) with (S (S k)) by lia. cbn [nth_error]. rewrite nth_error_app1 by auto. apply nth_error_nth'. auto.
      + intros k Hk. rewrite (RP_split r _ Hr Lg), Ng. unfold RP at 1. rewrite nth_error_app2 by lia. replace (_ + k - _) with k by lia. rewrite nth_error_app1 by auto. apply nth_error_nth'. auto.
  Qed.

  Section Init.
    Context {T : Type} (zero : T).
    Lemma minit_ok : exists ys, minit zero (map (D st fin halo nb) (seq 0 P)) (map pt (seq 0 P)) = Ok ys /\ length ys = P /\ forall r, r < P -> ready vst vfin vhalo nb r (nth r ys (no_data (T := T))).
    Proof.
      unfold minit. rewrite map_length, seq_length. destruct (Nat.eqb_spec P 1) as [E|E].
      - exists (map (fun _ => no_data) (map (D st fin halo nb) (seq 0 P))). rewrite !map_length, seq_length. repeat split; auto; intros; rewrite map_map, nth_map_seq by auto;
          (assert (Z : nb r = []); [destruct (nb r) as [|j t] eqn:F; auto; destruct (nb_sym r j ltac:(auto) ltac:(rewrite F; left; auto)); lia|rewrite ?Z; auto]).
      - rewrite combine_map, combine_self. erewrite (mapM_map _ _ (fun r => (map (fun j => RP r (off st halo r j)) (firstn (leading r (nb r)) (nb r)), map (fun j => flat_map mrow (sbuf st fin halo r j)) (nb r),
          map (fun j => repeat zero (length (flat_map row (sbuf st fin halo r j)))) (nb r)))).
        2:{ intros r Hr. apply in_seq in Hr. cbn [fst snd]. apply minit_send_ok. lia. }
        cbn [obind]. rewrite !map_map. cbn [fst snd D d_neighbors].
        rewrite (map_ext (fun x => d_neighbors (D st fin halo nb x)) nb) by auto. rewrite (receive_upper_ok P nb nb_sym (fun r j => flat_map mrow (sbuf st fin halo r j)) _ []).
        2:{ intros. apply repeat_length. }
        2:{ intros r n Hr Hn Hj. rewrite nth_repeat_lt by auto. unfold sbuf. destruct (Nat.ltb_spec r (nth n (nb r) 0)); auto; lia. }
        cbn [obind]. rewrite combine_map3. erewrite (mapM_map _ _ (fun r => map (fun j => flat_map (fun g => seq (RP r (lpos st halo r g)) (length (row g))) (sbuf st fin halo j r)) (nb r))).
        2:{ intros r Hr. apply in_seq in Hr. cbn [fst snd]. unfold minit_recv. apply mapM_map. intros j Hj. apply (read_rows_ok r ltac:(lia) _ _ [] []).
            - intros g Hg. apply sbuf_own in Hg. lia.
            - clear. induction (sbuf st fin halo j r) as [|g l IH]; cbn [flat_map length]; [lia|]. rewrite app_length. cbn [mrow length]. lia. }
        cbn [obind]. rewrite combine_map3, map_map. eexists. split; [reflexivity|]. rewrite map_length, seq_length. split; auto. intros r Hr. rewrite nth_map_seq by auto. cbn [fst snd].
        constructor; cbn [y_neighbors y_nOffset y_rOffset y_sBuffer y_rBuffer D d_neighbors]; auto.
        + apply map_ext. intros j. symmetry. apply v_off. auto.
        + apply map_ext. intros j. rewrite v_sbuf, v_lpos; auto. intros g Hg. apply sbuf_own in Hg. lia.
        + rewrite map_map. apply map_ext. intros j. rewrite repeat_length, v_sbuf. apply flat_map_length_eq. intros. symmetry. apply ent_length.
        + rewrite !map_map. apply map_ext. intros j. rewrite repeat_length, v_sbuf. apply flat_map_length_eq. intros. rewrite seq_length, ent_length. auto.
    Qed.
  End Init.
End Sync.
