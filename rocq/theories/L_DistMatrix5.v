(** * Lemmas on the patterns of all ranks *)
From Coq Require Import List Arith Bool Lia Sorted.
From Verif Require Import Base M_Assembly M_Distributed S_Distributed M_DistMatrix S_DistMatrix S_Order L_Pattern L_Pattern2 L_Pattern3 L_Fill2 L_Distributed L_DistMatrix L_DistMatrix2 L_DistMatrix3 L_DistMatrix4.
Import ListNotations.
Local Open Scope out_scope.

Section Mesh.
  Context (nb : list (list nat)) (ms : list mesh_part) (DM : distributed_mesh nb ms).
  Context (sort : list nat -> list nat) (SC : sort_contract Nat.ltb sort).
  Local Notation P := (length ms).
  Local Notation part := (part ms).
  Local Notation nbr := (nbr nb).
  Local Notation nn := (nn ms).
  Local Notation SH := (SH ms).
  Local Notation npos := (npos ms).
  Local Notation PD := (PD ms).
  Local Notation PE := (PE ms).
  Local Notation pushes := (pushes ms).
  Local Notation counts := (counts ms).

  Lemma in_PE r n q : In (n, q) (PE r) <-> exists e t, In e (mp_elements (part r)) /\ In n e /\ In t e /\ n <> t /\ q = npos r t.
  Proof.
    unfold L_DistMatrix2.PE, PE1. rewrite in_flat_map. split.
    - intros (e & He & H). apply in_flat_map in H. destruct H as (f & Hf & H). apply in_map_iff in H. destruct H as (t & E & Ht). apply filter_In in Ht. destruct Ht as [Ht Ne]. inversion E; subst. exists e, t. repeat split; auto. destruct (Nat.eqb_spec n t); [discriminate|auto].
    - intros (e & t & He & Hn & Ht & Ne & ->). exists e; split; auto. apply in_flat_map. exists n; split; auto. apply in_map_iff. exists t; split; auto. apply filter_In. split; auto. destruct (Nat.eqb_spec n t); auto.
  Qed.
  Lemma in_pushes r n q : r < P -> n < nn r -> (In (n, q) (pushes r) <-> q = npos r n \/ common_element ms (npos r n) q).
  Proof.
    intros H Hn. unfold L_DistMatrix2.pushes. rewrite !in_app_iff. split.
    - intros [Hx|[Hx|Hx]].
      + left. apply in_map_iff in Hx. destruct Hx as (k & E & _). inversion E; auto.
      + right. apply in_PE in Hx. destruct Hx as (e & t & He & H1 & H2 & _ & ->). exists (part r), e. split; [apply part_in; auto|]. split; [auto|]. split; apply in_map; auto.
      + right. apply in_flat_map in Hx. destruct Hx as ([k s] & Hs & Hx). apply in_map_iff in Hx. destruct Hx as (q' & E & Hq). cbn [fst snd] in *. inversion E; subst k q'; clear E.
        apply (in_SH nb ms DM) in Hs; auto. destruct Hs as (_ & Ls & Ne & Hin). unfold G in Hq. apply at_pos_in, in_PE in Hq. destruct Hq as (e & t & He & H1 & H2 & _ & ->).
        exists (part s), e. split; [apply part_in; auto|]. split; [auto|]. split; [|apply in_map; auto]. destruct (npos_loc nb ms DM s _ Ls Hin) as [E _]. rewrite <- E. apply in_map; auto.
    - intros [->|(m & e & Hm & He & H1 & H2)]. { left. apply in_map_iff. exists n; split; auto. apply in_seq; lia. }
      apply (In_nth _ _ no_part) in Hm. destruct Hm as (s & Ls & Em). fold (part s) in Em. subst m. apply in_map_iff in H1, H2. destruct H1 as (a & Ea & Ha), H2 as (b & Eb & Hb). fold (npos s a) in Ea. fold (npos s b) in Eb.
      pose proof (proj2 (element_ok nb ms DM s e Ls He) a Ha) as La. destruct (Nat.eq_dec a b) as [->|Nab].
      + left. apply in_map_iff. exists n. split; [congruence|]. apply in_seq; lia.
      + right. destruct (Nat.eq_dec s r) as [->|Ne].
        * left. apply in_PE. exists e, b. assert (a = n) by (rewrite <- (loc_npos nb ms DM r a), <- (loc_npos nb ms DM r n) by auto; congruence). subst a. repeat split; auto.
        * right. apply in_flat_map. exists (n, s). cbn [fst snd]. split.
          -- apply (in_SH nb ms DM); auto. repeat split; auto. rewrite <- Ea. apply (npos_in nb ms DM); auto.
          -- apply in_map. unfold G. rewrite <- Ea. rewrite (loc_npos nb ms DM) by auto. apply at_pos_in, in_PE. exists e, b. repeat split; auto.
  Qed.

  Lemma finish_ok dofs r iv ix fn : r < P -> buckets (counts r) (pushes r) ix fn -> intervals_ok (part r) iv ->
    exists p, finish_pattern sort dofs (part r) iv (begins (counts r)) (ix, fn) = Ok p /\ rows_of_mesh dofs ms (part r) p /\ permutation_of_mesh dofs (part r) iv p.
  Proof.
    intros H B IV. pose proof (counts_length ms r) as LC.
    assert (NE : forall i, i < length (counts r) -> at_pos i (pushes r) <> []). { intros i Hi E. assert (In (npos r i) (at_pos i (pushes r))) as Q; [|rewrite E in Q; destruct Q]. apply at_pos_in. apply in_pushes; auto; lia. }
    destruct (unique_all (counts r) (pushes r) sort (fun i => pushes_fit nb ms DM r i H) NE SC ix fn B) as (ix' & fn' & E & S1 & S2 & S3). rewrite LC in E.
    unfold finish_pattern. fold (nn r). rewrite E. cbn [obind]. set (R := prow (pushes r) sort).
    assert (Q1 : length (begins (counts r)) = nn r + 1) by (rewrite begins_length; lia). assert (Q2 : length fn' = nn r + 1) by lia.
    assert (BN : forall n, n < nn r -> nth n (begins (counts r)) 0 = list_sum (firstn n (counts r))) by (intros n Hn; apply begins_nth; lia).
    assert (Q3 : forall n, n < nn r -> nth n fn' 0 = nth n (begins (counts r)) 0 + length (R n)).
    { intros n Hn. rewrite BN by auto. specialize (S3 n ltac:(lia)). rewrite (proj2 (Nat.ltb_lt _ _)) in S3 by lia. apply S3. }
    assert (Q4 : forall n, n < nn r -> slice (nth n (begins (counts r)) 0) (nth n (begins (counts r)) 0 + length (R n)) ix' = R n).
    { intros n Hn. rewrite BN by auto. specialize (S3 n ltac:(lia)). rewrite (proj2 (Nat.ltb_lt _ _)) in S3 by lia. apply S3. }
    assert (Q5 : forall n, n < nn r -> nth n (begins (counts r)) 0 + length (R n) <= length ix').
    { intros n Hn. rewrite BN, S1 by auto. specialize (S3 n ltac:(lia)). rewrite (proj2 (Nat.ltb_lt _ _)) in S3 by lia. destruct S3 as (_ & _ & S3). fold (R n) in S3.
      pose proof (sum_firstn_S (counts r) n ltac:(lia)). pose proof (sum_firstn_mono (counts r) (S n) (length (counts r)) ltac:(lia)). lia. }
    rewrite (store_all dofs (nn r) R (begins (counts r)) ix' fn' Q1 Q2 Q3 Q4 Q5). cbn [obind].
    assert (RI : forall n q, n < nn r -> (In q (R n) <-> q = npos r n \/ common_element ms (npos r n) q)). { intros n q Hn. unfold R. rewrite prow_in by auto. apply in_pushes; auto. }
    assert (RS : forall n, StronglySorted lt (R n)) by (intros n; apply prow_sorted; auto).
    destruct (permute_all dofs (nn r) R (begins (counts r)) ix' fn' Q1 Q2 Q3 Q4 (part r) (fun n _ => RS n) iv IV) as (perm & poff & E' & PM).
    { intros e He f t Hf Ht. destruct (element_ok nb ms DM r e H He) as [_ L]. split; [apply L; auto|]. split; [change (t < length (ups ms r)); rewrite (ups_length nb ms DM) by auto; apply L; auto|].
      apply RI; [apply L; auto|]. right. exists (part r), e. split; [apply part_in; auto|]. split; [auto|]. split; apply in_map; auto. }
    rewrite E'. cbn [obind]. eexists; split; [reflexivity|]. split; [|exact PM]. unfold rows_of_mesh. cbn [dp_row dp_column]. fold (nn r).
    split; [rewrite map_length, seq_length; auto|]. split; [rewrite nth_map_seq by lia; reflexivity|]. split; [rewrite nth_map_seq by lia; reflexivity|].
    intros n d Hn Hd. cbv zeta. assert (Hi : n * dofs + d < nn r * dofs) by nia. rewrite !nth_map_seq by lia. replace (n * dofs + d + 1) with (S (n * dofs + d)) by lia. rewrite rowptr_S, drow_at by auto.
    assert (SL : slice (rowptr (drow dofs R) (n * dofs + d)) (rowptr (drow dofs R) (n * dofs + d) + length (dcol dofs (R n))) (all_columns (nn r * dofs) (drow dofs R)) = dcol dofs (R n)).
    { rewrite (columns_split _ _ _ Hi), drow_at by auto. unfold slice, rowptr. rewrite skipn_app, skipn_all, Nat.sub_diag. cbn [app skipn]. rewrite firstn_app. 
      replace (length (flat_map (drow dofs R) (seq 0 (n * dofs + d))) + length (dcol dofs (R n)) - length (flat_map (drow dofs R) (seq 0 (n * dofs + d)))) with (length (dcol dofs (R n))) by lia.
      rewrite Nat.sub_diag. cbn [firstn]. rewrite app_nil_r. apply firstn_all. }
    rewrite SL. split; [|split].
    - split; [lia|]. rewrite columns_length. pose proof (rowptr_mono (drow dofs R) (S (n * dofs + d)) (nn r * dofs) ltac:(lia)) as M. rewrite rowptr_S, drow_at in M by auto. lia.
    - apply dcol_sorted; auto.
    - intros c. rewrite in_dcol by lia. apply RI; auto.
  Qed.

  Lemma begins_last r x : nth (length (offsets 0 (counts r ++ [x])) - 1) (offsets 0 (counts r ++ [x])) 0 = list_sum (counts r) /\ offsets 0 (counts r ++ [x]) = begins (counts r).
  Proof.
    split; [|apply offsets_last]. rewrite offsets_length, app_length. cbn [length]. replace (length (counts r) + 1 - 1) with (length (counts r)) by lia.
    rewrite offsets_nth by (rewrite app_length; simpl; lia). rewrite firstn_app, firstn_all, Nat.sub_diag. cbn [firstn]. rewrite app_nil_r. auto.
  Qed.

  Lemma build_ok alloc dofs intervals : (forall r n, length (alloc r n) = n) -> length intervals = P -> (forall r, r < P -> intervals_ok (part r) (nth r intervals [])) ->
    exists ps, build_patterns sort alloc dofs nb ms intervals = Ok ps /\ length ps = P /\
      forall r, r < P -> exists p, nth_error ps r = Some p /\ rows_of_mesh dofs ms (part r) p /\ permutation_of_mesh dofs (part r) (nth r intervals []) p.
  Proof.
    intros AL LI IV. unfold build_patterns.
    assert (Enb : nb = map nbr (seq 0 P)) by (apply list_as_map; apply (nb_length nb ms DM)). assert (Ems : ms = map part (seq 0 P)) by (apply list_as_map; auto).
    assert (Eiv : intervals = map (fun r => nth r intervals []) (seq 0 P)) by (apply list_as_map; auto).
    assert (CM : forall X (f : nat -> X), combine ms (map f (seq 0 P)) = map (fun r => (part r, f r)) (seq 0 P)). { intros X f. transitivity (combine (map part (seq 0 P)) (map f (seq 0 P))); [f_equal; exact Ems|apply combine_map]. }
    assert (CN : forall X (f : nat -> X), combine nb (map f (seq 0 P)) = map (fun r => (nbr r, f r)) (seq 0 P)). { intros X f. transitivity (combine (map nbr (seq 0 P)) (map f (seq 0 P))); [f_equal; exact Enb|apply combine_map]. }
    assert (CI : forall X (f : nat -> X), combine intervals (map f (seq 0 P)) = map (fun r => (nth r intervals [], f r)) (seq 0 P)). { intros X f. transitivity (combine (map (fun r => nth r intervals []) (seq 0 P)) (map f (seq 0 P))); [f_equal; exact Eiv|apply combine_map]. }
    assert (C : exists c, mapM count_couplings ms = Ok (map c (seq 0 P)) /\ forall r, r < P -> length (c r) = nn r + 1 /\ forall n, n < nn r -> nth n (c r) 0 = 1 + length (at_pos n (PE r))).
    { destruct (mapM_exists count_couplings part (fun r c => length c = nn r + 1 /\ forall n, n < nn r -> nth n c 0 = 1 + length (at_pos n (PE r))) [] (seq 0 P)) as (g & Eg & Lg & Hg).
      { intros r Hr. apply in_seq in Hr. apply (count_ok nb ms DM); lia. } rewrite <- Ems in Eg. rewrite seq_length in Lg. exists (fun r => nth r g []). split; [rewrite Eg; f_equal; apply list_as_map; auto|].
      intros r Hr. apply Hg. rewrite (nth_error_nth' _ 0) by (rewrite seq_length; auto). rewrite seq_nth by auto. auto. }
    assert (EX : forall A (sb : list (list (list A))), exchange nb sb = exchange (map nbr (seq 0 P)) sb) by (intros; f_equal; exact Enb).
    destruct C as (c & Ec & Hc). rewrite Ec. cbn [obind].
    set (S1 := fun r j => map (fun n => length (at_pos n (PE r))) (pick j (SH r))). set (S2 := fun r j => flat_map (fun n => at_pos n (PE r)) (pick j (SH r))).
    assert (T1 : combine (seq 0 P) (combine nb (combine ms (map c (seq 0 P)))) = map (fun r => (r, (nbr r, (part r, c r)))) (seq 0 P)). { rewrite ?combine_map. rewrite CM, CN. apply combine_self. }
    rewrite T1. rewrite (mapM_map _ _ (fun r => map (S1 r) (nbr r))). 2:{ intros r Hr. apply in_seq in Hr. destruct (Hc r ltac:(lia)). apply (pack_sizes_ok nb ms DM); auto; lia. }
    cbn [obind]. rewrite EX. rewrite (exchange_ok nb ms DM). cbn [obind].
    assert (T2 : combine (seq 0 P) (combine nb (combine ms (combine (map (fun r => map (fun j => S1 j r) (nbr r)) (seq 0 P)) (map c (seq 0 P))))) = map (fun r => (r, (nbr r, (part r, (map (fun j => S1 j r) (nbr r), c r))))) (seq 0 P)).
    { rewrite ?combine_map. rewrite CM, CN. apply combine_self. }
    rewrite T2. clear T1 T2.
    assert (C2 : exists c', mapM (fun x : nat * (list nat * (mesh_part * (list (list nat) * list nat))) => let '(r, (ns, (m, (rs, b)))) := x in unpack_sizes r ns m rs b)
        (map (fun r => (r, (nbr r, (part r, (map (fun j => S1 j r) (nbr r), c r))))) (seq 0 P)) = Ok (map c' (seq 0 P)) /\ forall r, r < P -> exists x, c' r = counts r ++ [x]).
    { destruct (mapM_exists (fun x : nat * (list nat * (mesh_part * (list (list nat) * list nat))) => let '(r, (ns, (m, (rs, b)))) := x in unpack_sizes r ns m rs b)
        (fun r => (r, (nbr r, (part r, (map (fun j => S1 j r) (nbr r), c r))))) (fun r c' => exists x, c' = counts r ++ [x]) [] (seq 0 P)) as (g & Eg & Lg & Hg).
      { intros r Hr. apply in_seq in Hr. destruct (Hc r ltac:(lia)). apply (unpack_counts nb ms DM); auto; lia. } rewrite seq_length in Lg. exists (fun r => nth r g []). split; [rewrite Eg; f_equal; apply list_as_map; auto|].
      intros r Hr. apply Hg. rewrite (nth_error_nth' _ 0) by (rewrite seq_length; auto). rewrite seq_nth by auto. auto. }
    destruct C2 as (c' & Ec' & Hc'). rewrite Ec'. cbn [obind].
    assert (EB : map (offsets 0) (map c' (seq 0 P)) = map (fun r => begins (counts r)) (seq 0 P)).
    { rewrite map_map. apply map_ext_in. intros r Hr. apply in_seq in Hr. destruct (Hc' r ltac:(lia)) as (x & ->). apply begins_last. }
    rewrite EB. assert (T3 : combine (seq 0 P) (combine ms (map (fun r => begins (counts r)) (seq 0 P))) = map (fun r => (r, (part r, begins (counts r)))) (seq 0 P)). { rewrite CM. apply combine_self. }
    rewrite T3. clear T3.
    assert (C3 : exists s, mapM (fun x : nat * (mesh_part * list nat) => let '(r, (m, b)) := x in total <- rd b (length b - 1) ;; push_couplings m (alloc r total, b)) (map (fun r => (r, (part r, begins (counts r)))) (seq 0 P))
        = Ok (map s (seq 0 P)) /\ forall r, r < P -> buckets (counts r) (PD r ++ PE r) (fst (s r)) (snd (s r))).
    { destruct (mapM_exists (fun x : nat * (mesh_part * list nat) => let '(r, (m, b)) := x in total <- rd b (length b - 1) ;; push_couplings m (alloc r total, b)) (fun r => (r, (part r, begins (counts r))))
        (fun r s => buckets (counts r) (PD r ++ PE r) (fst s) (snd s)) ([], []) (seq 0 P)) as (g & Eg & Lg & Hg).
      { intros r Hr. apply in_seq in Hr. destruct (begins_last r 0) as [BL _]. fold (begins (counts r)) in BL. rewrite (rd_ok _ _ 0) by (rewrite begins_length; lia). cbn [obind]. rewrite BL.
        destruct (push_couplings_ok nb ms DM r (alloc r (list_sum (counts r))) ltac:(lia) (AL _ _)) as (ix & fn & E & B). exists (ix, fn). auto. }
      rewrite seq_length in Lg. exists (fun r => nth r g ([], [])). split; [rewrite Eg; f_equal; apply list_as_map; auto|].
      intros r Hr. apply Hg. rewrite (nth_error_nth' _ 0) by (rewrite seq_length; auto). rewrite seq_nth by auto. auto. }
    destruct C3 as (s & Es & Hs). rewrite Es. cbn [obind].
    assert (T4 : combine (seq 0 P) (combine nb (combine ms (combine (map (fun r => begins (counts r)) (seq 0 P)) (map s (seq 0 P))))) = map (fun r => (r, (nbr r, (part r, (begins (counts r), s r))))) (seq 0 P)).
    { rewrite ?combine_map. rewrite CM, CN. apply combine_self. }
    rewrite T4. clear T4. rewrite (mapM_map _ _ (fun r => map (S2 r) (nbr r))). 2:{ intros r Hr. apply in_seq in Hr. specialize (Hs r ltac:(lia)). destruct (s r) as [ix fn]. apply (pack_indices_ok nb ms DM); auto; lia. }
    cbn [obind]. rewrite EX. rewrite (exchange_ok nb ms DM). cbn [obind].
    assert (T5 : combine (seq 0 P) (combine nb (combine ms (combine (map (fun r => map (fun j => S1 j r) (nbr r)) (seq 0 P)) (combine (map (fun r => map (fun j => S2 j r) (nbr r)) (seq 0 P)) (map s (seq 0 P))))))
        = map (fun r => (r, (nbr r, (part r, (map (fun j => S1 j r) (nbr r), (map (fun j => S2 j r) (nbr r), s r)))))) (seq 0 P)). { rewrite ?combine_map. rewrite CM, CN. apply combine_self. }
    rewrite T5. clear T5. set (U := fun x : nat * (list nat * (mesh_part * (list (list nat) * (list (list nat) * (list nat * list nat))))) => let '(r, (ns, (m, (rs, (ri, st))))) := x in unpack_indices r ns m rs ri st).
    assert (C4 : exists t, mapM U (map (fun r => (r, (nbr r, (part r, (map (fun j => S1 j r) (nbr r), (map (fun j => S2 j r) (nbr r), s r)))))) (seq 0 P)) = Ok (map t (seq 0 P)) /\ forall r, r < P -> buckets (counts r) (pushes r) (fst (t r)) (snd (t r))).
    { destruct (mapM_exists U (fun r => (r, (nbr r, (part r, (map (fun j => S1 j r) (nbr r), (map (fun j => S2 j r) (nbr r), s r)))))) (fun r t => buckets (counts r) (pushes r) (fst t) (snd t)) ([], []) (seq 0 P)) as (g & Eg & Lg & Hg).
      { intros r Hr. apply in_seq in Hr. specialize (Hs r ltac:(lia)). cbn [U]. destruct (s r) as [ix fn]. destruct (unpack_all nb ms DM r ix fn ltac:(lia) Hs) as (ix' & fn' & E & B). exists (ix', fn'). auto. }
      rewrite seq_length in Lg. exists (fun r => nth r g ([], [])). split; [rewrite Eg; f_equal; apply list_as_map; auto|].
      intros r Hr. apply Hg. rewrite (nth_error_nth' _ 0) by (rewrite seq_length; auto). rewrite seq_nth by auto. auto. }
    destruct C4 as (t & Et & Ht). rewrite Et. cbn [obind].
    assert (T6 : combine ms (combine intervals (combine (map (fun r => begins (counts r)) (seq 0 P)) (map t (seq 0 P)))) = map (fun r => (part r, (nth r intervals [], (begins (counts r), t r)))) (seq 0 P)).
    { rewrite combine_map, CI. apply CM. }
    rewrite T6. clear T6. set (V := fun x : mesh_part * (list (nat * nat) * (list nat * (list nat * list nat))) => let '(m, (iv, (b, st))) := x in finish_pattern sort dofs m iv b st).
    destruct (mapM_exists V (fun r => (part r, (nth r intervals [], (begins (counts r), t r)))) (fun r p => rows_of_mesh dofs ms (part r) p /\ permutation_of_mesh dofs (part r) (nth r intervals []) p)
      {| dp_row := []; dp_column := []; dp_permutation := []; dp_offset := [] |} (seq 0 P)) as (g & Eg & Lg & Hg).
    { intros r Hr. apply in_seq in Hr. specialize (Ht r ltac:(lia)). cbn [V]. destruct (t r) as [ix fn]. apply finish_ok; auto; [lia|apply IV; lia]. }
    rewrite seq_length in Lg. exists g. split; [exact Eg|]. split; auto. intros r Hr. eexists. split; [apply nth_error_nth'; lia|]. apply Hg. rewrite (nth_error_nth' _ 0) by (rewrite seq_length; auto). rewrite seq_nth by auto. auto.
  Qed.
End Mesh.
