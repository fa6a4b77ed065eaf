(** * C101-C103: the numbering of the DOFs of the domains, the sparsity pattern and the assembled matrix of a domain *)
From Coq Require Import List Arith Bool Lia Sorted Permutation ZArith.
From Verif Require Import Base M_Indexing S_Order S_Assembly M_Assembly L_Numbering L_Pattern3 L_Pattern4 L_Pattern5 L_Fill L_Fill2 P_DualGraph.
Import ListNotations.
Local Open Scope out_scope.

(** C101: every DOF of a rank knows exactly its domains, and its index in each own domain is its position in the list of the DOFs of the domain *)
Theorem numbering_exact : forall dofs dbegin dend ndoms surface, 0 < dofs -> Forall (@NoDup nat) ndoms -> is_surface dofs ndoms surface dbegin dend ->
  exists N, fill_decomposition dofs dbegin dend ndoms surface = Ok N /\
    length (dmap_rows N) = dofs * length ndoms /\ length (n_sizes N) = dend - dbegin /\ length (n_surface N) = dend - dbegin /\
    (forall k, k < dofs * length ndoms -> map fst (nth k (dmap_rows N) []) = nth (k / dofs) ndoms []) /\
    (forall k d, k < dofs * length ndoms -> In (d, None) (nth k (dmap_rows N) []) -> ~ dbegin <= d < dend) /\
    (forall k d i, k < dofs * length ndoms -> In (d, Some i) (nth k (dmap_rows N) []) ->
      dbegin <= d < dend /\ nth_error (domain_dofs dofs ndoms surface d) i = Some k /\ i < nth (d - dbegin) (n_sizes N) 0 /\ (i < nth (d - dbegin) (n_surface N) 0 <-> In k surface)) /\
    (forall d i, dbegin <= d < dend -> i < nth (d - dbegin) (n_sizes N) 0 -> exists k, k < dofs * length ndoms /\ In (d, Some i) (nth k (dmap_rows N) []) /\
      forall k', k' < dofs * length ndoms -> In (d, Some i) (nth k' (dmap_rows N) []) -> k' = k).
Proof.
  intros dofs dbegin dend ndoms surface Hd Hn Hs. destruct (fill_decomposition_ok dofs dbegin dend ndoms surface Hd Hn Hs) as (N & E & Sz & Sf & R).
  exists N. split; auto. rewrite Sz, Sf, R. unfold all_dofs. rewrite !map_length, !seq_length.
  set (row := fun k => map (fun d => (d, if is_my dbegin dend d then Some (index_of k (domain_dofs dofs ndoms surface d)) else None)) (dof_domains dofs ndoms k)).
  assert (RN : forall k, k < dofs * length ndoms -> nth k (map row (seq 0 (dofs * length ndoms))) [] = row k).
  { intros k Hk. rewrite nth_indep with (d' := row 0) by (rewrite map_length, seq_length; auto). rewrite map_nth, seq_nth; auto. }
  assert (ZN : forall (f : nat -> nat) d, dbegin <= d < dend -> nth (d - dbegin) (map f (seq dbegin (dend - dbegin))) 0 = f d).
  { intros f d H. rewrite nth_indep with (d' := f 0) by (rewrite map_length, seq_length; lia). rewrite map_nth, seq_nth by lia. f_equal; lia. }
  assert (MY : forall d, is_my dbegin dend d = true <-> dbegin <= d < dend).
  { intros d. unfold is_my. rewrite andb_true_iff, Nat.leb_le, Nat.ltb_lt. lia. }
  assert (IN : forall k d i, k < dofs * length ndoms -> In (d, Some i) (row k) -> dbegin <= d < dend /\ In k (domain_dofs dofs ndoms surface d) /\ i = index_of k (domain_dofs dofs ndoms surface d)).
  { intros k d i Hk H. apply in_map_iff in H. destruct H as (d' & H & H'). destruct (is_my dbegin dend d') eqn:M; inversion H; subst. apply MY in M. split; auto. split; auto. apply domain_dofs_in; auto. }
  repeat split; auto.
  - intros k Hk. rewrite RN by auto. unfold row. rewrite map_map. cbn [fst]. apply map_id.
  - intros k d Hk H C. rewrite RN in H by auto. apply in_map_iff in H. destruct H as (d' & H & _). injection H as H1 H2. subst d'. rewrite (proj2 (MY d) C) in H2. discriminate.
  - rewrite RN in H0 by auto. apply IN in H0; auto. lia.
  - rewrite RN in H0 by auto. apply IN in H0; auto. lia.
  - rewrite RN in H0 by auto. apply IN in H0; auto. destruct H0 as (_ & H0 & ->). apply index_of_in; auto.
  - rewrite RN in H0 by auto. apply IN in H0; auto. destruct H0 as (Ho & H0 & ->). rewrite (ZN (fun d => length (domain_dofs dofs ndoms surface d))) by auto. apply index_of_lt; auto.
  - rewrite RN in H0 by auto. apply IN in H0; auto. destruct H0 as (Ho & H0 & ->). rewrite (ZN (fun d => length (filter (fun k => memb k surface) (domain_dofs dofs ndoms surface d)))) by auto.
    intros Hi. unfold domain_dofs in *. set (l := filter (fun k => memb d (dof_domains dofs ndoms k)) (all_dofs dofs ndoms)) in *. rewrite filter_app, app_length in Hi.
    replace (filter (fun k => memb k surface) (filter (fun k => negb (memb k surface)) l)) with (@nil nat) in Hi.
    2: { symmetry. apply filter_none. intros y Hy. apply filter_In in Hy. destruct Hy as [_ Hy]. apply negb_true_iff in Hy; auto. }
    replace (filter (fun k => memb k surface) (filter (fun k => memb k surface) l)) with (filter (fun k => memb k surface) l) in Hi.
    2: { clear. induction l as [|x l IH]; [auto|]. cbn [filter]. destruct (memb x surface) eqn:W; auto. cbn [filter]. rewrite W. f_equal; auto. }
    cbn [length] in Hi. apply in_app_iff in H0. destruct H0 as [H0|H0]; [apply filter_In in H0; apply memb_iff; tauto|].
    destruct (in_dec Nat.eq_dec k (filter (fun k => memb k surface) l)) as [Q|Q]; [apply filter_In in Q; apply memb_iff; tauto|]. rewrite index_of_app_out in Hi by auto. lia.
  - rewrite RN in H0 by auto. apply IN in H0; auto. destruct H0 as (Ho & H0 & ->). rewrite (ZN (fun d => length (filter (fun k => memb k surface) (domain_dofs dofs ndoms surface d)))) by auto.
    intros Hi. apply memb_iff in Hi. unfold domain_dofs in *. set (l := filter (fun k => memb d (dof_domains dofs ndoms k)) (all_dofs dofs ndoms)) in *. rewrite filter_app, app_length.
    replace (filter (fun k => memb k surface) (filter (fun k => memb k surface) l)) with (filter (fun k => memb k surface) l).
    2: { clear. induction l as [|x l IH]; [auto|]. cbn [filter]. destruct (memb x surface) eqn:W; auto. cbn [filter]. rewrite W. f_equal; auto. }
    apply in_app_iff in H0. destruct H0 as [H0|H0]; [|apply filter_In in H0; rewrite Hi in H0; destruct H0; discriminate]. rewrite index_of_app_in by auto. pose proof (index_of_lt _ _ H0). lia.
  - intros d i Ho Hi. rewrite (ZN (fun d => length (domain_dofs dofs ndoms surface d))) in Hi by auto. destruct (nth_error (domain_dofs dofs ndoms surface d) i) as [k|] eqn:Ek; [|apply nth_error_None in Ek; lia].
    assert (Hk : In k (domain_dofs dofs ndoms surface d)) by (eapply nth_error_In; eauto). pose proof (proj1 (domain_dofs_in _ _ _ _ _) Hk) as [Hk1 Hk2].
    exists k. split; auto. rewrite RN by auto. split.
    + apply in_map_iff. exists d. split; auto. rewrite (proj2 (MY d) Ho). do 2 f_equal. apply index_of_nth; auto. apply domain_dofs_nodup.
    + intros k' Hk' H. rewrite RN in H by auto. apply IN in H; auto. destruct H as (_ & H & ->). pose proof (index_of_in _ _ H) as W. rewrite W in Ek. congruence.
Qed.

Section Domain.
  Variables (dofs dbegin dend : nat) (ndoms : list (list nat)) (surface : list nat) (domain : nat) (elements : list (list nat)) (ebegin eend : nat) (intervals : list (nat * nat)).
  Hypothesis MD : mesh_domain dofs dbegin dend ndoms surface domain elements ebegin eend intervals.
  Lemma md_used_dofs k : In k (domain_dofs dofs ndoms surface (dbegin + domain)) -> exists e, In e (slice ebegin eend elements) /\ In k (element_dofs dofs e).
  Proof.
    destruct MD as [D1 D2 D3 D4 D5 D6 D7 D8 D9]. intros H. apply domain_dofs_in in H. destruct H as [H1 H2]. pose proof (Nat.div_mod k dofs ltac:(lia)) as Q. pose proof (Nat.mod_upper_bound k dofs ltac:(lia)).
    destruct (D8 (k / dofs)) as (e & He & Hn); auto. { apply Nat.div_lt_upper_bound; lia. } exists e. split; auto. apply element_dofs_in. exists (k / dofs), (k mod dofs). repeat split; auto. lia.
  Qed.
  Lemma md_size : 0 < length (domain_dofs dofs ndoms surface (dbegin + domain)).
  Proof.
    destruct MD as [D1 D2 D3 D4 D5 D6 D7 D8 [H1 H2]]. assert (L : length (slice ebegin eend elements) = eend - ebegin) by (apply slice_length; lia).
    destruct (slice ebegin eend elements) as [|e l] eqn:S; [simpl in L; lia|]. inversion H2; subst. destruct e as [|n e]; [congruence|].
    assert (K : In (n * dofs + 0) (domain_dofs dofs ndoms surface (dbegin + domain))).
    { destruct (D7 (n :: e) n) as [A B]; [simpl; auto | simpl; auto |]. apply domain_dofs_in. split; [nia|]. unfold dof_domains. rewrite dof_node by auto. auto. }
    destruct (domain_dofs dofs ndoms surface (dbegin + domain)); [destruct K | simpl; lia].
  Qed.
End Domain.

(** C102: the row of the matrix of a domain in the CSR format stores exactly the couplings of its DOF (with [full = false] those not below the diagonal), each once, in increasing order *)
Theorem pattern_exact : forall sort alloc dofs full dbegin dend ndoms surface domain elements ebegin eend intervals,
  sort_contract Nat.ltb sort -> (forall n, length (alloc n) = n) ->
  mesh_domain dofs dbegin dend ndoms surface domain elements ebegin eend intervals ->
  let ks := domain_dofs dofs ndoms surface (dbegin + domain) in
  exists N P rows cols,
    fill_decomposition dofs dbegin dend ndoms surface = Ok N /\
    build_pattern sort alloc dofs full N dbegin domain (length ndoms) elements ebegin eend intervals = Ok P /\
    set_matrix alloc P = Ok (rows, cols) /\
    length rows = length ks + 1 /\ nth 0 rows 0 = Indexing_CSR /\ nth (length ks) rows 0 = length cols + Indexing_CSR /\
    forall i, i < length ks -> nth i rows 0 < nth (i + 1) rows 0 /\ StronglySorted lt (csr_row rows cols i) /\
      forall j, In j (csr_row rows cols i) <-> coupled dofs ks (slice ebegin eend elements) i j /\ (full = true \/ i <= j).
Proof.
  intros sort alloc dofs full dbegin dend ndoms surface domain elements ebegin eend intervals SC AL MD ks. pose proof (md_used_dofs _ _ _ _ _ _ _ _ _ _ MD) as US. pose proof (md_size _ _ _ _ _ _ _ _ _ _ MD) as SZ. destruct MD as [M1 M2 M3 M4 M5 M6 M7 M8 M9].
  destruct (fill_decomposition_ok dofs dbegin dend ndoms surface M1 M2 M3) as (N & EN & _).
  destruct (build_pattern_ok sort alloc dofs full dbegin dend ndoms surface N domain elements ebegin eend intervals SC AL M1 M2 M3 EN M4 M5 M6 M7 US) as (P & EP & P1 & P2 & P3 & _).
  fold ks in P1, P2, P3, SZ.
  set (D := drow sort dofs full dbegin ndoms surface domain elements ebegin eend) in *.
  assert (NE : forall i, i < length ks -> D i <> []). { intros i Hi. eapply drow_ne; eauto. }
  destruct (set_matrix_ok (length ks) D P P1 P2 P3 NE SZ alloc AL) as (rows & cols & ES & L1 & L2 & R & C).
  exists N, P, rows, cols. repeat (split; [assumption|]). split; [rewrite R by lia; reflexivity|]. split; [rewrite R by lia; lia|].
  intros i Hi. rewrite (csr_rows (length ks) D P P1 SZ rows cols L1 L2 R C i Hi). rewrite !R by lia. replace (i + 1) with (S i) by lia. rewrite rowptr_S.
  pose proof (NE i Hi). assert (0 < length (D i)) by (destruct (D i); [congruence | simpl; lia]). split; [lia|]. split; [apply L_Pattern2.prow_sorted; auto|].
  intros j. eapply drow_coupled; eauto.
Qed.

(** C103: the value stored for a coupled pair is the sum of the values of all elements of the domain for this pair of DOFs; a lane that does not
    belong to an element adds nothing *)
Theorem assembly_exact : forall T (zero : T) add sort alloc dofs full dbegin dend ndoms surface domain elements ebegin eend intervals width isize ms,
  sort_contract Nat.ltb sort -> (forall n, length (alloc n) = n) ->
  mesh_domain dofs dbegin dend ndoms surface domain elements ebegin eend intervals ->
  Forall (@NoDup nat) (slice ebegin eend elements) ->
  0 < width -> length ms = length elements ->
  (forall i b e, nth_error intervals i = Some (b, e) -> Forall (fun el => dofs * length el = isize i) (slice b e elements) /\ Forall (fun x => length x = isize i * isize i) (slice b e ms)) ->
  let ks := domain_dofs dofs ndoms surface (dbegin + domain) in
  exists N P rows cols,
    fill_decomposition dofs dbegin dend ndoms surface = Ok N /\
    build_pattern sort alloc dofs full N dbegin domain (length ndoms) elements ebegin eend intervals = Ok P /\
    set_matrix alloc P = Ok (rows, cols) /\
    forall vals : list T, length vals = length cols ->
    exists out, fill_domain add full width P isize (fun i => slice (fst (nth i intervals (0, 0))) (snd (nth i intervals (0, 0))) ms) vals = Ok out /\
      length out = length cols /\
      forall i q j k l, i < length ks -> nth_error (csr_row rows cols i) q = Some j -> nth_error ks i = Some k -> nth_error ks j = Some l ->
        nth (nth i rows 0 - Indexing_CSR + q) out zero =
        assembled dofs zero add full (combine (slice ebegin eend elements) (slice ebegin eend ms)) k l (nth (nth i rows 0 - Indexing_CSR + q) vals zero).
Proof.
  intros T zero add sort alloc dofs full dbegin dend ndoms surface domain elements ebegin eend intervals width isize ms SC AL MD ND WP LM IS ks.
  pose proof (md_used_dofs _ _ _ _ _ _ _ _ _ _ MD) as US. pose proof (md_size _ _ _ _ _ _ _ _ _ _ MD) as SZ. destruct MD as [M1 M2 M3 M4 M5 M6 M7 M8 M9].
  destruct (fill_decomposition_ok dofs dbegin dend ndoms surface M1 M2 M3) as (N & EN & _).
  destruct (build_pattern_ok sort alloc dofs full dbegin dend ndoms surface N domain elements ebegin eend intervals SC AL M1 M2 M3 EN M4 M5 M6 M7 US) as (P & EP & P1 & P2 & P3 & _).
  fold ks in P1, P2, P3, SZ.
  set (D := drow sort dofs full dbegin ndoms surface domain elements ebegin eend) in *.
  assert (NE : forall i, i < length ks -> D i <> []). { intros i Hi. eapply drow_ne; eauto. }
  destruct (set_matrix_ok (length ks) D P P1 P2 P3 NE SZ alloc AL) as (rows & cols & ES & L1 & L2 & R & C).
  exists N, P, rows, cols. repeat (split; [assumption|]). intros vals LV.
  assert (IS1 : forall i iv e, nth_error intervals i = Some iv -> In e (slice (fst iv) (snd iv) elements) -> dofs * length e = isize i).
  { intros i [b e'] e Hi He. destruct (IS i b e' Hi) as [F _]. rewrite Forall_forall in F. apply F; auto. }
  assert (IS2 : forall i iv x, nth_error intervals i = Some iv -> In x (slice (fst iv) (snd iv) ms) -> length x = isize i * isize i).
  { intros i [b e'] x Hi Hx. destruct (IS i b e' Hi) as [_ F]. rewrite Forall_forall in F. apply F; auto. }
  assert (LV' : length vals = rowptr D (length ks)) by congruence.
  destruct (assembled_ok sort alloc dofs full dbegin dend ndoms surface N domain elements ebegin eend intervals SC AL M1 M2 M3 EN M4 M5 M6 M7 US ND zero add width isize ms P WP EP LM IS1 IS2 vals LV') as (out & EO & LO & V).
  exists out. split; [exact EO|]. split; [congruence|]. intros i q j k l Hi Hq Hk Hl.
  rewrite (csr_rows (length ks) D P P1 SZ rows cols L1 L2 R C i Hi) in Hq.
  assert (Ik : In k ks) by (eapply nth_error_In; eauto). assert (Il : In l ks) by (eapply nth_error_In; eauto).
  assert (Ei : dloc dofs dbegin ndoms surface domain k = i) by (apply index_of_nth; auto; apply domain_dofs_nodup).
  assert (Ej : dloc dofs dbegin ndoms surface domain l = j) by (apply index_of_nth; auto; apply domain_dofs_nodup).
  specialize (V k l Ik Il). rewrite Ei, Ej in V.
  assert (Hj : In j (D i)) by (eapply nth_error_In; eauto). specialize (V Hj).
  assert (EQ : pos D i j = nth i rows 0 - Indexing_CSR + q).
  { unfold pos. rewrite R by lia. rewrite (index_of_nth j (D i) q); auto; [lia|]. apply L_Equality.ss_nodup. apply L_Pattern2.prow_sorted; auto. }
  fold D in V. rewrite EQ in V. exact V.
Qed.

(** the physics with a multiplicity (harmonic analysis, multiplicity 2): the matrix is numbered with other DOFs than the vectors *)
Theorem harmonic_dofs_refuted : ~ (forall dimension multiplicity, 0 < dimension -> 0 < multiplicity -> matrix_dofs_structural dimension multiplicity = vector_dofs_structural dimension multiplicity).
Proof. intros H. specialize (H 3 2 ltac:(lia) ltac:(lia)). discriminate. Qed.
Theorem plain_dofs_agree : forall dimension, matrix_dofs_structural dimension 1 = vector_dofs_structural dimension 1.
Proof. intros d; unfold matrix_dofs_structural, vector_dofs_structural. lia. Qed.

(** ** Examples: rank 1 owns the domains 2 and 3; a strip of three quadrilaterals, two in the domain 2 and one in the domain 3; domain 0 is on another rank *)
Definition ex_ndoms : list (list nat) := [[2]; [0; 2]; [2]; [2]; [2; 3]; [2; 3]; [3]; [3]].
Definition ex_elements : list (list nat) := [[0; 1; 3; 2]; [2; 3; 5; 4]; [4; 5; 7; 6]].
Definition ex_alloc (n : nat) : list nat := repeat 99 n.
Lemma ex_surface dofs : is_surface dofs ex_ndoms [] 2 4.
Proof. split; [constructor|]. split; [constructor|]. congruence. Qed.
Lemma ex_sets : Forall (@NoDup nat) ex_ndoms.
Proof. unfold ex_ndoms. repeat (constructor; [repeat constructor; simpl; intuition lia|]). constructor. Qed.
Lemma ex_mesh0 : mesh_domain 2 2 4 ex_ndoms [] 0 ex_elements 0 2 [(0, 1); (1, 2)].
Proof.
  constructor; [lia | apply ex_sets | apply ex_surface | lia | simpl; lia | simpl; lia | | | ].
  - intros e n He Hn. cbn in He. destruct He as [<-|[<-|[]]]; cbn in Hn; repeat (destruct Hn as [<-|Hn]; [split; [cbn; lia | cbn; auto]|]); destruct Hn.
  - intros n Hn H. do 4 (destruct n as [|n]; [exists [0; 1; 3; 2]; split; cbn; auto 6; fail|]). do 2 (destruct n as [|n]; [exists [2; 3; 5; 4]; split; cbn; auto 6; fail|]).
    do 2 (destruct n as [|n]; [cbn in H; intuition discriminate|]). cbn in Hn; lia.
  - split; [lia|]. repeat constructor; discriminate.
Qed.
(** the DOFs of the domain 2: both of each of the nodes 0, ..., 5 *)
Example numbering_example : exists N, fill_decomposition 2 2 4 ex_ndoms [] = Ok N /\ n_sizes N = [12; 8] /\
  nth 3 (dmap_rows N) [] = [(0, None); (2, Some 3)] /\ nth 9 (dmap_rows N) [] = [(2, Some 9); (3, Some 1)].
Proof. eexists. split; [vm_compute; reflexivity|]. repeat split. Qed.
(** with the boundary elements in the domains: the nodes 0, ..., 3 of the domain [0] with the node 2 inside, the surface first *)
Example numbering_surface_example : is_surface 1 [[0]; [0]; [0]; [0; 1]; [1]] [0; 1; 3; 4] 0 2 /\
  exists N, fill_decomposition 1 0 2 [[0]; [0]; [0]; [0; 1]; [1]] [0; 1; 3; 4] = Ok N /\ n_sizes N = [4; 2] /\ n_surface N = [3; 2] /\
    nth 2 (dmap_rows N) [] = [(0, Some 3)] /\ nth 3 (dmap_rows N) [] = [(0, Some 2); (1, Some 0)].
Proof.
  split.
  - split; [repeat constructor|]. split; [repeat constructor|]. intros _ k Hk Hn. cbn in Hk. destruct k as [|[|[|[|[|k]]]]]; try (exfalso; apply Hn; cbn; auto 6; fail); [|lia]. exists 0. split; auto; lia.
  - eexists. split; [vm_compute; reflexivity|]. repeat split.
Qed.
Example pattern_example : exists N P rows cols, fill_decomposition 1 2 4 ex_ndoms [] = Ok N /\
  build_pattern isort ex_alloc 1 false N 2 0 8 ex_elements 0 2 [(0, 1); (1, 2)] = Ok P /\ set_matrix ex_alloc P = Ok (rows, cols) /\
  rows = [0; 4; 7; 11; 14; 16; 17] /\ map (csr_row rows cols) (seq 0 6) = [[0; 1; 2; 3]; [1; 2; 3]; [2; 3; 4; 5]; [3; 4; 5]; [4; 5]; [5]].
Proof. do 4 eexists. split; [vm_compute; reflexivity|]. split; [vm_compute; reflexivity|]. split; [vm_compute; reflexivity|]. split; reflexivity. Qed.
(** the matrix of element [e] has the values 100 e, 100 e + 1, ...; the DOFs 2 and 3 are in both elements of the domain *)
Definition ex_matrix (e : nat) : list nat := map (fun i => 100 * e + i) (seq 0 16).
Example assembly_example : exists N P out, fill_decomposition 1 2 4 ex_ndoms [] = Ok N /\
  build_pattern isort ex_alloc 1 false N 2 0 8 ex_elements 0 2 [(0, 2)] = Ok P /\
  fill_domain Nat.add false 4 P (fun _ => 4) (fun _ => [ex_matrix 1; ex_matrix 2]) (repeat 0 17) = Ok out /\
  nth 8 out 0 = (* DOFs 2, 3 *) 111 + 201 /\ nth 0 out 0 = 100.
Proof. do 3 eexists. split; [vm_compute; reflexivity|]. split; [vm_compute; reflexivity|]. split; [vm_compute; reflexivity|]. split; reflexivity. Qed.
(** the hypotheses of the theorems hold for the strip *)
Example assembly_applies : exists N P rows cols, fill_decomposition 2 2 4 ex_ndoms [] = Ok N /\
  build_pattern isort ex_alloc 2 true N 2 0 8 ex_elements 0 2 [(0, 1); (1, 2)] = Ok P /\ set_matrix ex_alloc P = Ok (rows, cols) /\
  forall vals, length vals = length cols -> exists out, fill_domain Z.add true 4 P (fun _ => 8) (fun i => slice (fst (nth i [(0, 1); (1, 2)] (0, 0))) (snd (nth i [(0, 1); (1, 2)] (0, 0))) [repeat 1%Z 64; repeat 2%Z 64; repeat 3%Z 64]) vals = Ok out /\ length out = length cols.
Proof.
  destruct (assembly_exact Z 0%Z Z.add isort ex_alloc 2 true 2 4 ex_ndoms [] 0 ex_elements 0 2 [(0, 1); (1, 2)] 4 (fun _ => 8) [repeat 1%Z 64; repeat 2%Z 64; repeat 3%Z 64]) as (N & P & rows & cols & E1 & E2 & E3 & H).
  - apply isort_contract.
  - intros n; apply repeat_length.
  - apply ex_mesh0.
  - repeat (constructor; [repeat constructor; simpl; intuition lia|]). constructor.
  - lia.
  - reflexivity.
  - intros [|[|i]] b e H; cbn in H; [injection H as <- <- | injection H as <- <- | destruct i; discriminate]; split; repeat constructor.
  - exists N, P, rows, cols. repeat (split; [assumption|]). intros vals LV. destruct (H vals LV) as (out & EO & LO & _). exists out; auto.
Qed.

Print Assumptions numbering_exact.
Print Assumptions pattern_exact.
Print Assumptions assembly_exact.
Print Assumptions harmonic_dofs_refuted.
Print Assumptions plain_dofs_agree.
