(** * C112, C113: synchronization and assembly of the matrix distributed among processes *)
From Coq Require Import List Arith Bool Lia Sorted.
From Verif Require Import Base M_Assembly M_Distributed S_Distributed M_DistMatrix S_DistMatrix M_DistMatrixSync S_DistMatrixSync S_Assembly S_Order M_Indexing L_Utils L_Fill2 L_Numbering L_Distributed L_Distributed2 L_DistMatrix5 L_DistMatrixSync2 L_DistMatrixFill L_DistMatrixFill2 P_DualGraph P_Distributed P_DistMatrix.
Import ListNotations.
Local Open Scope out_scope.

Lemma patterns_ok sort alloc dofs nb ms intervals : sort_contract Nat.ltb sort -> (forall r n, length (alloc r n) = n) -> distributed_mesh nb ms -> intervals_in ms intervals ->
  exists ps, build_patterns sort alloc dofs nb ms intervals = Ok ps /\ length ps = length ms /\
    forall r, r < length ms -> rows_of_mesh dofs ms (nth r ms no_part) (nth r ps no_pattern) /\ permutation_of_mesh dofs (nth r ms no_part) (nth r intervals []) (nth r ps no_pattern).
Proof.
  intros SC AL DM IV. destruct (distributed_pattern_exact sort alloc dofs nb ms intervals SC AL DM IV) as (ps & E & L & H). destruct (distributed_permutation_exact sort alloc dofs nb ms intervals SC AL DM IV) as (ps' & E' & H').
  rewrite E in E'; injection E' as <-. exists ps. split; auto. split; auto. intros r Hr. destruct (H r Hr) as (p & Ep & Q). destruct (H' r Hr) as (p' & Ep' & Q'). rewrite (nth_error_nth _ _ no_pattern Ep). split; auto. congruence.
Qed.

(** C112 *)
Theorem matrix_synchronize_exact : forall T (zero : T) add sort alloc dofs nb ms intervals, 0 < dofs -> sort_contract Nat.ltb sort -> (forall r n, length (alloc r n) = n) -> distributed_mesh nb ms -> intervals_in ms intervals ->
  let us := map mp_info ms in
  exists ps ds ys0, build_patterns sort alloc dofs nb ms intervals = Ok ps /\ decompose dofs nb us = Ok ds /\ minit zero ds ps = Ok ys0 /\
  forall earlier, Forall (is_matrix us ps) earlier -> exists ys, gather_matrices add earlier ys0 = Ok ys /\
    forall vs, is_matrix us ps vs -> exists ys' vs', gather_matrix add (ys, vs) = Ok (ys', vs') /\ is_matrix us ps vs' /\
      forall r g c x, has_entry dofs us ps vs' r g c x ->
        (owner dofs us r g -> x = total zero add (entry_values dofs us ps vs g c)) /\ (~ owner dofs us r g -> has_entry dofs us ps vs r g c x).
Proof.
  intros T zero add sort alloc dofs nb ms intervals D SC AL DM IV us. destruct (patterns_ok sort alloc dofs nb ms intervals SC AL DM IV) as (ps & E & L & H).
  assert (PR : forall r, r < length ms -> rows_of_mesh dofs ms (nth r ms no_part) (nth r ps no_pattern)) by (intros; apply H; auto).
  destruct (minit_ready dofs nb ms ps D DM L PR zero) as (ds & ys0 & E1 & E2 & R). exists ps, ds, ys0. repeat (split; [assumption|]). intros earlier F. destruct (gathers_ok dofs nb ms ps D DM L PR zero add earlier ys0 R F) as (ys & E3 & R'). exists ys. split; auto.
  intros vs V. apply (gather_entries dofs nb ms ps D DM L PR zero add ys vs R' V).
Qed.

(** C113 *)
Theorem distributed_assembly_exact : forall T (zero : T) add sort alloc dofs width nb ms intervals isize Ks, 0 < dofs -> 0 < width -> sort_contract Nat.ltb sort -> (forall r n, length (alloc r n) = n) ->
  distributed_mesh nb ms -> intervals_in ms intervals -> element_matrices dofs ms intervals isize Ks ->
  let us := map mp_info ms in
  let value r g c := rank_value zero add dofs (nth r ms no_part) (nth r intervals []) (Ks r) g c in
  exists ps ds ys0 vs, build_patterns sort alloc dofs nb ms intervals = Ok ps /\ decompose dofs nb us = Ok ds /\ minit zero ds ps = Ok ys0 /\
    assemble_ranks zero add width ps isize (interval_matrices intervals Ks) = Ok vs /\ is_matrix us ps vs /\ (forall r g c x, has_entry dofs us ps vs r g c x -> x = value r g c) /\
    forall earlier, Forall (is_matrix us ps) earlier -> exists ys ys' vs', gather_matrices add earlier ys0 = Ok ys /\ gather_matrix add (ys, vs) = Ok (ys', vs') /\ is_matrix us ps vs' /\
      forall r g c x, has_entry dofs us ps vs' r g c x ->
        (owner dofs us r g -> x = total zero add (map (fun s => value s g c) (ranks_with dofs ms g))) /\ (~ owner dofs us r g -> x = value r g c).
Proof.
  intros T zero add sort alloc dofs width nb ms intervals isize Ks D W SC AL DM IV EM us value. destruct (patterns_ok sort alloc dofs nb ms intervals SC AL DM IV) as (ps & E & L & H).
  assert (PR : forall r, r < length ms -> rows_of_mesh dofs ms (nth r ms no_part) (nth r ps no_pattern)) by (intros; apply H; auto).
  destruct (minit_ready dofs nb ms ps D DM L PR zero) as (ds & ys0 & E1 & E2 & R).
  destruct (mapM_exists (fun x : nat * dpattern => assemble_rank zero add width (snd x) (isize (fst x)) (interval_matrices intervals Ks (fst x))) (fun r => (r, nth r ps no_pattern))
    (fun r out => length out = length (dp_column (nth r ps no_pattern)) /\ forall k g c, k < length (stored_dofs dofs (nth r us no_info)) -> nth k (stored_dofs dofs (nth r us no_info)) 0 = g -> In c (prow_of ps r k) -> nth (kpos ps r (k, c)) out zero = value r g c) [] (seq 0 (length ps))) as (vs & EV & LV & HV).
  { intros r Hr. apply in_seq in Hr. rewrite L in Hr. assert (Hr' : r < length ms) by lia. destruct (EM r Hr') as [KL KS]. cbn [fst snd].
    apply (assemble_rank_ok dofs nb ms ps D DM L PR r Hr' (nth r intervals [])); auto.
    - apply H; auto.
    - intros i Hi. apply IV; auto.
    - intros i e Hi He. apply KS; auto.
    - intros i K Hi HK. eapply KS; eauto. }
  exists ps, ds, ys0, vs. repeat (split; [assumption|]).
  assert (EA : assemble_ranks zero add width ps isize (interval_matrices intervals Ks) = Ok vs). { unfold assemble_ranks. rewrite <- EV. f_equal. rewrite <- (combine_self (fun r => nth r ps no_pattern)). f_equal. apply L_Distributed.list_as_map; auto. }
  assert (N : forall r, r < length ms -> nth_error (seq 0 (length ps)) r = Some r). { intros r Hr. rewrite (nth_error_nth' _ 0) by (rewrite seq_length; lia). rewrite seq_nth by lia. auto. }
  rewrite seq_length in LV. assert (V : is_matrix us ps vs). { split; [unfold us; rewrite map_length; lia|]. unfold us. rewrite map_length. intros r Hr. apply (HV r r (N r Hr)). }
  assert (VO : forall r k g c, r < length ms -> k < length (stored_dofs dofs (nth r us no_info)) -> nth k (stored_dofs dofs (nth r us no_info)) 0 = g -> In c (prow_of ps r k) -> nth (kpos ps r (k, c)) (nth r vs []) zero = value r g c).
  { intros r k g c Hr Hk Eg Hc. apply (HV r r (N r Hr)); auto. }
  split; auto. split; auto. split; [intros r g c x; apply (entry_value dofs nb ms ps D DM L PR zero value vs VO)|].
  intros earlier F. destruct (gathers_ok dofs nb ms ps D DM L PR zero add earlier ys0 R F) as (ys & E3 & R').
  destruct (gather_assembled dofs nb ms ps D DM L PR zero add value vs V VO ys R') as (ys' & vs' & G). exists ys, ys', vs'. auto.
Qed.

(** C113: if the order of additions does not matter for the sum, the rows of all owners are the matrix assembled from the elements of all ranks *)
Theorem distributed_assembly_sum : forall T (zero : T) add sort alloc dofs width nb ms intervals isize Ks, 0 < dofs -> 0 < width -> sort_contract Nat.ltb sort -> (forall r n, length (alloc r n) = n) ->
  distributed_mesh nb ms -> intervals_in ms intervals -> element_matrices dofs ms intervals isize Ks ->
  (forall a b c, add a (add b c) = add (add a b) c) -> (forall a, add zero a = a) -> (forall a, add a zero = a) ->
  let us := map mp_info ms in
  let elements := flat_map (fun r => rank_elements (nth r ms no_part) (nth r intervals []) (Ks r)) (seq 0 (length ms)) in
  exists ps ds ys0 vs ys' vs', build_patterns sort alloc dofs nb ms intervals = Ok ps /\ decompose dofs nb us = Ok ds /\ minit zero ds ps = Ok ys0 /\
    assemble_ranks zero add width ps isize (interval_matrices intervals Ks) = Ok vs /\ gather_matrix add (ys0, vs) = Ok (ys', vs') /\
    forall r g c x, has_entry dofs us ps vs' r g c x -> owner dofs us r g -> x = assembled dofs zero add true elements g c zero.
Proof.
  intros T zero add sort alloc dofs width nb ms intervals isize Ks D W SC AL DM IV EM AS Z1 Z2 us elements.
  destruct (distributed_assembly_exact T zero add sort alloc dofs width nb ms intervals isize Ks D W SC AL DM IV EM) as (ps & ds & ys0 & vs & E1 & E2 & E3 & E4 & _ & _ & G). destruct (G [] (Forall_nil _)) as (ys & ys' & vs' & E5 & E6 & _ & G').
  injection E5 as <-. exists ps, ds, ys0, vs, ys', vs'. repeat (split; [assumption|]). intros r g c x Hx O. destruct (G' r g c x Hx) as [X _]. rewrite (X O). rewrite (total_fold zero add Z1).
  unfold rank_value, assembled. rewrite (fold_flat zero add AS Z1 Z2 (fun s => flat_map (contribution dofs zero true g c) (rank_elements (nth s ms no_part) (nth s intervals []) (Ks s)))). f_equal. unfold elements. rewrite flat_map_flat. unfold ranks_with. apply flat_filter.
  intros s Hs M. apply in_seq in Hs. apply flat_map_nil. intros [e K] He. unfold contribution. cbn [fst snd]. destruct (memb g (element_dofs dofs e)) eqn:Mg; auto. exfalso. apply memb_iff in Mg.
  unfold rank_elements in He. apply in_flat_map in He. destruct He as (i & Hi & He). apply in_combine_l in He. apply in_map_iff in He. destruct He as (e' & <- & He').
  unfold element_dofs in Mg. apply in_flat_map in Mg. destruct Mg as (d & Hd & Mg). apply in_seq in Hd. apply in_map_iff in Mg. destruct Mg as (p & <- & Hp). rewrite Nat.div_add_l, Nat.div_small, Nat.add_0_r in M by lia.
  apply in_map_iff in Hp. destruct Hp as (n & <- & Hn). assert (Is : In (nth s ms no_part) ms) by (apply nth_In; lia). assert (I : In (node_of (nth s ms no_part) n) (u_position (mp_info (nth s ms no_part)))).
  { unfold node_of. apply nth_In. rewrite <- (dm_length nb ms DM _ Is). apply (dm_elements nb ms DM _ e' Is); auto. apply (in_ielements ms s i). auto. }
  apply memb_iff in I. congruence.
Qed.

(** ** Example: the mesh of P_DistMatrix; an element of k nodes of rank r gives 10^r to each entry *)
Definition ex_Ks (r : nat) : list (list nat) := nth r [[repeat 1 4]; [repeat 10 4; repeat 20 4]; [repeat 100 9]] [].
Definition ex_isize (r i : nat) : nat := match r with 2 => 3 | _ => 2 end.
Example ex_matrices : element_matrices 1 ex_ms ex_iv ex_isize ex_Ks.
Proof.
  intros [|[|[|r]]] Hr; cbn in Hr; try lia; (split; [reflexivity|]); intros [|[|i]] Hi; cbn in Hi; try lia; cbn; split; intros x H; repeat (destruct H as [<-|H]; [reflexivity|]); destruct H.
Qed.
(** rows of the nodes 0, 1 (rank 0), 2, 3 (rank 1), 4 (rank 2) *)
Example distributed_assembly_example : exists ps ds ys0 vs ys' vs', build_patterns isort (fun _ n => repeat 7 n) 1 ex_nb ex_ms ex_iv = Ok ps /\ decompose 1 ex_nb (map mp_info ex_ms) = Ok ds /\ minit 0 ds ps = Ok ys0 /\
  assemble_ranks 0 Nat.add 8 ps ex_isize (interval_matrices ex_iv ex_Ks) = Ok vs /\ gather_matrix Nat.add (ys0, vs) = Ok (ys', vs') /\
  vs = [[1; 1; 1; 1; 0; 0; 0]; [0; 10; 10; 0; 0; 10; 30; 20; 0; 20; 20; 0]; [0; 100; 0; 100; 100; 100; 0; 100; 100; 100; 100; 100]] /\
  vs' = [[1; 1; 1; 111; 10; 100; 100]; [0; 10; 10; 0; 0; 10; 30; 20; 100; 20; 120; 100]; [0; 100; 0; 100; 100; 100; 0; 100; 100; 100; 100; 100]].
Proof. do 6 eexists. repeat (split; [vm_compute; reflexivity|]). vm_compute. reflexivity. Qed.
Example distributed_assembly_applies : exists ps ds ys0 vs ys' vs', build_patterns isort (fun _ n => repeat 7 n) 1 ex_nb ex_ms ex_iv = Ok ps /\ decompose 1 ex_nb (map mp_info ex_ms) = Ok ds /\ minit 0 ds ps = Ok ys0 /\
  assemble_ranks 0 Nat.add 8 ps ex_isize (interval_matrices ex_iv ex_Ks) = Ok vs /\ gather_matrix Nat.add (ys0, vs) = Ok (ys', vs') /\
  forall r g c x, has_entry 1 (map mp_info ex_ms) ps vs' r g c x -> owner 1 (map mp_info ex_ms) r g -> x = assembled 1 0 Nat.add true [([0; 1], repeat 1 4); ([1; 2], repeat 10 4); ([2; 3], repeat 20 4); ([1; 3; 4], repeat 100 9)] g c 0.
Proof.
  apply (distributed_assembly_sum nat 0 Nat.add isort (fun _ n => repeat 7 n) 1 8 ex_nb ex_ms ex_iv ex_isize ex_Ks Nat.lt_0_1 ltac:(lia) isort_contract (fun _ n => repeat_length 7 n) ex_distributed ex_intervals ex_matrices); intros; lia.
Qed.
Example matrix_synchronize_applies : exists ps ds ys0, build_patterns isort (fun _ n => repeat 7 n) 2 ex_nb ex_ms ex_iv = Ok ps /\ decompose 2 ex_nb (map mp_info ex_ms) = Ok ds /\ minit 0 ds ps = Ok ys0.
Proof. destruct (matrix_synchronize_exact nat 0 Nat.add isort (fun _ n => repeat 7 n) 2 ex_nb ex_ms ex_iv ltac:(lia) isort_contract (fun _ n => repeat_length 7 n) ex_distributed ex_intervals) as (ps & ds & ys & E1 & E2 & E3 & _). exists ps, ds, ys. auto. Qed.

Print Assumptions matrix_synchronize_exact.
Print Assumptions distributed_assembly_exact.
Print Assumptions distributed_assembly_sum.
