(** * C114, C115: the product with the matrix distributed among processes *)
From Coq Require Import List Arith Bool Lia Sorted.
From Verif Require Import Base M_Assembly M_Distributed S_Distributed M_DistMatrix S_DistMatrix M_DistMatrixSync S_DistMatrixSync S_Assembly S_Order M_Indexing M_DistApply S_DistApply L_Sort L_Distributed L_Distributed2 L_DistApply L_DistApply3 P_DualGraph P_Distributed P_DistMatrix P_DistMatrixSync.
Import ListNotations.
Local Open Scope out_scope.

(** C114: whatever vectors were synchronized and whatever products were computed before *)
Theorem matrix_apply_exact : forall T (zero : T) add sort sort2 alloc dofs nb ms intervals, 0 < dofs -> sort_contract Nat.ltb sort -> sort_contract pair_ltb sort2 -> (forall r n, length (alloc r n) = n) ->
  distributed_mesh nb ms -> intervals_in ms intervals ->
  let us := map mp_info ms in
  exists ps ds sy0 as0, build_patterns sort alloc dofs nb ms intervals = Ok ps /\ decompose dofs nb us = Ok ds /\ init zero ds = Ok sy0 /\ ainit zero sort2 ds ps = Ok as0 /\
  forall calls, Forall (valid_call dofs us ps) calls -> exists as_ sy, run_acalls add ds ps calls (as0, sy0) = Ok (as_, sy) /\
    forall rowop M xs ys, is_matrix us ps M -> is_vector dofs us xs -> is_vector dofs us ys -> exists as' sy' ys', apply_matrix rowop ds ps (as_, sy) M xs ys = Ok (as', sy', ys') /\ is_vector dofs us ys' /\
      forall r g z, has_value dofs us ys' r g z -> row_product dofs ms us ps rowop M xs ys g z.
Proof.
  intros T zero add sort sort2 alloc dofs nb ms intervals D SC SC2 AL DM IV us. destruct (patterns_ok sort alloc dofs nb ms intervals SC AL DM IV) as (ps & E & L & H).
  assert (PR : forall r, r < length ms -> rows_of_mesh dofs ms (nth r ms no_part) (nth r ps no_pattern)) by (intros; apply H; auto).
  destruct (setup_ok dofs nb us D (dm_numbered nb ms DM) zero) as (ds & sy0 & E1 & E2 & R). pose proof (decompose_eq dofs nb ms D DM) as E1'. fold us in E1'. rewrite E1' in E1. injection E1 as <-.
  destruct (ainit_ready dofs nb ms ps D DM L PR zero sort2 SC2) as (as0 & E3 & RA). do 4 eexists. split; [exact E|]. split; [exact E1'|]. split; [exact E2|]. split; [exact E3|].
  intros calls F. destruct (history_ok dofs nb ms ps D DM L PR zero add calls as0 sy0 RA R F) as (as_ & sy & E4 & RA' & R'). exists as_, sy. split; [exact E4|].
  intros rowop M xs ys VM Vx Vy. destruct (product_call dofs nb ms ps D DM L PR zero add rowop as_ sy M xs ys RA' R' VM Vx Vy) as (as' & sy' & ys' & E5 & _ & _ & V & Q). exists as', sy', ys'. auto.
Qed.

(** C115: for the matrix assembled from elements and gathered, if the order of additions does not matter for the sum *)
Theorem assembled_apply_exact : forall T (zero : T) add sort sort2 alloc dofs width nb ms intervals isize Ks, 0 < dofs -> 0 < width -> sort_contract Nat.ltb sort -> sort_contract pair_ltb sort2 -> (forall r n, length (alloc r n) = n) ->
  distributed_mesh nb ms -> intervals_in ms intervals -> element_matrices dofs ms intervals isize Ks ->
  (forall a b c, add a (add b c) = add (add a b) c) -> (forall a, add zero a = a) -> (forall a, add a zero = a) ->
  let us := map mp_info ms in
  let elements := flat_map (fun r => rank_elements (nth r ms no_part) (nth r intervals []) (Ks r)) (seq 0 (length ms)) in
  exists ps ds ym0 vs ym M sy0 as0, build_patterns sort alloc dofs nb ms intervals = Ok ps /\ decompose dofs nb us = Ok ds /\ minit zero ds ps = Ok ym0 /\
    assemble_ranks zero add width ps isize (interval_matrices intervals Ks) = Ok vs /\ gather_matrix add (ym0, vs) = Ok (ym, M) /\ init zero ds = Ok sy0 /\ ainit zero sort2 ds ps = Ok as0 /\
  forall calls, Forall (valid_call dofs us ps) calls -> exists as_ sy, run_acalls add ds ps calls (as0, sy0) = Ok (as_, sy) /\
    forall rowop xs ys, is_vector dofs us xs -> is_vector dofs us ys -> exists as' sy' ys', apply_matrix rowop ds ps (as_, sy) M xs ys = Ok (as', sy', ys') /\ is_vector dofs us ys' /\
      forall r g z, has_value dofs us ys' r g z -> assembled_row_product zero add dofs ms us elements rowop xs ys g z.
Proof.
  intros T zero add sort sort2 alloc dofs width nb ms intervals isize Ks D W SC SC2 AL DM IV EM AS Z1 Z2 us elements.
  destruct (distributed_assembly_exact T zero add sort alloc dofs width nb ms intervals isize Ks D W SC AL DM IV EM) as (ps0 & ds0 & ym00 & vs0 & F1 & F2 & F3 & F4 & _ & _ & G0). destruct (G0 [] (Forall_nil _)) as (q1 & q2 & M0 & F5 & F6 & VM & _). injection F5 as <-.
  destruct (distributed_assembly_sum T zero add sort alloc dofs width nb ms intervals isize Ks D W SC AL DM IV EM AS Z1 Z2) as (ps & ds & ym0 & vs & ym & M & E1 & E2 & E3 & E4 & E5 & G).
  destruct (matrix_apply_exact T zero add sort sort2 alloc dofs nb ms intervals D SC SC2 AL DM IV) as (ps' & ds' & sy0 & as0 & E1' & E2' & E6 & E7 & HA).
  assert (ps0 = ps) by congruence. assert (ps' = ps) by congruence. assert (ds0 = ds) by congruence. assert (ds' = ds) by congruence. subst ps0 ps' ds0 ds'. assert (ym00 = ym0) by congruence. assert (vs0 = vs) by congruence. subst ym00 vs0. assert (M0 = M) by congruence. subst M0.
  exists ps, ds, ym0, vs, ym, M, sy0, as0. repeat (split; [assumption|]). intros calls F. destruct (HA calls F) as (as_ & sy & E8 & HB). exists as_, sy. split; auto. intros rowop xs ys Vx Vy. destruct (HB rowop M xs ys VM Vx Vy) as (as' & sy' & ys' & E9 & V & Q). exists as', sy', ys'. split; auto. split; auto.
  intros r g z Hz. destruct (Q r g z Hz) as (o & y0 & cs & pairs & O & Hy & Sc & Ic & Ez & F'). exists o, y0, cs, pairs. repeat (split; [assumption|]). revert F'. clear -G O. induction 1 as [|c p cs pairs [H1 H2] F' IH]; constructor; auto. split; auto. apply (G o g c); auto.
Qed.

(** ** Example: the ranks 0 and 1 have no common node, but an element of rank 2 has a node of each of them *)
Definition ap_us : list uniq_info :=
  [{| u_nhalo := 0; u_position := [0; 1]; u_offset := 0; u_size := 2 |};
   {| u_nhalo := 0; u_position := [2; 3]; u_offset := 2; u_size := 2 |};
   {| u_nhalo := 2; u_position := [1; 2; 4]; u_offset := 4; u_size := 1 |}].
Definition ap_nb : list (list nat) := [[2]; [2]; [0; 1]].
Definition ap_ms : list mesh_part :=
  [{| mp_info := nth 0 ap_us no_info; mp_ranks := [[0]; [0; 2]]; mp_elements := [[0; 1]] |};
   {| mp_info := nth 1 ap_us no_info; mp_ranks := [[1; 2]; [1]]; mp_elements := [[0; 1]] |};
   {| mp_info := nth 2 ap_us no_info; mp_ranks := [[0; 2]; [1; 2]; [2]]; mp_elements := [[0; 1; 2]] |}].
Definition ap_iv : list (list (nat * nat)) := [[(0, 1)]; [(0, 1)]; [(0, 1)]].
Example ap_numbered : numbered ap_nb ap_us.
Proof.
  constructor.
  - reflexivity.
  - intros [|[|[|r]]] H; cbn in *; auto; lia.
  - intros [|[|[|r]]] H; cbn in *; try lia; split; try lia; repeat constructor.
  - intros [|[|[|r]]] p H Hp; cbn in *; try lia; try tauto. destruct Hp as [<-|[<-|[]]]; [exists 0|exists 1]; unfold owns; cbn; repeat split; auto; lia.
  - intros [|[|[|r]]] H; cbn in *; try lia; repeat constructor.
  - intros [|[|[|r]]] j H Hj; cbn in *; try lia; repeat (destruct Hj as [<-|Hj]; [cbn; repeat split; auto; lia|]); destruct Hj.
Qed.
Example ap_distributed : distributed_mesh ap_nb ap_ms.
Proof.
  constructor.
  - apply ap_numbered.
  - intros m [<-|[<-|[<-|[]]]]; reflexivity.
  - intros m [<-|[<-|[<-|[]]]]; reflexivity.
  - intros m n [<-|[<-|[<-|[]]]] H; cbn in H; destruct n as [|[|[|n]]]; try lia; cbn; repeat constructor.
  - intros m n s Hm Hn. split.
    + destruct Hm as [<-|[<-|[<-|[]]]]; cbn in Hn; destruct n as [|[|[|n]]]; try lia; cbn; intros H; repeat (destruct H as [<-|H]; [cbn; lia|]); destruct H.
    + intros [Hs H]. cbn in Hs. destruct Hm as [<-|[<-|[<-|[]]]]; cbn in Hn; destruct n as [|[|[|n]]]; try lia; destruct s as [|[|[|s]]]; try lia; cbn in H |- *; lia.
  - intros r n s Hr Hn H Ne. destruct r as [|[|[|r]]]; cbn in Hr, Hn; try lia; destruct n as [|[|[|n]]]; try lia; cbn in H |- *; lia.
  - intros m e [<-|[<-|[<-|[]]]] He; cbn in He; repeat (destruct He as [<-|He]; [split; [repeat constructor; cbn; lia|cbn; lia]|]); destruct He.
Qed.
Example ap_intervals : intervals_in ap_ms ap_iv.
Proof. split; auto. intros [|[|[|r]]] i H Hi; cbn in *; try lia; repeat (destruct Hi as [<-|Hi]; [cbn; lia|]); destruct Hi. Qed.
Definition ap_Ks (r : nat) : list (list nat) := nth r [[[1; 2; 3; 4]]; [[10; 20; 30; 40]]; [[1; 2; 3; 4; 5; 6; 7; 8; 9]]] [].
Definition ap_isize (r i : nat) : nat := match r with 2 => 3 | _ => 2 end.
Example ap_matrices : element_matrices 1 ap_ms ap_iv ap_isize ap_Ks.
Proof.
  intros [|[|[|r]]] Hr; cbn in Hr; try lia; (split; [reflexivity|]); intros [|i] Hi; cbn in Hi; try lia; cbn; split; intros x H; repeat (destruct H as [<-|H]; [reflexivity|]); destruct H.
Qed.
(** 2 * (A x) + 3 * y *)
Definition ap_rowop (pairs : list (nat * nat)) (y : nat) : nat := 2 * fold_right (fun p s => fst p * snd p + s) 0 pairs + 3 * y.
Example matrix_apply_example : exists ps ds ym0 vs ym M sy0 as0 as1 sy1, build_patterns P_DualGraph.isort (fun _ n => repeat 7 n) 1 ap_nb ap_ms ap_iv = Ok ps /\ decompose 1 ap_nb (map mp_info ap_ms) = Ok ds /\ minit 0 ds ps = Ok ym0 /\
  assemble_ranks 0 Nat.add 8 ps ap_isize (interval_matrices ap_iv ap_Ks) = Ok vs /\ gather_matrix Nat.add (ym0, vs) = Ok (ym, M) /\ init 0 ds = Ok sy0 /\ ainit 0 (L_Sort.isort pair_ltb) ds ps = Ok as0 /\
  apply_matrix ap_rowop ds ps (as0, sy0) M [[1; 2]; [3; 4]; [7; 7; 5]] [[1; 0]; [0; 0]; [7; 7; 1]] = Ok (as1, sy1, [[13; 68]; [326; 500]; [68; 326; 169]]).
Proof. do 10 eexists. repeat (split; [vm_compute; reflexivity|]). vm_compute. reflexivity. Qed.
Lemma pair_sort : sort_contract pair_ltb (L_Sort.isort pair_ltb).
Proof. apply L_Sort.isort_contract. apply (sto_swo _ _ pair_sto). Qed.
Example assembled_apply_applies : exists ps ds ym0 vs ym M sy0 as0, build_patterns P_DualGraph.isort (fun _ n => repeat 7 n) 1 ap_nb ap_ms ap_iv = Ok ps /\ decompose 1 ap_nb (map mp_info ap_ms) = Ok ds /\ minit 0 ds ps = Ok ym0 /\
  assemble_ranks 0 Nat.add 8 ps ap_isize (interval_matrices ap_iv ap_Ks) = Ok vs /\ gather_matrix Nat.add (ym0, vs) = Ok (ym, M) /\ init 0 ds = Ok sy0 /\ ainit 0 (L_Sort.isort pair_ltb) ds ps = Ok as0.
Proof.
  destruct (assembled_apply_exact nat 0 Nat.add P_DualGraph.isort (L_Sort.isort pair_ltb) (fun _ n => repeat 7 n) 1 8 ap_nb ap_ms ap_iv ap_isize ap_Ks Nat.lt_0_1 ltac:(lia) P_DualGraph.isort_contract pair_sort (fun _ n => repeat_length 7 n) ap_distributed ap_intervals ap_matrices) as (ps & ds & ym0 & vs & ym & M & sy0 & as0 & H); try (intros; lia).
  exists ps, ds, ym0, vs, ym, M, sy0, as0. repeat (split; [apply H|]). apply H.
Qed.
Example matrix_apply_applies : exists ps ds sy0 as0, build_patterns P_DualGraph.isort (fun _ n => repeat 7 n) 2 ap_nb ap_ms ap_iv = Ok ps /\ decompose 2 ap_nb (map mp_info ap_ms) = Ok ds /\ init 0 ds = Ok sy0 /\ ainit 0 (L_Sort.isort pair_ltb) ds ps = Ok as0.
Proof.
  destruct (matrix_apply_exact nat 0 Nat.add P_DualGraph.isort (L_Sort.isort pair_ltb) (fun _ n => repeat 7 n) 2 ap_nb ap_ms ap_iv ltac:(lia) P_DualGraph.isort_contract pair_sort (fun _ n => repeat_length 7 n) ap_distributed ap_intervals) as (ps & ds & sy0 & as0 & E1 & E2 & E3 & E4 & _). exists ps, ds, sy0, as0. auto.
Qed.

Print Assumptions matrix_apply_exact.
Print Assumptions assembled_apply_exact.
