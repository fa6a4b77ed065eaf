(** * Prescribed values on boundary regions (C137) *)
From Coq Require Import List Bool Arith Lia Sorting.Sorted.
From Verif Require Import Base M_BoundaryValues S_BoundaryValues L_BoundaryValues.
Import ListNotations.
Local Open Scope out_scope.

Local Lemma good_regions {C V} (good : C -> Prop) size (bs : list (boundary C V)) :
  (forall b c, In b bs -> configured b = Some c -> good c) -> nodes_below size bs -> Forall (good_region size good) bs.
Proof.
  intros G N. apply Forall_forall. intros b Ib. split; [eauto|]. apply Forall_forall. intros ns In_. apply Forall_forall. intros n Inn. eapply N; eauto.
Qed.

(** the components of a displacement that are set *)
Definition component (data : list bool) (d : nat) : bool := nth d data false.

Local Lemma structural_bits dim data : dim <= 3 -> length data = 3 ->
  exists f, structural_filter dim 1 data = Ok f /\ forall d, d < dim -> Nat.testbit f d = component data d.
Proof.
  intros D L. destruct data as [|a [|b [|c [|]]]]; try discriminate L.
  destruct dim as [|[|[|[|]]]]; try lia; destruct a, b, c; (eexists; split; [reflexivity|]);
    intros d Ld; destruct d as [|[|[|]]]; try lia; reflexivity.
Qed.

Local Lemma structural_marks dim f data p s n : dim <= 3 -> length data = 3 ->
  (forall d, d < dim -> Nat.testbit f d = component data d) -> forall size, n < size -> length s = dim * size ->
  structural_node dim 1 data f (p, s) n = Ok (p ++ node_dofs dim (component data) n, marks s (node_dofs dim (component data) n)).
Proof.
  intros D Ld B size Ln Ls. unfold structural_node. cbn [seq foldM].
  rewrite (foldM_ext_in _ (fun s d => if component data d then mark s (n * dim + d) else Ok s)).
  - rewrite (foldM_filter mark (fun d => n * dim + d) (component data)). fold (node_dofs dim (component data) n).
    rewrite mark_list; [reflexivity|]. rewrite Ls. now apply node_dofs_below.
  - intros s' d I. apply in_seq in I. rewrite (rd_ok data d false) by lia. cbn [obind]. fold (component data d).
    replace (dim * 0 + d) with d by lia. rewrite B by lia.
    replace (n * dim * 1 + 0 * dim + d) with (n * dim + d) by lia. now destruct (component data d).
Qed.

(** C137: structural mechanics *)
Theorem displacements_prescribed V size dim (bs : list (boundary (list bool) V)) :
  0 < dim <= 3 -> (forall b data, In b bs -> configured b = Some data -> length data = 3) -> nodes_below size bs ->
  exists p, structural_pattern size dim 1 bs = Ok p /\
    exact_indices component dim bs (indices p) /\
    forall vals, length vals = length (indices p) ->
      exists vals', set_values dim p bs vals = Ok vals' /\ exact_values component dim bs (indices p) vals'.
Proof.
  intros D G N. unfold structural_pattern. rewrite Nat.mul_1_r.
  set (bits data := match structural_filter dim 1 data with Ok f => f | _ => 0 end).
  apply (pattern_and_values component dim size (structural_filter dim 1) (structural_node dim 1) (fun data => length data = 3) bits).
  - intros data L. unfold bits. destruct (structural_bits dim data) as (f & E & _); try lia. now rewrite E.
  - intros data d L Ld. unfold bits. destruct (structural_bits dim data) as (f & E & B); try lia. rewrite E. auto.
  - intros data p s n L Ln Ls. apply structural_marks with size; try lia; auto.
    intros d Ld. unfold bits. destruct (structural_bits dim data) as (f & E & B); try lia. rewrite E. auto.
  - lia.
  - eapply good_regions; eauto.
Qed.

(** C137: heat transfer *)
Theorem temperatures_prescribed V size (bs : list (boundary unit V)) :
  nodes_below size bs ->
  exists p, heat_pattern size 1 bs = Ok p /\
    exact_indices (fun _ _ => true) 1 bs (indices p) /\
    forall vals, length vals = length (indices p) ->
      exists vals', set_values 1 p bs vals = Ok vals' /\ exact_values (fun _ _ => true) 1 bs (indices p) vals'.
Proof.
  intros N. unfold heat_pattern.
  apply (pattern_and_values (fun _ _ => true) 1 size (fun _ => Ok 1) (fun _ _ => heat_node 1) (fun _ => True) (fun _ => 1)).
  - reflexivity.
  - intros c d _ Ld. now replace d with 0 by lia.
  - intros c p s n _ Ln Ls. unfold heat_node.
    replace (node_dofs 1 (fun _ => true) n) with (map (fun d => n * 1 + d) (seq 0 1)) by reflexivity.
    transitivity (foldM mark (map (fun d => n * 1 + d) (seq 0 1)) (p, s)); [reflexivity|]. apply mark_list.
    repeat constructor. simpl. lia.
  - lia.
  - eapply good_regions; eauto.
Qed.

(** C137: with no configured region the pattern is empty, for every multiplicity *)
Theorem nothing_prescribed V size dim mult (bs : list (boundary (list bool) V)) :
  (forall b, In b bs -> configured b = None) -> exists p, structural_pattern size dim mult bs = Ok p /\ indices p = [].
Proof.
  intros N. unfold structural_pattern, regions_loop.
  match goal with |- context [foldM ?f bs ?s] => set (step := f) end.
  assert (A : forall l isset, foldM step bs (l, isset) = Ok (l ++ map (fun _ => Info 0 [] []) bs, isset)).
  { induction bs as [|b bs IH]; intros l isset; simpl; [now rewrite app_nil_r|].
    unfold step at 1. rewrite (N b) by (now left). simpl. rewrite IH by (intros; apply N; now right). now rewrite <- app_assoc. }
  rewrite A. simpl. unfold build_pattern. simpl.
  assert (Z : forall n i off, build_indices (repeat 0 n) i off = ([], repeat 0 n)).
  { induction n; intros; simpl; auto. now rewrite IHn. }
  rewrite Z.
  assert (R : forall (l : list (boundary (list bool) V)) acc,
    foldM (fun ds d => perm <- rename (repeat 0 (dim * mult * size)) (permutation d) ;; Ok (ds ++ [Info (filter d) perm (offset d)]))
      (map (fun _ => Info 0 [] []) l) acc = Ok (acc ++ map (fun _ => Info 0 [] []) l)).
  { induction l as [|b l IH]; intros acc; simpl; [now rewrite app_nil_r|]. rewrite IH. now rewrite <- app_assoc. }
  rewrite R. simpl. eauto.
Qed.

(** C137: with two values per component, as in harmonic analysis, every displacement reads behind the three expressions *)
Theorem harmonic_displacements_refuted V size dim (bs : list (boundary (list bool) V)) :
  2 <= dim <= 3 -> (forall b data, In b bs -> configured b = Some data -> length data = 3) ->
  (exists b, In b bs /\ configured b <> None) -> structural_pattern size dim 2 bs = UB.
Proof.
  intros D G (b & Ib & Cb). unfold structural_pattern, regions_loop.
  match goal with |- context [foldM ?f bs ?s] => set (step := f) end.
  assert (F : forall data, length data = 3 -> structural_filter (dim * 2) 2 data = UB).
  { intros data L. destruct data as [|x [|y [|z [|]]]]; try discriminate L.
    destruct dim as [|[|[|[|]]]]; try lia; destruct x, y, z; reflexivity. }
  assert (A : forall l s, (forall b, In b l -> In b bs) -> In b l -> foldM step l s = UB).
  { induction l as [|b' l IH]; intros s Sub [].
    - subst b'. simpl. unfold step at 1. destruct (configured b) as [data|] eqn:E; [|congruence]. rewrite F; [reflexivity|eauto].
    - simpl. assert (S' : step s b' = UB \/ exists s', step s b' = Ok s').
      { unfold step. destruct (configured b') as [data|] eqn:E; [|eauto]. left. rewrite F; [reflexivity|]. eapply G; [apply Sub; now left|eassumption]. }
      destruct S' as [->|(s' & ->)]; [reflexivity|]. simpl. apply IH; auto. intros. apply Sub. now right. }
  now rewrite A.
Qed.

(** Hypotheses are met: two regions of a mesh with four nodes share node 2; the second prescribes the first component again *)
Definition plate : list (boundary (list bool) nat) :=
  [Boundary _ _ (Some [true; true; false]) [[0]; [2]] (fun n d => 100 + 10 * n + d);
   Boundary _ _ None [[1; 3]; []] (fun _ _ => 0);
   Boundary _ _ (Some [true; false; false]) [[2]; [3]] (fun n d => 200 + 10 * n + d)].
Example plate_met :
  nodes_below 4 plate /\ (forall b data, In b plate -> configured b = Some data -> length data = 3) /\
  (exists b, In b plate /\ configured b <> None) /\
  exists p, structural_pattern 4 2 1 plate = Ok p /\ indices p = [0; 1; 4; 5; 6] /\
    map permutation (dirichlet p) = [[0; 1; 2; 3]; []; [2; 4]] /\
    set_values 2 p plate [0; 0; 0; 0; 0] = Ok [100; 101; 220; 121; 230].
Proof.
  split.
  - intros b ns n Hb Hns Hn. simpl in Hb.
    repeat (destruct Hb as [<-|Hb]); try tauto; simpl in Hns; repeat (destruct Hns as [<-|Hns]); try tauto; simpl in Hn; lia.
  - split.
    + intros b data Hb. simpl in Hb. repeat (destruct Hb as [<-|Hb]); try tauto; simpl; intros E; inversion E; reflexivity.
    + split.
      * eexists. split; [left; reflexivity|discriminate].
      * eexists. split; [reflexivity|]. repeat split.
Qed.

Definition wall : list (boundary unit nat) :=
  [Boundary _ _ (Some tt) [[1]; [3]] (fun n _ => 300 + n); Boundary _ _ (Some tt) [[0; 1]; []] (fun n _ => 400 + n)].
Example wall_met :
  nodes_below 4 wall /\ exists p, heat_pattern 4 1 wall = Ok p /\ indices p = [0; 1; 3] /\ set_values 1 p wall [0; 0; 0] = Ok [400; 401; 303].
Proof.
  split.
  - intros b ns n Hb Hns Hn. simpl in Hb.
    repeat (destruct Hb as [<-|Hb]); try tauto; simpl in Hns; repeat (destruct Hns as [<-|Hns]); try tauto; simpl in Hn; lia.
  - eexists. split; [reflexivity|]. split; reflexivity.
Qed.

Print Assumptions displacements_prescribed.
Print Assumptions temperatures_prescribed.
Print Assumptions nothing_prescribed.
Print Assumptions harmonic_displacements_refuted.
