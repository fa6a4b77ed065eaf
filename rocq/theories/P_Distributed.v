(** * C104, C105: synchronization of vectors distributed among processes *)
From Coq Require Import List Arith Bool Lia Sorted ZArith.
From Verif Require Import Base M_Distributed S_Distributed L_Distributed L_Distributed2.
Import ListNotations.
Local Open Scope out_scope.

(** C104: after synchronize every copy of a DOF holds the sum of the values that all ranks had stored for it, added in the order of ranks;
    whatever was synchronized before *)
Theorem synchronize_exact : forall T (zero : T) add dofs nb us, 0 < dofs -> numbered nb us ->
  exists ds ys0, decompose dofs nb us = Ok ds /\ init zero ds = Ok ys0 /\
  forall calls, Forall (fun c => is_vector dofs us (snd c)) calls -> exists ys, run_calls add calls ys0 = Ok ys /\
  forall vs : list (list T), is_vector dofs us vs -> exists ys' vs', synchronize add (ys, vs) = Ok (ys', vs') /\ is_vector dofs us vs' /\
    forall r g x, has_value dofs us vs' r g x -> x = total zero add (values dofs us vs g).
Proof.
  intros T zero add dofs nb us Hd N. destruct (setup_ok dofs nb us Hd N zero) as (ds & ys0 & E1 & E2 & R). exists ds, ys0. split; auto. split; auto.
  intros calls F. destruct (run_calls_ok dofs nb us Hd N zero add calls ys0 R F) as (ys & E & R'). exists ys. split; auto.
  intros vs V. destruct (synchronize_call dofs nb us Hd N zero add ys vs R' V) as (ys' & vs' & ES & _ & V' & H). exists ys', vs'. auto.
Qed.

(** C105: the gather stores the sums to the owners and keeps the other copies; the scatter overwrites all copies with the values of owners *)
Theorem gather_scatter_exact : forall T (zero : T) add dofs nb us, 0 < dofs -> numbered nb us ->
  exists ds ys0, decompose dofs nb us = Ok ds /\ init zero ds = Ok ys0 /\
  forall calls, Forall (fun c => is_vector dofs us (snd c)) calls -> exists ys, run_calls add calls ys0 = Ok ys /\
  forall vs : list (list T), is_vector dofs us vs ->
    (exists ys' vs', gather_from_upper add (ys, vs) = Ok (ys', vs') /\ is_vector dofs us vs' /\
      forall r g x, has_value dofs us vs' r g x -> (owner dofs us r g -> x = total zero add (values dofs us vs g)) /\ (~ owner dofs us r g -> has_value dofs us vs r g x)) /\
    (exists ys' vs', scatter_to_upper (ys, vs) = Ok (ys', vs') /\ is_vector dofs us vs' /\
      forall r g x, has_value dofs us vs' r g x -> exists o, owner dofs us o g /\ has_value dofs us vs o g x).
Proof.
  intros T zero add dofs nb us Hd N. destruct (setup_ok dofs nb us Hd N zero) as (ds & ys0 & E1 & E2 & R). exists ds, ys0. split; auto. split; auto.
  intros calls F. destruct (run_calls_ok dofs nb us Hd N zero add calls ys0 R F) as (ys & E & R'). exists ys. split; auto. intros vs V. split.
  - destruct (gather_call dofs nb us Hd N zero add ys vs R' V) as (ys' & vs' & ES & _ & V' & G1 & G2). exists ys', vs'. split; auto. split; auto. intros r g x H.
    destruct (has_value_cases dofs nb us Hd N zero vs' r g x V' H) as (Hr & [(p & o & Hp & -> & -> & Lo & G)|(G & ->)]).
    + split.
      * intros O. apply n_own in O; auto. pose proof (n_ordered dofs nb us Hd N o r Lo Hr). lia.
      * intros _. rewrite G2 by auto. apply (has_value_halo dofs us); auto.
    + split; [intros _; apply G1; auto|]. intros O. exfalso. apply O. apply n_own; auto.
  - destruct (scatter_call dofs nb us Hd N zero add ys vs R' V) as (ys' & vs' & ES & _ & V' & S1 & S2). exists ys', vs'. split; auto. split; auto. intros r g x H.
    destruct (has_value_cases dofs nb us Hd N zero vs' r g x V' H) as (Hr & [(p & o & Hp & -> & -> & Lo & G)|(G & ->)]).
    + exists o. split; [apply n_own; auto; lia|]. rewrite (S2 r p o) by (auto; lia). apply (has_value_own dofs us); auto. lia.
    + exists r. split; [apply n_own; auto|]. rewrite S1 by auto. apply (has_value_own dofs us); auto.
Qed.

(** with more right-hand sides only the first one is synchronized *)
Definition two_us : list uniq_info := [{| u_nhalo := 0; u_position := [0; 1]; u_offset := 0; u_size := 2 |}; {| u_nhalo := 1; u_position := [1; 2]; u_offset := 2; u_size := 1 |}].
Example two_numbered : numbered [[1]; [0]] two_us.
Proof.
  constructor.
  - reflexivity.
  - intros [|[|r]] H; cbn in *; auto; lia.
  - intros [|[|r]] H; cbn in *; try lia; split; try lia; repeat constructor.
  - intros [|[|r]] p H Hp; cbn in *; try lia; try tauto. destruct Hp as [<-|[]]. exists 0. unfold owns; cbn. repeat split; auto; lia.
  - intros [|[|r]] H; cbn in *; try lia; repeat constructor.
  - intros [|[|r]] j H Hj; cbn in *; try lia; destruct Hj as [<-|[]]; cbn; repeat split; auto; lia.
Qed.
Theorem multiple_rhs_refuted : ~ (forall dofs nb us ds ys Vs, 0 < dofs -> numbered nb us -> decompose dofs nb us = Ok ds -> init 0%Z ds = Ok ys -> Forall (is_vector dofs us) Vs ->
  exists ys' Vs', synchronize_matrix Z.add (ys, by_rank (length us) Vs) = Ok (ys', by_rank (length us) Vs') /\ length Vs' = length Vs /\ Forall (is_vector dofs us) Vs' /\
    forall i r g x, has_value dofs us (nth i Vs' []) r g x -> x = total 0%Z Z.add (values dofs us (nth i Vs []) g)).
Proof.
  intros H. pose (Vs := [[[1; 2]; [3; 4]]; [[5; 6]; [7; 8]]]%Z).
  destruct (decompose 1 [[1]; [0]] two_us) as [ds| |] eqn:E1; try discriminate. destruct (init 0%Z ds) as [ys| |] eqn:E2; vm_compute in E1; inversion E1; subst ds; try discriminate.
  vm_compute in E2. inversion E2; subst ys. clear E1 E2.
  destruct (H 1 [[1]; [0]] two_us _ _ Vs Nat.lt_0_1 two_numbered eq_refl eq_refl) as (ys' & Vs' & E & L & F & Q).
  { repeat constructor; intros [|[|r]] Hr; cbn in *; auto; lia. }
  destruct Vs' as [|A [|B [|C Vs']]]; try discriminate. inversion F as [|? ? FA F']; subst. inversion F' as [|? ? FB _]; subst. clear F F' L.
  destruct FA as [LA FA]. destruct FB as [LB FB]. destruct A as [|a [|a' [|a'' A]]]; try discriminate. destruct B as [|b [|b' [|b'' B]]]; try discriminate.
  pose proof (FA 1 ltac:(cbn; lia)) as A1. pose proof (FB 1 ltac:(cbn; lia)) as B1. cbn in A1, B1.
  destruct a' as [|a1 [|a2 [|? ?]]]; try discriminate. destruct b' as [|b1 [|b2 [|? ?]]]; try discriminate.
  vm_compute in E. inversion E; subst. assert (X : 7%Z = total 0%Z Z.add (values 1 two_us (nth 1 Vs []) 1)). { apply (Q 1 1 1). split; [cbn; lia|]. exists 0. split; reflexivity. }
  vm_compute in X. discriminate.
Qed.

(** ** Example: three ranks; the node 1 of rank 0 is also on the ranks 1 and 2, the node 3 of rank 1 on rank 2; two DOFs per node *)
Definition ex_us : list uniq_info :=
  [{| u_nhalo := 0; u_position := [0; 1]; u_offset := 0; u_size := 2 |};
   {| u_nhalo := 1; u_position := [1; 2; 3]; u_offset := 2; u_size := 2 |};
   {| u_nhalo := 2; u_position := [1; 3; 4]; u_offset := 4; u_size := 1 |}].
Definition ex_nb : list (list nat) := [[1; 2]; [0; 2]; [0; 1]].
Example ex_numbered : numbered ex_nb ex_us.
Proof.
  constructor.
  - reflexivity.
  - intros [|[|[|r]]] H; cbn in *; auto; lia.
  - intros [|[|[|r]]] H; cbn in *; try lia; split; try lia; repeat constructor.
  - intros [|[|[|r]]] p H Hp; cbn in *; try lia; try tauto.
    + destruct Hp as [<-|[]]. exists 0. unfold owns; cbn. repeat split; auto; lia.
    + destruct Hp as [<-|[<-|[]]]; [exists 0|exists 1]; unfold owns; cbn; repeat split; auto; lia.
  - intros [|[|[|r]]] H; cbn in *; try lia; repeat constructor.
  - intros [|[|[|r]]] j H Hj; cbn in *; try lia; destruct Hj as [<-|[<-|[]]]; cbn; repeat split; auto; lia.
Qed.
Definition ex_vs : list (list Z) := [[1; 2; 3; 4]; [10; 20; 30; 40; 50; 60]; [100; 200; 300; 400; 500; 600]]%Z.
Example ex_vector : is_vector 2 ex_us ex_vs.
Proof. split; auto. intros [|[|[|r]]] H; cbn in *; auto; lia. Qed.
Example synchronize_example :
  (ds <- decompose 2 ex_nb ex_us ;; ys <- init 0%Z ds ;; '(_, vs) <- synchronize Z.add (ys, ex_vs) ;; Ok vs)
  = Ok [[1; 2; 113; 224]; [113; 224; 30; 40; 350; 460]; [113; 224; 350; 460; 500; 600]]%Z /\
  values 2 ex_us ex_vs 2 = [3; 10; 100]%Z.
Proof. split; reflexivity. Qed.

Print Assumptions synchronize_exact.
Print Assumptions gather_scatter_exact.
Print Assumptions multiple_rhs_refuted.
