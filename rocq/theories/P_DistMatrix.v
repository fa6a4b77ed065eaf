(** * C110, C111: the pattern of the matrix distributed among processes *)
From Coq Require Import List Arith Bool Lia Sorted.
From Verif Require Import Base M_Assembly M_Distributed S_Distributed M_DistMatrix S_DistMatrix S_Order M_Indexing L_Numbering L_Distributed L_DistMatrix2 L_DistMatrix4 L_DistMatrix5 P_DualGraph P_Distributed.
Import ListNotations.
Local Open Scope out_scope.

Definition intervals_in (ms : list mesh_part) (intervals : list (list (nat * nat))) : Prop :=
  length intervals = length ms /\ forall r i, r < length ms -> In i (nth r intervals []) -> fst i <= snd i <= length (mp_elements (nth r ms no_part)).

(** C110 *)
Theorem distributed_pattern_exact : forall sort alloc dofs nb ms intervals, sort_contract Nat.ltb sort -> (forall r n, length (alloc r n) = n) -> distributed_mesh nb ms -> intervals_in ms intervals ->
  exists ps, build_patterns sort alloc dofs nb ms intervals = Ok ps /\ length ps = length ms /\
    forall r, r < length ms -> exists p, nth_error ps r = Some p /\ rows_of_mesh dofs ms (nth r ms no_part) p.
Proof.
  intros sort alloc dofs nb ms intervals SC AL DM [LI IV]. destruct (build_ok nb ms DM sort SC alloc dofs intervals AL LI) as (ps & E & L & H). { intros r Hr i Hi. apply IV; auto. }
  exists ps. split; [exact E|]. split; [exact L|]. intros r Hr. destruct (H r Hr) as (p & Ep & Q & _). exists p; auto.
Qed.
(** C110: all ranks that have a node have the same row *)
Theorem distributed_rows_agree : forall sort alloc dofs nb ms intervals ps, sort_contract Nat.ltb sort -> (forall r n, length (alloc r n) = n) -> distributed_mesh nb ms -> intervals_in ms intervals ->
  build_patterns sort alloc dofs nb ms intervals = Ok ps ->
  forall r s p q n k d, nth_error ps r = Some p -> nth_error ps s = Some q -> n < length (mp_ranks (nth r ms no_part)) -> k < length (mp_ranks (nth s ms no_part)) -> d < dofs ->
    node_of (nth r ms no_part) n = node_of (nth s ms no_part) k ->
    slice (nth (n * dofs + d) (dp_row p) 0) (nth (n * dofs + d + 1) (dp_row p) 0) (dp_column p) = slice (nth (k * dofs + d) (dp_row q) 0) (nth (k * dofs + d + 1) (dp_row q) 0) (dp_column q).
Proof.
  intros sort alloc dofs nb ms intervals ps SC AL DM IV E r s p q n k d Ep Eq Hn Hk Hd En. destruct (distributed_pattern_exact sort alloc dofs nb ms intervals SC AL DM IV) as (ps' & E' & L & H).
  rewrite E in E'; injection E' as <-. assert (Hr : r < length ms) by (rewrite <- L; apply nth_error_Some; congruence). assert (Hs : s < length ms) by (rewrite <- L; apply nth_error_Some; congruence).
  destruct (H r Hr) as (p' & Ep' & _ & _ & _ & Q1). destruct (H s Hs) as (q' & Eq' & _ & _ & _ & Q2). assert (p' = p) by congruence. assert (q' = q) by congruence. subst p' q'.
  destruct (Q1 n d Hn Hd) as (_ & S1 & I1). destruct (Q2 k d Hk Hd) as (_ & S2 & I2). apply ss_ext; auto. intros c. rewrite I1, I2, En. tauto.
Qed.
(** C111 *)
Theorem distributed_permutation_exact : forall sort alloc dofs nb ms intervals, sort_contract Nat.ltb sort -> (forall r n, length (alloc r n) = n) -> distributed_mesh nb ms -> intervals_in ms intervals ->
  exists ps, build_patterns sort alloc dofs nb ms intervals = Ok ps /\
    forall r, r < length ms -> exists p, nth_error ps r = Some p /\ permutation_of_mesh dofs (nth r ms no_part) (nth r intervals []) p.
Proof.
  intros sort alloc dofs nb ms intervals SC AL DM [LI IV]. destruct (build_ok nb ms DM sort SC alloc dofs intervals AL LI) as (ps & E & L & H). { intros r Hr i Hi. apply IV; auto. }
  exists ps. split; [exact E|]. intros r Hr. destruct (H r Hr) as (p & Ep & _ & Q). exists p; auto.
Qed.

(** ** The condition on elements is needed: a node that is twice in an element makes the neighbour read behind the received data *)
Definition bad_ms : list mesh_part :=
  [{| mp_info := {| u_nhalo := 0; u_position := [0; 1]; u_offset := 0; u_size := 2 |}; mp_ranks := [[0]; [0; 1]]; mp_elements := [[1; 1; 0]] |};
   {| mp_info := {| u_nhalo := 1; u_position := [1; 2]; u_offset := 2; u_size := 1 |}; mp_ranks := [[0; 1]; [1]]; mp_elements := [[0; 1]] |}].
Theorem repeated_node_refuted : forall sort, build_patterns sort (fun _ n => repeat 0 n) 1 [[1]; [0]] bad_ms [[]; []] = UB.
Proof. reflexivity. Qed.

(** ** Example: three ranks; the node 1 is on all of them, the node 3 on the ranks 1 and 2 *)
Definition ex_ms : list mesh_part :=
  [{| mp_info := nth 0 ex_us no_info; mp_ranks := [[0]; [0; 1; 2]]; mp_elements := [[0; 1]] |};
   {| mp_info := nth 1 ex_us no_info; mp_ranks := [[0; 1; 2]; [1]; [1; 2]]; mp_elements := [[0; 1]; [1; 2]] |};
   {| mp_info := nth 2 ex_us no_info; mp_ranks := [[0; 1; 2]; [1; 2]; [2]]; mp_elements := [[0; 1; 2]] |}].
Example ex_distributed : distributed_mesh ex_nb ex_ms.
Proof.
  constructor.
  - apply ex_numbered.
  - intros m [<-|[<-|[<-|[]]]]; reflexivity.
  - intros m [<-|[<-|[<-|[]]]]; reflexivity.
  - intros m n [<-|[<-|[<-|[]]]] H; cbn in H; destruct n as [|[|[|n]]]; try lia; cbn; repeat constructor.
  - intros m n s Hm Hn. split.
    + destruct Hm as [<-|[<-|[<-|[]]]]; cbn in Hn; destruct n as [|[|[|n]]]; try lia; cbn; intros H; repeat (destruct H as [<-|H]; [cbn; lia|]); destruct H.
    + intros [Hs H]. cbn in Hs. destruct Hm as [<-|[<-|[<-|[]]]]; cbn in Hn; destruct n as [|[|[|n]]]; try lia; destruct s as [|[|[|s]]]; try lia; cbn in H |- *; lia.
  - intros r n s Hr Hn H Ne. destruct r as [|[|[|r]]]; cbn in Hr, Hn; try lia; destruct n as [|[|[|n]]]; try lia; cbn in H |- *; lia.
  - intros m e [<-|[<-|[<-|[]]]] He; cbn in He; repeat (destruct He as [<-|He]; [split; [repeat constructor; cbn; lia|cbn; lia]|]); destruct He.
Qed.
Definition ex_iv : list (list (nat * nat)) := [[(0, 1)]; [(0, 1); (1, 2)]; [(0, 1)]].
Example ex_intervals : intervals_in ex_ms ex_iv.
Proof. split; auto. intros [|[|[|r]]] i H Hi; cbn in *; try lia; repeat (destruct Hi as [<-|Hi]; [cbn; lia|]); destruct Hi. Qed.
(** the row of the node 1 has the columns of the nodes 0 (an element of rank 0), 2 (rank 1), 3 and 4 (rank 2) on every rank *)
Example distributed_pattern_example : exists ps, build_patterns isort (fun _ n => repeat 7 n) 1 ex_nb ex_ms ex_iv = Ok ps /\
  map dp_row ps = [[0; 2; 7]; [0; 5; 8; 12]; [0; 5; 9; 12]] /\
  map dp_column ps = [[0; 1; 0; 1; 2; 3; 4]; [0; 1; 2; 3; 4; 1; 2; 3; 1; 2; 3; 4]; [0; 1; 2; 3; 4; 1; 2; 3; 4; 1; 3; 4]] /\
  map dp_permutation ps = [[0; 1; 2; 3]; [1; 2; 5; 6; 6; 7; 9; 10]; [1; 3; 4; 5; 7; 8; 9; 10; 11]] /\ map dp_offset ps = [[0]; [0; 4]; [0]].
Proof. eexists. split; [vm_compute; reflexivity|]. repeat split. Qed.
Example distributed_pattern_applies : exists ps, build_patterns isort (fun _ n => repeat 7 n) 2 ex_nb ex_ms ex_iv = Ok ps /\ length ps = 3.
Proof. destruct (distributed_pattern_exact isort (fun _ n => repeat 7 n) 2 ex_nb ex_ms ex_iv isort_contract (fun _ n => repeat_length 7 n) ex_distributed ex_intervals) as (ps & E & L & _). exists ps; auto. Qed.

Print Assumptions distributed_pattern_exact.
Print Assumptions distributed_rows_agree.
Print Assumptions distributed_permutation_exact.
Print Assumptions repeated_node_refuted.
