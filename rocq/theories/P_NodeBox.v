(** * C121: the bounding boxes of regions *)
From Coq Require Import List Arith ZArith Bool Lia.
From Verif Require Import Base M_NodeBox S_NodeBox L_NodeBox.
Import ListNotations.
Local Open Scope out_scope.

(** computeNodeInfo gives the smallest box of every region; the first region gets the box of all regions *)
Theorem region_boxes_exact : forall big m coordinates regions, placed big m coordinates regions ->
  exists los his, compute_boxes big coordinates regions = Ok (los, his) /\ length los = m /\ length his = m /\
    (forall i, 0 < i < m -> is_box big (region_points coordinates regions i) (nth i los no_point) (nth i his no_point)) /\
    (0 < m -> is_box big (flat_map (region_points coordinates regions) (seq 0 m)) (nth 0 los no_point) (nth 0 his no_point)).
Proof. intros big m coordinates regions PL. apply boxes_exact; auto. Qed.

(** hence the box of the first region is exact if it has the points of all other regions (ALL_NODES) *)
Theorem first_region_box : forall big m coordinates regions, placed big m coordinates regions -> 0 < m ->
  (forall i p, i < m -> In p (region_points coordinates regions i) -> In p (region_points coordinates regions 0)) ->
  exists los his, compute_boxes big coordinates regions = Ok (los, his) /\ is_box big (region_points coordinates regions 0) (nth 0 los no_point) (nth 0 his no_point).
Proof.
  intros big m coordinates regions PL Hm S. destruct (region_boxes_exact big m coordinates regions PL) as (los & his & E & _ & _ & _ & B). exists los, his. split; auto. specialize (B Hm). revert B. apply is_box_ext. intros p. rewrite in_flat_map. split.
  - intros (i & Hi & Hp). apply in_seq in Hi. apply (S i); auto. lia.
  - intros Hp. exists 0. split; auto. apply in_seq. lia.
Qed.

(** ... and it is not in general: with contact interfaces only (mesh.cpp:538-540) the first one gets the box of all of them *)
Definition contact_points : list (list point) := [[{| px := 0; py := 0; pz := 0 |}; {| px := 1; py := 0; pz := 0 |}; {| px := 9; py := 5; pz := 0 |}]]%Z.
Theorem first_interface_box_refuted :
  exists los his, placed 100 2 contact_points [[[0; 1]; [2]]] /\ compute_boxes 100 contact_points [[[0; 1]; [2]]] = Ok (los, his) /\ ~ is_box 100 (region_points contact_points [[[0; 1]; [2]]] 0) (nth 0 los no_point) (nth 0 his no_point).
Proof.
  do 2 eexists. split; [|split; [vm_compute; reflexivity|]].
  - split; [discriminate|]. split; [reflexivity|]. split.
    + intros c p axis Hc Hp Ha. destruct Hc as [<-|[]]. cbn in Hp, Ha. destruct Ha as [<-|[<-|[<-|[]]]]; destruct Hp as [<-|[<-|[<-|[]]]]; cbn; lia.
    + intros r Hr. cbn in Hr. assert (r = 0) as -> by lia. split; [reflexivity|]. cbn. intros l n [<-|[<-|[]]] Hn; cbn in Hn; lia.
  - intros B. destruct (B px ltac:(cbn; auto)) as (_ & B2 & _). destruct B2 as [_ (p & Hp & E)]; [discriminate|]. cbn in Hp, E. destruct Hp as [<-|[<-|[]]]; cbn in E; lia.
Qed.

(** two ranks, three regions; the last one has no nodes *)
Definition ex_points : list (list point) :=
  [[{| px := 0; py := 3; pz := -1 |}; {| px := 4; py := 2; pz := 7 |}]; [{| px := 4; py := 2; pz := 7 |}; {| px := -2; py := 8; pz := 0 |}; {| px := 6; py := 1; pz := 1 |}]]%Z.
Definition ex_box_regions : list (list (list nat)) := [[[0; 1]; [1]; []]; [[0; 1; 2]; [0; 1]; []]].
Example region_boxes_example : placed 100 3 ex_points ex_box_regions /\
  compute_boxes 100 ex_points ex_box_regions = Ok ([{| px := -2; py := 1; pz := -1 |}; {| px := -2; py := 2; pz := 0 |}; all_axes 100]%Z, [{| px := 6; py := 8; pz := 7 |}; {| px := 4; py := 8; pz := 7 |}; all_axes (-100)]%Z) /\
  forall i p, i < 3 -> In p (region_points ex_points ex_box_regions i) -> In p (region_points ex_points ex_box_regions 0).
Proof.
  split; [|split; [reflexivity|]].
  - split; [discriminate|]. split; [reflexivity|]. split.
    + intros c p axis Hc Hp Ha. cbn in Ha, Hc. destruct Ha as [<-|[<-|[<-|[]]]]; destruct Hc as [<-|[<-|[]]]; cbn in Hp; intuition subst; cbn; lia.
    + intros r Hr. cbn in Hr. do 2 (destruct r as [|r]; [split; [reflexivity|]; cbn; intros l n Hl Hn; intuition subst; cbn in Hn; lia|]). lia.
  - intros i p Hi Hp. do 3 (destruct i as [|i]; [cbn in Hp; cbn; intuition|]). lia.
Qed.

Print Assumptions region_boxes_exact.
Print Assumptions first_region_box.
Print Assumptions first_interface_box_refuted.
