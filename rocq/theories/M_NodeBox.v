(** * Model of the bounding boxes of regions

    mesh/preprocessing/clustered.cpp:511-604: computeNodeInfo, the part with coordinates; basis/containers/point.h:166-174: minmax

    Simplifications: coordinates are integers (doubles are only compared; no NaN); [big] is std::numeric_limits<double>::max(); the arrays of 3 * regions doubles are arrays of points;
    allReduce gives every rank the smallest and the largest value of all ranks. *)
From Coq Require Import List Arith ZArith Bool.
From Verif Require Import Base M_Distributed.
Import ListNotations.
Local Open Scope out_scope.

Record point := { px : Z; py : Z; pz : Z }.
Definition pmin (p q : point) : point := {| px := Z.min (px p) (px q); py := Z.min (py p) (py q); pz := Z.min (pz p) (pz q) |}.
Definition pmax (p q : point) : point := {| px := Z.max (px p) (px q); py := Z.max (py p) (py q); pz := Z.max (pz p) (pz q) |}.
Definition all_axes (v : Z) : point := {| px := v; py := v; pz := v |}.
(** point.h:166-174; [r]: the index of the point in both arrays *)
Definition minmax (p : point) (r : nat) (st : list point * list point) : outcome (list point * list point) :=
  lo <- rd (fst st) r ;; hi <- rd (snd st) r ;; los <- wr (fst st) r (pmin p lo) ;; his <- wr (snd st) r (pmax p hi) ;; Ok (los, his).
(** clustered.cpp:554-556 *)
Definition box_node (coordinates : list point) (r : nat) (st : list point * list point) (n : nat) : outcome (list point * list point) :=
  p <- rd coordinates n ;; st <- minmax p 0 st ;; minmax p r st.
(** clustered.cpp:545-575 *)
Definition box_regions (big : Z) (coordinates : list point) (regions : list (list nat)) : outcome (list point * list point) :=
  foldM (fun st x => foldM (box_node coordinates (fst x)) (snd x) st) (combine (seq 0 (length regions)) regions) (repeat (all_axes big) (length regions), repeat (all_axes (- big)) (length regions)).
(** clustered.cpp:584-585 *)
Definition reduce (op : point -> point -> point) (rows : list (list point)) : list point :=
  match rows with [] => [] | row :: rows => fold_left (fun a b => map (fun x : point * point => op (fst x) (snd x)) (combine a b)) rows row end.
(** clustered.cpp:543-591: nodeInfo.min and nodeInfo.max of all regions; [coordinates], [regions]: of all ranks *)
Definition compute_boxes (big : Z) (coordinates : list (list point)) (regions : list (list (list nat))) : outcome (list point * list point) :=
  boxes <- mapM (fun x : list point * list (list nat) => box_regions big (fst x) (snd x)) (combine coordinates regions) ;;
  Ok (reduce pmin (map fst boxes), reduce pmax (map snd boxes)).
