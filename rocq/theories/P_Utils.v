(** * Properties C07-C11, C61, C62: vector helpers of utils.h / utils.hpp *)
From Coq Require Import ZArith List Bool Arith Lia Permutation Sorted.
From Verif Require Import Base S_Order S_Utils M_Utils L_Merge L_Utils.
Import ListNotations.

(** ** C07 *)
Theorem sizesToOffsets_prefix_sum : forall (W : Z) (sizes : list Z) (offset : Z),
  (0 <= offset < 2 ^ W)%Z ->
  let '(out, total) := sizesToOffsets W sizes offset in
  length out = length sizes /\
  (forall i, i < length sizes -> nth i out 0%Z = wrap W (offset + zsum (firstn i sizes))) /\
  total = wrap W (offset + zsum sizes).
Proof. exact sizesToOffsets_ok. Qed.
Example sizesToOffsets_ex :
  sizesToOffsets 64 [3; 0; 5; 2]%Z 10 = ([10; 13; 13; 18]%Z, 20%Z) /\ (0 <= 10 < 2 ^ 64)%Z.
Proof. split; [vm_compute; reflexivity|lia]. Qed.

(** per-thread counters: [out[t][i]] is the offset plus the counters of the previous threads *)
Theorem sizesToOffsets_threads : forall (W : Z) (sizes : list (list Z)) (offsets : list Z) (w : nat),
  sizes <> [] -> (forall row, In row sizes -> length row = w) -> length offsets = w ->
  (forall i, i < w -> (0 <= nth i offsets 0 < 2 ^ W)%Z) ->
  exists out sum, sizesToOffsets2 W sizes offsets = Ok (out, sum) /\
    length out = length sizes /\ (forall t, t < length sizes -> length (nth t out []) = w) /\
    length sum = w /\
    (forall i t, i < w -> t < length sizes ->
       nth i (nth t out []) 0%Z = wrap W (nth i offsets 0%Z + zsum (firstn t (col sizes i)))) /\
    (forall i, i < w -> nth i sum 0%Z = wrap W (nth i offsets 0%Z + zsum (col sizes i))).
Proof. exact sizesToOffsets2_ok. Qed.
Example sizesToOffsets_threads_ex :
  sizesToOffsets2 64 [[1; 2]; [3; 4]; [5; 6]]%Z [0; 100]%Z =
  Ok ([[0; 100]; [1; 102]; [4; 106]]%Z, [9; 112]%Z).
Proof. vm_compute. reflexivity. Qed.

(** ** C08 *)
Theorem removeDuplicates_runs : forall (A : Type) (eqb : A -> A -> bool) (dflt : A),
  (forall a b, eqb a b = true <-> a = b) ->
  forall data begin, begin <= length data ->
  removeDuplicates eqb dflt data begin = Ok (firstn begin data ++ compress eqb (skipn begin data)).
Proof. intros A eqb dflt H data begin. now apply removeDuplicates_ok. Qed.
Theorem sortAndRemoveDuplicates_set :
  forall (A : Type) (ltb eqb : A -> A -> bool) (dflt : A) (sort : list A -> list A),
  strict_total_order ltb eqb -> sort_contract ltb sort ->
  forall data begin, begin <= length data ->
  exists tail, sortAndRemoveDuplicates eqb sort dflt data begin = Ok (firstn begin data ++ tail) /\
    strictly_sorted ltb tail /\ (forall x, In x tail <-> In x (skipn begin data)).
Proof.
  intros A ltb eqb dflt sort STO SC. apply sortAndRemoveDuplicates_ok; auto. apply (sto_eqb _ _ STO).
Qed.
Theorem mergeThreadedUniqueData_set :
  forall (A : Type) (ltb eqb : A -> A -> bool) (dflt : A) (sort : list A -> list A),
  strict_total_order ltb eqb -> sort_contract ltb sort ->
  forall data, data <> [] ->
  exists out, mergeThreadedUniqueData eqb sort dflt data = Ok out /\
    strictly_sorted ltb out /\ (forall x, In x out <-> In x (concat data)).
Proof.
  intros A ltb eqb dflt sort STO SC. apply mergeThreadedUniqueData_ok; auto. apply (sto_eqb _ _ STO).
Qed.

(** non-vacuity: natural numbers with insertion sort *)
Fixpoint insert (a : nat) (l : list nat) : list nat :=
  match l with [] => [a] | b :: t => if a <=? b then a :: l else b :: insert a t end.
Definition isort (l : list nat) : list nat := fold_right insert [] l.
Lemma nat_sto : strict_total_order Nat.ltb Nat.eqb.
Proof.
  constructor; [constructor| |].
  - intros a b. rewrite Nat.ltb_lt, Nat.ltb_ge. lia.
  - unfold le_of. intros a b c. rewrite !Nat.ltb_ge. lia.
  - unfold le_of. intros a b. rewrite !Nat.ltb_ge. lia.
  - intros a b. apply Nat.eqb_eq.
Qed.
Lemma insert_perm a l : Permutation (a :: l) (insert a l).
Proof.
  induction l as [|b t IH]; simpl; auto. destruct (a <=? b); auto.
  rewrite perm_swap. constructor. exact IH.
Qed.
Lemma insert_sorted a l : sorted Nat.ltb l -> sorted Nat.ltb (insert a l).
Proof.
  intros H. induction H as [|b t Hs IH Hf]; simpl; [repeat constructor|].
  destruct (Nat.leb_spec a b).
  - constructor; [constructor; auto|]. unfold le_of in *. constructor; [apply Nat.ltb_ge; auto|].
    eapply Forall_impl; [|exact Hf]. intros x. rewrite !Nat.ltb_ge. lia.
  - constructor; auto. apply (Permutation_Forall (insert_perm a t)).
    constructor; auto. unfold le_of. apply Nat.ltb_ge. lia.
Qed.
Lemma isort_contract : sort_contract Nat.ltb isort.
Proof.
  intros l. induction l as [|a l [P S]]; simpl; [split; [auto|constructor]|]. split.
  - rewrite <- insert_perm. now constructor.
  - now apply insert_sorted.
Qed.
Example sortAndRemoveDuplicates_ex :
  strict_total_order Nat.ltb Nat.eqb /\ sort_contract Nat.ltb isort /\
  sortAndRemoveDuplicates Nat.eqb isort 0 [9; 9; 4; 1; 4; 1; 1; 7] 2 = Ok [9; 9; 1; 4; 7] /\
  mergeThreadedUniqueData Nat.eqb isort 0 [[3; 1]; []; [1; 2; 3]] = Ok [1; 2; 3].
Proof. repeat split; try apply nat_sto; try apply isort_contract; reflexivity. Qed.

(** ** C09 *)
Theorem inplaceMerge_sorts : forall (A : Type) (ltb : A -> A -> bool),
  strict_weak_order ltb ->
  forall (sched : nat -> nat -> list nat) (data : list A) (dist : list nat),
  (forall i n, parallel_order n (sched i n)) ->
  dist <> [] -> mono_list dist -> last dist 0 <= length data ->
  (forall t, t + 1 < length dist -> sorted ltb (slice (nth t dist 0) (nth (t + 1) dist 0) data)) ->
  exists out, inplaceMerge ltb sched data dist = Ok out /\
    length out = length data /\ Permutation data out /\
    sorted ltb (slice (hd 0 dist) (last dist 0) out) /\
    slice 0 (hd 0 dist) out = slice 0 (hd 0 dist) data /\
    slice (last dist 0) (length data) out = slice (last dist 0) (length data) data.
Proof. exact @inplaceMerge_ok. Qed.
Corollary inplaceMerge_sorts_all : forall (A : Type) (ltb : A -> A -> bool),
  strict_weak_order ltb ->
  forall (sched : nat -> nat -> list nat) (data : list A) (dist : list nat),
  (forall i n, parallel_order n (sched i n)) ->
  dist <> [] -> mono_list dist -> hd 0 dist = 0 -> last dist 0 = length data ->
  (forall t, t + 1 < length dist -> sorted ltb (slice (nth t dist 0) (nth (t + 1) dist 0) data)) ->
  exists out, inplaceMerge ltb sched data dist = Ok out /\ Permutation data out /\ sorted ltb out.
Proof.
  intros A ltb SWO sched data dist Hs Hne Hm H0 Hl Hseg.
  destruct (inplaceMerge_ok ltb SWO sched data dist) as (out & E & L & P & S & _); auto; try lia.
  exists out. repeat split; auto. rewrite H0, Hl, <- L, slice_whole in S. exact S.
Qed.
Theorem sortWithInplaceMerge_sorts :
  forall (A : Type) (ltb : A -> A -> bool) (sort : list A -> list A),
  strict_weak_order ltb -> sort_contract ltb sort ->
  forall (ssched : list nat) (sched : nat -> nat -> list nat) (data : list A) (dist : list nat),
  parallel_order (length dist - 1) ssched -> (forall i n, parallel_order n (sched i n)) ->
  dist <> [] -> mono_list dist -> last dist 0 <= length data ->
  exists out, sortWithInplaceMerge ltb sort ssched sched data dist = Ok out /\
    length out = length data /\ Permutation data out /\
    sorted ltb (slice (hd 0 dist) (last dist 0) out) /\
    slice 0 (hd 0 dist) out = slice 0 (hd 0 dist) data /\
    slice (last dist 0) (length data) out = slice (last dist 0) (length data) data.
Proof. intros A ltb sort SWO SC. apply sortWithInplaceMerge_ok; auto. Qed.
Theorem inplaceMergeThreads_sorts : forall (A : Type) (ltb : A -> A -> bool),
  strict_weak_order ltb ->
  forall (sched : nat -> nat -> list nat) (data : list (list A)),
  (forall i n, parallel_order n (sched i n)) -> data <> [] ->
  (forall d, In d data -> sorted ltb d) ->
  exists out, inplaceMergeThreads ltb sched data = Ok out /\
    Permutation (concat data) out /\ sorted ltb out.
Proof.
  intros A ltb SWO sched data Hs Hne Hd. destruct data as [|d0 rest]; [congruence|].
  destruct (join_threads_ok d0 rest) as (dist & E & Ld & H0 & Hl & Hm & Hsl).
  unfold inplaceMergeThreads. rewrite E. cbn [obind].
  apply inplaceMerge_sorts_all; auto.
  - destruct dist; simpl in Ld; [lia|discriminate].
  - intros t Ht. rewrite Hsl by lia. apply Hd. apply nth_In. lia.
Qed.
Theorem sortWithUniqueMerge_set :
  forall (A : Type) (ltb eqb : A -> A -> bool) (dflt : A) (sort : list A -> list A),
  strict_total_order ltb eqb -> sort_contract ltb sort ->
  forall sched data, (forall i n, parallel_order n (sched i n)) -> data <> [] ->
  exists out, sortWithUniqueMerge ltb eqb sort dflt sched data = Ok out /\
    strictly_sorted ltb out /\ (forall x, In x out <-> In x (concat data)).
Proof.
  intros A ltb eqb dflt sort STO SC. apply sortWithUniqueMerge_ok; auto. apply (sto_eqb _ _ STO).
Qed.
Theorem mergeAppendedData_sorts : forall (A : Type) (ltb : A -> A -> bool),
  strict_weak_order ltb ->
  forall (sched : nat -> nat -> list nat) (data : list A) (d0 : nat) (dist : list nat),
  (forall i n, parallel_order n (sched i n)) ->
  dist <> [] -> mono_list dist -> last dist 0 <= length data ->
  sorted ltb (slice 0 (hd 0 dist) data) ->
  (forall t, t + 1 < length dist -> sorted ltb (slice (nth t dist 0) (nth (t + 1) dist 0) data)) ->
  exists out, mergeAppendedData ltb sched data (d0 :: dist) = Ok out /\
    length out = length data /\ Permutation data out /\
    sorted ltb (slice 0 (last dist 0) out) /\
    slice (last dist 0) (length data) out = slice (last dist 0) (length data) data.
Proof. intros A ltb SWO sched data d0 dist. apply mergeAppendedData_ok; auto. Qed.
(** five segments (not a power of two), one of them empty, iterations executed backwards *)
Example inplaceMerge_ex :
  inplaceMerge Nat.ltb (fun _ n => rev (seq 0 n)) [5; 8; 1; 9; 2; 3; 3; 0] [0; 2; 4; 4; 7; 8] =
    Ok [0; 1; 2; 3; 3; 5; 8; 9] /\
  mergeAppendedData Nat.ltb (fun _ n => seq 0 n) [5; 8; 1; 9; 2; 3; 3; 0] [0; 2; 4; 4; 7; 8] =
    Ok [0; 1; 2; 3; 3; 5; 8; 9] /\
  sortWithInplaceMerge Nat.ltb isort [2; 0; 1; 3] (fun _ n => seq 0 n) [8; 5; 9; 1; 3; 2; 0; 3] [0; 2; 2; 5; 8] =
    Ok [0; 1; 2; 3; 3; 5; 8; 9].
Proof. repeat split; reflexivity. Qed.
(** an empty distribution is not handled: the code calls back() on an empty vector *)
Theorem inplaceMerge_empty_distribution_refuted : forall (A : Type) ltb sched (data : list A),
  inplaceMerge ltb sched data [] = UB.
Proof. reflexivity. Qed.

(** ** C10 *)
Theorem threadDistribution_shifted : forall (W : Z) (dist : list (list Z)) (t : nat),
  t < length dist -> (0 <= W)%Z ->
  length (threadDistributionToFullDistribution W dist) = length dist /\
  nth t (threadDistributionToFullDistribution W dist) [] =
  map (fun v => wrap W (v + zsum (map (fun d => last d 0%Z) (firstn t dist)))) (nth t dist []).
Proof. exact threadDistribution_ok. Qed.
Theorem threadDistribution_vector_shifted :
  forall (W : Z) (sched : list nat) (data : list Z) (dist : list nat),
  (0 <= W)%Z -> dist <> [] -> mono_list dist -> last dist 0 < length data ->
  parallel_order (length dist - 1) sched ->
  exists out, threadDistributionToFullDistribution2 W sched data dist = Ok out /\
    length out = length data /\
    (forall t i, t + 1 < length dist -> nth t dist 0 < i <= nth (t + 1) dist 0 ->
       nth i out 0%Z = wrap W (nth i data 0%Z + zsum (map (part_total data dist) (seq 0 t)))) /\
    (forall i, i <= hd 0 dist \/ last dist 0 < i -> nth i out 0%Z = nth i data 0%Z).
Proof. exact threadDistribution2_ok. Qed.
Example threadDistribution_ex :
  threadDistributionToFullDistribution 64 [[0; 2; 5]; []; [1; 4]; [3]]%Z = [[0; 2; 5]; []; [6; 9]; [12]]%Z /\
  threadDistributionToFullDistribution2 64 [2; 0; 1] [0; 2; 5; 1; 4]%Z [0; 2; 2; 4] = Ok [0; 2; 5; 6; 9]%Z.
Proof. split; vm_compute; reflexivity. Qed.

(** ** C11 *)
Local Open Scope Z_scope.
Theorem round_up_least_multiple : forall W num align : Z,
  0 < num < 2 ^ W -> 0 < align < 2 ^ W -> (exists m, (align | m) /\ num <= m < 2 ^ W) ->
  exists r, round_up W num align = Ok r /\ (align | r) /\ num <= r /\
    (forall m, (align | m) -> num <= m -> r <= m).
Proof. exact round_up_ok. Qed.
Theorem round_up_zero_power_of_two : forall W a : Z, 0 <= a < W -> round_up W 0 (2 ^ a) = Ok 0.
Proof. exact round_up_zero_pow2. Qed.
Theorem round_down_greatest_multiple : forall W num align : Z,
  0 <= num < 2 ^ W -> 0 < align ->
  exists r, round_down W num align = Ok r /\ (align | r) /\ 0 <= r <= num /\
    (forall m, (align | m) -> m <= num -> m <= r).
Proof. exact round_down_ok. Qed.
Theorem divide_round_up_ceiling : forall W num den : Z,
  0 < num < 2 ^ W -> 0 < den ->
  exists q, divide_round_up W num den = Ok q /\ num <= q * den /\
    (forall m, num <= m * den -> q <= m).
Proof. exact divide_round_up_ok. Qed.
Example rounding_ex :
  round_up 64 1001 256 = Ok 1024 /\ round_down 64 1001 256 = Ok 768 /\ divide_round_up 64 1001 256 = Ok 4 /\
  (256 | 1024) /\ 1001 <= 1024 < 2 ^ 64.
Proof. repeat split; try (vm_compute; congruence). exists 4; reflexivity. Qed.
(** Zero is excluded above for a reason: the helpers compute [num - 1] first. *)
Theorem round_up_zero_refuted :
  exists align r, 0 < align < 2 ^ 64 /\ round_up 64 0 align = Ok r /\ ~ (align | r).
Proof.
  exists 3, 2. repeat split; try (vm_compute; congruence).
  intros [k Hk]. lia.
Qed.
Theorem divide_round_up_zero_refuted :
  divide_round_up 64 0 4 = Ok (2 ^ 62) /\ divide_round_up_signed 0 4 = Ok 1.
Proof. split; vm_compute; reflexivity. Qed.

(** ** C62: my_int_pow *)
Theorem my_int_pow_correct : forall base exponent : Z, 0 <= exponent ->
  my_int_pow base exponent = Some (base ^ exponent).
Proof. intros. unfold my_int_pow. apply my_int_pow_rec_ok; auto. Qed.
Example my_int_pow_ex : my_int_pow 2 53 = Some 9007199254740992 /\ my_int_pow (-3) 5 = Some (-243).
Proof. split; vm_compute; reflexivity. Qed.

(** ** C61: utils::permute *)
Local Close Scope Z_scope.
Theorem permute_gathers : forall (A : Type) (d0 d : A) (data : list A) (perm : list nat) (es n : nat),
  0 < es -> length data = es * n -> n <= length perm ->
  (forall i, i < n -> nth i perm 0 < n) ->
  exists out, permute d0 data perm es = Ok out /\ length out = length data /\
    (forall i e, i < n -> e < es -> nth (es * i + e) out d = nth (es * nth i perm 0 + e) data d).
Proof. exact @permute_ok. Qed.
Example permute_ex : permute 0 [10; 11; 20; 21; 30; 31] [2; 0; 1] 2 = Ok [30; 31; 10; 11; 20; 21].
Proof. reflexivity. Qed.

Print Assumptions sizesToOffsets_prefix_sum.
Print Assumptions sizesToOffsets_threads.
Print Assumptions removeDuplicates_runs.
Print Assumptions sortAndRemoveDuplicates_set.
Print Assumptions mergeThreadedUniqueData_set.
Print Assumptions inplaceMerge_sorts.
Print Assumptions inplaceMerge_sorts_all.
Print Assumptions sortWithInplaceMerge_sorts.
Print Assumptions inplaceMergeThreads_sorts.
Print Assumptions sortWithUniqueMerge_set.
Print Assumptions mergeAppendedData_sorts.
Print Assumptions inplaceMerge_empty_distribution_refuted.
Print Assumptions threadDistribution_shifted.
Print Assumptions threadDistribution_vector_shifted.
Print Assumptions round_up_least_multiple.
Print Assumptions round_up_zero_power_of_two.
Print Assumptions round_down_greatest_multiple.
Print Assumptions divide_round_up_ceiling.
Print Assumptions round_up_zero_refuted.
Print Assumptions divide_round_up_zero_refuted.
Print Assumptions my_int_pow_correct.
Print Assumptions permute_gathers.
