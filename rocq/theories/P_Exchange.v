(** * Properties of the exchanges between neighbours: C29 *)
From Coq Require Import List Arith Lia Bool Permutation.
From Verif Require Import Base L_Utils M_Nb S_Nb L_Nb M_Exchange L_Exchange.
Import ListNotations.
Local Open Scope out_scope.

Section Neighbours.
  Context {T : Type}.
  Local Notation buf := (list T).
  Variables (n limit : nat) (nb : nat -> list nat).
  Hypothesis HN : neighbourhood n nb.

  Lemma cells_combine (d : nat -> nat -> buf) rb sel i : length rb = length (nb i) ->
    cells nb d (fun _ => rb) sel i = map (fun x => if sel (fst x) i then d (fst x) i else snd x) (combine (nb i) rb).
  Proof.
    unfold cells. generalize (nb i) as l. intros l. revert rb. induction l as [|j l IH]; intros [|b rb] L; cbn in L; try discriminate; auto.
    cbn [length seq map combine fst snd nth]. f_equal. rewrite <- seq_shift, map_map. cbn [nth]. apply IH. lia.
  Qed.

  Lemma run_unknown (d : nat -> nat -> buf) rb sel cnt (ps : nat -> nprog buf (option (list buf))) : (forall i, i < n -> length (rb i) = length (nb i)) ->
    (forall i, i < n -> cnt i = length (filter (fun j => sel j i) (nb i))) ->
    (forall i, i < n -> ps i = call (sends nb d sel i) (cnt i) None (store_unknown (nb i)) (rb i) Some) ->
    ncompletes n (map ps (seq 0 n)) (map (fun i => Some (map (fun x => if sel (fst x) i then d (fst x) i else snd x) (combine (nb i) (rb i)))) (seq 0 n)).
  Proof.
    intros Lrb Cnt E.
    rewrite (map_ext_in _ (fun i => call (sends nb d sel i) (cnt i) None (store_unknown (nb i)) (rb i) Some)) by (intros i Hi; apply in_seq in Hi; apply E; lia).
    rewrite (map_ext_in (fun i => Some (map _ _)) (fun i => Some (cells nb d rb sel i)))
      by (intros i Hi; apply in_seq in Hi; f_equal; symmetry; apply (cells_combine d (rb i)); apply Lrb; lia).
    apply (cells_complete n nb d rb HN sel false Lrb) with (src := fun _ => None); auto; try discriminate.
    intros i a k m Hi Hk La _. apply (sto_unknown n nb HN); auto.
  Qed.

  Lemma run_known (d : nat -> nat -> buf) rb sel cnt src (ps : nat -> nprog buf (option (list buf))) : (forall i, i < n -> length (rb i) = length (nb i)) ->
    (forall i j b, i < n -> In (j, b) (combine (nb i) (rb i)) -> sel j i = true -> length b = length (d j i)) ->
    (forall i, i < n -> src i = filter (fun j => sel j i) (nb i)) ->
    (forall i, i < n -> cnt i = length (filter (fun j => sel j i) (nb i))) ->
    (forall i, i < n -> ps i = call (sends nb d sel i) (cnt i) (Some (src i)) (store_known (nb i)) (rb i) Some) ->
    ncompletes n (map ps (seq 0 n)) (map (fun i => Some (map (fun x => if sel (fst x) i then d (fst x) i else snd x) (combine (nb i) (rb i)))) (seq 0 n)).
  Proof.
    intros Lrb Fits Src Cnt E.
    rewrite (map_ext_in _ (fun i => call (sends nb d sel i) (cnt i) (Some (src i)) (store_known (nb i)) (rb i) Some)) by (intros i Hi; apply in_seq in Hi; apply E; lia).
    rewrite (map_ext_in (fun i => Some (map _ _)) (fun i => Some (cells nb d rb sel i)))
      by (intros i Hi; apply in_seq in Hi; f_equal; symmetry; apply (cells_combine d (rb i)); apply Lrb; lia).
    apply (cells_complete n nb d rb HN sel true Lrb) with (src := fun i => Some (src i)); auto.
    - intros _ i k Hi Hk S. apply (Fits i (nth k (nb i) 0)); auto.
      rewrite <- (combine_nth (nb i) (rb i) k 0 []) by (symmetry; auto). apply nth_In. rewrite combine_length, Lrb by auto. lia.
    - intros i a k m Hi Hk La F. apply (sto_known n nb HN); auto.
    - intros i l Hi [= <-] j Hj S. rewrite Src by auto. apply filter_In. auto.
  Qed.

  Lemma filter_all {B} (l : list B) : filter (fun _ => true) l = l.
  Proof. induction l; cbn; congruence. Qed.
  Lemma combine_fst_map {B C} (f : nat -> C) (l : list nat) (l' : list B) : length l' = length l -> map (fun x => f (fst x)) (combine l l') = map f l.
  Proof. revert l'; induction l as [|x l IH]; intros [|y l'] L; cbn in L; try discriminate; cbn; auto. f_equal. apply IH. lia. Qed.

  (** C29: the buffer of every neighbour gets what the neighbour has sent to the rank *)
  Theorem exchange_unknown_delivers (d : nat -> nat -> buf) (rb : nat -> list buf) :
    (forall i j, i < n -> In j (nb i) -> length (d i j) <= limit) -> (forall i, i < n -> length (rb i) = length (nb i)) ->
    ncompletes n (map (fun i => exchange_unknown limit (map (d i) (nb i)) (rb i) (nb i)) (seq 0 n))
                 (map (fun i => Some (map (fun j => d j i) (nb i))) (seq 0 n)).
  Proof.
    intros HL Lrb.
    rewrite (map_ext_in (fun i => Some _) (fun i => Some (map (fun x => if true then d (fst x) i else snd x) (combine (nb i) (rb i)))))
      by (intros i Hi; apply in_seq in Hi; f_equal; symmetry; apply (combine_fst_map (fun j => d j i)); apply Lrb; lia).
    apply (run_unknown d rb (fun _ _ => true) (fun i => length (nb i))); auto.
    - intros. now rewrite filter_all.
    - intros i Hi. unfold exchange_unknown. rewrite map_length, Lrb, Nat.eqb_refl by auto. cbn [negb orb]. rewrite too_long_no.
      + rewrite combine_map. unfold sends. now rewrite filter_all.
      + intros b Hb. apply in_map_iff in Hb. destruct Hb as (j & <- & Hj). auto.
  Qed.

  Theorem exchange_unknown_same_delivers (s : nat -> buf) (rb : nat -> list buf) :
    (forall i, i < n -> length (s i) <= limit) -> (forall i, i < n -> length (rb i) = length (nb i)) ->
    ncompletes n (map (fun i => exchange_unknown_same limit (s i) (rb i) (nb i)) (seq 0 n))
                 (map (fun i => Some (map (fun j => s j) (nb i))) (seq 0 n)).
  Proof.
    intros HL Lrb.
    rewrite (map_ext_in (fun i => Some _) (fun i => Some (map (fun x => if true then s (fst x) else snd x) (combine (nb i) (rb i)))))
      by (intros i Hi; apply in_seq in Hi; f_equal; symmetry; apply (combine_fst_map s); apply Lrb; lia).
    apply (run_unknown (fun i _ => s i) rb (fun _ _ => true) (fun i => length (nb i))); auto.
    - intros. now rewrite filter_all.
    - intros i Hi. unfold exchange_unknown_same. rewrite Lrb, Nat.eqb_refl by auto. cbn [negb orb].
      specialize (HL i Hi). destruct (Nat.ltb_spec limit (length (s i))); [lia|]. unfold sends. now rewrite filter_all.
  Qed.

  (** with buffers of the right sizes *)
  Theorem exchange_known_delivers (d : nat -> nat -> buf) (rb : nat -> list buf) :
    (forall i j, i < n -> In j (nb i) -> length (d i j) <= limit) ->
    (forall i, i < n -> map (@length T) (rb i) = map (fun j => length (d j i)) (nb i)) ->
    ncompletes n (map (fun i => exchange_known limit (map (d i) (nb i)) (rb i) (nb i)) (seq 0 n))
                 (map (fun i => Some (map (fun j => d j i) (nb i))) (seq 0 n)).
  Proof.
    intros HL HR.
    assert (Lrb : forall i, i < n -> length (rb i) = length (nb i)).
    { intros i Hi. rewrite <- (map_length (@length T) (rb i)), HR by auto. apply map_length. }
    assert (Fit : forall i j b, i < n -> In (j, b) (combine (nb i) (rb i)) -> length b = length (d j i)).
    { intros i j b Hi. specialize (HR i Hi). revert HR. generalize (rb i) (nb i). intros l l'. revert l. induction l' as [|x l' IH]; intros [|y l] H; cbn in H; try discriminate; cbn; [tauto|].
      injection H as H1 H2. intros [H|H]; [injection H as -> ->; auto|]. eapply IH; eauto. }
    rewrite (map_ext_in (fun i => Some _) (fun i => Some (map (fun x => if true then d (fst x) i else snd x) (combine (nb i) (rb i)))))
      by (intros i Hi; apply in_seq in Hi; f_equal; symmetry; apply (combine_fst_map (fun j => d j i)); apply Lrb; lia).
    apply (run_known d rb (fun _ _ => true) (fun i => length (nb i)) nb); auto.
    - intros. now rewrite filter_all.
    - intros. now rewrite filter_all.
    - intros i Hi. unfold exchange_known. rewrite map_length, Lrb, Nat.eqb_refl by auto. cbn [negb orb]. rewrite !too_long_no.
      + cbn [orb]. rewrite combine_map. unfold sends. now rewrite filter_all.
      + intros b Hb. assert (In (length b) (map (@length T) (rb i))) as Hb' by (apply in_map; auto). rewrite HR in Hb' by auto.
        apply in_map_iff in Hb'. destruct Hb' as (j & <- & Hj). apply HL; [apply (nb_ranks _ _ HN i j Hi Hj)|apply (nb_sym _ _ HN i j Hi Hj)].
      + intros b Hb. apply in_map_iff in Hb. destruct Hb as (j & <- & Hj). auto.
  Qed.

  Theorem exchange_known_same_delivers (s : nat -> buf) (rb : nat -> list buf) :
    (forall i, i < n -> length (s i) <= limit) ->
    (forall i, i < n -> map (@length T) (rb i) = map (fun j => length (s j)) (nb i)) ->
    ncompletes n (map (fun i => exchange_known_same limit (s i) (rb i) (nb i)) (seq 0 n))
                 (map (fun i => Some (map (fun j => s j) (nb i))) (seq 0 n)).
  Proof.
    intros HL HR. pose proof (exchange_known_delivers (fun i _ => s i) rb (fun i _ Hi _ => HL i Hi) HR) as C. cbn beta in C.
    rewrite (map_ext_in (fun i => exchange_known_same limit (s i) (rb i) (nb i)) (fun i => exchange_known limit (map (fun _ => s i) (nb i)) (rb i) (nb i))); auto.
    intros i Hi. apply in_seq in Hi. specialize (HL i ltac:(lia)). unfold exchange_known, exchange_known_same. rewrite map_length, Nat.eqb_refl. cbn [negb orb].
    rewrite combine_map. destruct (Nat.ltb_spec limit (length (s i))); [lia|]. rewrite (too_long_no limit (map _ _)); auto.
    intros b Hb. apply in_map_iff in Hb. destruct Hb as (_ & <- & _). auto.
  Qed.

  (** only from lower (upper) neighbours; buffers of the others are not changed *)
  Lemma lower_bound_le (l : list nat) x : lower_bound l x <= length l.
  Proof. induction l as [|y l IH]; cbn [lower_bound length]; [lia|]. destruct (y <? x); lia. Qed.
  Lemma leading_filter rank (f : nat -> buf) l : incr l -> leading rank (map (fun j => (j, f j)) l) = map (fun j => (j, f j)) (filter (fun j => j <? rank) l).
  Proof.
    induction l as [|x l IH]; intros H; auto. destruct (incr_tail _ _ H) as (H1 & H2). cbn [map leading filter fst].
    destruct (Nat.ltb_spec x rank) as [L|L]; [cbn [map]; f_equal; auto|].
    assert (forall z, In z l -> (z <? rank) = false) as N. { intros z Hz. specialize (H2 z Hz). apply Nat.ltb_ge. lia. }
    clear -N. induction l as [|z l IH]; auto. cbn [filter]. rewrite (N z) by (left; auto). apply IH. intros; apply N; right; auto.
  Qed.
  Lemma count_split rank l : ~ In rank l -> length (filter (fun j => j <? rank) l) + length (filter (fun j => rank <? j) l) = length l.
  Proof.
    induction l as [|x l IH]; intros N; auto. cbn [filter]. assert (x <> rank) by (intros ->; apply N; left; auto).
    assert (~ In rank l) as N' by (intros H'; apply N; right; auto). specialize (IH N').
    destruct (Nat.ltb_spec x rank), (Nat.ltb_spec rank x); cbn [length]; lia.
  Qed.

  Theorem receive_lower_unknown_delivers (d : nat -> nat -> buf) (rb : nat -> list buf) :
    (forall i j, i < n -> In j (nb i) -> length (d i j) <= limit) -> (forall i, i < n -> length (rb i) = length (nb i)) ->
    ncompletes n (map (fun i => receive_lower_unknown limit i (map (d i) (nb i)) (rb i) (nb i)) (seq 0 n))
                 (map (fun i => Some (map (fun x => if fst x <? i then d (fst x) i else snd x) (combine (nb i) (rb i)))) (seq 0 n)).
  Proof.
    intros HL Lrb. apply (run_unknown d rb (fun j i => j <? i) (fun i => length (filter (fun j => j <? i) (nb i)))); auto.
    intros i Hi. unfold receive_lower_unknown. rewrite map_length, Lrb, Nat.eqb_refl by auto. cbn [negb orb]. rewrite too_long_no.
    - pose proof (lower_bound_le (nb i) i). replace (length (nb i) - (length (nb i) - lower_bound (nb i) i)) with (lower_bound (nb i) i) by lia.
      rewrite (lower_bound_filter (nb i) i (nb_incr n nb HN i Hi)), combine_map, (filter_pairs (fun j => i <? j)). auto.
    - intros b Hb. apply in_map_iff in Hb. destruct Hb as (j & <- & Hj). auto.
  Qed.

  Theorem receive_upper_unknown_delivers (d : nat -> nat -> buf) (rb : nat -> list buf) :
    (forall i, i < n -> ~ In i (nb i)) ->
    (forall i j, i < n -> In j (nb i) -> length (d i j) <= limit) -> (forall i, i < n -> length (rb i) = length (nb i)) ->
    ncompletes n (map (fun i => receive_upper_unknown limit i (map (d i) (nb i)) (rb i) (nb i)) (seq 0 n))
                 (map (fun i => Some (map (fun x => if i <? fst x then d (fst x) i else snd x) (combine (nb i) (rb i)))) (seq 0 n)).
  Proof.
    intros NS HL Lrb. apply (run_unknown d rb (fun j i => i <? j) (fun i => length (filter (fun j => i <? j) (nb i)))); auto.
    intros i Hi. unfold receive_upper_unknown. rewrite map_length, Lrb, Nat.eqb_refl by auto. cbn [negb orb].
    pose proof (nb_incr n nb HN i Hi) as Inc. rewrite combine_map, (leading_filter i (d i) (nb i) Inc). rewrite too_long_no.
    - rewrite (lower_bound_filter (nb i) i Inc). pose proof (count_split i (nb i) (NS i Hi)).
      replace (length (nb i) - length (filter (fun y => y <? i) (nb i))) with (length (filter (fun j => i <? j) (nb i))) by lia. auto.
    - intros b Hb. rewrite map_map in Hb. cbn [snd] in Hb. apply in_map_iff in Hb. destruct Hb as (j & <- & Hj). apply filter_In in Hj. apply HL; tauto.
  Qed.

  Lemma existsb_self i l : ~ In i l -> existsb (Nat.eqb i) l = false.
  Proof. intros N. destruct (existsb _ l) eqn:E; auto. apply existsb_exists in E. destruct E as (x & Hx & E). apply Nat.eqb_eq in E. subst. tauto. Qed.

  Theorem receive_lower_known_delivers (d : nat -> nat -> buf) (rb : nat -> list buf) :
    (forall i, i < n -> ~ In i (nb i)) ->
    (forall i j, i < n -> In j (nb i) -> i < j -> length (d i j) <= limit) -> (forall i, i < n -> length (rb i) = length (nb i)) ->
    (forall i j b, i < n -> In (j, b) (combine (nb i) (rb i)) -> j < i -> length b = length (d j i)) ->
    ncompletes n (map (fun i => receive_lower_known limit i (map (d i) (nb i)) (rb i) (nb i)) (seq 0 n))
                 (map (fun i => Some (map (fun x => if fst x <? i then d (fst x) i else snd x) (combine (nb i) (rb i)))) (seq 0 n)).
  Proof.
    intros NS HL Lrb Fit.
    apply (run_known d rb (fun j i => j <? i) (fun i => length (filter (fun j => j <? i) (nb i))) (fun i => filter (fun j => j <? i) (nb i))); auto.
    - intros i j b Hi Hj S. apply Nat.ltb_lt in S. eapply Fit; eauto.
    - intros i Hi. unfold receive_lower_known. rewrite map_length, Lrb, Nat.eqb_refl, existsb_self by auto. cbn [negb orb]. rewrite !too_long_no.
      + cbn [orb]. rewrite combine_map, (filter_pairs (fun j => i <? j)). auto.
      + intros b Hb. apply in_map_iff in Hb. destruct Hb as ((j, b') & <- & Hj). cbn [snd]. apply filter_In in Hj. cbn [fst] in Hj. destruct Hj as (Hj & S).
        apply negb_true_iff, Nat.ltb_ge in S. pose proof (in_combine_l _ _ _ _ Hj) as Hj'. assert (j <> i) by (intros ->; apply (NS i Hi); auto).
        rewrite (Fit i j b' Hi Hj) by lia. apply HL; [lia| |lia]. apply (nb_sym _ _ HN i j Hi Hj').
      + intros b Hb. rewrite combine_map, (filter_pairs (fun j => i <? j)), map_map in Hb. cbn [snd] in Hb. apply in_map_iff in Hb. destruct Hb as (j & <- & Hj).
        apply filter_In in Hj. destruct Hj as (Hj & S). apply Nat.ltb_lt in S. auto.
  Qed.

  Theorem receive_upper_known_delivers (d : nat -> nat -> buf) (rb : nat -> list buf) :
    (forall i, i < n -> ~ In i (nb i)) ->
    (forall i j, i < n -> In j (nb i) -> j < i -> length (d i j) <= limit) -> (forall i, i < n -> length (rb i) = length (nb i)) ->
    (forall i j b, i < n -> In (j, b) (combine (nb i) (rb i)) -> i < j -> length b = length (d j i)) ->
    ncompletes n (map (fun i => receive_upper_known limit i (map (d i) (nb i)) (rb i) (nb i)) (seq 0 n))
                 (map (fun i => Some (map (fun x => if i <? fst x then d (fst x) i else snd x) (combine (nb i) (rb i)))) (seq 0 n)).
  Proof.
    intros NS HL Lrb Fit.
    apply (run_known d rb (fun j i => i <? j) (fun i => length (filter (fun j => i <? j) (nb i))) (fun i => filter (fun j => i <? j) (nb i))); auto.
    - intros i j b Hi Hj S. apply Nat.ltb_lt in S. eapply Fit; eauto.
    - intros i Hi. unfold receive_upper_known. rewrite map_length, Lrb, Nat.eqb_refl, existsb_self by auto. cbn [negb orb]. rewrite !too_long_no.
      + cbn [orb]. rewrite combine_map, (filter_pairs (fun j => j <? i)). auto.
      + intros b Hb. apply in_map_iff in Hb. destruct Hb as ((j, b') & <- & Hj). cbn [snd]. apply filter_In in Hj. cbn [fst] in Hj. destruct Hj as (Hj & S).
        apply negb_true_iff, Nat.ltb_ge in S. pose proof (in_combine_l _ _ _ _ Hj) as Hj'. assert (j <> i) by (intros ->; apply (NS i Hi); auto).
        rewrite (Fit i j b' Hi Hj) by lia. apply HL; [apply (nb_ranks _ _ HN i j Hi Hj')| |lia]. apply (nb_sym _ _ HN i j Hi Hj').
      + intros b Hb. rewrite combine_map, (filter_pairs (fun j => j <? i)), map_map in Hb. cbn [snd] in Hb. apply in_map_iff in Hb. destruct Hb as (j & <- & Hj).
        apply filter_In in Hj. destruct Hj as (Hj & S). apply Nat.ltb_lt in S. auto.
  Qed.
End Neighbours.

(** exchange of the parts of arrays: the part of each neighbour is replaced by what it has sent *)
Section Arrays.
  Context {T : Type}.
  Local Notation buf := (list T).
  Variables (n : nat) (nb : nat -> list nat).
  Hypothesis HN : neighbourhood n nb.

  Lemma nb_nodup i : i < n -> NoDup (nb i).
  Proof. intros Hi. apply incr_nodup, (nb_incr n nb HN). auto. Qed.
  Lemma nb_iff i j : i < n -> (In j (nb i) <-> j < n /\ In i (nb j)).
  Proof.
    intros Hi. split.
    - intros H. split; [apply (nb_ranks _ _ HN i j Hi H)|apply (nb_sym _ _ HN i j Hi H)].
    - intros (Hj & H). apply (nb_sym _ _ HN j i Hj H).
  Qed.

  Theorem exchange_in_place_delivers (sb rb : nat -> buf) (dist : nat -> list nat) :
    (forall i, i < n -> length (dist i) = length (nb i) + 1) ->
    (forall i k, i < n -> k < length (nb i) -> nth k (dist i) 0 <= nth (k + 1) (dist i) 0) ->
    (forall i, i < n -> nth (length (nb i)) (dist i) 0 <= length (sb i)) ->
    (forall i, i < n -> nth (length (nb i)) (dist i) 0 <= length (rb i)) ->
    (forall i j, i < n -> In j (nb i) -> length (part_of (nb i) (dist i) (sb i) j) = length (part_of (nb j) (dist j) (sb j) i)) ->
    ncompletes n (map (fun i => exchange_in_place (sb i) (rb i) (dist i) (nb i)) (seq 0 n))
      (map (fun i => firstn (nth 0 (dist i) 0) (rb i) ++ concat (map (fun j => part_of (nb j) (dist j) (sb j) i) (nb i)) ++
                     skipn (nth (length (nb i)) (dist i) 0) (rb i)) (seq 0 n)).
  Proof.
    intros HD HM HS HR Sym.
    set (d := fun i j => part_of (nb i) (dist i) (sb i) j).
    set (pos := fun i j => nth (position j (nb i)) (dist i) 0).
    assert (Mono : forall i k k', i < n -> k <= k' -> k' <= length (nb i) -> nth k (dist i) 0 <= nth k' (dist i) 0).
    { intros i k k' Hi H1 H2. apply (mono_steps (fun k => nth k (dist i) 0) (length (nb i))); auto. }
    assert (Len : forall i j, i < n -> In j (nb i) -> pos i j + length (d j i) = nth (position j (nb i) + 1) (dist i) 0).
    { intros i j Hi Hj. unfold d. rewrite <- Sym by auto. destruct (position_lt _ _ Hj) as (L & _). unfold part_of, pos.
      pose proof (Mono i (position j (nb i)) (position j (nb i) + 1) Hi ltac:(lia) ltac:(lia)).
      pose proof (Mono i (position j (nb i) + 1) (length (nb i)) Hi ltac:(lia) ltac:(lia)). pose proof (HS i Hi).
      rewrite slice_length by lia. lia. }
    rewrite (map_ext_in _ (fun i => call (map (fun t => (t, d i t)) (nb i)) (length (nb i)) (Some (nb i))
      (fun rb x m => let k := request (nb i) x in store_at (nth (k + 1) (dist i) 0 - nth k (dist i) 0) (nth k (dist i) 0) rb m) (rb i) (fun x => x))).
    2:{ intros i Hi. apply in_seq in Hi. unfold exchange_in_place. rewrite HD, Nat.eqb_refl by lia. cbn [negb]. unfold parts.
        rewrite (loads_ok (fun k => nth k (nb i) 0) (fun k => nth k (dist i) 0)).
        - rewrite (map_position _ (fun t => (t, d i t)) (nb i)); auto; [apply nb_nodup; lia|].
          intros k Hk. unfold d, part_of. rewrite position_nth by (auto; apply nb_nodup; lia). do 2 f_equal. pose proof (HM i k ltac:(lia) Hk). lia.
        - intros k Hk. apply in_seq in Hk. pose proof (HM i k ltac:(lia) ltac:(lia)). pose proof (Mono i (k + 1) (length (nb i)) ltac:(lia) ltac:(lia) ltac:(lia)).
          pose proof (HS i ltac:(lia)). lia. }
    apply (flat_complete n nb nb d rb pos); auto.
    - intros i t Hi Ht. apply (nb_ranks _ _ HN i t Hi Ht).
    - apply nb_nodup.
    - apply nb_nodup.
    - apply nb_iff.
    - intros i j Hi Hj. rewrite Len by auto. destruct (position_lt _ _ Hj) as (L & _).
      pose proof (Mono i (position j (nb i) + 1) (length (nb i)) Hi ltac:(lia) ltac:(lia)). pose proof (HR i Hi). lia.
    - intros i j j' Hi Hj Hj' D. rewrite !Len by auto. destruct (position_lt _ _ Hj) as (L & E). destruct (position_lt _ _ Hj') as (L' & E'). unfold pos.
      assert (position j (nb i) <> position j' (nb i)) by congruence.
      destruct (le_lt_dec (position j (nb i)) (position j' (nb i))); [left|right]; apply Mono; auto; lia.
    - intros i a j Hi Hj La. cbn zeta. rewrite request_position. unfold store_at. fold (pos i j). pose proof (Len i j Hi Hj) as E.
      destruct (position_lt _ _ Hj) as (L & _).
      pose proof (Mono i (position j (nb i) + 1) (length (nb i)) Hi ltac:(lia) ltac:(lia)). pose proof (HR i Hi).
      destruct (Nat.leb_spec (length (d j i)) (nth (position j (nb i) + 1) (dist i) 0 - pos i j)); [|lia].
      destruct (Nat.leb_spec (pos i j + (nth (position j (nb i) + 1) (dist i) 0 - pos i j)) (length a)); [auto|lia].
    - intros i a Hi HI.
      rewrite (split3 a (nth 0 (dist i) 0) (nth (length (nb i)) (dist i) 0)) by (apply Mono; auto; lia).
      rewrite (flat_before d rb pos i (nb i) a) by (auto; intros j Hj; destruct (position_lt _ _ Hj); apply Mono; auto; lia).
      rewrite (flat_after d rb pos i (nb i) a) by (auto; intros j Hj; rewrite Len by auto; destruct (position_lt _ _ Hj); apply Mono; auto; lia).
      do 2 f_equal. rewrite (slice_parts (fun k => nth k (dist i) 0)) by (intros; apply HM; auto). f_equal.
      apply map_position; [apply nb_nodup; auto|]. intros k Hk.
      assert (In (nth k (nb i) 0) (nb i)) as Hk' by (apply nth_In; auto). pose proof (Len i _ Hi Hk') as E.
      transitivity (slice (pos i (nth k (nb i) 0)) (pos i (nth k (nb i) 0) + length (d (nth k (nb i) 0) i)) a).
      + rewrite E. unfold pos. rewrite position_nth by (auto; apply nb_nodup; auto). auto.
      + apply (flat_slice d rb pos i (nb i)); auto. rewrite E, position_nth by (auto; apply nb_nodup; auto).
        pose proof (Mono i (k + 1) (length (nb i)) Hi ltac:(lia) ltac:(lia)). pose proof (HR i Hi). lia.
  Qed.

  (** every neighbour sends the same number of elements; the parts follow the order of neighbours *)
  Theorem gather_uniform_delivers limit size (s rb : nat -> buf) :
    size <= limit -> (forall i, i < n -> length (s i) = size) -> (forall i, i < n -> length (nb i) * size <= length (rb i)) ->
    ncompletes n (map (fun i => gather_uniform limit (s i) (rb i) (nb i)) (seq 0 n))
      (map (fun i => Some (concat (map s (nb i)) ++ skipn (length (nb i) * size) (rb i))) (seq 0 n)).
  Proof.
    intros HL HS HR.
    set (pos := fun i j => position j (nb i) * size).
    rewrite (map_ext_in _ (fun i => call (map (fun t => (t, s i)) (nb i)) (length (nb i)) (Some (nb i))
       (fun rb x m => store_at (length (s i)) (request (nb i) x * length (s i)) rb m) (rb i) Some)).
    2:{ intros i Hi. apply in_seq in Hi. unfold gather_uniform. rewrite HS by lia. destruct (Nat.ltb_spec limit size); [lia|auto]. }
    apply (flat_complete n nb nb (fun i _ => s i) rb pos); auto.
    - intros i t Hi Ht. apply (nb_ranks _ _ HN i t Hi Ht).
    - apply nb_nodup.
    - apply nb_nodup.
    - apply nb_iff.
    - intros i j Hi Hj. destruct (position_lt _ _ Hj) as (L & _). pose proof (HR i Hi). rewrite HS by (apply (nb_ranks _ _ HN i j Hi Hj)). unfold pos. nia.
    - intros i j j' Hi Hj Hj' D. rewrite !HS by (eapply (nb_ranks _ _ HN i); eauto). destruct (position_lt _ _ Hj) as (L & E). destruct (position_lt _ _ Hj') as (L' & E'). unfold pos.
      assert (position j (nb i) <> position j' (nb i)) by congruence. destruct (le_lt_dec (position j (nb i)) (position j' (nb i))); [left|right]; nia.
    - intros i a j Hi Hj La. rewrite request_position, (HS i Hi). unfold store_at. fold (pos i j). destruct (position_lt _ _ Hj) as (L & _).
      pose proof (HR i Hi). rewrite (HS j) by (apply (nb_ranks _ _ HN i j Hi Hj)). rewrite Nat.leb_refl. cbn [andb].
      destruct (Nat.leb_spec (pos i j + size) (length a)); [auto|]. unfold pos in *. nia.
    - intros i a Hi HI. f_equal.
      assert (Len : forall j, In j (nb i) -> pos i j + length (s j) = (position j (nb i) + 1) * size).
      { intros j Hj. rewrite HS by (apply (nb_ranks _ _ HN i j Hi Hj)). unfold pos. lia. }
      rewrite (split3 a 0 (length (nb i) * size)) by lia. cbn [firstn app].
      rewrite (flat_after (fun i _ => s i) rb pos i (nb i) a) by (auto; intros j Hj; rewrite Len by auto; destruct (position_lt _ _ Hj); nia).
      f_equal. change 0 with (0 * size) at 1. rewrite (slice_parts (fun k => k * size) (length (nb i)) a) by (intros; nia). f_equal.
      apply map_position; [apply nb_nodup; auto|]. intros k Hk.
      assert (In (nth k (nb i) 0) (nb i)) as Hk' by (apply nth_In; auto).
      pose proof (Len _ Hk') as E.
      transitivity (slice (pos i (nth k (nb i) 0)) (pos i (nth k (nb i) 0) + length (s (nth k (nb i) 0))) a).
      + rewrite E. unfold pos. rewrite position_nth by (auto; apply nb_nodup; auto). auto.
      + apply (flat_slice (fun i _ => s i) rb pos i (nb i)); auto. rewrite E, position_nth by (auto; apply nb_nodup; auto). pose proof (HR i Hi). nia.
  Qed.
End Arrays.

(** a chain of three ranks *)
Definition ex_nb (i : nat) : list nat := nth i [[1]; [0; 2]; [1]] [].
Lemma ex_nb_ok : neighbourhood 3 ex_nb.
Proof.
  split; intros i; destruct i as [|[|[|i]]]; try (intros; lia).
  - intros j k _ H. cbn in H. lia.
  - intros j k _ H. cbn in H. assert (j = 0) by lia. assert (k = 1) by lia. subst. cbn. lia.
  - intros j k _ H. cbn in H. lia.
  - intros j _ H. cbn in H. lia.
  - intros j _ H. cbn in H. lia.
  - intros j _ H. cbn in H. lia.
  - intros j _ [<-|[]]. cbn. auto.
  - intros j _ [<-|[<-|[]]]; cbn; auto.
  - intros j _ [<-|[]]. cbn. auto.
Qed.
Ltac ranks3 := intros i; do 3 (destruct i as [|i]; [cbn; auto; try lia|]); try lia.

Example exchange_unknown_delivers_ex :
  ncompletes 3 (map (fun i => exchange_unknown 5 (map (fun j => repeat i j) (ex_nb i)) (map (fun _ => [9]) (ex_nb i)) (ex_nb i)) (seq 0 3))
    [Some [[]]; Some [[0]; [2]]; Some [[1; 1]]].
Proof. apply (exchange_unknown_delivers 3 5 ex_nb ex_nb_ok (fun i j => repeat i j) (fun i => map (fun _ => [9]) (ex_nb i))); [|intros; apply map_length].
  intros i j Hi Hj. rewrite repeat_length. apply (nb_ranks _ _ ex_nb_ok) in Hj; lia. Qed.
Example exchange_unknown_same_delivers_ex :
  ncompletes 3 (map (fun i => exchange_unknown_same 5 (repeat i i) (map (fun _ => [9]) (ex_nb i)) (ex_nb i)) (seq 0 3)) [Some [[1]]; Some [[]; [2; 2]]; Some [[1]]].
Proof. apply (exchange_unknown_same_delivers 3 5 ex_nb ex_nb_ok (fun i => repeat i i) (fun i => map (fun _ => [9]) (ex_nb i))); [|intros; apply map_length].
  intros i Hi. rewrite repeat_length. lia. Qed.
Example exchange_known_delivers_ex :
  ncompletes 3 (map (fun i => exchange_known 5 (map (fun j => [i; j]) (ex_nb i)) (map (fun _ => [8; 9]) (ex_nb i)) (ex_nb i)) (seq 0 3))
    [Some [[1; 0]]; Some [[0; 1]; [2; 1]]; Some [[1; 2]]].
Proof. apply (exchange_known_delivers 3 5 ex_nb ex_nb_ok (fun i j => [i; j]) (fun i => map (fun _ => [8; 9]) (ex_nb i))); [cbn; lia|].
  intros i Hi. rewrite map_map. auto. Qed.
Example exchange_known_same_delivers_ex :
  ncompletes 3 (map (fun i => exchange_known_same 5 [i] (map (fun _ => [8]) (ex_nb i)) (ex_nb i)) (seq 0 3)) [Some [[1]]; Some [[0]; [2]]; Some [[1]]].
Proof. apply (exchange_known_same_delivers 3 5 ex_nb ex_nb_ok (fun i => [i]) (fun i => map (fun _ => [8]) (ex_nb i))); [cbn; lia|].
  intros i Hi. rewrite map_map. auto. Qed.
Example receive_lower_unknown_delivers_ex :
  ncompletes 3 (map (fun i => receive_lower_unknown 5 i (map (fun j => [i; j]) (ex_nb i)) (map (fun _ => [9]) (ex_nb i)) (ex_nb i)) (seq 0 3))
    [Some [[9]]; Some [[0; 1]; [9]]; Some [[1; 2]]].
Proof. apply (receive_lower_unknown_delivers 3 5 ex_nb ex_nb_ok (fun i j => [i; j]) (fun i => map (fun _ => [9]) (ex_nb i))); [cbn; lia|intros; apply map_length]. Qed.
Example receive_upper_unknown_delivers_ex :
  ncompletes 3 (map (fun i => receive_upper_unknown 5 i (map (fun j => [i; j]) (ex_nb i)) (map (fun _ => [9]) (ex_nb i)) (ex_nb i)) (seq 0 3))
    [Some [[1; 0]]; Some [[9]; [2; 1]]; Some [[9]]].
Proof. apply (receive_upper_unknown_delivers 3 5 ex_nb ex_nb_ok (fun i j => [i; j]) (fun i => map (fun _ => [9]) (ex_nb i))); [ranks3|cbn; lia|intros; apply map_length]. Qed.
Example receive_lower_known_delivers_ex :
  ncompletes 3 (map (fun i => receive_lower_known 5 i (map (fun j => [i; j]) (ex_nb i)) (map (fun _ => [8; 9]) (ex_nb i)) (ex_nb i)) (seq 0 3))
    [Some [[8; 9]]; Some [[0; 1]; [8; 9]]; Some [[1; 2]]].
Proof. apply (receive_lower_known_delivers 3 5 ex_nb ex_nb_ok (fun i j => [i; j]) (fun i => map (fun _ => [8; 9]) (ex_nb i))); [ranks3|cbn; lia|intros; apply map_length|].
  intros i j b Hi Hj _. apply in_combine_r, in_map_iff in Hj. destruct Hj as (x & <- & _). auto. Qed.
Example receive_upper_known_delivers_ex :
  ncompletes 3 (map (fun i => receive_upper_known 5 i (map (fun j => [i; j]) (ex_nb i)) (map (fun _ => [8; 9]) (ex_nb i)) (ex_nb i)) (seq 0 3))
    [Some [[1; 0]]; Some [[8; 9]; [2; 1]]; Some [[8; 9]]].
Proof. apply (receive_upper_known_delivers 3 5 ex_nb ex_nb_ok (fun i j => [i; j]) (fun i => map (fun _ => [8; 9]) (ex_nb i))); [ranks3|cbn; lia|intros; apply map_length|].
  intros i j b Hi Hj _. apply in_combine_r, in_map_iff in Hj. destruct Hj as (x & <- & _). auto. Qed.
Example exchange_in_place_delivers_ex :
  ncompletes 3 (map (fun i => exchange_in_place (nth i [[5; 6; 7]; [1; 2; 3]; [4]] []) (nth i [[9; 9; 9]; [8; 8; 8; 8]; [7]] []) (nth i [[1; 3]; [0; 2; 3]; [0; 1]] []) (ex_nb i)) (seq 0 3))
    [[9; 1; 2]; [6; 7; 4; 8]; [3]].
Proof.
  apply (exchange_in_place_delivers 3 ex_nb ex_nb_ok (fun i => nth i [[5; 6; 7]; [1; 2; 3]; [4]] []) (fun i => nth i [[9; 9; 9]; [8; 8; 8; 8]; [7]] [])
    (fun i => nth i [[1; 3]; [0; 2; 3]; [0; 1]] [])); [ranks3| |ranks3|ranks3|].
  - intros i k. do 3 (destruct i as [|i]; [intros _ H; do 2 (destruct k as [|k]; [cbn in *; lia|]); cbn in H; lia|]). intros; lia.
  - intros i j Hi. do 3 (destruct i as [|i]; [intros [<-|H]; [reflexivity|destruct H as [<-|[]] || destruct H]; reflexivity|]). lia.
Qed.
Example gather_uniform_delivers_ex :
  ncompletes 3 (map (fun i => gather_uniform 5 [i; 10 * i] (nth i [[9; 9; 9]; [8; 8; 8; 8]; [7; 7]] []) (ex_nb i)) (seq 0 3)) [Some [1; 10; 9]; Some [0; 0; 2; 20]; Some [1; 10]].
Proof. apply (gather_uniform_delivers 3 ex_nb ex_nb_ok 5 2 (fun i => [i; 10 * i]) (fun i => nth i [[9; 9; 9]; [8; 8; 8; 8]; [7; 7]] [])); [lia|auto|ranks3]. Qed.

Print Assumptions exchange_unknown_delivers.
Print Assumptions exchange_unknown_same_delivers.
Print Assumptions exchange_known_delivers.
Print Assumptions exchange_known_same_delivers.
Print Assumptions receive_lower_unknown_delivers.
Print Assumptions receive_upper_unknown_delivers.
Print Assumptions receive_lower_known_delivers.
Print Assumptions receive_upper_known_delivers.
Print Assumptions exchange_in_place_delivers.
Print Assumptions gather_uniform_delivers.
