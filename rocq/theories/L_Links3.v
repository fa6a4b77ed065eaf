(** * Lemmas on the links of nodes: all ranks *)
From Coq Require Import List Arith Bool Lia Sorted Permutation.
From Verif Require Import Base S_Order M_Utils M_Distributed M_DistMatrix M_DistApply M_NodeInfo S_NodeInfo M_Links S_Links L_Sort L_Merge L_DistApply L_Equality L_Equality2 L_TotalFeti L_Csx2 L_Fill2 L_Distributed L_DistMatrix L_NodeInfo L_NodeInfo3 L_NodeInfo4 L_NodeInfo5 L_Links L_Links2.
From Verif Require P_Utils.
Import ListNotations.
Local Open Scope out_scope.

(** ** blocks written by a parallel loop *)
Lemma put_mid {A} (a b b' c : list A) n e : n = length a -> e = n + length b -> put n e (a ++ b ++ c) b' = a ++ b' ++ c.
Proof.
  intros -> ->. unfold put. rewrite firstn_app, firstn_all, Nat.sub_diag. cbn [firstn]. rewrite app_nil_r. do 2 f_equal. rewrite app_assoc, skipn_app, skipn_all2 by (rewrite app_length; lia).
  rewrite app_length, Nat.sub_diag. auto.
Qed.
Lemma flat_map_length_ext {A B} (f g : A -> list B) l : (forall a, length (f a) = length (g a)) -> length (flat_map f l) = length (flat_map g l).
Proof. intros H. induction l as [|a l IH]; auto. cbn [flat_map]. rewrite !app_length, H, IH. auto. Qed.
Lemma parallel_store {A} (X Y : nat -> list A) T order : (forall t, length (Y t) = length (X t)) -> parallel_order T order ->
  foldM (fun l t => store l (length (flat_map X (seq 0 t))) (X t)) order (flat_map Y (seq 0 T)) = Ok (flat_map X (seq 0 T)).
Proof.
  intros HL PO. assert (ND : NoDup order) by (apply (Permutation_NoDup (Permutation_sym PO)), seq_NoDup).
  assert (In_T : forall t, In t order <-> t < T). { intros t. split; intros H; [apply (Permutation_in _ PO), in_seq in H; lia|apply (Permutation_in _ (Permutation_sym PO)), in_seq; lia]. }
  set (Z := fun done t => if mem t done then X t else Y t). assert (LZ : forall d t, length (Z d t) = length (X t)) by (intros d t; unfold Z; destruct (mem t d); auto).
  destruct (foldM_inv (fun l t => store l (length (flat_map X (seq 0 t))) (X t)) (fun done st => st = flat_map (Z done) (seq 0 T)) order (flat_map Y (seq 0 T))) as (st & Es & I).
  - reflexivity.
  - intros done t post st Eq ->. assert (Ht : t < T) by (apply In_T; rewrite Eq; apply in_or_app; right; left; auto).
    assert (Nt : ~ In t done). { rewrite Eq in ND. apply NoDup_remove_2 in ND. intros C. apply ND, in_or_app; auto. }
    assert (Sp : forall f : nat -> list A, flat_map f (seq 0 T) = flat_map f (seq 0 t) ++ f t ++ flat_map f (seq (S t) (T - S t))). { intros f. replace T with (t + S (T - S t)) at 1 by lia. rewrite seq_app, flat_map_app. auto. }
    exists (flat_map (Z (done ++ [t])) (seq 0 T)). split; auto. unfold store. rewrite (Sp (Z done)).
    rewrite (proj2 (Nat.ltb_ge _ _)). 2: { rewrite !app_length, (flat_map_length_ext (Z done) X) by auto. rewrite LZ. lia. }
    rewrite put_mid; [|symmetry; apply flat_map_length_ext; auto|rewrite LZ; auto]. f_equal. rewrite (Sp (Z (done ++ [t]))).
    assert (Q : forall k, k <> t -> Z (done ++ [t]) k = Z done k). { intros k Hk. unfold Z. assert (M : mem k (done ++ [t]) = mem k done); [|rewrite M; auto]. apply eq_true_iff_eq. rewrite !mem_iff, in_app_iff. cbn. split; [intros [C|[C|[]]]; [auto|congruence]|auto]. }
    f_equal; [|f_equal].
    + apply flat_map_ext_in'. intros k Hk. apply in_seq in Hk. rewrite Q; auto. lia.
    + unfold Z. assert (M : mem t (done ++ [t]) = true) by (apply mem_iff, in_or_app; right; left; auto). rewrite M. auto.
    + apply flat_map_ext_in'. intros k Hk. apply in_seq in Hk. rewrite Q; auto. lia.
  - rewrite Es, I. f_equal. apply flat_map_ext_in'. intros t Ht. apply in_seq in Ht. unfold Z. assert (M : mem t order = true) by (apply mem_iff, In_T; lia). rewrite M. auto.
Qed.

Lemma firstn_as_map {A} (l : list A) d k : k <= length l -> firstn k l = map (fun i => nth i l d) (seq 0 k).
Proof.
  revert l. induction k as [|k IH]; intros l H; auto. rewrite seq_S, map_app, <- IH by lia. cbn [map]. apply L_Equality2.firstn_S. lia.
Qed.
Lemma repeat_blocks {A B} (f : A -> list B) (x : B) l : repeat x (length (flat_map f l)) = flat_map (fun a => repeat x (length (f a))) l.
Proof. induction l as [|a l IH]; auto. cbn [flat_map]. rewrite app_length, repeat_app, IH. auto. Qed.
Lemma flat_map_nth {A B} (f : A -> list B) l d : flat_map f l = flat_map (fun t => f (nth t l d)) (seq 0 (length l)).
Proof. rewrite (list_as_map l d (length l)) at 1 by auto. rewrite flat_map_map. auto. Qed.

Lemma fill_links_ok o elements : parallel_order (length elements) (ro_fill o) -> fill_links o elements = Ok (flat_map thread_links elements).
Proof.
  intros PO. unfold fill_links. rewrite repeat_blocks. rewrite (flat_map_nth (fun a => repeat (0, 0) (length (thread_links a))) elements []). rewrite (flat_map_nth thread_links elements []).
  rewrite <- (parallel_store (fun t => thread_links (nth t elements [])) (fun t => repeat (0, 0) (length (thread_links (nth t elements [])))) (length elements) (ro_fill o)); auto.
  - apply foldM_ext_in. intros l t Ht. apply (Permutation_in _ PO), in_seq in Ht. rewrite (rd_ok _ _ []) by lia. cbn [obind]. unfold nodes_distribution. rewrite (rd_ok _ _ 0) by (rewrite map_length, seq_length; lia). cbn [obind].
    rewrite L_Distributed.nth_map_seq by lia. rewrite (firstn_as_map elements [] t) by lia. rewrite flat_map_map. auto.
  - intros t. apply repeat_length.
Qed.

(** ** sorted links *)
Lemma ss_app_gen {A} (R : A -> A -> Prop) a b : StronglySorted R a -> StronglySorted R b -> (forall x y, In x a -> In y b -> R x y) -> StronglySorted R (a ++ b).
Proof.
  intros Sa Sb H. induction Sa as [|x a Sa IH F]; auto. cbn [app]. constructor; [apply IH; intros; apply H; auto; right; auto|]. rewrite Forall_forall in *. intros y Hy. apply in_app_or in Hy. destruct Hy as [Hy|Hy]; auto. apply H; auto. left; auto.
Qed.
Lemma flat_map_nil {A B} (f : A -> list B) l : (forall a, In a l -> f a = []) -> flat_map f l = [].
Proof. intros H. induction l as [|a l IH]; auto. cbn [flat_map]. rewrite H by (left; auto). apply IH. intros; apply H; right; auto. Qed.
Lemma pair_le a b : le_of pair_ltb a b <-> fst a < fst b \/ fst a = fst b /\ snd a <= snd b.
Proof.
  unfold le_of, pair_ltb. destruct (Nat.ltb_spec (fst b) (fst a)), (Nat.ltb_spec (fst a) (fst b)), (Nat.eqb_spec (fst b) (fst a)), (Nat.ltb_spec (snd b) (snd a)); cbn; split; intros; try discriminate; try lia; auto.
Qed.
Lemma pair_swo : strict_weak_order pair_ltb. Proof. exact (sto_swo _ _ pair_sto). Qed.
Lemma sorted_fst l : sorted pair_ltb l -> StronglySorted (fun a b : nat * nat => fst a <= fst b) l.
Proof. intros S. induction S as [|a l S IH F]; constructor; auto. rewrite Forall_forall in *. intros b Hb. specialize (F b Hb). apply pair_le in F. lia. Qed.
Lemma ss_filter_gen {A} (R : A -> A -> Prop) p l : StronglySorted R l -> StronglySorted R (filter p l).
Proof. induction 1 as [|a l S IH F]; cbn [filter]; [constructor|]. destruct (p a); auto. constructor; auto. rewrite Forall_forall in *. intros b Hb. apply filter_In in Hb. apply F. tauto. Qed.
Lemma sorted_group k l : sorted pair_ltb l -> StronglySorted le (map snd (filter (fun a : nat * nat => k =? fst a) l)).
Proof.
  intros S. apply (ss_filter_gen _ (fun a => k =? fst a)) in S. assert (H : forall a, In a (filter (fun a : nat * nat => k =? fst a) l) -> fst a = k). { intros a Ha. apply filter_In in Ha. destruct Ha as [_ Ha]. apply Nat.eqb_eq in Ha. auto. }
  induction S as [|a t S IH F]; cbn [map]; constructor; [apply IH; intros; apply H; right; auto|]. rewrite Forall_forall in *. intros y Hy. apply in_map_iff in Hy. destruct Hy as (b & <- & Hb). specialize (F b Hb). apply pair_le in F. pose proof (H a (or_introl eq_refl)). pose proof (H b (or_intror Hb)). lia.
Qed.
Lemma group_map k l : filter (fun a : nat * nat => k =? fst a) l = map (pair k) (map snd (filter (fun a : nat * nat => k =? fst a) l)).
Proof.
  rewrite map_map. rewrite <- map_id at 1. apply map_ext_in. intros [x y] H. apply filter_In in H. destruct H as [_ H]. apply Nat.eqb_eq in H. cbn in *. subst; auto.
Qed.
Lemma regroup (key : nat -> nat) N l : (forall i j, i < j < N -> key i < key j) -> sorted pair_ltb l -> (forall a, In a l -> exists n, n < N /\ fst a = key n) ->
  l = grouped key (fun n => map snd (filter (fun a : nat * nat => key n =? fst a) l)) (seq 0 N).
Proof.
  intros Hk S Hl. rewrite <- (by_keys (@fst nat nat) (map key (seq 0 N))) at 1.
  - rewrite flat_map_map. unfold grouped. apply flat_map_ext_in'. intros n _. apply group_map.
  - clear - Hk. induction N as [|N IH]; [constructor|]. rewrite seq_S, map_app. cbn [map Nat.add]. apply ss_app_gen; [apply IH; intros; apply Hk; lia|constructor; constructor|]. intros x y Hx [<-|[]]. apply in_map_iff in Hx. destruct Hx as (i & <- & Hi). apply in_seq in Hi. apply Hk. lia.
  - apply sorted_fst; auto.
  - intros a Ha. destruct (Hl a Ha) as (n & Hn & ->). apply in_map, in_seq. lia.
Qed.
Lemma perm_filter {A} (p : A -> bool) l l' : Permutation l l' -> Permutation (filter p l) (filter p l').
Proof. induction 1; cbn [filter]; try destruct (p x); try destruct (p y); auto; try constructor; try apply perm_swap; eauto using Permutation_trans. Qed.
Lemma perm_group k l l' : Permutation l l' -> Permutation (map snd (filter (fun a : nat * nat => k =? fst a) l)) (map snd (filter (fun a : nat * nat => k =? fst a) l')).
Proof. intros. apply Permutation_map, perm_filter; auto. Qed.
Lemma filter_flat_map {A B} (p : B -> bool) (f : A -> list B) l : filter p (flat_map f l) = flat_map (fun a => filter p (f a)) l.
Proof. induction l as [|a l IH]; auto. cbn [flat_map]. rewrite filter_app, IH. auto. Qed.
Lemma map_flat_map {A B C} (g : B -> C) (f : A -> list B) l : map g (flat_map f l) = flat_map (fun a => map g (f a)) l.
Proof. induction l as [|a l IH]; auto. cbn [flat_map]. rewrite map_app, IH. auto. Qed.
Lemma filter_key k key l : filter (fun a : nat * nat => k =? fst a) (map (pair key) l) = if k =? key then map (pair key) l else [].
Proof. induction l as [|x l IH]; cbn [map filter fst]; [destruct (k =? key); auto|]. rewrite IH. destruct (k =? key); auto. Qed.
Lemma group_of_grouped k key E ns : map snd (filter (fun a : nat * nat => k =? fst a) (grouped key E ns)) = flat_map (fun n => if k =? key n then E n else []) ns.
Proof.
  unfold grouped. rewrite filter_flat_map, map_flat_map. apply flat_map_ext_in'. intros n _. rewrite filter_key. destruct (k =? key n); auto. rewrite map_map. cbn [snd]. apply map_id.
Qed.
Lemma grouped_sorted key E N ns : (forall i j, i < j < N -> key i < key j) -> StronglySorted lt ns -> (forall n, In n ns -> n < N) -> (forall n, n < N -> StronglySorted le (E n)) -> sorted pair_ltb (grouped key E ns).
Proof.
  intros Hk S Hn HE. induction S as [|n ns S IH F]; [constructor|]. cbn [grouped flat_map]. rewrite Forall_forall in F. apply ss_app_gen.
  - specialize (HE n (Hn n (or_introl eq_refl))). clear - HE. induction HE as [|x l S IH F]; cbn [map]; constructor; auto. rewrite Forall_forall in *. intros y Hy. apply in_map_iff in Hy. destruct Hy as (z & <- & Hz). apply pair_le. right. cbn. auto.
  - apply IH. intros; apply Hn; right; auto.
  - intros x y Hx Hy. apply in_map_iff in Hx. destruct Hx as (z & <- & Hz). apply grouped_in in Hy. destruct Hy as (k & Hk' & Ey & _). apply pair_le. left. cbn. rewrite Ey. apply Hk. split; [apply F; auto|apply Hn; right; auto].
Qed.
Lemma only_one {A} (key : nat -> nat) (E : nat -> list A) ns n : NoDup ns -> In n ns -> (forall k, In k ns -> key k = key n -> k = n) -> flat_map (fun k => if key n =? key k then E k else []) ns = E n.
Proof.
  induction ns as [|a ns IH]; intros ND Hn Hi; [destruct Hn|]. apply NoDup_cons_iff in ND. destruct ND as [Na ND]. cbn [flat_map]. destruct Hn as [->|Hn].
  - rewrite Nat.eqb_refl. rewrite <- (app_nil_r (E n)) at 2. f_equal. apply flat_map_nil. intros k Hk. destruct (Nat.eqb_spec (key n) (key k)) as [Q|]; auto. rewrite (Hi k) in Hk by (auto; right; auto). tauto.
  - rewrite IH by (auto; intros; apply Hi; auto; right; auto). destruct (Nat.eqb_spec (key n) (key a)) as [Q|]; auto. exfalso. apply Na. rewrite (Hi a); auto. left; auto.
Qed.
