(** * Lemmas on the setup of the synchronization of distributed vectors *)
From Coq Require Import List Arith Bool Lia Sorted.
From Verif Require Import Base M_Distributed L_Equality L_TotalFeti L_Csx2 L_Fill2 L_Utils.
Import ListNotations.
Local Open Scope out_scope.

(** ** Lists and loops *)
Lemma mapM_ok {A B} (f : A -> outcome B) (g : A -> B) l : (forall a, In a l -> f a = Ok (g a)) -> mapM f l = Ok (map g l).
Proof. induction l as [|a l IH]; intros H; cbn [mapM map]; auto. rewrite H by (left; auto). cbn [obind]. rewrite IH by (intros; apply H; right; auto). auto. Qed.
Lemma mapM_map {A B C} (f : B -> outcome C) (h : A -> B) (g : A -> C) l : (forall a, In a l -> f (h a) = Ok (g a)) -> mapM f (map h l) = Ok (map g l).
Proof. induction l as [|a l IH]; intros H; cbn [mapM map]; auto. rewrite H by (left; auto). cbn [obind]. rewrite IH by (intros; apply H; right; auto). auto. Qed.
Lemma mapM_exists {A B C} (f : B -> outcome C) (h : A -> B) (Q : A -> C -> Prop) (d : C) l : (forall a, In a l -> exists c, f (h a) = Ok c /\ Q a c) ->
  exists g, mapM f (map h l) = Ok g /\ length g = length l /\ forall i a, nth_error l i = Some a -> Q a (nth i g d).
Proof.
  induction l as [|a l IH]; intros H; cbn [mapM map]. { exists []. repeat split; auto. intros [|i] a; discriminate. }
  destruct (H a (or_introl eq_refl)) as (c & E & Qc). rewrite E. cbn [obind]. destruct IH as (g & Eg & Lg & Qg); [intros; apply H; right; auto|].
  rewrite Eg. cbn [obind]. exists (c :: g). repeat split; auto; [simpl; lia|]. intros [|i] x Hx; simpl in *; [inversion Hx; subst; auto|auto].
Qed.
Lemma list_as_map {A} (l : list A) d n : length l = n -> l = map (fun i => nth i l d) (seq 0 n).
Proof.
  intros H. apply (nth_ext _ _ d d); [rewrite map_length, seq_length; auto|]. intros i Hi. rewrite nth_indep with (l := map _ _) (d' := nth 0 l d) by (rewrite map_length, seq_length; lia).
  rewrite (map_nth (fun i => nth i l d)), seq_nth by lia. auto.
Qed.
Lemma nth_map {A B} (f : A -> B) l i d d' : i < length l -> nth i (map f l) d = f (nth i l d').
Proof. intros H. rewrite nth_indep with (d' := f d') by (rewrite map_length; auto). apply map_nth. Qed.
Lemma nth_map_seq {B} (f : nat -> B) i n d : i < n -> nth i (map f (seq 0 n)) d = f i.
Proof. intros H. rewrite (nth_map f _ i d 0), seq_nth by (rewrite ?seq_length; auto). auto. Qed.
Lemma combine_map3 {A B C D} (f : A -> B) (g : A -> C) (h : A -> D) l : combine (map f l) (combine (map g l) (map h l)) = map (fun x => (f x, (g x, h x))) l.
Proof. rewrite combine_map. apply combine_map. Qed.
Lemma combine_self {A B} (g : A -> B) l : combine l (map g l) = map (fun x => (x, g x)) l.
Proof. rewrite <- (map_id l) at 1. apply combine_map. Qed.
Lemma mapM_ranks {C} (f : nat -> outcome C) (g : nat -> C) n : (forall r, r < n -> f r = Ok (g r)) -> mapM f (seq 0 n) = Ok (map g (seq 0 n)).
Proof. intros H. apply mapM_ok. intros r Hr. apply in_seq in Hr. apply H; lia. Qed.

(** a loop that replaces the first [k] entries *)
Lemma loop_writes {A} (f : list A -> nat -> outcome (list A)) (g : nat -> A) d b0 k : k <= length b0 ->
  (forall n b, n < k -> length b = length b0 -> nth n b d = nth n b0 d -> f b n = wr b n (g n)) ->
  exists b, foldM f (seq 0 k) b0 = Ok b /\ length b = length b0 /\ forall n, n < length b0 -> nth n b d = if n <? k then g n else nth n b0 d.
Proof.
  intros Hk H. pose (I := fun (pre : list nat) b => length b = length b0 /\ forall n, n < length b0 -> nth n b d = if n <? length pre then g n else nth n b0 d).
  destruct (foldM_inv f I (seq 0 k) b0) as (b & E & L & N).
  - split; auto.
  - intros pre a post b E (L & N). assert (Ea : a = length pre /\ length pre < k).
    { assert (length (seq 0 k) = length (pre ++ a :: post)) as Hl by (rewrite E; auto). rewrite seq_length, app_length in Hl. simpl in Hl. split; [|lia].
      assert (nth (length pre) (seq 0 k) 0 = nth (length pre) (pre ++ a :: post) 0) as Hn by (rewrite E; auto). rewrite seq_nth in Hn by lia. rewrite app_nth2, Nat.sub_diag in Hn by lia. simpl in Hn. lia. }
    destruct Ea as [-> Hp]. exists (upd b (length pre) (g (length pre))). rewrite H; auto.
    + rewrite wr_ok by lia. split; auto. split; [rewrite upd_length; auto|]. intros n Hn. rewrite app_length; cbn [length]. destruct (Nat.eq_dec n (length pre)) as [->|Ne].
      * rewrite nth_upd, Nat.eqb_refl by lia. destruct (Nat.ltb_spec (length pre) (length pre + 1)); [auto|lia].
      * rewrite nth_upd_neq by auto. rewrite N by auto. destruct (Nat.ltb_spec n (length pre)), (Nat.ltb_spec n (length pre + 1)); auto; lia.
    + rewrite N by lia. destruct (Nat.ltb_spec (length pre) (length pre)); auto; lia.
  - exists b. rewrite seq_length in N. auto.
Qed.

Lemma firstn_snoc (l : list nat) i : i < length l -> firstn (S i) l = firstn i l ++ [nth i l 0].
Proof. revert i. induction l as [|x l IH]; intros [|i] H; simpl in *; try lia; auto. rewrite IH by lia. auto. Qed.
(** ** Sorted lists *)
Definition below (b : nat) (l : list nat) : nat := length (filter (fun g => g <? b) l).
Lemma below_le b l : below b l <= length l.
Proof. unfold below. induction l as [|x l IH]; simpl; [lia|]. destruct (x <? b); simpl; lia. Qed.
Lemma below_nth l b : StronglySorted lt l -> forall i, i < length l -> (nth i l 0 < b <-> i < below b l).
Proof.
  unfold below. induction 1 as [|x l S IH F]; intros i Hi; simpl in Hi; [lia|]. cbn [filter]. destruct i as [|i]; cbn [nth].
  - destruct (Nat.ltb_spec x b); simpl; [lia|]. split; [lia|]. intros C. exfalso. destruct (filter (fun g => g <? b) l) as [|y t] eqn:E; simpl in C; [lia|].
    assert (In y (filter (fun g => g <? b) l)) as Hy by (rewrite E; left; auto). apply filter_In in Hy. destruct Hy as [Hy Hb]. apply Nat.ltb_lt in Hb. rewrite Forall_forall in F. specialize (F y Hy). lia.
  - specialize (IH i ltac:(lia)). destruct (Nat.ltb_spec x b); cbn [length]; [lia|]. rewrite Forall_forall in F. specialize (F (nth i l 0) (@nth_In _ i l 0 ltac:(lia))). lia.
Qed.
Lemma below_mono l b b' : b <= b' -> below b l <= below b' l.
Proof. intros H. unfold below. induction l as [|x l IH]; simpl; [lia|]. destruct (Nat.ltb_spec x b), (Nat.ltb_spec x b'); simpl; lia. Qed.
Lemma below_all l b : (forall x, In x l -> x < b) -> below b l = length l.
Proof. intros H. unfold below. induction l as [|x l IH]; auto. simpl. destruct (Nat.ltb_spec x b); [simpl; f_equal; apply IH; intros; apply H; right; auto|]. specialize (H x (or_introl eq_refl)). lia. Qed.
Lemma below_none l b : (forall x, In x l -> b <= x) -> below b l = 0.
Proof. intros H. unfold below. induction l as [|x l IH]; auto. simpl. destruct (Nat.ltb_spec x b); [specialize (H x (or_introl eq_refl)); lia|]. apply IH; intros; apply H; right; auto. Qed.
(** the entries between two bounds are contiguous *)
Lemma between_slice l b b' : StronglySorted lt l -> b <= b' -> filter (fun g => (b <=? g) && (g <? b')) l = slice (below b l) (below b' l) l.
Proof.
  intros S. revert b b'. unfold below, slice. induction S as [|x l S IH F]; intros b b' Hb; auto. cbn [filter].
  destruct (Nat.leb_spec b x), (Nat.ltb_spec x b'), (Nat.ltb_spec x b); cbn [andb]; try lia; cbn [length].
  - assert (Z : filter (fun g => g <? b) l = []). { rewrite Forall_forall in F. clear -F H. induction l as [|y l IH]; auto. cbn [filter]. destruct (Nat.ltb_spec y b); [specialize (F y (or_introl eq_refl)); lia|]. apply IH. intros; apply F; right; auto. }
    specialize (IH b b' Hb). rewrite IH, Z. cbn [length skipn]. rewrite !Nat.sub_0_r. reflexivity.
  - assert (Z : filter (fun g => g <? b) l = [] /\ filter (fun g => g <? b') l = []). { rewrite Forall_forall in F. clear -F H H0. induction l as [|y l IH]; auto. cbn [filter]. destruct (IH ltac:(intros; apply F; right; auto)) as [-> ->].
      specialize (F y (or_introl eq_refl)). destruct (Nat.ltb_spec y b), (Nat.ltb_spec y b'); auto; lia. }
    destruct Z as [Z Z']. rewrite IH, Z, Z' by auto. auto.
  - cbn [skipn]. rewrite IH by auto. f_equal.
Qed.

Lemma find_rank_in x l : In x l -> find_rank x l < length l /\ nth (find_rank x l) l 0 = x.
Proof. induction l as [|y l IH]; simpl; [tauto|]. intros H. destruct (Nat.eqb_spec x y); [split; auto; lia|]. destruct H as [->|H]; [congruence|]. destruct (IH H). split; auto; lia. Qed.

(** ** Setup *)
Section Setup.
  Variables (P : nat) (st fin : nat -> nat) (halo nb : nat -> list nat).
  Hypothesis st_fin : forall r, r < P -> st r <= fin r.
  Hypothesis ranks_ordered : forall r s, r < s -> s < P -> fin r <= st s.
  Hypothesis halo_sorted : forall r, r < P -> StronglySorted lt (halo r).
  Hypothesis halo_owner : forall r g, r < P -> In g (halo r) -> exists o, o < r /\ st o <= g < fin o /\ In o (nb r).
  Hypothesis nb_sorted : forall r, r < P -> StronglySorted lt (nb r).
  Hypothesis nb_sym : forall r j, r < P -> In j (nb r) -> j < P /\ j <> r /\ In r (nb j).

  Definition owned (o g : nat) : bool := (st o <=? g) && (g <? fin o).
  Definition seg (r j : nat) : list nat := filter (owned j) (halo r).
  Definition off (r j : nat) : nat := below (st j) (halo r).
  Definition bound (r n : nat) : nat := nth n (map st (nb r) ++ [st r]) 0.
  Definition ndof (r : nat) : list nat := map st (nb r) ++ [st r].

  Lemma owned_iff o g : owned o g = true <-> st o <= g < fin o.
  Proof. unfold owned. rewrite andb_true_iff, Nat.leb_le, Nat.ltb_lt. tauto. Qed.
  Lemma owner_unique o o' g : o < P -> o' < P -> st o <= g < fin o -> st o' <= g < fin o' -> o = o'.
  Proof. intros. destruct (Nat.lt_trichotomy o o') as [L|[L|L]]; auto; [pose proof (ranks_ordered o o' L ltac:(auto))|pose proof (ranks_ordered o' o L ltac:(auto))]; lia. Qed.
  Lemma st_mono r s : r <= s -> s < P -> st r <= st s.
  Proof. intros H Hs. destruct (Nat.eq_dec r s) as [->|]; auto. pose proof (ranks_ordered r s ltac:(lia) Hs). pose proof (st_fin r ltac:(lia)). lia. Qed.
  Lemma halo_below r g : r < P -> In g (halo r) -> g < st r.
  Proof. intros Hr H. destruct (halo_owner r g Hr H) as (o & L & G & _). pose proof (ranks_ordered o r L Hr). lia. Qed.

  Lemma bound_nth r n : n < length (nb r) -> bound r n = st (nth n (nb r) 0).
  Proof. intros H. unfold bound. rewrite app_nth1 by (rewrite map_length; auto). apply nth_map; auto. Qed.
  Lemma bound_last r : bound r (length (nb r)) = st r.
  Proof. unfold bound. rewrite app_nth2, map_length, Nat.sub_diag by (rewrite map_length; lia). auto. Qed.

  Lemma ss_nth l : StronglySorted lt l -> forall i j, i < j < length l -> nth i l 0 < nth j l 0.
  Proof. induction 1 as [|x l S IH F]; intros i j H; simpl in H; [lia|]. destruct j as [|j]; [lia|]. destruct i as [|i]; cbn [nth]; [rewrite Forall_forall in F; apply F, nth_In; lia|]. apply IH; lia. Qed.
  Lemma ss_nth_inv l i j : StronglySorted lt l -> i < length l -> j < length l -> nth i l 0 < nth j l 0 -> i < j.
  Proof. intros S Hi Hj H. destruct (Nat.lt_trichotomy i j) as [L|[->|L]]; auto; [lia|]. pose proof (ss_nth l S j i ltac:(lia)). lia. Qed.

  Lemma leading_le r l : leading r l <= length l.
  Proof. induction l as [|x l IH]; simpl; [lia|]. destruct (x <? r); lia. Qed.
  Lemma leading_nth r l n : StronglySorted lt l -> n < length l -> (n < leading r l <-> nth n l 0 < r).
  Proof.
    intros S. revert n. induction S as [|x l S IH F]; intros n Hn; simpl in Hn; [lia|]. cbn [leading]. destruct (Nat.ltb_spec x r) as [L|L]; destruct n as [|n]; cbn [nth]; try lia.
    - specialize (IH n ltac:(lia)). lia.
    - rewrite Forall_forall in F. specialize (F (nth n l 0) (@nth_In _ n l 0 ltac:(lia))). lia.
  Qed.

  (** the bound of the first neighbour is below the halo *)
  Lemma below_first r : r < P -> 0 < length (nb r) -> below (bound r 0) (halo r) = 0.
  Proof.
    intros Hr Hn. apply below_none. intros g Hg. destruct (halo_owner r g Hr Hg) as (o & L & G & I). rewrite bound_nth by auto.
    apply (In_nth _ _ 0) in I. destruct I as (i & Hi & E). assert (nth 0 (nb r) 0 <= o) as M. { rewrite <- E. destruct i as [|i]; auto. pose proof (ss_nth _ (nb_sorted r Hr) 0 (S i) ltac:(lia)). lia. }
    pose proof (st_mono _ o M ltac:(lia)). lia.
  Qed.
  (** the part of the halo of a lower neighbour *)
  Lemma seg_slice r n : r < P -> n < leading r (nb r) ->
    let j := nth n (nb r) 0 in seg r j = slice (below (bound r n) (halo r)) (below (bound r (n + 1)) (halo r)) (halo r) /\ off r j = below (bound r n) (halo r) /\ bound r n <= bound r (n + 1).
  Proof.
    intros Hr Hn j. pose proof (leading_le r (nb r)) as Ll. assert (Lj : j < r) by (apply (leading_nth r (nb r) n (nb_sorted r Hr)); auto; lia).
    assert (Bn : bound r n = st j) by (apply bound_nth; lia).
    assert (Bm : fin j <= bound r (n + 1)).
    { destruct (Nat.eq_dec (n + 1) (length (nb r))) as [E|E].
      - rewrite E, bound_last. apply ranks_ordered; auto.
      - rewrite bound_nth by lia. apply ranks_ordered; [apply (ss_nth _ (nb_sorted r Hr)); lia|]. apply (nb_sym r); auto. apply nth_In. lia. }
    assert (SF : st j <= fin j) by (apply st_fin; lia).
    split; [|split; [unfold off; rewrite Bn; auto|lia]]. rewrite <- between_slice by (auto; lia). unfold seg. apply filter_ext_in. intros g Hg. unfold owned. rewrite Bn.
    destruct (Nat.leb_spec (st j) g) as [L|L]; cbn [andb]; auto. destruct (Nat.ltb_spec g (fin j)), (Nat.ltb_spec g (bound r (n + 1))) as [C|C]; auto; try lia.
    exfalso. destruct (halo_owner r g Hr Hg) as (o & Lo & Go & I). apply (In_nth _ _ 0) in I. destruct I as (i & Hi & E).
    assert (j < o). { destruct (Nat.lt_trichotomy j o) as [?|[E2|?]]; auto; [rewrite <- E2 in Go; lia|]. pose proof (ranks_ordered o j ltac:(auto) ltac:(lia)). lia. }
    assert (n < i) as Ni. { apply (ss_nth_inv (nb r)); auto; try lia. }
    assert (nth (n + 1) (nb r) 0 <= o) as M. { rewrite <- E. destruct (Nat.eq_dec i (n + 1)) as [->|]; auto. pose proof (ss_nth _ (nb_sorted r Hr) (n + 1) i ltac:(lia)). lia. }
    pose proof (st_mono _ o M ltac:(lia)). rewrite bound_nth in C by lia. lia.
  Qed.
  (** behind the lower neighbours the halo ends *)
  Lemma below_last r : r < P -> below (bound r (leading r (nb r))) (halo r) = length (halo r).
  Proof.
    intros Hr. apply below_all. intros g Hg. pose proof (halo_below r g Hr Hg) as B. pose proof (leading_le r (nb r)) as Ll. destruct (Nat.eq_dec (leading r (nb r)) (length (nb r))) as [E|E].
    - rewrite E, bound_last. auto.
    - rewrite bound_nth by lia. assert (I : In (nth (leading r (nb r)) (nb r) 0) (nb r)) by (apply nth_In; lia). destruct (nb_sym r _ Hr I) as (H1 & H2 & _).
      pose proof (leading_nth r (nb r) (leading r (nb r)) (nb_sorted r Hr) ltac:(lia)). pose proof (st_mono r (nth (leading r (nb r)) (nb r) 0) ltac:(lia) H1). lia.
  Qed.

  Lemma take_halo_ok l b : StronglySorted lt l -> forall fuel r buf, r <= below b l -> length l <= fuel + r -> take_halo fuel l b r buf = Ok (below b l, buf ++ slice r (below b l) l).
  Proof.
    intros S. pose proof (below_le b l) as BL. induction fuel as [|fuel IH]; intros r buf Hr Hf.
    - cbn [take_halo]. destruct (Nat.leb_spec (length l) r); [|lia]. replace r with (below b l) by lia. rewrite slice_nil, app_nil_r. auto.
    - cbn [take_halo]. destruct (Nat.leb_spec (length l) r) as [L|L]; [assert (E : r = below b l) by lia; rewrite <- E, slice_nil, app_nil_r; auto|].
      rewrite (rd_ok _ _ 0) by auto. cbn [obind]. pose proof (below_nth l b S r L) as N. destruct (Nat.ltb_spec (nth r l 0) b).
      + rewrite IH by lia. rewrite <- app_assoc. do 2 f_equal. rewrite (slice_app r (r + 1) (below b l)) by lia. f_equal. rewrite Nat.add_1_r.
        rewrite (L_Utils.slice_one 0) by auto. auto.
      + replace (below b l) with r by lia. rewrite slice_nil, app_nil_r. auto.
  Qed.

  (** ** Communication *)
  Lemma sent_ok {A} (F : nat -> nat -> A) r j : r < P -> In j (nb r) -> sent (map nb (seq 0 P)) (map (fun r => map (F r) (nb r)) (seq 0 P)) j r = Ok (F j r).
  Proof.
    intros Hr Hj. destruct (nb_sym r j Hr Hj) as (H1 & _ & H2). unfold sent. rewrite (rd_ok _ _ []) by (rewrite map_length, seq_length; auto). cbn [obind].
    rewrite (rd_ok _ _ []) by (rewrite map_length, seq_length; auto). cbn [obind]. rewrite !nth_map_seq by auto. destruct (find_rank_in r (nb j) H2) as [L E].
    rewrite (rd_ok _ _ (F j r)) by (rewrite map_length; auto). rewrite (nth_map (F j) _ _ _ 0) by auto. rewrite E. auto.
  Qed.
  Lemma combine_nth_pairs {A B} (l : list A) (l' : list B) d d' x y : In (x, y) (combine l l') -> exists n, n < length l /\ n < length l' /\ x = nth n l d /\ y = nth n l' d'.
  Proof.
    revert l'. induction l as [|a l IH]; intros [|b l'] H; simpl in H; try tauto. destruct H as [H|H]; [inversion H; subst; exists 0; simpl; repeat split; auto; lia|].
    destruct (IH l' H) as (n & H1 & H2 & H3 & H4). exists (S n). simpl. repeat split; auto; lia.
  Qed.
  Lemma mapM_combine {A B} (f : nat * A -> outcome B) (g : nat -> B) (d : A) l old : length old = length l ->
    (forall n, n < length l -> f (nth n l 0, nth n old d) = Ok (g (nth n l 0))) -> mapM f (combine l old) = Ok (map g l).
  Proof.
    revert old. induction l as [|x l IH]; intros [|b old] L H; simpl in L; try lia; auto. cbn [combine mapM map]. pose proof (H 0 ltac:(simpl; lia)) as H0. cbn [nth] in H0. rewrite H0. cbn [obind].
    rewrite (IH old) by (try lia; intros n Hn; apply (H (S n)); simpl; lia). auto.
  Qed.
  Lemma receive_upper_ok {A} (F : nat -> nat -> A) (old : nat -> list A) d : (forall r, r < P -> length (old r) = length (nb r)) ->
    (forall r n, r < P -> n < length (nb r) -> nth n (nb r) 0 <= r -> nth n (old r) d = F (nth n (nb r) 0) r) ->
    receive_upper (map nb (seq 0 P)) (map (fun r => map (F r) (nb r)) (seq 0 P)) (map old (seq 0 P)) = Ok (map (fun r => map (fun j => F j r) (nb r)) (seq 0 P)).
  Proof.
    intros L O. unfold receive_upper. rewrite map_length, seq_length, combine_map, combine_self. apply mapM_map. intros r Hr. apply in_seq in Hr. cbn [fst snd].
    apply (mapM_combine _ (fun j => F j r) d); [apply L; lia|]. intros n Hn. cbn [fst snd]. destruct (Nat.ltb_spec r (nth n (nb r) 0)).
    - apply sent_ok; [lia|apply nth_In; auto].
    - rewrite O by (auto; lia). auto.
  Qed.
  Lemma receive_lower_ok {A} (F : nat -> nat -> list A) (old : nat -> list (list A)) : (forall r, r < P -> length (old r) = length (nb r)) ->
    (forall r n, r < P -> n < length (nb r) -> length (nth n (old r) []) = length (F (nth n (nb r) 0) r) /\ (r <= nth n (nb r) 0 -> F (nth n (nb r) 0) r = [])) ->
    receive_lower (map nb (seq 0 P)) (map (fun r => map (F r) (nb r)) (seq 0 P)) (map old (seq 0 P)) = Ok (map (fun r => map (fun j => F j r) (nb r)) (seq 0 P)).
  Proof.
    intros L O. unfold receive_lower. rewrite map_length, seq_length, combine_map, combine_self. apply mapM_map. intros r Hr. apply in_seq in Hr. cbn [fst snd].
    apply (mapM_combine _ (fun j => F j r) []); [apply L; lia|]. intros n Hn. cbn [fst snd]. destruct (O r n ltac:(lia) Hn) as [O1 O2]. destruct (Nat.ltb_spec (nth n (nb r) 0) r).
    - rewrite sent_ok by (try lia; apply nth_In; auto). cbn [obind]. rewrite O1, Nat.eqb_refl. auto.
    - rewrite O2 in * by auto. destruct (nth n (old r) []); simpl in O1; [auto|lia].
  Qed.

  (** ** SyncData::init *)
  Definition D (r : nat) : decomposition := {| d_begin := st r; d_end := fin r; d_halo := halo r; d_neighDOF := ndof r; d_neighbors := nb r |}.
  (** what rank [r] sends to rank [j] *)
  Definition sbuf (r j : nat) : list nat := if j <? r then seg r j else [].
  (** the position of an own DOF *)
  Definition lpos (r g : nat) : nat := g - st r + length (halo r).

  Lemma sbuf_own r j g : In g (sbuf j r) -> r < j /\ In g (halo j) /\ st r <= g < fin r.
  Proof. unfold sbuf, seg. destruct (Nat.ltb_spec r j); [|simpl; tauto]. intros H'. apply filter_In in H'. rewrite owned_iff in H'. tauto. Qed.

  Section Values.
    Context {T : Type} (zero : T) (add : T -> T -> T).

    Lemma list_by_nth {A B} (l : list A) (f : B -> A) l' d d' : length l = length l' -> (forall n, n < length l' -> nth n l d = f (nth n l' d')) -> l = map f l'.
    Proof. intros L H. apply (nth_ext _ _ d (f d')); [rewrite map_length; auto|]. intros n Hn. rewrite map_nth. apply H. lia. Qed.

    Lemma init_send_ok r : r < P ->
      init_send zero r (D r) = Ok (map (off r) (firstn (leading r (nb r)) (nb r)), map (sbuf r) (nb r), map (fun j => repeat zero (length (sbuf r j))) (nb r)).
    Proof.
      intros Hr. unfold init_send. cbn [d_neighbors D]. set (k := leading r (nb r)). pose proof (leading_le r (nb r)) as Lk. fold k in Lk.
      pose (I := fun (i : nat) (s : nat * list nat * list (list nat) * list (list T)) =>
        exists sb sB, s = (if i =? 0 then 0 else below (bound r i) (halo r), map (off r) (firstn i (nb r)), sb, sB) /\ length sb = length (nb r) /\ length sB = length (nb r) /\
          forall n, n < length (nb r) -> nth n sb [] = (if n <? i then seg r (nth n (nb r) 0) else []) /\ nth n sB [] = (if n <? i then repeat zero (length (seg r (nth n (nb r) 0))) else [])).
      destruct (foldM_seq_inv (init_neighbor zero (D r)) I 0 k (0, [], repeat [] (length (nb r)), repeat [] (length (nb r)))) as (s & E & sb & sB & -> & L1 & L2 & N).
      - exists (repeat [] (length (nb r))), (repeat [] (length (nb r))). rewrite !repeat_length. repeat split; auto; simpl; apply nth_repeat_lt; auto.
      - intros i s Hi (sb & sB & -> & L1 & L2 & N). unfold init_neighbor. cbn [d_neighDOF d_halo D].
        destruct (seg_slice r i Hr ltac:(lia)) as (Sg & Of & Bd). fold k in Lk.
        assert (B0 : (if i =? 0 then 0 else below (bound r i) (halo r)) = below (bound r i) (halo r)). { destruct (Nat.eqb_spec i 0) as [->|]; auto. symmetry. apply below_first; auto. lia. }
        rewrite B0. rewrite (rd_ok (ndof r) _ 0) by (unfold ndof; rewrite app_length, map_length; simpl; lia). cbn [obind].
        change (nth (i + 1) (ndof r) 0) with (bound r (i + 1)). rewrite (rd_ok sb _ []) by lia. cbn [obind]. rewrite (proj1 (N i ltac:(lia))), Nat.ltb_irrefl.
        rewrite take_halo_ok; [|apply halo_sorted; auto|apply below_mono; auto|lia]. cbn [obind app]. rewrite wr_ok by lia. cbn [obind]. rewrite wr_ok by lia. cbn [obind].
        eexists. split; [reflexivity|]. rewrite <- Sg. exists (upd sb i (seg r (nth i (nb r) 0))), (upd sB i (repeat zero (below (bound r (i + 1)) (halo r) - below (bound r i) (halo r)))).
        rewrite !upd_length. split; [|split; [auto|split; [auto|]]].
        + replace (S i =? 0) with false by auto. rewrite Nat.add_1_r. repeat f_equal. rewrite (firstn_snoc (nb r) i) by lia. rewrite map_app. cbn [map]. f_equal. rewrite Of. auto.
        + intros n Hn. destruct (Nat.eq_dec n i) as [->|Ne].
          * rewrite !nth_upd, !Nat.eqb_refl by lia. destruct (Nat.ltb_spec i (S i)); [|lia]. split; auto. rewrite Sg, slice_length; auto. split; [apply below_mono; auto|apply below_le].
          * rewrite !nth_upd_neq by auto. destruct (N n Hn) as [-> ->]. destruct (Nat.ltb_spec n i), (Nat.ltb_spec n (S i)); auto; lia.
      - rewrite E. cbn [obind]. rewrite Nat.add_0_l in *. do 2 f_equal; [f_equal|].
        + apply (list_by_nth _ _ _ [] 0); auto. intros n Hn. rewrite (proj1 (N n Hn)). unfold sbuf. pose proof (leading_nth r (nb r) n (nb_sorted r Hr) Hn). fold k in H. destruct (Nat.ltb_spec n k), (Nat.ltb_spec (nth n (nb r) 0) r); auto; lia.
        + apply (list_by_nth _ _ _ [] 0); auto. intros n Hn. rewrite (proj2 (N n Hn)). unfold sbuf. pose proof (leading_nth r (nb r) n (nb_sorted r Hr) Hn). fold k in H. destruct (Nat.ltb_spec n k), (Nat.ltb_spec (nth n (nb r) 0) r); auto; lia.
    Qed.

    Lemma init_recv_ok r bufs : (forall b g, In b bufs -> In g b -> st r <= g) -> init_recv (D r) bufs = Ok (map (map (lpos r)) bufs).
    Proof.
      intros H. apply mapM_ok. intros b Hb. rewrite (foldM_append _ (lpos r)); auto. intros acc g Hg. cbn [d_begin d_halo D]. specialize (H b g Hb Hg). destruct (Nat.ltb_spec g (st r)); [lia|auto].
    Qed.

    Record ready (r : nat) (y : sync_data T) : Prop := {
      re_nb : y_neighbors y = nb r;
      re_off : y_nOffset y = map (off r) (firstn (leading r (nb r)) (nb r));
      re_rOff : y_rOffset y = map (fun j => map (lpos r) (sbuf j r)) (nb r);
      re_s : map (@length T) (y_sBuffer y) = map (fun j => length (sbuf r j)) (nb r);
      re_r : map (@length T) (y_rBuffer y) = map (fun j => length (sbuf j r)) (nb r) }.

    Lemma init_ok : exists ys, init zero (map D (seq 0 P)) = Ok ys /\ length ys = P /\ forall r, r < P -> ready r (nth r ys no_data).
    Proof.
      unfold init. rewrite map_length, seq_length. destruct (Nat.eqb_spec P 1) as [E|E].
      - exists (map (fun _ => no_data) (map D (seq 0 P))). rewrite !map_length, seq_length. repeat split; auto; intros; rewrite map_map, nth_map_seq by auto;
          (assert (Z : nb r = []); [destruct (nb r) as [|j t] eqn:F; auto; destruct (nb_sym r j ltac:(auto) ltac:(rewrite F; left; auto)); lia|rewrite ?Z; auto]).
      - rewrite combine_self. rewrite map_map. cbn [fst snd]. erewrite (mapM_map _ _ (fun r => (map (off r) (firstn (leading r (nb r)) (nb r)), map (sbuf r) (nb r), map (fun j => repeat zero (length (sbuf r j))) (nb r)))).
        2:{ intros r Hr. apply in_seq in Hr. cbn [fst snd]. apply init_send_ok. lia. }
        cbn [obind]. rewrite !map_map. cbn [fst snd D d_neighbors].
        rewrite (map_ext (fun x => d_neighbors (D x)) nb) by auto. rewrite (receive_upper_ok sbuf _ []).
        2:{ intros. apply repeat_length. }
        2:{ intros r n Hr Hn Hj. rewrite nth_repeat_lt by auto. unfold sbuf. destruct (Nat.ltb_spec r (nth n (nb r) 0)); auto; lia. }
        cbn [obind]. rewrite combine_map. erewrite (mapM_map _ _ (fun r => map (fun j => map (lpos r) (sbuf j r)) (nb r))).
        2:{ intros r Hr. apply in_seq in Hr. cbn [fst snd]. rewrite init_recv_ok; [rewrite map_map; auto|]. intros b g Hb Hg. apply in_map_iff in Hb. destruct Hb as (j & <- & Hj). apply sbuf_own in Hg. lia. }
        cbn [obind]. rewrite combine_map3, map_map. eexists. split; [reflexivity|]. rewrite map_length, seq_length. split; auto. intros r Hr. rewrite nth_map_seq by auto. cbn [fst snd].
        constructor; cbn [y_neighbors y_nOffset y_rOffset y_sBuffer y_rBuffer D d_neighbors]; auto; rewrite !map_map; apply map_ext; intros; rewrite repeat_length, ?map_length; auto.
    Qed.

    (** ** gatherFromUpper *)
    Definition vsize (r : nat) : nat := length (halo r) + (fin r - st r).
    Definition msg (r : nat) (v : list T) (j : nat) : list T := slice (off r j) (off r j + length (sbuf r j)) v.

    Lemma re_lengths r y : ready r y -> length (y_sBuffer y) = length (nb r) /\ length (y_rBuffer y) = length (nb r) /\
      forall n, n < length (nb r) -> length (nth n (y_sBuffer y) []) = length (sbuf r (nth n (nb r) 0)) /\ length (nth n (y_rBuffer y) []) = length (sbuf (nth n (nb r) 0) r).
    Proof.
      intros [_ _ _ R1 R2]. assert (L1 : length (y_sBuffer y) = length (nb r)). { rewrite <- (map_length (@length T)), R1, map_length. auto. }
      assert (L2 : length (y_rBuffer y) = length (nb r)). { rewrite <- (map_length (@length T)), R2, map_length. auto. }
      repeat split; auto.
      - rewrite <- (map_nth (@length T)), R1. apply (nth_map (fun j => length (sbuf r j)) (nb r) n _ 0). auto.
      - rewrite <- (map_nth (@length T)), R2. apply (nth_map (fun j => length (sbuf j r)) (nb r) n _ 0). auto.
    Qed.
    (** the part of the halo *)
    Lemma seg_range r n : r < P -> n < leading r (nb r) -> let j := nth n (nb r) 0 in off r j + length (sbuf r j) = below (bound r (n + 1)) (halo r) /\ off r j = below (bound r n) (halo r) /\
      below (bound r n) (halo r) <= below (bound r (n + 1)) (halo r) <= length (halo r) /\ sbuf r j = slice (below (bound r n) (halo r)) (below (bound r (n + 1)) (halo r)) (halo r).
    Proof.
      intros Hr Hn j. destruct (seg_slice r n Hr Hn) as (Sg & Of & Bd). fold j in Sg, Of. pose proof (leading_le r (nb r)).
      assert (Lj : j < r) by (apply (leading_nth r (nb r) n (nb_sorted r Hr)); auto; lia). unfold sbuf. destruct (Nat.ltb_spec j r); [|lia].
      pose proof (below_mono (halo r) _ _ Bd). pose proof (below_le (bound r (n + 1)) (halo r)). rewrite Of, Sg, slice_length by lia. repeat split; auto; lia.
    Qed.
    Lemma off_nth r n : r < P -> n < leading r (nb r) -> nth n (map (off r) (firstn (leading r (nb r)) (nb r))) 0 = off r (nth n (nb r) 0).
    Proof. intros Hr Hn. pose proof (leading_le r (nb r)). rewrite (nth_map (off r) _ n 0 0) by (rewrite firstn_length; lia). f_equal. rewrite <- (firstn_skipn (leading r (nb r)) (nb r)) at 3. rewrite app_nth1; auto. rewrite firstn_length; lia. Qed.

    Lemma pack_lower_ok r y v : r < P -> ready r y -> length v = vsize r -> pack_lower r y v = Ok (map (msg r v) (nb r)).
    Proof.
      intros Hr R Lv. destruct (re_lengths r y R) as (L1 & L2 & L). destruct R as [R1 R2 R3 R4 R5]. unfold pack_lower. rewrite R1, R2. pose proof (leading_le r (nb r)) as Lk.
      destruct (loop_writes (fun sb n => buf <- rd sb n ;; o <- rd (map (off r) (firstn (leading r (nb r)) (nb r))) n ;; x <- load v o (length buf) ;; wr sb n x)
        (fun n => msg r v (nth n (nb r) 0)) [] (y_sBuffer y) (leading r (nb r))) as (b & E & Lb & N).
      - lia.
      - intros n b Hn Lb Nb. rewrite (rd_ok _ _ []) by lia. cbn [obind]. rewrite (rd_ok _ _ 0) by (rewrite map_length, firstn_length; lia). cbn [obind]. rewrite off_nth, Nb by auto.
        rewrite (proj1 (L n ltac:(lia))). destruct (seg_range r n Hr Hn) as (S1 & S2 & S3 & S4). unfold load, vsize in *. destruct (Nat.ltb_spec (length v) (off r (nth n (nb r) 0) + length (sbuf r (nth n (nb r) 0)))); [lia|]. auto.
      - rewrite E. f_equal. apply (list_by_nth _ _ _ [] 0); [lia|]. intros n Hn. rewrite N by lia. destruct (Nat.ltb_spec n (leading r (nb r))); auto.
        pose proof (leading_nth r (nb r) n (nb_sorted r Hr) Hn). destruct (L n Hn) as [Z _]. unfold msg. unfold sbuf in *. destruct (Nat.ltb_spec (nth n (nb r) 0) r); [lia|]. cbn [length] in *.
        rewrite Nat.add_0_r, slice_nil. destruct (nth n (y_sBuffer y) []); simpl in Z; [auto|lia].
    Qed.

    Definition incoming (V : nat -> list T) (r : nat) : list (nat * T) := flat_map (fun j => combine (map (lpos r) (sbuf j r)) (msg j (V j) r)) (nb r).
    Lemma msg_length V r j : r < P -> In j (nb r) -> length (V j) = vsize j -> length (msg j (V j) r) = length (sbuf j r).
    Proof.
      intros Hr Hj Lv. destruct (nb_sym r j Hr Hj) as (H1 & _ & H2). unfold msg. destruct (Nat.ltb_spec r j) as [L|L].
      - apply (In_nth _ _ 0) in H2. destruct H2 as (n & Hn & E). assert (n < leading j (nb j)) as Hl by (apply leading_nth; [apply nb_sorted; auto|auto|lia]).
        destruct (seg_range j n H1 Hl) as (S1 & S2 & S3 & S4). rewrite E in *. unfold vsize in Lv. rewrite slice_length; lia.
      - unfold sbuf. destruct (Nat.ltb_spec r j); [lia|]. cbn [length]. rewrite Nat.add_0_r, slice_nil. auto.
    Qed.
    Lemma lpos_range r g : st r <= g < fin r -> length (halo r) <= lpos r g < vsize r.
    Proof. unfold lpos, vsize. lia. Qed.

    Lemma unpack_upper_ok V r y : r < P -> ready r y -> (forall r, r < P -> length (V r) = vsize r) ->
      exists out, unpack_upper add y (map (fun j => msg j (V j) r) (nb r)) (V r) = Ok out /\ length out = vsize r /\
        forall p, p < vsize r -> nth p out zero = fold_left add (L_Pattern.at_pos p (incoming V r)) (nth p (V r) zero).
    Proof.
      intros Hr [R1 R2 R3 R4 R5] LV. unfold unpack_upper. rewrite R1, R3.
      rewrite (foldM_seq_list (nb r) _ (fun vals j => foldM (fun out (x : nat * T) => o <- rd out (fst x) ;; wr out (fst x) (add o (snd x))) (combine (map (lpos r) (sbuf j r)) (msg j (V j) r)) vals)).
      2:{ intros vals n j Hn. assert (Hl : n < length (nb r)) by (apply nth_error_Some; congruence). apply (nth_error_nth _ _ 0) in Hn.
          rewrite (rd_ok _ _ []) by (rewrite map_length; auto). cbn [obind]. rewrite (rd_ok _ _ []) by (rewrite map_length; auto). cbn [obind].
          rewrite (nth_map (fun j => map (lpos r) (sbuf j r)) _ n [] 0), (nth_map (fun j => msg j (V j) r) _ n [] 0) by auto. rewrite Hn.
          assert (I : In j (nb r)) by (rewrite <- Hn; apply nth_In; auto). pose proof (msg_length V r j Hr I (LV j (proj1 (nb_sym r j Hr I)))) as Lm.
          replace (length (map (lpos r) (sbuf j r))) with (length (combine (map (lpos r) (sbuf j r)) (msg j (V j) r))) by (rewrite combine_length, map_length; lia).
          apply foldM_seq_list. intros v i (p, x) Hi. assert (i < length (sbuf j r)) as Li. { assert (i < length (combine (map (lpos r) (sbuf j r)) (msg j (V j) r))) by (apply nth_error_Some; congruence). rewrite combine_length, map_length in H. lia. }
          apply (nth_error_nth _ _ (0, zero)) in Hi. rewrite combine_nth in Hi by (rewrite map_length; auto). inversion Hi; subst.
          rewrite (rd_ok _ _ 0) by (rewrite map_length; auto). cbn [obind]. rewrite (rd_ok _ _ zero) by lia. cbn [obind fst snd]. auto. }
      rewrite <- (foldM_flat (fun out (x : nat * T) => o <- rd out (fst x) ;; wr out (fst x) (add o (snd x))) (fun j => combine (map (lpos r) (sbuf j r)) (msg j (V j) r))). fold (incoming V r).
      destruct (L_Pattern.accumulate add zero (incoming V r) (V r)) as (out & E & Lo & N).
      - intros (p, x) H. unfold incoming in H. apply in_flat_map in H. destruct H as (j & Hj & H). apply in_combine_l, in_map_iff in H. destruct H as (g & <- & Hg). apply sbuf_own in Hg. cbn [fst]. rewrite LV by auto. apply lpos_range. tauto.
      - exists out. rewrite LV in Lo, N by auto. auto.
    Qed.

    Lemma gather_ok (Y : nat -> sync_data T) V : (forall r, r < P -> ready r (Y r)) -> (forall r, r < P -> length (V r) = vsize r) ->
      exists ys vs, gather_from_upper add (map Y (seq 0 P), map V (seq 0 P)) = Ok (ys, vs) /\ length ys = P /\ length vs = P /\
        (forall r, r < P -> ready r (nth r ys no_data)) /\ forall r, r < P -> length (nth r vs []) = vsize r /\
        forall p, p < vsize r -> nth p (nth r vs []) zero = fold_left add (L_Pattern.at_pos p (incoming V r)) (nth p (V r) zero).
    Proof.
      intros HY HV. unfold gather_from_upper. rewrite map_length, seq_length, combine_map, combine_self.
      rewrite (mapM_map _ _ (fun r => map (msg r (V r)) (nb r))).
      2:{ intros r Hr. apply in_seq in Hr. cbn [fst snd]. apply pack_lower_ok; [lia|apply HY; lia|apply HV; lia]. }
      cbn [obind]. rewrite !map_map. rewrite (map_ext_in (fun x => y_neighbors (Y x)) nb) by (intros r Hr; apply in_seq in Hr; apply (re_nb r); apply HY; lia).
      rewrite (receive_upper_ok (fun r => msg r (V r)) (fun r => y_rBuffer (Y r)) []).
      2:{ intros r Hr. destruct (re_lengths r (Y r) (HY r Hr)) as (_ & H & _). auto. }
      2:{ intros r n Hr Hn Hj. destruct (re_lengths r (Y r) (HY r Hr)) as (_ & _ & H). destruct (H n Hn) as [_ Z]. unfold msg, sbuf in *. destruct (Nat.ltb_spec r (nth n (nb r) 0)); [lia|]. cbn [length] in *. rewrite Nat.add_0_r, slice_nil.
          destruct (nth n (y_rBuffer (Y r)) []); simpl in Z; [auto|lia]. }
      cbn [obind]. rewrite combine_map3.
      destruct (mapM_exists (fun x : sync_data T * (list (list T) * list T) => unpack_upper add (fst x) (fst (snd x)) (snd (snd x))) (fun x => (Y x, (map (fun j => msg j (V j) x) (nb x), V x)))
        (fun r out => length out = vsize r /\ forall p, p < vsize r -> nth p out zero = fold_left add (L_Pattern.at_pos p (incoming V r)) (nth p (V r) zero)) [] (seq 0 P)) as (vs & E & Lv & Q).
      { intros r Hr. apply in_seq in Hr. cbn [fst snd]. apply unpack_upper_ok; [lia|apply HY; lia|auto]. }
      rewrite E. cbn [obind]. eexists; exists vs. split; [reflexivity|]. rewrite seq_length in Lv. split; [|split; [auto|split]].
      - rewrite map_length, !combine_length, !map_length, seq_length. lia.
      - intros r Hr. rewrite combine_map3, map_map, nth_map_seq by auto. cbn [fst snd]. destruct (HY r Hr) as [R1 R2 R3 R4 R5]. constructor; cbn [with_buffers y_neighbors y_nOffset y_rOffset y_sBuffer y_rBuffer]; auto.
        + rewrite map_map. apply map_ext_in. intros j Hj. destruct (nb_sym r j Hr Hj) as (H1 & _ & H2). apply (msg_length (fun _ => V r) j r H1 H2). auto.
        + rewrite map_map. apply map_ext_in. intros j Hj. destruct (nb_sym r j Hr Hj) as (H1 & _ & H2). apply (msg_length V r j Hr Hj). auto.
      - intros r Hr. apply Q. rewrite (nth_error_nth' _ 0) by (rewrite seq_length; auto). rewrite seq_nth by auto. auto.
    Qed.

    (** ** scatterToUpper *)
    Definition news (V : nat -> list T) (j g : nat) : T := nth (lpos j g) (V j) zero.
    Lemma pack_upper_ok r y v : r < P -> ready r y -> length v = vsize r -> pack_upper y v = Ok (map (fun j => map (fun g => nth (lpos r g) v zero) (sbuf j r)) (nb r)).
    Proof.
      intros Hr R Lv. destruct (re_lengths r y R) as (L1 & L2 & L). destruct R as [R1 R2 R3 R4 R5]. unfold pack_upper. rewrite R1, R3.
      destruct (loop_writes (fun rb n => off <- rd (map (fun j => map (lpos r) (sbuf j r)) (nb r)) n ;; buf <- rd rb n ;;
        buf <- foldM (fun buf i => p <- rd off i ;; v <- rd v p ;; wr buf i v) (seq 0 (length off)) buf ;; wr rb n buf)
        (fun n => map (fun g => nth (lpos r g) v zero) (sbuf (nth n (nb r) 0) r)) [] (y_rBuffer y) (length (nb r))) as (b & E & Lb & N).
      - lia.
      - intros n b Hn Lb Nb. rewrite (rd_ok _ _ []) by (rewrite map_length; lia). cbn [obind]. rewrite (nth_map (fun j => map (lpos r) (sbuf j r)) _ n [] 0) by auto.
        rewrite (rd_ok _ _ []) by lia. cbn [obind]. set (j := nth n (nb r) 0). rewrite Nb. pose proof (proj2 (L n Hn)) as Z. fold j in Z. rewrite map_length.
        destruct (loop_writes (fun buf i => p <- rd (map (lpos r) (sbuf j r)) i ;; v <- rd v p ;; wr buf i v) (fun i => nth (lpos r (nth i (sbuf j r) 0)) v zero) zero (nth n (y_rBuffer y) []) (length (sbuf j r))) as (b' & E' & Lb' & N').
        + lia.
        + intros i b' Hi Lb' _. rewrite (rd_ok _ _ 0) by (rewrite map_length; lia). cbn [obind]. rewrite (nth_map (lpos r) _ i 0 0) by auto.
          rewrite (rd_ok _ _ zero); auto. rewrite Lv. apply lpos_range. apply (sbuf_own r j). apply nth_In. auto.
        + rewrite E'. cbn [obind]. f_equal. apply (list_by_nth _ _ _ zero 0); [lia|]. intros i Hi. rewrite N' by lia. destruct (Nat.ltb_spec i (length (sbuf j r))); [auto|lia].
      - rewrite E. f_equal. apply (list_by_nth _ _ _ [] 0); [lia|]. intros n Hn. rewrite N by lia. destruct (Nat.ltb_spec n (length (nb r))); [auto|lia].
    Qed.

    Lemma unpack_lower_ok V r y : r < P -> ready r y -> length (V r) = vsize r ->
      exists out, unpack_lower r y (map (fun j => map (news V j) (sbuf r j)) (nb r)) (V r) = Ok out /\ length out = vsize r /\
        (forall p, length (halo r) <= p < vsize r -> nth p out zero = nth p (V r) zero) /\
        forall p o, p < length (halo r) -> o < P -> st o <= nth p (halo r) 0 < fin o -> nth p out zero = news V o (nth p (halo r) 0).
    Proof.
      intros Hr [R1 R2 R3 R4 R5] LV. unfold unpack_lower. rewrite R1, R2. pose proof (leading_le r (nb r)) as Lk.
      pose (I := fun (i : nat) (out : list T) => length out = vsize r /\ forall p, p < vsize r ->
        (p < (if i =? 0 then 0 else below (bound r i) (halo r)) -> forall o, o < P -> st o <= nth p (halo r) 0 < fin o -> nth p out zero = news V o (nth p (halo r) 0)) /\
        ((if i =? 0 then 0 else below (bound r i) (halo r)) <= p -> nth p out zero = nth p (V r) zero)).
      destruct (foldM_seq_inv (fun vals n => buf <- rd (map (fun j => map (news V j) (sbuf r j)) (nb r)) n ;; o <- rd (map (off r) (firstn (leading r (nb r)) (nb r))) n ;; store vals o buf) I 0 (leading r (nb r)) (V r)) as (out & E & Lo & N).
      - split; auto. intros p Hp. split; auto. simpl. lia.
      - intros i out Hi (Lo & N). rewrite (rd_ok _ _ []) by (rewrite map_length; lia). cbn [obind]. rewrite (rd_ok _ _ 0) by (rewrite map_length, firstn_length; lia). cbn [obind].
        rewrite off_nth by (auto; lia). rewrite (nth_map (fun j => map (news V j) (sbuf r j)) _ i [] 0) by lia. set (j := nth i (nb r) 0) in *.
        assert (Lj : j < r) by (apply (leading_nth r (nb r) i (nb_sorted r Hr)); auto; lia).
        destruct (seg_range r i Hr ltac:(lia)) as (S1 & S2 & S3 & S4). fold j in S1, S2, S4.
        assert (B0 : (if i =? 0 then 0 else below (bound r i) (halo r)) = below (bound r i) (halo r)). { destruct (Nat.eqb_spec i 0) as [->|]; auto. symmetry. apply below_first; auto. lia. }
        rewrite B0 in N. unfold store. rewrite map_length. rewrite S1, S2. unfold vsize in *. destruct (Nat.ltb_spec (length out) (below (bound r (i + 1)) (halo r))); [lia|].
        assert (Ln : length (map (news V j) (sbuf r j)) = below (bound r (i + 1)) (halo r) - below (bound r i) (halo r)) by (rewrite map_length; lia).
        set (b := below (bound r i) (halo r)) in *. set (e := below (bound r (i + 1)) (halo r)) in *.
        exists (put b e out (map (news V j) (sbuf r j))). split; auto. split; [rewrite put_length; lia|]. replace (S i =? 0) with false by auto. replace (S i) with (i + 1) by lia. fold e.
        assert (PN : forall p, p < length out -> nth p (put b e out (map (news V j) (sbuf r j))) zero = if (b <=? p) && (p <? e) then news V j (nth p (halo r) 0) else nth p out zero).
        { intros p Hp. unfold put. destruct (Nat.leb_spec b p); cbn [andb].
          - rewrite app_nth2; rewrite firstn_length; [|lia]. replace (Nat.min b (length out)) with b by lia. destruct (Nat.ltb_spec p e).
            + rewrite app_nth1 by lia. rewrite (nth_map (news V j) _ _ _ 0) by lia. rewrite S4, nth_slice by lia. do 2 f_equal. lia.
            + rewrite app_nth2 by lia. rewrite Ln. rewrite <- (firstn_skipn e out) at 2. rewrite app_nth2; rewrite firstn_length; [|lia]. f_equal. lia.
          - rewrite app_nth1 by (rewrite firstn_length; lia). rewrite <- (firstn_skipn b out) at 2. rewrite app_nth1; auto. rewrite firstn_length; lia. }
        intros p Hp. rewrite PN by lia. destruct (N p Hp) as [N1 N2]. split.
        + intros Hpe o Ho Go. destruct (Nat.leb_spec b p); cbn [andb]; [|apply N1; auto; lia]. destruct (Nat.ltb_spec p e); [|lia].
          assert (In (nth p (halo r) 0) (sbuf r j)) as Ij. { rewrite S4. replace p with (b + (p - b)) by lia. rewrite <- (nth_slice b e) by lia. apply nth_In. rewrite slice_length; lia. }
          apply sbuf_own in Ij. rewrite (owner_unique o j (nth p (halo r) 0)); auto; [lia|tauto].
        + intros Hpe. destruct (Nat.leb_spec b p), (Nat.ltb_spec p e); cbn [andb]; try lia; apply N2; lia.
      - exists out. split; auto. split; auto. rewrite Nat.add_0_l in N.
        assert (B : (if leading r (nb r) =? 0 then 0 else below (bound r (leading r (nb r))) (halo r)) = length (halo r)).
        { destruct (Nat.eqb_spec (leading r (nb r)) 0) as [Z|]; [|apply below_last; auto]. destruct (halo r) as [|g t] eqn:F; auto. destruct (halo_owner r g Hr ltac:(rewrite F; left; auto)) as (o & L & _ & I').
          apply (In_nth _ _ 0) in I'. destruct I' as (n & Hn & En). apply (leading_nth r (nb r) n (nb_sorted r Hr)) in Hn. lia. }
        rewrite B in N. split.
        + intros p Hp. apply N; lia.
        + intros p o Hp. unfold vsize in N. destruct (N p ltac:(lia)) as [N1 _]. apply N1; auto.
    Qed.

    Lemma scatter_ok (Y : nat -> sync_data T) V : (forall r, r < P -> ready r (Y r)) -> (forall r, r < P -> length (V r) = vsize r) ->
      exists ys vs, scatter_to_upper (map Y (seq 0 P), map V (seq 0 P)) = Ok (ys, vs) /\ length ys = P /\ length vs = P /\
        (forall r, r < P -> ready r (nth r ys no_data)) /\ forall r, r < P -> length (nth r vs []) = vsize r /\
        (forall p, length (halo r) <= p < vsize r -> nth p (nth r vs []) zero = nth p (V r) zero) /\
        forall p o, p < length (halo r) -> o < P -> st o <= nth p (halo r) 0 < fin o -> nth p (nth r vs []) zero = news V o (nth p (halo r) 0).
    Proof.
      intros HY HV. unfold scatter_to_upper. rewrite map_length, seq_length, combine_map.
      rewrite (mapM_map _ _ (fun r => map (fun j => map (news V r) (sbuf j r)) (nb r))).
      2:{ intros r Hr. apply in_seq in Hr. cbn [fst snd]. unfold news. apply pack_upper_ok; [lia|apply HY; lia|apply HV; lia]. }
      cbn [obind]. rewrite !map_map. rewrite (map_ext_in (fun x => y_neighbors (Y x)) nb) by (intros r Hr; apply in_seq in Hr; apply (re_nb r); apply HY; lia).
      rewrite (receive_lower_ok (fun r j => map (news V r) (sbuf j r)) (fun r => y_sBuffer (Y r))).
      2:{ intros r Hr. destruct (re_lengths r (Y r) (HY r Hr)) as (H & _ & _). auto. }
      2:{ intros r n Hr Hn. destruct (re_lengths r (Y r) (HY r Hr)) as (_ & _ & H). destruct (H n Hn) as [Z _]. rewrite map_length. split; auto. intros Hj. unfold sbuf. destruct (Nat.ltb_spec (nth n (nb r) 0) r); [lia|auto]. }
      cbn [obind]. rewrite combine_map3, combine_self.
      destruct (mapM_exists (fun x : nat * (sync_data T * (list (list T) * list T)) => unpack_lower (fst x) (fst (snd x)) (fst (snd (snd x))) (snd (snd (snd x))))
        (fun x => (x, (Y x, (map (fun j => map (news V j) (sbuf x j)) (nb x), V x))))
        (fun r out => length out = vsize r /\ (forall p, length (halo r) <= p < vsize r -> nth p out zero = nth p (V r) zero) /\
           forall p o, p < length (halo r) -> o < P -> st o <= nth p (halo r) 0 < fin o -> nth p out zero = news V o (nth p (halo r) 0)) [] (seq 0 P)) as (vs & E & Lv & Q).
      { intros r Hr. apply in_seq in Hr. cbn [fst snd]. apply unpack_lower_ok; [lia|apply HY; lia|apply HV; lia]. }
      rewrite E. cbn [obind]. eexists; exists vs. split; [reflexivity|]. rewrite seq_length in Lv. split; [|split; [auto|split]].
      - rewrite map_length, !combine_length, !map_length, seq_length. lia.
      - intros r Hr. rewrite combine_map3, map_map, nth_map_seq by auto. cbn [fst snd]. destruct (HY r Hr) as [R1 R2 R3 R4 R5]. constructor; cbn [with_buffers y_neighbors y_nOffset y_rOffset y_sBuffer y_rBuffer]; auto;
          rewrite map_map; apply map_ext; intros; rewrite map_length; auto.
      - intros r Hr. apply Q. rewrite (nth_error_nth' _ 0) by (rewrite seq_length; auto). rewrite seq_nth by auto. auto.
    Qed.
  End Values.
End Setup.
