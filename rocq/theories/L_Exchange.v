(** * Lemmas about the exchanges between neighbours *)
From Coq Require Import List Arith Lia Bool Permutation Sorted.
From Verif Require Import Base L_Utils M_Nb S_Nb L_Nb M_Exchange L_Balance L_Tarray.
Import ListNotations.
Local Open Scope out_scope.

(** ** The engine with a list of the received messages *)
Section Recvd.
  Context {M A X : Type}.
  Variable n : nat.
  Variable snd_ : nat -> list (nat * M).
  Variable cnt : nat -> nat.
  Variable src : nat -> option (list nat).
  Variable h : nat -> X -> nat -> M -> outcome X.
  Variable acc0 : nat -> X.
  Variable kr : nat -> X -> A.
  Variable res : nat -> A.
  Variable recvd : nat -> list (nat * M).
  (** what holds of the variables after some messages *)
  Variable I : nat -> list (nat * M) -> X -> Prop.

  Hypothesis Targets : forall i, i < n -> Forall (fun x => fst x < n) (snd_ i).
  Hypothesis Once : forall i, i < n -> NoDup (map fst (snd_ i)).
  Hypothesis RN : forall i, i < n -> NoDup (map fst (recvd i)).
  Hypothesis RI : forall i j m, i < n -> (In (j, m) (recvd i) <-> j < n /\ In (i, m) (snd_ j)).
  Hypothesis Cnt : forall i, i < n -> cnt i = length (recvd i).
  Hypothesis Src : forall i l, i < n -> src i = Some l -> forall j, In j (map fst (recvd i)) -> In j l.
  Hypothesis I0 : forall i, i < n -> I i [] (acc0 i).
  Hypothesis IS : forall i L a j m, i < n -> I i L a -> In (j, m) (recvd i) -> incl L (recvd i) -> ~ In j (map fst L) ->
    exists a', h i a j m = Ok a' /\ I i (L ++ [(j, m)]) a'.
  Hypothesis IF : forall i L a, i < n -> I i L a -> Permutation L (recvd i) -> kr i a = res i.

  Lemma recvd_expected i : i < n -> Permutation (recvd i) (expected n snd_ i).
  Proof.
    intros Hi. apply NoDup_Permutation.
    - eapply NoDup_map_inv. apply RN. auto.
    - apply (expected_nodup (M := M) n snd_ Once).
    - intros (j, m). rewrite RI by auto. symmetry. apply in_expected.
  Qed.

  Lemma fold_inv i : i < n -> forall L, NoDup (map fst L) -> incl L (recvd i) ->
    exists a, fold_left (store h i) L (Ok (acc0 i)) = Ok a /\ I i L a.
  Proof.
    intros Hi L. induction L as [|(j, m) L IH] using rev_ind; intros N Inc.
    - exists (acc0 i). split; auto.
    - rewrite map_app in N. cbn [map fst] in N. apply NoDup_remove in N. rewrite app_nil_r in N. destruct N as (N & Nj).
      assert (IncL : incl L (recvd i)) by (intros x Hx; apply Inc; apply in_or_app; auto).
      destruct (IH N IncL) as (a & E & HI). rewrite fold_left_app, E. cbn [fold_left].
      destruct (IS i L a j m Hi HI) as (a' & E' & HI'); auto. { apply Inc. apply in_or_app. right. left. auto. }
      exists a'. split; auto.
  Qed.

  Theorem engine_recvd : ncompletes n (map (fun i => call (snd_ i) (cnt i) (src i) (h i) (acc0 i) (kr i)) (seq 0 n)) (map res (seq 0 n)).
  Proof.
    apply engine; auto.
    - intros i Hi. rewrite Cnt by auto. apply Permutation_length. apply recvd_expected. auto.
    - intros i l Hi E x Hx. apply (Src i l Hi E). apply in_map. eapply Permutation_in; [symmetry; apply recvd_expected; auto|]. auto.
    - intros i L Hi HP.
      assert (HP' : Permutation L (recvd i)) by (rewrite HP; symmetry; apply recvd_expected; auto).
      destruct (fold_inv i Hi L) as (a & E & HI).
      + eapply Permutation_NoDup; [|apply (RN i Hi)]. apply Permutation_map. symmetry. auto.
      + intros x Hx. eapply Permutation_in; eauto.
      + exists a. split; auto. eapply IF; eauto.
  Qed.
End Recvd.

(** ** Sorted lists of ranks *)
Lemma sorted_in_nth (l : list nat) x : In x l -> exists k, k < length l /\ nth k l 0 = x.
Proof. intros H. apply In_nth with (d := 0) in H. destruct H as (k & Hk & E). eauto. Qed.

Definition incr (l : list nat) : Prop := forall j k, j < k < length l -> nth j l 0 < nth k l 0.
Lemma incr_tail x l : incr (x :: l) -> incr l /\ forall y, In y l -> x < y.
Proof.
  intros H. split.
  - intros j k Hjk. apply (H (S j) (S k)). cbn. lia.
  - intros y Hy. apply sorted_in_nth in Hy. destruct Hy as (k & Hk & <-). apply (H 0 (S k)). cbn. lia.
Qed.
Lemma incr_nodup l : incr l -> NoDup l.
Proof.
  induction l as [|x l IH]; intros H; [constructor|]. destruct (incr_tail _ _ H) as (H1 & H2). constructor; auto. intros I. specialize (H2 x I). lia.
Qed.
Lemma lower_bound_nth l : incr l -> forall k, k < length l -> lower_bound l (nth k l 0) = k.
Proof.
  induction l as [|x l IH]; intros H k Hk; cbn in Hk; [lia|]. destruct (incr_tail _ _ H) as (H1 & H2). cbn [lower_bound].
  destruct k as [|k]; cbn [nth].
  - destruct (Nat.ltb_spec x x); [lia|auto].
  - destruct (Nat.ltb_spec x (nth k l 0)) as [L|L].
    + f_equal. apply IH; auto. lia.
    + specialize (H2 (nth k l 0) (nth_In (n:=k) l 0 ltac:(lia))). lia.
Qed.
Lemma request_nth l : incr l -> forall k, k < length l -> request l (nth k l 0) = k.
Proof.
  induction l as [|x l IH]; intros H k Hk; cbn in Hk; [lia|]. destruct (incr_tail _ _ H) as (H1 & H2). cbn [request].
  destruct k as [|k]; cbn [nth].
  - rewrite Nat.eqb_refl. auto.
  - specialize (H2 (nth k l 0) (nth_In (n:=k) l 0 ltac:(lia))). destruct (Nat.eqb_spec x (nth k l 0)); [lia|]. f_equal. apply IH; auto. lia.
Qed.
Lemma lower_bound_filter l x : incr l -> lower_bound l x = length (filter (fun y => y <? x) l).
Proof.
  induction l as [|y l IH]; intros H; auto. destruct (incr_tail _ _ H) as (H1 & H2). cbn [lower_bound filter]. destruct (Nat.ltb_spec y x) as [L|L].
  - cbn [length]. f_equal. auto.
  - rewrite (proj2 (length_zero_iff_nil _)); auto.
    assert (forall z, In z l -> (z <? x) = false) as N. { intros z Hz. specialize (H2 z Hz). apply Nat.ltb_ge. lia. }
    clear -N. induction l as [|z l IH]; auto. cbn [filter]. rewrite (N z) by (left; auto). apply IH. intros; apply N; right; auto.
Qed.

Lemma combine_map {B} (nb : list nat) (f : nat -> B) : combine nb (map f nb) = map (fun j => (j, f j)) nb.
Proof. induction nb as [|x nb IH]; cbn; auto. f_equal. auto. Qed.
Lemma map_fst_pair {B} (f : nat -> B) l : map fst (map (fun j => (j, f j)) l) = l.
Proof. rewrite map_map. cbn. apply map_id. Qed.
Lemma filter_pairs {B} (q : nat -> bool) (f : nat -> B) l : filter (fun x => q (fst x)) (map (fun j => (j, f j)) l) = map (fun j => (j, f j)) (filter q l).
Proof. induction l as [|x l IH]; cbn; auto. destruct (q x); cbn; rewrite IH; auto. Qed.
Lemma too_long_no {T} limit (l : list (list T)) : (forall b, In b l -> length b <= limit) -> too_long limit l = false.
Proof.
  intros H. unfold too_long. destruct (existsb _ l) eqn:E; auto. apply existsb_exists in E. destruct E as (b & Hb & L). apply Nat.ltb_lt in L.
  specialize (H b Hb). lia.
Qed.
Lemma nodup_filter {B} (q : B -> bool) l : NoDup l -> NoDup (filter q l).
Proof. apply NoDup_filter. Qed.

(** ** Cells: one buffer of each neighbour *)
Section Cells.
  Context {T : Type}.
  Local Notation buf := (list T).
  Variable n : nat.
  Variable nb : nat -> list nat.
  Variable d : nat -> nat -> buf.
  Variable rb : nat -> list buf.
  Hypothesis HN : neighbourhood n nb.
  (** [sel j t]: rank [j] sends to its neighbour [t] *)
  Variable sel : nat -> nat -> bool.

  Lemma nb_incr i : i < n -> incr (nb i).
  Proof. intros Hi j k H. apply (nb_sorted _ _ HN i j k Hi H). Qed.

  Definition sends (i : nat) : list (nat * buf) := map (fun j => (j, d i j)) (filter (sel i) (nb i)).
  Definition gets (i : nat) : list (nat * buf) := map (fun j => (j, d j i)) (filter (fun j => sel j i) (nb i)).
  Definition cells (i : nat) : list buf :=
    map (fun k => if sel (nth k (nb i) 0) i then d (nth k (nb i) 0) i else nth k (rb i) []) (seq 0 (length (nb i))).

  Variable fits : bool.    (** the receive buffers have the length of the messages *)
  Hypothesis Lrb : forall i, i < n -> length (rb i) = length (nb i).
  Hypothesis Fits : fits = true -> forall i k, i < n -> k < length (nb i) -> sel (nth k (nb i) 0) i = true -> length (nth k (rb i) []) = length (d (nth k (nb i) 0) i).
  Variable sto : nat -> list buf -> nat -> buf -> outcome (list buf).
  Hypothesis Sto : forall i a k m, i < n -> k < length (nb i) -> length a = length (nb i) -> (fits = true -> length m = length (nth k a [])) ->
    sto i a (nth k (nb i) 0) m = Ok (upd a k m).
  Variable src : nat -> option (list nat).
  Hypothesis Src : forall i l, i < n -> src i = Some l -> forall j, In j (nb i) -> sel j i = true -> In j l.
  Variable cnt : nat -> nat.
  Hypothesis Cnt : forall i, i < n -> cnt i = length (filter (fun j => sel j i) (nb i)).

  Definition cell_inv (i : nat) (L : list (nat * buf)) (a : list buf) : Prop :=
    length a = length (nb i) /\ forall k, k < length (nb i) ->
      (In (nth k (nb i) 0) (map fst L) -> nth k a [] = d (nth k (nb i) 0) i) /\
      (~ In (nth k (nb i) 0) (map fst L) -> nth k a [] = nth k (rb i) []).

  Lemma cells_complete : ncompletes n (map (fun i => call (sends i) (cnt i) (src i) (sto i) (rb i) Some) (seq 0 n)) (map (fun i => Some (cells i)) (seq 0 n)).
  Proof.
    apply (engine_recvd n sends cnt src sto rb (fun _ => Some) (fun i => Some (cells i)) gets cell_inv).
    - intros i Hi. apply Forall_forall. intros (j, m) H. unfold sends in H. apply in_map_iff in H. destruct H as (t & E & H). injection E as <- <-.
      apply filter_In in H. cbn. apply (nb_ranks _ _ HN i t Hi). apply H.
    - intros i Hi. unfold sends. rewrite map_fst_pair. apply nodup_filter, incr_nodup, nb_incr. auto.
    - intros i Hi. unfold gets. rewrite map_fst_pair. apply nodup_filter, incr_nodup, nb_incr. auto.
    - intros i j m Hi. unfold gets, sends. rewrite !in_map_iff. split.
      + intros (t & E & H). injection E as <- <-. apply filter_In in H. destruct H as (H & S). split; [apply (nb_ranks _ _ HN i t Hi H)|].
        exists i. split; auto. apply filter_In. split; auto. apply (nb_sym _ _ HN i t Hi H).
      + intros (Hj & t & E & H). injection E as -> <-. apply filter_In in H. destruct H as (H & S).
        exists j. split; auto. apply filter_In. split; auto. apply (nb_sym _ _ HN j i Hj H).
    - intros i Hi. unfold gets. rewrite map_length. apply Cnt. auto.
    - intros i l Hi E j Hj. unfold gets in Hj. rewrite map_fst_pair in Hj. apply filter_In in Hj. destruct Hj. apply (Src i l Hi E); auto.
    - intros i Hi. split; [apply Lrb; auto|]. intros k Hk. cbn. tauto.
    - intros i L a j m Hi (La & Ha) Hin Inc Nj. unfold gets in Hin. apply in_map_iff in Hin. destruct Hin as (t & E & H). injection E as -> <-.
      apply filter_In in H. destruct H as (H & Sel). apply sorted_in_nth in H. destruct H as (k & Hk & Ek). subst j.
      exists (upd a k (d (nth k (nb i) 0) i)). split.
      + apply Sto; auto. intros Hf. rewrite (proj2 (Ha k Hk) Nj). symmetry. apply Fits; auto.
      + split; [rewrite upd_length; auto|]. intros k' Hk'. rewrite map_app, in_app_iff. cbn [map fst In].
        destruct (Nat.eq_dec k k') as [<-|D].
        * rewrite nth_upd_eq by lia. split; auto. intros N. exfalso. apply N. auto.
        * rewrite nth_upd_neq by auto.
          assert (Dn : nth k (nb i) 0 <> nth k' (nb i) 0).
          { intros E. apply D. apply (proj1 (NoDup_nth (nb i) 0)); auto. apply incr_nodup, nb_incr. auto. }
          destruct (Ha k' Hk') as (A1 & A2). split.
          -- intros [Hl|[Hl|[]]]; [auto|congruence].
          -- intros N. apply A2. tauto.
    - intros i L a Hi (La & Ha) HP. f_equal. apply nth_ext with (d := []) (d' := []).
      { unfold cells. rewrite map_length, seq_length. auto. }
      intros k Hk. rewrite La in Hk. unfold cells.
      rewrite (nth_map_seq (fun k => if sel (nth k (nb i) 0) i then d (nth k (nb i) 0) i else nth k (rb i) [])) by auto.
      assert (HM : forall j, In j (map fst L) <-> In j (filter (fun j => sel j i) (nb i))).
      { intros j. pose proof (Permutation_map fst HP) as HP'. unfold gets in HP'. rewrite map_fst_pair in HP'.
        split; apply Permutation_in; [|symmetry]; auto. }
      destruct (Ha k Hk) as (A1 & A2). destruct (sel (nth k (nb i) 0) i) eqn:S.
      + apply A1. apply HM. apply filter_In. split; auto. apply nth_In. auto.
      + apply A2. rewrite HM, filter_In. intros (_ & S'). congruence.
  Qed.
End Cells.

Section Sto.
  Context {T : Type}.
  Variables (n : nat) (nb : nat -> list nat).
  Hypothesis HN : neighbourhood n nb.
  Lemma sto_unknown i (a : list (list T)) k m : i < n -> k < length (nb i) -> length a = length (nb i) -> store_unknown (nb i) a (nth k (nb i) 0) m = Ok (upd a k m).
  Proof.
    intros Hi Hk La. unfold store_unknown. rewrite lower_bound_nth; auto; [|apply (nb_incr n nb HN); auto].
    unfold wr. destruct (Nat.ltb_spec k (length a)); [auto|lia].
  Qed.
  Lemma sto_known i (a : list (list T)) k m : i < n -> k < length (nb i) -> length a = length (nb i) -> length m = length (nth k a []) ->
    store_known (nb i) a (nth k (nb i) 0) m = Ok (upd a k m).
  Proof.
    intros Hi Hk La Lm. unfold store_known. rewrite request_nth; auto; [|apply (nb_incr n nb HN); auto].
    unfold rd. rewrite (nth_error_nth' a []) by lia. cbn [obind]. rewrite Lm, Nat.leb_refl.
    unfold wr. destruct (Nat.ltb_spec k (length a)); [|lia]. rewrite skipn_all2 by lia. rewrite app_nil_r. auto.
  Qed.
End Sto.

(** ** Parts of one array *)
Section Flat.
  Context {T A : Type}.
  Local Notation buf := (list T).
  Variable n : nat.
  Variables ts ks : nat -> list nat.      (** targets and sources of a rank *)
  Variable d : nat -> nat -> buf.         (** what a rank sends to another one *)
  Variable rb : nat -> buf.
  Variable pos : nat -> nat -> nat.       (** where a rank stores the data of a source *)
  Variable sto : nat -> buf -> nat -> buf -> outcome buf.
  Variable kr : nat -> buf -> A.
  Variable res : nat -> A.
  Hypothesis Tr : forall i t, i < n -> In t (ts i) -> t < n.
  Hypothesis Tn : forall i, i < n -> NoDup (ts i).
  Hypothesis Kn : forall i, i < n -> NoDup (ks i).
  Hypothesis TK : forall i j, i < n -> (In j (ks i) <-> j < n /\ In i (ts j)).
  Hypothesis Room : forall i j, i < n -> In j (ks i) -> pos i j + length (d j i) <= length (rb i).
  Hypothesis Dis : forall i j j', i < n -> In j (ks i) -> In j' (ks i) -> j <> j' ->
    pos i j + length (d j i) <= pos i j' \/ pos i j' + length (d j' i) <= pos i j.
  Hypothesis Sto : forall i a j, i < n -> In j (ks i) -> length a = length (rb i) ->
    sto i a j (d j i) = Ok (put (pos i j) (pos i j + length (d j i)) a (d j i)).

  Definition in_part (i j x : nat) : Prop := pos i j <= x < pos i j + length (d j i).
  Definition flat_inv (i : nat) (l : list nat) (a : buf) : Prop :=
    length a = length (rb i) /\
    (forall x j dflt, In j l -> in_part i j x -> nth x a dflt = nth (x - pos i j) (d j i) dflt) /\
    (forall x dflt, (forall j, In j l -> ~ in_part i j x) -> nth x a dflt = nth x (rb i) dflt).
  Hypothesis Res : forall i a, i < n -> flat_inv i (ks i) a -> kr i a = res i.

  Lemma flat_complete : ncompletes n
    (map (fun i => call (map (fun t => (t, d i t)) (ts i)) (length (ks i)) (Some (ks i)) (sto i) (rb i) (kr i)) (seq 0 n)) (map res (seq 0 n)).
  Proof.
    apply (engine_recvd n (fun i => map (fun t => (t, d i t)) (ts i)) (fun i => length (ks i)) (fun i => Some (ks i)) sto rb kr res
             (fun i => map (fun j => (j, d j i)) (ks i)) (fun i L => flat_inv i (map fst L))).
    - intros i Hi. apply Forall_forall. intros (j, m) H. apply in_map_iff in H. destruct H as (t & E & H). injection E as <- <-. cbn. eauto.
    - intros i Hi. rewrite map_fst_pair. auto.
    - intros i Hi. rewrite map_fst_pair. auto.
    - intros i j m Hi. rewrite !in_map_iff. split.
      + intros (t & E & H). injection E as <- <-. apply TK in H; auto. destruct H. split; auto. exists i. auto.
      + intros (Hj & t & E & H). injection E as -> <-. exists j. split; auto. apply TK; auto.
    - intros i Hi. rewrite map_length. auto.
    - intros i l Hi E j. injection E as <-. rewrite map_fst_pair. auto.
    - intros i Hi. split; auto. split; [cbn; tauto|auto].
    - intros i L a j m Hi (La & H1 & H2) Hin Inc Nj. apply in_map_iff in Hin. destruct Hin as (t & E & Hj). injection E as -> <-.
      exists (put (pos i j) (pos i j + length (d j i)) a (d j i)). split; [apply Sto; auto|].
      pose proof (Room i j Hi Hj) as R. rewrite map_app. cbn [map fst].
      assert (IncL : forall j', In j' (map fst L) -> In j' (ks i)).
      { intros j' H. apply in_map_iff in H. destruct H as ((x, y) & <- & H). apply Inc in H. apply in_map_iff in H.
        destruct H as (z & E & H). injection E as -> <-. auto. }
      split; [|split].
      + unfold put. rewrite !app_length, firstn_length, skipn_length. lia.
      + intros x j' dflt Hj' Hx. rewrite nth_put by lia. apply in_app_or in Hj'. destruct Hj' as [Hj'|[<-|[]]].
        * assert (j <> j') as D by (intros ->; auto). pose proof (Dis i j j' Hi Hj (IncL j' Hj') D) as DD. red in Hx.
          destruct (Nat.leb_spec (pos i j) x), (Nat.ltb_spec x (pos i j + length (d j i))); cbn [andb]; try lia; apply H1; auto.
        * red in Hx. destruct (Nat.leb_spec (pos i j) x), (Nat.ltb_spec x (pos i j + length (d j i))); cbn [andb]; auto; lia.
      + intros x dflt N. rewrite nth_put by lia. assert (~ in_part i j x) as Nx by (apply N; apply in_or_app; right; left; auto).
        assert (nth x a dflt = nth x (rb i) dflt) as E by (apply H2; intros j' Hj'; apply N; apply in_or_app; auto).
        unfold in_part in Nx. destruct (Nat.leb_spec (pos i j) x), (Nat.ltb_spec x (pos i j + length (d j i))); cbn [andb]; auto; lia.
    - intros i L a Hi HI HP. apply Res; auto. pose proof (Permutation_map fst HP) as HP'. rewrite map_fst_pair in HP'.
      destruct HI as (La & H1 & H2). split; auto. split.
      + intros x j dflt Hj. apply H1. eapply Permutation_in; [symmetry; eauto|auto].
      + intros x dflt N. apply H2. intros j Hj. apply N. eapply Permutation_in; eauto.
  Qed.
End Flat.

Lemma list_ext_all {T} (l1 l2 : list T) : length l1 = length l2 -> (forall i d, i < length l1 -> nth i l1 d = nth i l2 d) -> l1 = l2.
Proof.
  intros L H. destruct l1 as [|x l1]; [destruct l2; [auto|discriminate]|]. apply nth_ext with (d := x) (d' := x); auto.
Qed.

Section FlatInv.
  Context {T : Type}.
  Variables (d : nat -> nat -> list T) (rb : nat -> list T) (pos : nat -> nat -> nat).
  Local Notation inv := (flat_inv d rb pos).

  Lemma flat_slice i l a j : inv i l a -> In j l -> pos i j + length (d j i) <= length (rb i) -> slice (pos i j) (pos i j + length (d j i)) a = d j i.
  Proof.
    intros (La & H1 & _) Hj R. apply list_ext_all.
    - rewrite slice_length by lia. lia.
    - intros x dflt Hx. rewrite slice_length in Hx by lia. rewrite nth_slice by lia. rewrite (H1 _ j) by (auto; red; lia). f_equal. lia.
  Qed.
  Lemma flat_before i l a b : inv i l a -> (forall j, In j l -> b <= pos i j) -> firstn b a = firstn b (rb i).
  Proof.
    intros (La & _ & H2) H. apply list_ext_all.
    - rewrite !firstn_length. lia.
    - intros x dflt Hx. rewrite firstn_length in Hx. rewrite !nth_firstn_lt by lia. apply H2. intros j Hj. specialize (H j Hj). unfold in_part. lia.
  Qed.
  Lemma flat_after i l a b : inv i l a -> (forall j, In j l -> pos i j + length (d j i) <= b) -> skipn b a = skipn b (rb i).
  Proof.
    intros (La & _ & H2) H. apply list_ext_all.
    - rewrite !skipn_length. lia.
    - intros x dflt Hx. rewrite !nth_skipn. apply H2. intros j Hj. specialize (H j Hj). unfold in_part. lia.
  Qed.
End FlatInv.

Lemma slice_parts {T} (b : nat -> nat) m (a : list T) : (forall k, k < m -> b k <= b (k + 1)) ->
  slice (b 0) (b m) a = concat (map (fun k => slice (b k) (b (k + 1)) a) (seq 0 m)).
Proof.
  intros H. induction m as [|m IH].
  - cbn. unfold slice. rewrite Nat.sub_diag. auto.
  - rewrite seq_S, map_app, concat_app, <- IH by (intros; apply H; lia). cbn [map concat]. rewrite app_nil_r, Nat.add_0_l, Nat.add_1_r.
    apply slice_app. split; [|rewrite <- Nat.add_1_r; apply H; lia].
    clear IH. induction m as [|m IH]; auto. transitivity (b m); [apply IH; intros; apply H; lia|]. rewrite <- Nat.add_1_r. apply H. lia.
Qed.
Lemma mono_steps (b : nat -> nat) m : (forall k, k < m -> b k <= b (k + 1)) -> forall i j, i <= j -> j <= m -> b i <= b j.
Proof. intros H i j L. induction L as [|j L IH]; intros Hj; auto. transitivity (b j); [apply IH; lia|]. rewrite <- Nat.add_1_r. apply H. lia. Qed.
Lemma split3 {T} (a : list T) b e : b <= e -> a = firstn b a ++ slice b e a ++ skipn e a.
Proof. intros. unfold slice. rewrite <- (firstn_skipn b a) at 1. f_equal. rewrite <- (firstn_skipn (e - b) (skipn b a)) at 1. f_equal. rewrite skipn_skipn. f_equal. lia. Qed.

Lemma position_nth l : NoDup l -> forall k, k < length l -> position (nth k l 0) l = k.
Proof.
  induction l as [|x l IH]; intros N k Hk; cbn in Hk; [lia|]. inversion N; subst. destruct k as [|k]; cbn [nth position].
  - now rewrite Nat.eqb_refl.
  - destruct (Nat.eqb_spec (nth k l 0) x) as [E|D]. { exfalso. apply H1. rewrite <- E. apply nth_In. lia. } f_equal. apply IH; auto. lia.
Qed.
Lemma position_lt l x : In x l -> position x l < length l /\ nth (position x l) l 0 = x.
Proof.
  induction l as [|y l IH]; intros H; [destruct H|]. cbn [position]. destruct (Nat.eqb_spec x y) as [->|D].
  - cbn. split; auto. lia.
  - destruct H as [->|H]; [congruence|]. destruct (IH H). cbn [length nth]. split; [lia|auto].
Qed.
Lemma request_position l x : request l x = position x l.
Proof. induction l as [|y l IH]; auto. cbn [request position]. rewrite (Nat.eqb_sym x y). destruct (y =? x); auto. Qed.
Lemma map_position {B} (f : nat -> B) (g : nat -> B) l : NoDup l -> (forall k, k < length l -> f k = g (nth k l 0)) -> map f (seq 0 (length l)) = map g l.
Proof.
  intros N H. apply nth_ext with (d := f 0) (d' := g 0); [now rewrite !map_length, seq_length|].
  intros k Hk. rewrite map_length, seq_length in Hk. rewrite (map_nth g l 0). rewrite (nth_indep _ (f 0) (f k)) by (rewrite map_length, seq_length; auto).
  rewrite (nth_map_seq f) by auto. auto.
Qed.

Lemma loads_ok {T X} (f p s : X -> nat) l (a : list T) : (forall x, In x l -> p x + s x <= length a) ->
  loads (map (fun x => (f x, p x, s x)) l) a = Ok (map (fun x => (f x, slice (p x) (p x + s x) a)) l).
Proof.
  induction l as [|x l IH]; intros H; auto. cbn [map loads]. unfold load_at. pose proof (H x (or_introl eq_refl)).
  destruct (Nat.leb_spec (p x + s x) (length a)); [|lia]. cbn [obind]. rewrite IH by (intros; apply H; right; auto). auto.
Qed.
