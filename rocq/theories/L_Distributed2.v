(** * From nodes to DOFs, and the values of a DOF on all ranks *)
From Coq Require Import List Arith Bool Lia Sorted.
From Verif Require Import Base M_Distributed S_Distributed L_Equality L_TotalFeti L_Csx2 L_Fill2 L_Utils L_Distributed L_Pattern.
Import ListNotations.
Local Open Scope out_scope.

(** ** The DOFs of nodes *)
Definition node_dofs (dofs : nat) (l : list nat) : list nat := flat_map (fun n => map (fun d => dofs * n + d) (seq 0 dofs)) l.
Lemma node_dofs_in dofs l g : 0 < dofs -> (In g (node_dofs dofs l) <-> In (g / dofs) l).
Proof.
  intros Hd. unfold node_dofs. rewrite in_flat_map. split.
  - intros (n & Hn & H). apply in_map_iff in H. destruct H as (d & <- & H). apply in_seq in H. rewrite Nat.mul_comm, Nat.div_add_l, Nat.div_small, Nat.add_0_r by lia. auto.
  - intros H. exists (g / dofs). split; auto. apply in_map_iff. exists (g mod dofs). split; [symmetry; apply Nat.div_mod; lia|]. apply in_seq. pose proof (Nat.mod_upper_bound g dofs). lia.
Qed.
Lemma node_dofs_seq dofs b n : node_dofs dofs (seq b n) = seq (dofs * b) (dofs * n).
Proof.
  revert b. induction n as [|n IH]; intros b; [rewrite Nat.mul_0_r; auto|]. cbn [seq]. unfold node_dofs in *. cbn [flat_map]. rewrite IH.
  replace (dofs * S n) with (dofs + dofs * n) by lia. rewrite seq_app. f_equal; [|f_equal; lia].
  generalize (dofs * b). intros c. transitivity (map (fun d => c + d) (seq 0 dofs)); auto. clear. replace (seq c dofs) with (seq (c + 0) dofs) by (f_equal; lia). generalize 0 as x. induction dofs as [|k IH]; intros x; auto. cbn [seq map]. rewrite IH. do 2 f_equal. lia.
Qed.
Lemma ss_app_lt (l l' : list nat) : StronglySorted lt l -> StronglySorted lt l' -> (forall x y, In x l -> In y l' -> x < y) -> StronglySorted lt (l ++ l').
Proof.
  induction 1 as [|x l S IH F]; intros S' H; auto. cbn [app]. constructor; [apply IH; auto; intros; apply H; simpl; auto|]. apply Forall_app. split; auto. apply Forall_forall. intros y Hy. apply H; simpl; auto.
Qed.
Lemma node_dofs_sorted dofs l : 0 < dofs -> StronglySorted lt l -> StronglySorted lt (node_dofs dofs l).
Proof.
  intros Hd. induction 1 as [|x l S IH F]; [constructor|]. change (node_dofs dofs (x :: l)) with (map (fun d => dofs * x + d) (seq 0 dofs) ++ node_dofs dofs l). apply ss_app_lt; auto.
  - apply (ss_map lt lt); [|apply ss_seq]. intros; lia.
  - intros a b Ha Hb. apply in_map_iff in Ha. destruct Ha as (d & <- & Ha). apply in_seq in Ha. unfold node_dofs in Hb. apply in_flat_map in Hb. destruct Hb as (n & Hn & Hb). apply in_map_iff in Hb. destruct Hb as (e & <- & Hb).
    rewrite Forall_forall in F. specialize (F n Hn). nia.
Qed.
Lemma node_dofs_app dofs l l' : node_dofs dofs (l ++ l') = node_dofs dofs l ++ node_dofs dofs l'.
Proof. apply flat_map_app. Qed.

(** ** Lists of values *)
Lemma flat_map_filter {A B} (F : A -> list B) f l : (forall x, In x l -> f x = false -> F x = []) -> flat_map F l = flat_map F (filter f l).
Proof. induction l as [|x l IH]; intros H; auto. cbn [flat_map filter]. rewrite IH by (intros; apply H; simpl; auto). destruct (f x) eqn:E; auto. rewrite (H x); simpl; auto. Qed.
Lemma flat_map_ext_in {A B} (F G : A -> list B) l : (forall x, In x l -> F x = G x) -> flat_map F l = flat_map G l.
Proof. induction l as [|x l IH]; intros H; auto. cbn [flat_map]. rewrite IH by (intros; apply H; simpl; auto). rewrite H by (simpl; auto). auto. Qed.
Lemma combine_app {A B} (a a' : list A) (b b' : list B) : length a = length b -> combine (a ++ a') (b ++ b') = combine a b ++ combine a' b'.
Proof. revert b. induction a as [|x a IH]; intros [|y b] H; simpl in *; try lia; auto. rewrite IH by lia. auto. Qed.
Lemma at_pos_not_in {T} g (l : list nat) (v : list T) : ~ In g l -> at_pos g (combine l v) = [].
Proof.
  unfold at_pos. revert v. induction l as [|x l IH]; intros [|y v] H; auto. cbn [combine filter fst]. destruct (Nat.eqb_spec x g) as [->|]; [exfalso; apply H; left; auto|]. apply IH. intros C; apply H; right; auto.
Qed.
Lemma at_pos_nth {T} (d : T) l (v : list T) : NoDup l -> length v = length l -> forall p, p < length l -> at_pos (nth p l 0) (combine l v) = [nth p v d].
Proof.
  unfold at_pos. revert v. induction l as [|x l IH]; intros [|y v] N L p Hp; simpl in L, Hp; try lia. inversion N; subst. cbn [combine filter fst]. destruct p as [|p]; cbn [nth].
  - rewrite Nat.eqb_refl. cbn [map snd]. f_equal. apply (at_pos_not_in x l v). auto.
  - destruct (Nat.eqb_spec x (nth p l 0)) as [E|]; [exfalso; apply H1; rewrite E; apply nth_In; lia|]. apply IH; auto; lia.
Qed.
Lemma nth_skipn' {A} e i (l : list A) d : nth i (skipn e l) d = nth (e + i) l d.
Proof. revert l. induction e as [|e IH]; intros [|x l]; auto; [destruct i; auto|]. simpl. apply IH. Qed.
Lemma at_pos_slice {T} g b e l (v : list T) : b <= e <= length l -> length l <= length v -> (forall i, i < length l -> nth i l 0 = g -> b <= i < e) ->
  at_pos g (combine (slice b e l) (slice b e v)) = at_pos g (combine l v).
Proof.
  intros H Hv HG. assert (S3 : forall {A} (x : list A), x = firstn b x ++ slice b e x ++ skipn e x).
  { intros A x. unfold slice. rewrite <- (firstn_skipn b x) at 1. f_equal. rewrite <- (firstn_skipn (e - b) (skipn b x)) at 1. f_equal. rewrite skipn_skipn. f_equal. lia. }
  rewrite (S3 _ l) at 2. rewrite (S3 _ v) at 2. rewrite combine_app by (rewrite !firstn_length; lia). rewrite combine_app by (rewrite !slice_length; lia). rewrite !at_pos_app.
  rewrite (at_pos_not_in g (firstn b l)), (at_pos_not_in g (skipn e l)), app_nil_r; auto.
  - intros C. apply (In_nth _ _ 0) in C. destruct C as (i & Hi & E). rewrite skipn_length in Hi. rewrite nth_skipn' in E. specialize (HG (e + i) ltac:(lia) E). lia.
  - intros C. apply (In_nth _ _ 0) in C. destruct C as (i & Hi & E). rewrite firstn_length in Hi. specialize (HG i ltac:(lia)). rewrite <- (firstn_skipn b l), app_nth1 in HG by (rewrite firstn_length; lia). specialize (HG E). lia.
Qed.
Lemma at_pos_map_inj {T} (f : nat -> nat) g l (v : list T) : (forall x, In x l -> f x = f g -> x = g) -> at_pos (f g) (combine (map f l) v) = at_pos g (combine l v).
Proof.
  unfold at_pos. revert v. induction l as [|x l IH]; intros [|y v] H; auto. cbn [map combine filter fst]. destruct (Nat.eqb_spec (f x) (f g)) as [E|E].
  - rewrite (H x (or_introl eq_refl) E), Nat.eqb_refl. cbn [map]. f_equal. apply IH. intros; apply H; simpl; auto.
  - destruct (Nat.eqb_spec x g) as [->|]; [congruence|]. apply IH. intros; apply H; simpl; auto.
Qed.

Section Numbered.
  Variables (dofs : nat) (nb : list (list nat)) (us : list uniq_info).
  Hypothesis dofs_pos : 0 < dofs.
  Hypothesis N : numbered nb us.
  Let P := length us.
  Let u r := nth r us no_info.
  Definition nst (r : nat) : nat := dofs * u_offset (u r).
  Definition nfin (r : nat) : nat := dofs * (u_offset (u r) + u_size (u r)).
  Definition nhalo (r : nat) : list nat := node_dofs dofs (halo_nodes (u r)).
  Definition nnb (r : nat) : list nat := nth r nb [].

  Lemma n_st_fin r : r < P -> nst r <= nfin r.
  Proof. intros _. unfold nst, nfin. nia. Qed.
  Lemma n_ordered r s : r < s -> s < P -> nfin r <= nst s.
  Proof.
    intros H Hs. assert (G : u_offset (u r) + u_size (u r) <= u_offset (u s)); [|unfold nst, nfin; nia].
    induction H as [|s H IH].
    - pose proof (nu_offsets nb us N r Hs) as E. fold (u r) in E. fold (u (S r)) in E. lia.
    - pose proof (nu_offsets nb us N s Hs) as E. fold (u s) in E. fold (u (S s)) in E. specialize (IH ltac:(lia)). lia.
  Qed.
  Lemma n_halo_sorted r : r < P -> StronglySorted lt (nhalo r).
  Proof. intros H. apply node_dofs_sorted; auto. apply (nu_halo nb us N r H). Qed.
  Lemma n_own r g : r < P -> (nst r <= g < nfin r <-> owner dofs us r g).
  Proof.
    intros Hr. unfold owner, owns, nst, nfin. fold (u r). pose proof (Nat.div_mod g dofs ltac:(lia)). pose proof (Nat.mod_upper_bound g dofs ltac:(lia)). split.
    - intros H'. split; auto. nia.
    - intros [_ H']. nia.
  Qed.
  Lemma n_halo_owner r g : r < P -> In g (nhalo r) -> exists o, o < r /\ nst o <= g < nfin o /\ In o (nnb r).
  Proof.
    intros Hr H. apply node_dofs_in in H; auto. destruct (nu_owner nb us N r _ Hr H) as (o & L & O & I). exists o. split; auto. split; auto. apply n_own; [unfold P in *; lia|]. split; auto. unfold P in *; lia.
  Qed.
  Lemma n_nb_sorted r : r < P -> StronglySorted lt (nnb r).
  Proof. apply (nu_sorted nb us N). Qed.
  Lemma n_nb_sym r j : r < P -> In j (nnb r) -> j < P /\ j <> r /\ In r (nnb j).
  Proof. apply (nu_symmetric nb us N). Qed.

  Lemma stored_eq r : stored_dofs dofs (u r) = nhalo r ++ seq (nst r) (nfin r - nst r).
  Proof.
    unfold stored_dofs, nhalo, nst, nfin. rewrite flat_map_app. f_equal. fold (node_dofs dofs (seq (u_offset (u r)) (u_size (u r)))). rewrite node_dofs_seq. f_equal. nia.
  Qed.
  Lemma stored_length r : length (stored_dofs dofs (u r)) = vsize nst nfin nhalo r.
  Proof. rewrite stored_eq, app_length, seq_length. auto. Qed.
  Lemma stored_nodup r : r < P -> NoDup (stored_dofs dofs (u r)).
  Proof.
    intros Hr. apply ss_nodup. rewrite stored_eq. apply ss_app_lt; [apply n_halo_sorted; auto|apply ss_seq|].
    intros x y Hx Hy. apply in_seq in Hy. destruct (n_halo_owner r x Hr Hx) as (o & L & G & _). pose proof (n_ordered o r L Hr). lia.
  Qed.

  (** *** The decomposition *)
  Lemma fill_halo_ok r : r < P -> fill_halo dofs (u r) = Ok (nhalo r).
  Proof.
    intros Hr. destruct (nu_halo nb us N r Hr) as [L _]. fold (u r) in L. unfold fill_halo, nhalo, node_dofs, halo_nodes.
    assert (G : forall k acc, k <= u_nhalo (u r) -> foldM (fun halo n => foldM (fun halo dof => p <- rd (u_position (u r)) n ;; Ok (halo ++ [dofs * p + dof])) (seq 0 dofs) halo) (seq 0 k) acc =
      Ok (acc ++ flat_map (fun n => map (fun d => dofs * n + d) (seq 0 dofs)) (firstn k (u_position (u r))))).
    { induction k as [|k IH]; intros acc Hk; [simpl; rewrite app_nil_r; auto|]. rewrite seq_S, foldM_app, IH by lia. cbn [obind foldM plus]. rewrite (foldM_append _ (fun d => dofs * nth k (u_position (u r)) 0 + d)).
      - cbn [obind]. rewrite firstn_snoc by lia. rewrite flat_map_app. cbn [flat_map]. rewrite app_nil_r, <- app_assoc. auto.
      - intros a d Hd. rewrite (rd_ok _ _ 0) by lia. auto. }
    rewrite G by lia. auto.
  Qed.
  Lemma us_map : us = map u (seq 0 P).
  Proof. apply list_as_map. auto. Qed.
  Lemma nb_map : nb = map nnb (seq 0 P).
  Proof. apply list_as_map. apply (nu_length nb us N). Qed.
  Lemma update_ok : update_neighDOF nb (map (fun v => dofs * u_offset v) us) = Ok (map (ndof nst nnb) (seq 0 P)).
  Proof.
    unfold update_neighDOF, gather_neighbors. rewrite nb_map, us_map, map_map. fold nst. rewrite combine_map, map_map. cbn [fst snd]. rewrite combine_map. apply mapM_map. intros r Hr. apply in_seq in Hr. cbn [fst snd].
    rewrite (mapM_ok _ nst). 2:{ intros j Hj. destruct (n_nb_sym r j ltac:(lia) Hj) as (H1 & _). rewrite (rd_ok _ _ 0) by (rewrite map_length, seq_length; auto). rewrite nth_map_seq by auto. auto. }
    cbn [obind]. rewrite repeat_length, map_length. destruct (Nat.ltb_spec (length (nnb r) + 1) (length (nnb r))); [lia|]. unfold ndof. do 2 f_equal. rewrite repeat_app. rewrite skipn_app, skipn_all2 by (rewrite repeat_length; lia). rewrite repeat_length, Nat.sub_diag. auto.
  Qed.
  Lemma decompose_ok : decompose dofs nb us = Ok (map (D nst nfin nhalo nnb) (seq 0 P)).
  Proof.
    unfold decompose. rewrite update_ok. rewrite us_map at 1. rewrite (mapM_map _ _ nhalo) by (intros r Hr; apply in_seq in Hr; apply fill_halo_ok; lia). cbn [obind].
    rewrite us_map, nb_map at 1. rewrite combine_map3, combine_map, map_map. f_equal.
  Qed.

  (** *** The sum of the values of a DOF *)
  Section Sum.
    Context {T : Type} (zero : T) (add : T -> T -> T).
    Variable vs : list (list T).
    Hypothesis V : is_vector dofs us vs.
    Let v r := nth r vs [].
    Lemma v_length r : r < P -> length (v r) = vsize nst nfin nhalo r.
    Proof. intros H. rewrite <- stored_length. apply V. auto. Qed.

    Lemma incoming_at o g : o < P -> nst o <= g < nfin o ->
      nth (lpos nst nhalo o g) (v o) zero :: at_pos (lpos nst nhalo o g) (incoming nst nfin nhalo nnb v o) = values dofs us vs g.
    Proof.
      intros Ho G. unfold values. fold P. set (F := fun r => map snd (filter (fun x : nat * T => fst x =? g) (combine (stored_dofs dofs (nth r us no_info)) (nth r vs [])))).
      assert (FE : forall r, F r = at_pos g (combine (stored_dofs dofs (u r)) (v r))) by auto.
      assert (F1 : forall r, r < o -> F r = []).
      { intros r Hr. rewrite FE. apply at_pos_not_in. rewrite stored_eq, in_app_iff, in_seq. intros [C|C].
        - destruct (n_halo_owner r g ltac:(lia) C) as (q & L & Gq & _). pose proof (n_ordered q o ltac:(lia) Ho). lia.
        - pose proof (n_ordered r o Hr Ho). lia. }
      assert (F2 : F o = [nth (lpos nst nhalo o g) (v o) zero]).
      { rewrite FE. assert (E : g = nth (lpos nst nhalo o g) (stored_dofs dofs (u o)) 0). { rewrite stored_eq. unfold lpos. rewrite app_nth2 by lia. rewrite seq_nth by lia. lia. }
        rewrite E at 1. apply at_pos_nth; [apply stored_nodup; auto|rewrite stored_length; apply v_length; auto|]. rewrite stored_length. apply lpos_range. auto. }
      assert (F3 : forall r, o < r -> r < P -> ~ In r (nnb o) -> F r = []).
      { intros r Hr HP C. rewrite FE. apply at_pos_not_in. rewrite stored_eq, in_app_iff, in_seq. intros [C'|C'].
        - destruct (n_halo_owner r g HP C') as (q & L & Gq & I). assert (q = o) by (apply (owner_unique P nst nfin n_ordered q o g); auto; lia). subst q. apply C. apply (n_nb_sym r o HP I).
        - pose proof (n_ordered o r Hr HP). lia. }
      assert (S3 : seq 0 P = seq 0 o ++ o :: seq (S o) (P - S o)). { replace P with (o + S (P - S o)) at 1 by lia. rewrite seq_app. auto. }
      rewrite S3, flat_map_app. cbn [flat_map]. rewrite (flat_map_filter F (fun _ => false) (seq 0 o)) by (intros x Hx _; apply in_seq in Hx; apply F1; lia).
      replace (filter (fun _ => false) (seq 0 o)) with (@nil nat) by (clear; induction (seq 0 o); auto). cbn [flat_map app]. rewrite F2. cbn [app]. f_equal.
      rewrite (flat_map_filter F (fun r => existsb (Nat.eqb r) (nnb o))).
      2:{ intros r Hr E. apply in_seq in Hr. apply F3; try lia. intros C. assert (existsb (Nat.eqb r) (nnb o) = true) by (apply existsb_exists; exists r; split; auto; apply Nat.eqb_refl). congruence. }
      unfold incoming. rewrite at_pos_flat. rewrite (flat_map_filter _ (fun j => o <? j) (nnb o)).
      2:{ intros j Hj E. unfold sbuf. rewrite E. auto. }
      replace (filter (fun r => existsb (Nat.eqb r) (nnb o)) (seq (S o) (P - S o))) with (filter (fun j => o <? j) (nnb o)).
      2:{ apply (L_Numbering.ss_ext); [apply ss_filter, n_nb_sorted; auto|apply ss_filter, ss_seq|]. intros j. rewrite !filter_In, in_seq, existsb_exists. split.
          - intros [Hj L]. apply Nat.ltb_lt in L. destruct (n_nb_sym o j Ho Hj). split; [lia|]. exists j. split; auto. apply Nat.eqb_refl.
          - intros [L (x & Hx & E)]. apply Nat.eqb_eq in E. subst x. split; auto. apply Nat.ltb_lt. lia. }
      apply flat_map_ext_in. intros j Hj. apply filter_In in Hj. destruct Hj as [Hj L]. apply Nat.ltb_lt in L. destruct (n_nb_sym o j Ho Hj) as (HjP & _ & Io).
      rewrite at_pos_map_inj. 2:{ intros x Hx E. apply sbuf_own in Hx. unfold lpos in E. lia. }
      apply (In_nth _ _ 0) in Io. destruct Io as (n & Hn & En). assert (Hl : n < leading j (nnb j)) by (apply leading_nth; [apply n_nb_sorted; auto|auto|lia]).
      destruct (seg_range P nst nfin nhalo nnb n_st_fin n_ordered n_halo_sorted n_halo_owner n_nb_sorted n_nb_sym j n HjP Hl) as (S1 & S2 & S4 & S5).
      rewrite En in *. unfold msg. rewrite FE, stored_eq. set (b := below _ (nhalo j)) in S2, S4, S5. set (e := below _ (nhalo j)) in S1, S4, S5. rewrite S1, S2, S5.
      pose proof (v_length j HjP) as Lv. unfold vsize in Lv. rewrite at_pos_slice; [|lia|lia|].
      - rewrite <- (firstn_skipn (length (nhalo j)) (v j)) at 2. rewrite combine_app by (rewrite firstn_length; lia). rewrite at_pos_app. rewrite (at_pos_not_in g (seq _ _)).
        + rewrite app_nil_r. rewrite <- (app_nil_r (nhalo j)) at 1. rewrite <- (firstn_skipn (length (nhalo j)) (v j)) at 1. rewrite combine_app by (rewrite firstn_length; lia). rewrite app_nil_r. auto.
        + rewrite in_seq. pose proof (n_ordered o j L HjP). lia.
      - intros i Hi E. assert (I : In g (sbuf nst nfin nhalo j o)). { unfold sbuf. destruct (Nat.ltb_spec o j); [|lia]. unfold seg. apply filter_In. split; [rewrite <- E; apply nth_In; auto|]. apply owned_iff. auto. }
        rewrite S5 in I. apply (In_nth _ _ 0) in I. destruct I as (k & Hk & Ek). rewrite slice_length in Hk by lia. rewrite nth_slice in Ek by lia.
        assert (i = b + k) as ->; [|lia]. apply (NoDup_nth (nhalo j) 0); auto; [apply ss_nodup, n_halo_sorted; auto|lia|congruence].
    Qed.
  End Sum.

  (** *** The calls *)
  Section Calls.
    Context {T : Type} (zero : T) (add : T -> T -> T).
    Definition Ready (ys : list (sync_data T)) : Prop := length ys = P /\ forall r, r < P -> ready nst nfin nhalo nnb r (nth r ys no_data).

    Lemma has_value_cases vs r g x : is_vector dofs us vs -> has_value dofs us vs r g x -> r < P /\
      ((exists p o, p < length (nhalo r) /\ g = nth p (nhalo r) 0 /\ x = nth p (nth r vs []) zero /\ o < r /\ nst o <= g < nfin o) \/
       (nst r <= g < nfin r /\ x = nth (lpos nst nhalo r g) (nth r vs []) zero)).
    Proof.
      intros V (Hr & p & Hg & Hx). split; auto. fold (u r) in Hg. assert (Hp : p < length (stored_dofs dofs (u r))) by (apply nth_error_Some; congruence).
      rewrite stored_length in Hp. apply (nth_error_nth _ _ 0) in Hg. apply (nth_error_nth _ _ zero) in Hx. rewrite stored_eq in Hg. unfold vsize in Hp. destruct (Nat.lt_ge_cases p (length (nhalo r))) as [L|L].
      - left. rewrite app_nth1 in Hg by auto. destruct (n_halo_owner r g Hr) as (o & Lo & G & _). { rewrite <- Hg. apply nth_In. auto. } exists p, o. auto.
      - right. rewrite app_nth2, seq_nth in Hg by lia. split; [lia|]. unfold lpos. rewrite <- Hx. f_equal. lia.
    Qed.
    Lemma has_value_own vs o g : is_vector dofs us vs -> o < P -> nst o <= g < nfin o -> has_value dofs us vs o g (nth (lpos nst nhalo o g) (nth o vs []) zero).
    Proof.
      intros V Ho G. split; auto. exists (lpos nst nhalo o g). fold (u o). pose proof (lpos_range nst nfin nhalo o g G) as L. split.
      - rewrite (nth_error_nth' _ 0) by (rewrite stored_length; lia). f_equal. rewrite stored_eq. unfold lpos. rewrite app_nth2 by lia. rewrite seq_nth by lia. lia.
      - apply nth_error_nth'. rewrite v_length by auto. lia.
    Qed.
    Lemma has_value_halo vs r p : is_vector dofs us vs -> r < P -> p < length (nhalo r) -> has_value dofs us vs r (nth p (nhalo r) 0) (nth p (nth r vs []) zero).
    Proof.
      intros V Hr Hp. split; auto. exists p. fold (u r). split.
      - rewrite (nth_error_nth' _ 0) by (rewrite stored_length; unfold vsize; lia). f_equal. rewrite stored_eq, app_nth1; auto.
      - apply nth_error_nth'. rewrite v_length by auto. unfold vsize. lia.
    Qed.
    Lemma is_vector_intro vs : length vs = P -> (forall r, r < P -> length (nth r vs []) = vsize nst nfin nhalo r) -> is_vector dofs us (T := T) vs.
    Proof. intros H1 H2. split; auto. intros r Hr. fold (u r). rewrite stored_length. auto. Qed.

    Lemma gather_call ys vs : Ready ys -> is_vector dofs us vs -> exists ys' vs', gather_from_upper add (ys, vs) = Ok (ys', vs') /\ Ready ys' /\ is_vector dofs us vs' /\
      (forall r g, r < P -> nst r <= g < nfin r -> nth (lpos nst nhalo r g) (nth r vs' []) zero = total zero add (values dofs us vs g)) /\
      (forall r p, r < P -> p < length (nhalo r) -> nth p (nth r vs' []) zero = nth p (nth r vs []) zero).
    Proof.
      intros (Ly & R) V. pose proof (proj1 V) as Lvs.
      destruct (gather_ok P nst nfin nhalo nnb n_st_fin n_ordered n_halo_sorted n_halo_owner n_nb_sorted n_nb_sym zero add (fun r => nth r ys no_data) (fun r => nth r vs []) R (fun r => v_length vs V r)) as (ys' & vs' & E & L1 & L2 & R' & Q).
      rewrite <- (list_as_map ys no_data P Ly), <- (list_as_map vs [] P Lvs) in E. exists ys', vs'. split; auto. split; [split; auto|]. split; [apply is_vector_intro; auto; apply Q|]. split.
      - intros r g Hr G. destruct (Q r Hr) as [_ Q2]. rewrite Q2 by (apply lpos_range; auto). rewrite <- (incoming_at zero vs V r g Hr G). auto.
      - intros r p Hr Hp. destruct (Q r Hr) as [_ Q2]. rewrite Q2 by (unfold vsize; lia). replace (at_pos p _) with (@nil T); auto. symmetry.
        destruct (at_pos p (incoming nst nfin nhalo nnb (fun r0 => nth r0 vs []) r)) as [|x t] eqn:F; auto. assert (In x (at_pos p (incoming nst nfin nhalo nnb (fun r0 => nth r0 vs []) r))) as I by (rewrite F; left; auto).
        apply at_pos_in in I. unfold incoming in I. apply in_flat_map in I. destruct I as (j & Hj & I). apply in_combine_l, in_map_iff in I. destruct I as (g & I & Hg). unfold lpos in I. lia.
    Qed.
    Lemma scatter_call ys vs : Ready ys -> is_vector dofs us vs -> exists ys' vs', scatter_to_upper (ys, vs) = Ok (ys', vs') /\ Ready ys' /\ is_vector dofs us vs' /\
      (forall r g, r < P -> nst r <= g < nfin r -> nth (lpos nst nhalo r g) (nth r vs' []) zero = nth (lpos nst nhalo r g) (nth r vs []) zero) /\
      (forall r p o, r < P -> p < length (nhalo r) -> o < P -> nst o <= nth p (nhalo r) 0 < nfin o -> nth p (nth r vs' []) zero = nth (lpos nst nhalo o (nth p (nhalo r) 0)) (nth o vs []) zero).
    Proof.
      intros (Ly & R) V. pose proof (proj1 V) as Lvs.
      destruct (scatter_ok P nst nfin nhalo nnb n_st_fin n_ordered n_halo_sorted n_halo_owner n_nb_sorted n_nb_sym zero add (fun r => nth r ys no_data) (fun r => nth r vs []) R (fun r => v_length vs V r)) as (ys' & vs' & E & L1 & L2 & R' & Q).
      rewrite <- (list_as_map ys no_data P Ly), <- (list_as_map vs [] P Lvs) in E. exists ys', vs'. split; auto. split; [split; auto|]. split; [apply is_vector_intro; auto; apply Q|]. split.
      - intros r g Hr G. destruct (Q r Hr) as (_ & Q2 & _). apply Q2. apply lpos_range; auto.
      - intros r p o Hr Hp Ho G. destruct (Q r Hr) as (_ & _ & Q2). apply Q2; auto.
    Qed.
    Lemma synchronize_call ys vs : Ready ys -> is_vector dofs us vs -> exists ys' vs', synchronize add (ys, vs) = Ok (ys', vs') /\ Ready ys' /\ is_vector dofs us vs' /\
      (forall r g x, has_value dofs us vs' r g x -> x = total zero add (values dofs us vs g)).
    Proof.
      intros R V. destruct (gather_call ys vs R V) as (ys1 & vs1 & E1 & R1 & V1 & G1 & G2). destruct (scatter_call ys1 vs1 R1 V1) as (ys2 & vs2 & E2 & R2 & V2 & S1 & S2).
      exists ys2, vs2. unfold synchronize. rewrite E1. cbn [obind]. rewrite E2. split; auto. split; auto. split; auto. intros r g x H. destruct (has_value_cases vs2 r g x V2 H) as (Hr & [(p & o & Hp & -> & -> & Lo & G)|(G & ->)]).
      - rewrite (S2 r p o) by (auto; lia). apply G1; auto. lia.
      - rewrite S1 by auto. apply G1; auto.
    Qed.
    Lemma run_calls_ok calls ys : Ready ys -> Forall (fun c => is_vector dofs us (snd c)) calls -> exists ys', run_calls add calls ys = Ok ys' /\ Ready ys'.
    Proof.
      intros R F. revert ys R. induction F as [|(c, vs) calls V F IH]; intros ys R; [exists ys; auto|]. unfold run_calls in *. cbn [foldM fst snd]. cbn [snd] in V.
      assert (exists ys' vs', run_call add c (ys, vs) = Ok (ys', vs') /\ Ready ys') as (ys' & vs' & E & R').
      { destruct c; cbn [run_call]; [destruct (synchronize_call ys vs R V) as (a & b & E & Ra & _)|destruct (scatter_call ys vs R V) as (a & b & E & Ra & _)|destruct (gather_call ys vs R V) as (a & b & E & Ra & _)]; eauto. }
      rewrite E. cbn [obind]. apply IH. auto.
    Qed.
    Lemma setup_ok : exists ds ys, decompose dofs nb us = Ok ds /\ init zero ds = Ok ys /\ Ready ys.
    Proof.
      destruct (init_ok P nst nfin nhalo nnb n_st_fin n_ordered n_halo_sorted n_halo_owner n_nb_sorted n_nb_sym zero) as (ys & E & L & R).
      eexists; exists ys. split; [apply decompose_ok|]. split; [exact E|]. split; auto.
    Qed.
  End Calls.
End Numbered.
