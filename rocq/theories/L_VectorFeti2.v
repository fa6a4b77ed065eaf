(** * Lemmas for vectors torn to domains: all ranks *)
From Coq Require Import List Arith Bool Lia Sorted Permutation.
From Verif Require Import Base S_Assembly M_Assembly L_Numbering L_Pattern L_Pattern5 L_Equality M_Distributed S_Distributed L_Distributed L_Distributed2 L_Fill2 M_VectorFeti S_VectorFeti L_VectorFeti.
Import ListNotations.
Local Open Scope out_scope.

Lemma history_ready {T} (zero : T) add dofs nb us ys : 0 < dofs -> numbered nb us -> history zero add dofs nb us ys -> Ready dofs nb us ys.
Proof.
  intros Hd N (ds & ys0 & calls & E1 & E2 & F & E3). destruct (setup_ok dofs nb us Hd N zero) as (ds' & ys' & E1' & E2' & R). rewrite E1 in E1'. injection E1' as <-. rewrite E2 in E2'. injection E2' as <-.
  destruct (run_calls_ok dofs nb us Hd N zero add calls ys0 R F) as (ys'' & E & R'). congruence.
Qed.
Lemma history_synchronize {T} (zero : T) add dofs nb us ys vs ys' vs' : history zero add dofs nb us ys -> is_vector dofs us vs -> synchronize add (ys, vs) = Ok (ys', vs') -> history zero add dofs nb us ys'.
Proof.
  intros (ds & ys0 & calls & E1 & E2 & F & E3) V E. exists ds, ys0, (calls ++ [(Synchronize, vs)]). split; auto. split; auto. split.
  - apply Forall_app. split; auto.
  - unfold run_calls in *. rewrite foldM_app, E3. cbn [obind foldM fst snd run_call]. rewrite E. auto.
Qed.

Lemma node_dofs_length dofs l : length (node_dofs dofs l) = dofs * length l.
Proof. induction l as [|p l IH]; cbn; [lia|]. fold (node_dofs dofs l). rewrite app_length, map_length, seq_length, IH. lia. Qed.
Lemma node_dofs_nth dofs l : 0 < dofs -> forall k, k < dofs * length l -> nth k (node_dofs dofs l) 0 = dofs * nth (k / dofs) l 0 + k mod dofs.
Proof.
  intros Hd. induction l as [|p l IH]; intros k Hk; [cbn in Hk; lia|]. cbn [node_dofs flat_map]. fold (node_dofs dofs l). destruct (Nat.lt_ge_cases k dofs) as [H|H].
  - rewrite app_nth1 by (rewrite map_length, seq_length; auto). rewrite nth_map_seq by auto. rewrite Nat.div_small, Nat.mod_small by auto. auto.
  - rewrite app_nth2 by (rewrite map_length, seq_length; auto). rewrite map_length, seq_length. cbn [length] in Hk. rewrite IH by lia.
    replace k with (k - dofs + 1 * dofs) at 3 4 by lia. rewrite Nat.div_add, Nat.mod_add by lia. rewrite Nat.add_1_r. cbn [nth]. auto.
Qed.

Section Ranks.
  Variables (dofs : nat) (nb : list (list nat)) (us : list uniq_info) (ts : list torn) (fs : list feti).
  Hypothesis dofs_pos : 0 < dofs.
  Hypothesis N : numbered nb us.
  Hypothesis mesh : torn_mesh dofs us ts.
  Hypothesis dec : decomposed_ranks dofs ts fs.
  Notation P := (length us).
  Notation t r := (nth r ts no_torn).
  Notation no_feti := {| f_begin := 0; f_end := 0; f_rows := [] |}.
  Notation u r := (nth r us no_info).

  Lemma stored_size r : r < P -> length (stored_dofs dofs (u r)) = t_size dofs (t r).
  Proof. intros Hr. unfold stored_dofs. change (length (node_dofs dofs (halo_nodes (u r) ++ seq (u_offset (u r)) (u_size (u r)))) = t_size dofs (t r)).
    rewrite node_dofs_length, app_length, seq_length. unfold t_size. destruct mesh as [_ M]. rewrite (proj2 (M r Hr)). auto. Qed.
  Lemma dec_at r : r < P -> decomposed dofs (t r) (nth r fs no_feti).
  Proof. intros Hr. destruct dec as [L D]. destruct mesh as [LM _]. apply D. lia. Qed.
  Lemma ok_at r : r < P -> torn_ok dofs (t r).
  Proof. intros Hr. destruct mesh as [_ M]. apply M; auto. Qed.
  Lemma ts_length : length ts = P. Proof. apply mesh. Qed.
  Lemma fs_length : length fs = P. Proof. destruct dec as [L _]. rewrite L. apply ts_length. Qed.

  Context {T : Type} (zero : T) (add mul : T -> T -> T) (div : T -> nat -> T).
  Lemma local_sums_eq (doms : list (list (list T))) : length doms = P ->
    local_sums zero add dofs ts doms = map (fun r => map (fun k => fold_left add (copies dofs (t r) (nth r doms []) k) zero) (seq 0 (t_size dofs (t r)))) (seq 0 P).
  Proof.
    intros L. unfold local_sums. rewrite (list_as_map ts no_torn P) at 1 by apply ts_length. rewrite (list_as_map doms [] P) at 1 by auto.
    rewrite combine_map, map_map. reflexivity.
  Qed.
  Lemma local_sums_vector (doms : list (list (list T))) : length doms = P -> is_vector dofs us (local_sums zero add dofs ts doms).
  Proof.
    intros L. rewrite local_sums_eq by auto. split; [rewrite map_length, seq_length; auto|]. intros r Hr. rewrite nth_map_seq by auto. rewrite map_length, seq_length. symmetry. apply stored_size; auto.
  Qed.
  Lemma sum_to_ok ys (doms : list (list (list T))) vs : history zero add dofs nb us ys -> is_feti_vector dofs ts doms -> is_vector dofs us vs ->
    exists ys' vs', sum_to zero add fs doms (ys, vs) = Ok (ys', vs') /\ history zero add dofs nb us ys' /\ is_vector dofs us vs' /\
      forall r g x, has_value dofs us vs' r g x -> x = total zero add (values dofs us (local_sums zero add dofs ts doms) g).
  Proof.
    intros H [LD D] [LV V]. pose proof ts_length as LT. rewrite LT in *. pose proof (history_ready zero add dofs nb us ys dofs_pos N H) as R.
    unfold sum_to. cbn [fst snd].
    assert (E : mapM (fun x : feti * (list (list T) * list T) => sum_local zero add (fst x) (fst (snd x)) (snd (snd x))) (combine fs (combine doms vs)) = Ok (local_sums zero add dofs ts doms)).
    { rewrite (list_as_map fs no_feti P) by apply fs_length. rewrite (list_as_map doms [] P) at 1 by auto. rewrite (list_as_map vs [] P) by auto. rewrite combine_map3.
      rewrite local_sums_eq by auto. apply mapM_map. intros r Hr. apply in_seq in Hr. cbn [fst snd]. apply sum_local_ok; auto; [apply ok_at; lia|apply dec_at; lia|..].
      - rewrite V by lia. apply stored_size; lia.
      - apply D; lia. }
    rewrite E. cbn [obind]. destruct (synchronize_call dofs nb us dofs_pos N zero add ys (local_sums zero add dofs ts doms) R) as (ys' & vs' & ES & R' & V' & HV); [apply local_sums_vector; auto|].
    exists ys', vs'. split; auto. split; [|split; auto]. apply (history_synchronize zero add dofs nb us ys (local_sums zero add dofs ts doms) ys' vs'); auto. apply local_sums_vector; auto.
  Qed.
  Lemma average_to_ok ys (doms : list (list (list T))) vs : history zero add dofs nb us ys -> is_feti_vector dofs ts doms -> is_vector dofs us vs ->
    exists ys' vs', average_to zero add div fs doms (ys, vs) = Ok (ys', vs') /\ history zero add dofs nb us ys' /\ is_vector dofs us vs' /\
      forall r g x k, has_value dofs us vs' r g x -> nth_error (stored_dofs dofs (u r)) k = Some g ->
        x = div (total zero add (values dofs us (local_sums zero add dofs ts doms) g)) (length (t_domains dofs (t r) k)).
  Proof.
    intros H D V. destruct (sum_to_ok ys doms vs H D V) as (ys1 & vs1 & E & H1 & V1 & Q). unfold average_to. rewrite E. cbn [obind].
    destruct V1 as [L1 V1].
    rewrite (list_as_map fs no_feti P) by apply fs_length. rewrite (list_as_map vs1 [] P) by auto. rewrite combine_map.
    rewrite (mapM_map _ _ (fun r => map (fun x : nat * T => div (snd x) (length (t_domains dofs (t r) (fst x)))) (combine (seq 0 (t_size dofs (t r))) (nth r vs1 [])))).
    2:{ intros r Hr. apply in_seq in Hr. cbn [fst snd]. apply (divide_ok dofs); auto; [apply ok_at; lia|apply dec_at; lia|]. rewrite V1 by lia. apply stored_size. lia. }
    cbn [obind]. eexists; eexists. split; [reflexivity|]. split; auto. split.
    - split; [rewrite map_length, seq_length; auto|]. intros r Hr. rewrite nth_map_seq by auto. rewrite map_length, combine_length, seq_length, V1 by auto. rewrite stored_size by auto. lia.
    - intros r g x k (Hr & p & Ep & Ex) Ek. rewrite nth_map_seq in Ex by auto. apply (nth_error_nth_iff _ _ _ zero) in Ex. destruct Ex as [Lp Ex].
      rewrite map_length, combine_length, seq_length in Lp. assert (p < length (nth r vs1 [])) by lia.
      assert (k = p). { pose proof (stored_nodup dofs nb us dofs_pos N r Hr) as ND. rewrite NoDup_nth_error in ND. apply ND; [apply nth_error_Some; congruence|]. rewrite Ek, Ep. auto. }
      subst k. rewrite (nth_map _ _ _ _ (0, zero)) in Ex by (rewrite combine_length, seq_length; lia). rewrite combine_nth in Ex by (rewrite seq_length, V1 by auto; rewrite stored_size by auto; auto).
      rewrite seq_nth in Ex by lia. cbn [fst snd Nat.add] in Ex. rewrite <- Ex. f_equal. apply (Q r g). split; auto. exists p. split; auto. apply nth_error_nth'; auto.
  Qed.

  (** *** The norm *)
  Notation nodes r := (halo_nodes (u r) ++ seq (u_offset (u r)) (u_size (u r))).
  Definition first_own (r k : nat) : bool := match t_domains dofs (t r) k with d :: _ => t_own (t r) d | [] => false end.
  Definition counted (r : nat) : list nat := filter (first_own r) (seq 0 (t_size dofs (t r))).
  Definition counted_dofs (r : nat) : list nat := map (fun k => nth k (stored_dofs dofs (u r)) 0) (counted r).
  Lemma nodes_length r : r < P -> length (nodes r) = length (t_ndoms (t r)).
  Proof. intros Hr. rewrite app_length, seq_length. destruct mesh as [_ M]. symmetry. apply M; auto. Qed.
  Lemma stored_nth r k : r < P -> k < t_size dofs (t r) -> nth k (stored_dofs dofs (u r)) 0 = dofs * nth (k / dofs) (nodes r) 0 + k mod dofs.
  Proof. intros Hr Hk. apply node_dofs_nth; auto. rewrite nodes_length by auto. auto. Qed.
  Lemma stored_node r k g : r < P -> nth_error (stored_dofs dofs (u r)) k = Some g -> k < t_size dofs (t r) /\ node_of (u r) (k / dofs) (g / dofs) /\ k mod dofs = g mod dofs.
  Proof.
    intros Hr E. apply (nth_error_nth_iff _ _ _ 0) in E. destruct E as [Hk <-]. rewrite stored_size in Hk by auto. split; auto. rewrite stored_nth by auto.
    assert (M : k mod dofs < dofs) by (apply Nat.mod_upper_bound; lia). rewrite (Nat.mul_comm dofs), Nat.div_add_l, (Nat.div_small _ _ M), Nat.add_0_r by lia. split.
    - unfold node_of. apply nth_error_nth'. rewrite nodes_length by auto. apply Nat.div_lt_upper_bound; auto. lia.
    - rewrite Nat.add_comm, Nat.mod_add by lia. rewrite Nat.mod_mod by lia. auto.
  Qed.
  Lemma node_stored r n g : r < P -> node_of (u r) n (g / dofs) -> nth_error (stored_dofs dofs (u r)) (dofs * n + g mod dofs) = Some g /\ dofs * n + g mod dofs < t_size dofs (t r).
  Proof.
    intros Hr E. unfold node_of in E. apply (nth_error_nth_iff _ _ _ 0) in E. destruct E as [Hn E]. rewrite nodes_length in Hn by auto.
    assert (M : g mod dofs < dofs) by (apply Nat.mod_upper_bound; lia). assert (Hk : dofs * n + g mod dofs < t_size dofs (t r)) by (unfold t_size; nia). split; auto.
    apply (nth_error_nth_iff _ _ _ 0). split; [rewrite stored_size by auto; auto|]. rewrite stored_nth by auto.
    rewrite (Nat.mul_comm dofs n), Nat.div_add_l, (Nat.div_small _ _ M), Nat.add_0_r by lia. rewrite E. rewrite Nat.add_comm at 1. rewrite (Nat.add_comm (n * dofs)), Nat.mod_add, Nat.mod_mod by lia.
    rewrite (Nat.div_mod g dofs) at 3 by lia. lia.
  Qed.
  Lemma domains_at r n i : i < dofs -> t_domains dofs (t r) (dofs * n + i) = nth n (t_ndoms (t r)) [].
  Proof. intros Hi. unfold t_domains, dof_domains. rewrite (Nat.mul_comm dofs n), Nat.div_add_l, (Nat.div_small _ _ Hi), Nat.add_0_r by lia. auto. Qed.

  Definition picks (doms : list (list (list T))) (r : nat) : list T := flat_map (fun k => firstn 1 (copies dofs (t r) (nth r doms []) k)) (counted r).
  Lemma first_own_copy (doms : list (list T)) r k : r < P -> is_domains dofs (t r) doms -> k < t_size dofs (t r) -> first_own r k = true ->
    exists d l, t_domains dofs (t r) k = d :: l /\ t_own (t r) d = true /\ firstn 1 (copies dofs (t r) doms k) = [cval dofs (t r) zero doms d k].
  Proof.
    intros Hr D Hk F. unfold first_own in F. destruct (t_domains dofs (t r) k) as [|d l] eqn:E; [discriminate|]. exists d, l. split; auto. split; auto.
    rewrite (copies_eq dofs (t r) zero) by auto. rewrite E. cbn [filter]. rewrite F. reflexivity.
  Qed.
  Lemma local_dot_ok (doms : list (list (list T))) r : r < P -> is_feti_vector dofs ts doms -> (forall n, n < length (t_ndoms (t r)) -> nth n (t_ndoms (t r)) [] <> []) ->
    local_dot zero add mul (nth r fs no_feti) (nth r doms []) = Ok (fold_left (fun a v => add a (mul v v)) (picks doms r) zero).
  Proof.
    intros Hr [LD D] NE. specialize (D r ltac:(rewrite ts_length; auto)). unfold local_dot. rewrite (rows_eq dofs (t r)) by (auto using dec_at, ok_at). unfold picks, counted.
    assert (G : forall n, n <= t_size dofs (t r) -> forall z, foldM (fun dot row => di <- rd row 0 ;; if mine (nth r fs no_feti) di then v <- get_copy (nth r fs no_feti) (nth r doms []) di ;; Ok (add dot (mul v v)) else Ok dot)
        (map (row dofs (t r)) (seq 0 n)) z = Ok (fold_left (fun a v => add a (mul v v)) (flat_map (fun k => firstn 1 (copies dofs (t r) (nth r doms []) k)) (filter (first_own r) (seq 0 n))) z)).
    { induction n as [|n IH]; intros Hn z; auto. rewrite seq_snoc, map_app, foldM_app, IH by lia. cbn [obind map foldM Nat.add]. rewrite filter_app, flat_map_app, fold_left_app.
      set (z' := fold_left _ _ z). clearbody z'. cbn [filter].
      assert (Q : t_domains dofs (t r) n <> []). { unfold t_domains, dof_domains. apply NE. unfold t_size in Hn. apply Nat.div_lt_upper_bound; lia. }
      destruct (t_domains dofs (t r) n) as [|d l] eqn:E; [congruence|]. unfold row. rewrite E. cbn [map]. rewrite (rd_ok _ _ ((0, None) : dindex)) by (cbn; lia). cbn [nth obind].
      rewrite (mine_eq dofs (t r)) by (apply dec_at; auto). destruct (t_own (t r) d) eqn:O.
      - destruct (first_own_copy (nth r doms []) r n Hr D) as (d' & l' & E' & O' & C); [lia|unfold first_own; rewrite E; auto|]. rewrite E in E'. injection E' as <- <-.
        assert (IK : In n (t_dofs dofs (t r) d)).
        { apply ks_in. split; [lia|]. rewrite E. left; auto. }
        rewrite (get_copy_ok dofs (t r) (nth r fs no_feti) dofs_pos (dec_at r Hr) zero _ _ _ D O IK). cbn [obind].
        unfold first_own. rewrite E, O. cbn [flat_map]. rewrite C. reflexivity.
      - unfold first_own. rewrite E, O. reflexivity. }
    apply G. auto.
  Qed.
  Lemma picks_eq (doms : list (list (list T))) X r : r < P -> is_feti_vector dofs ts doms -> consistent dofs us ts doms X -> picks doms r = map X (counted_dofs r).
  Proof.
    intros Hr [LD D] C. specialize (D r ltac:(rewrite ts_length; auto)). unfold picks, counted_dofs. rewrite map_map.
    assert (S : forall k, In k (counted r) -> In k (counted r)) by auto. revert S. generalize (counted r) at 1 3 4. intros l. induction l as [|k l IH]; intros S; auto. cbn [flat_map map].
    rewrite IH by (intros; apply S; right; auto). specialize (S k (or_introl eq_refl)). unfold counted in S. apply filter_In in S. destruct S as [Hk F]. apply in_seq in Hk.
    destruct (first_own_copy (nth r doms []) r k Hr D) as (d & l' & E & O & ->); auto; [lia|]. cbn. f_equal.
    apply (C r d k (nth k (stored_dofs dofs (u r)) 0)); auto; [apply nth_error_nth'; rewrite stored_size by auto; lia|]. apply (copy_in_iff dofs (t r) zero); auto. split; auto. split; auto. apply ks_in. split; [lia|]. rewrite E. left; auto.
  Qed.
  Hypothesis same : same_domains us ts.
  Lemma counted_in r g : r < P -> In g (counted_dofs r) <-> exists n d l, node_of (u r) n (g / dofs) /\ nth n (t_ndoms (t r)) [] = d :: l /\ t_own (t r) d = true.
  Proof.
    intros Hr. unfold counted_dofs, counted. rewrite in_map_iff. split.
    - intros (k & E & H). apply filter_In in H. destruct H as [Hk F]. apply in_seq in Hk. assert (E' : nth_error (stored_dofs dofs (u r)) k = Some g) by (apply (nth_error_nth_iff _ _ _ 0); rewrite stored_size by auto; split; auto; lia).
      destruct (stored_node r k g Hr E') as (_ & Hn & _). unfold first_own in F. unfold t_domains, dof_domains in F. destruct (nth (k / dofs) (t_ndoms (t r)) []) as [|d l] eqn:Q; [discriminate|]. exists (k / dofs), d, l. auto.
    - intros (n & d & l & Hn & Q & O). destruct (node_stored r n g Hr Hn) as [E Hk]. exists (dofs * n + g mod dofs). split; [apply nth_error_nth; auto|]. apply filter_In. split; [apply in_seq; lia|].
      unfold first_own. rewrite domains_at by (apply Nat.mod_upper_bound; lia). rewrite Q. auto.
  Qed.
  Lemma counted_nodup r : r < P -> NoDup (counted_dofs r).
  Proof.
    intros Hr. unfold counted_dofs, counted. pose proof (stored_nodup dofs nb us dofs_pos N r Hr) as ND.
    assert (I : forall l, NoDup l -> (forall k, In k l -> k < t_size dofs (t r)) -> NoDup (map (fun k => nth k (stored_dofs dofs (u r)) 0) l)).
    { induction l as [|k l IH]; intros H B; cbn; constructor; inversion H; subst.
      - intros C. apply in_map_iff in C. destruct C as (j & E & Hj). assert (j = k); [|subst; auto]. apply (proj1 (NoDup_nth _ 0) ND); auto; rewrite stored_size by auto; apply B; [right|left]; auto.
      - apply IH; auto. intros; apply B; right; auto. }
    apply I; [apply NoDup_filter, seq_NoDup|]. intros k Hk. apply filter_In in Hk. destruct Hk as [Hk _]. apply in_seq in Hk. lia.
  Qed.
  Lemma global_in g : In g (global_dofs dofs us) <-> exists o, o < P /\ owns (u o) (g / dofs).
  Proof.
    unfold global_dofs. rewrite in_flat_map. split.
    - intros (v & Hv & Hg). apply (In_nth _ _ no_info) in Hv. destruct Hv as (o & Ho & <-). exists o. split; auto. apply in_seq in Hg. unfold owns. split; [apply Nat.div_le_lower_bound; lia | apply Nat.div_lt_upper_bound; lia].
    - intros (o & Ho & G). exists (u o). split; [apply nth_In; auto|]. apply in_seq. unfold owns in G. pose proof (Nat.div_mod g dofs ltac:(lia)). pose proof (Nat.mod_upper_bound g dofs ltac:(lia)). nia.
  Qed.
  Lemma NoDup_flat_map {A B} (f : A -> list B) l : NoDup l -> (forall a, In a l -> NoDup (f a)) -> (forall a b x, In a l -> In b l -> In x (f a) -> In x (f b) -> a = b) -> NoDup (flat_map f l).
  Proof.
    induction l as [|a l IH]; intros H1 H2 H3; cbn; [constructor|]. inversion H1; subst. apply L_Equality7.NoDup_app_intro.
    - apply H2; left; auto.
    - apply IH; auto; [intros; apply H2; right; auto | intros; eapply H3; eauto; right; auto].
    - intros x Hx C. apply in_flat_map in C. destruct C as (b & Hb & C). assert (a = b) by (apply (H3 a b x); auto; [left|right]; auto). subst; auto.
  Qed.
  Lemma global_nodup : NoDup (global_dofs dofs us).
  Proof.
    unfold global_dofs. rewrite (us_map us) at 1. rewrite flat_map_concat_map, map_map, <- flat_map_concat_map. apply NoDup_flat_map; [apply seq_NoDup|intros; apply seq_NoDup|].
    intros a b x Ha Hb Xa Xb. apply in_seq in Ha, Hb, Xa, Xb. destruct (Nat.lt_trichotomy a b) as [L|[L|L]]; auto.
    - pose proof (n_ordered dofs nb us dofs_pos N a b L ltac:(lia)) as O. unfold nfin, nst in O. nia.
    - pose proof (n_ordered dofs nb us dofs_pos N b a L ltac:(lia)) as O. unfold nfin, nst in O. nia.
  Qed.
  Lemma counted_permutation : Permutation (flat_map counted_dofs (seq 0 P)) (global_dofs dofs us).
  Proof.
    apply NoDup_Permutation; [|apply global_nodup|].
    - apply NoDup_flat_map; [apply seq_NoDup|intros r Hr; apply in_seq in Hr; apply counted_nodup; lia|]. intros r s g Hr Hs G1 G2. apply in_seq in Hr, Hs.
      apply counted_in in G1; [|lia]. apply counted_in in G2; [|lia]. destruct G1 as (n & d & l & H1 & H2 & H3). destruct G2 as (m & e & l' & I1 & I2 & I3).
      pose proof (sd_same us ts same r s n m (g / dofs) ltac:(lia) ltac:(lia) H1 I1) as E. rewrite H2, I2 in E. injection E as <- <-. apply (sd_disjoint us ts same r s d); auto; lia.
    - intros g. rewrite in_flat_map, global_in. split.
      + intros (r & Hr & G). apply in_seq in Hr. apply counted_in in G; [|lia]. destruct G as (n & d & l & H1 & _). unfold node_of in H1. apply nth_error_In, in_app_or in H1. destruct H1 as [H1|H1].
        * destruct (nu_owner nb us N r (g / dofs) ltac:(lia) H1) as (o & Lo & O & _). exists o. split; auto. lia.
        * apply in_seq in H1. exists r. split; [lia|]. unfold owns. lia.
      + intros (o & Ho & G). assert (exists n, node_of (u o) n (g / dofs)) as (n & Hn). { unfold owns in G. apply In_nth_error. apply in_or_app. right. apply in_seq. lia. }
        assert (Ln : n < length (t_ndoms (t o))). { unfold node_of in Hn. rewrite <- nodes_length by auto. apply nth_error_Some. congruence. }
        destruct (nth n (t_ndoms (t o)) []) as [|d l] eqn:Q; [exfalso; apply (sd_some us ts same o n); auto|].
        destruct (sd_owner us ts same o n (g / dofs) d Ho Hn) as (s & m & Hs & O & Hm); [rewrite Q; left; auto|]. exists s. split; [apply in_seq; lia|]. apply counted_in; auto. exists m, d, l. split; auto. split; auto.
        rewrite <- (sd_same us ts same o s n m (g / dofs)); auto.
  Qed.
  Lemma picks_permutation (doms : list (list (list T))) X : is_feti_vector dofs ts doms -> consistent dofs us ts doms X -> Permutation (flat_map (picks doms) (seq 0 P)) (map X (global_dofs dofs us)).
  Proof.
    intros D C. rewrite <- counted_permutation. replace (flat_map (picks doms) (seq 0 P)) with (map X (flat_map counted_dofs (seq 0 P))); auto.
    rewrite flat_map_concat_map, concat_map, map_map, <- flat_map_concat_map. apply flat_map_ext_in. intros r Hr. apply in_seq in Hr. symmetry. apply picks_eq; auto. lia.
  Qed.
End Ranks.
