(** * Lemmas for vectors torn to domains: the product with a matrix, the number of copies *)
From Coq Require Import List Arith Bool Lia Sorted Permutation ZArith.
From Verif Require Import Base S_Assembly M_Assembly L_Numbering L_Pattern L_Pattern5 L_Equality M_Distributed S_Distributed L_Distributed L_Distributed2 L_Fill2 M_VectorFeti S_VectorFeti L_VectorFeti L_VectorFeti2.
Import ListNotations.
Local Open Scope out_scope.

Lemma Forall2_nth_intro {A B} (R : A -> B -> Prop) l l' d d' : length l = length l' -> (forall i, i < length l -> R (nth i l d) (nth i l' d')) -> Forall2 R l l'.
Proof.
  revert l'; induction l as [|a l IH]; intros [|b l'] L H; try discriminate; constructor.
  - apply (H 0). cbn; lia.
  - apply IH; [cbn in L; lia|]. intros i Hi. apply (H (S i)). cbn; lia.
Qed.
Lemma mapM_length {A B} (f : A -> outcome B) l : forall r, mapM f l = Ok r -> length r = length l.
Proof. induction l as [|a l IH]; intros r E; cbn in E; [injection E as <-; auto|]. destruct (f a); try discriminate. cbn in E. destruct (mapM f l) eqn:Q; try discriminate. injection E as <-. cbn. f_equal; auto. Qed.

Section Apply.
  Variables (dofs : nat) (nb : list (list nat)) (us : list uniq_info) (ts : list torn) (fs : list feti).
  Hypothesis dofs_pos : 0 < dofs.
  Hypothesis N : numbered nb us.
  Hypothesis mesh : torn_mesh dofs us ts.
  Hypothesis dec : decomposed_ranks dofs ts fs.
  Notation P := (length us).
  Notation t r := (nth r ts no_torn).
  Notation no_feti := {| f_begin := 0; f_end := 0; f_rows := [] |}.
  Notation u r := (nth r us no_info).
  Context {T M : Type} (zero : T) (add mul : T -> T -> T) (mv : M -> T -> list T -> list T).
  Hypothesis mv_length : forall m alpha x, length (mv m alpha x) = length x.
  Definition no_data3 : apply_data T := {| a_in := []; a_out := []; a_direct := [] |}.

  Definition is_data1 (r : nat) (a : apply_data T) : Prop := is_domains dofs (t r) (a_in a) /\ is_domains dofs (t r) (a_out a) /\ length (a_direct a) = t_size dofs (t r).
  Definition local_product (r : nat) (ms : list M) (alpha : T) (x : list T) (outs : list (list T)) : Prop :=
    forall d m, nth_error ms d = Some m -> exists v, nth_error outs d = Some (mv m alpha v) /\ Forall2 (fun k y => nth_error x k = Some y) (t_dofs dofs (t r) (t_begin (t r) + d)) v.

  Lemma apply_local_ok r ms alpha x y a : r < P -> is_data1 r a -> length ms = t_end (t r) - t_begin (t r) -> length x = t_size dofs (t r) -> length y = t_size dofs (t r) ->
    exists a', apply_local mv (nth r fs no_feti) ms alpha x y a = Ok a' /\ is_data1 r a' /\ a_direct a' = y /\ local_product r ms alpha x (a_out a').
  Proof.
    intros Hr (D1 & D2 & D3) Lm Lx Ly. unfold apply_local. pose proof (dec_at dofs us ts fs dofs_pos mesh dec r Hr) as De. pose proof (ok_at dofs us ts mesh r Hr) as Ok'.
    destruct (copy_to_ok dofs (t r) (nth r fs no_feti) dofs_pos Ok' De zero add mul (fun x _ => x) x (a_in a) Lx D1) as (inp & E & Di & Hi). rewrite E. cbn [obind].
    assert (EB : blas_copy (a_direct a) y = Ok y) by (unfold blas_copy; rewrite D3, <- Ly, Nat.ltb_irrefl, firstn_all; auto). rewrite EB. cbn [obind].
    destruct Di as [Li Ii]. destruct D2 as [Lo Io]. destruct ms as [|m0 ms0].
    { cbn in Lm. assert (L0 : length (a_out a) = 0) by lia. rewrite L0. cbn. eexists. split; [reflexivity|]. unfold is_data1. cbn [a_in a_out a_direct]. split; [|split; auto].
      - split; [split; auto|]. split; [|cbn; lia]. split; [cbn; lia|]. intros d Hd. lia.
      - intros [|d] m Hm; discriminate. }
    set (ms := m0 :: ms0) in *. clearbody ms.
    rewrite (mapM_ok _ (fun i => mv (nth i ms m0) alpha (nth i inp []))).
    2:{ intros i Hi'. apply in_seq in Hi'. rewrite (rd_ok _ _ m0) by lia. cbn [obind]. rewrite (rd_ok _ _ []) by lia. cbn [obind]. rewrite (rd_ok _ _ []) by lia. cbn [obind].
        assert (L : length (nth i inp []) = length (nth i (a_out a) [])).
        { specialize (Ii (t_begin (t r) + i) ltac:(lia)). specialize (Io (t_begin (t r) + i) ltac:(lia)). rewrite Nat.add_comm, Nat.add_sub in Ii, Io. lia. }
        rewrite mv_length, L, Nat.eqb_refl. auto. }
    cbn [obind]. eexists. split; [reflexivity|]. unfold is_data1. cbn [a_in a_out a_direct]. split; [|split; auto].
    - split; [split; auto|]. split; [|cbn; lia]. split; [rewrite map_length, seq_length; auto|]. intros d Hd. rewrite nth_map_seq by lia. rewrite mv_length. apply Ii. auto.
    - intros d m Hm. apply (nth_error_nth_iff _ _ _ m0) in Hm. destruct Hm as [Ld Hm]. exists (nth d inp []). split.
      + rewrite (nth_error_nth' _ []) by (rewrite map_length, seq_length; lia). rewrite nth_map_seq by lia. rewrite Hm. auto.
      + specialize (Ii (t_begin (t r) + d) ltac:(lia)). rewrite (Nat.add_comm _ d), Nat.add_sub in Ii. rewrite (Nat.add_comm _ d). apply (Forall2_nth_intro _ _ _ 0 zero); auto.
        intros i Hi'. apply (Hi (d + t_begin (t r))). split; [lia|]. exists i. rewrite Nat.add_sub. split; apply nth_error_nth'; lia.
  Qed.

  Lemma apply_ok mss alpha beta xs sync ys data : history zero add dofs nb us sync -> is_matrices ts mss -> is_vector dofs us xs -> is_vector dofs us ys -> is_apply_data dofs ts data ->
    exists sync' ys' data' outs, apply zero add mul mv fs mss alpha beta xs sync ys data = Ok (sync', ys', data') /\ history zero add dofs nb us sync' /\ is_vector dofs us ys' /\ is_apply_data dofs ts data' /\
      products mv dofs ts mss alpha xs outs /\
      forall r g x y, has_value dofs us ys' r g x -> has_value dofs us ys r g y -> x = add (total zero add (values dofs us (local_sums zero add dofs ts outs) g)) (mul beta y).
  Proof.
    intros H [LM IM] [LX VX] [LY VY] [LD ID]. pose proof (ts_length dofs us ts mesh) as LT. pose proof (fs_length dofs us ts fs mesh dec) as LF. rewrite LT in *. unfold apply.
    assert (CB : combine (combine fs mss) (combine (combine xs ys) data) = map (fun r => ((nth r fs no_feti, nth r mss []), ((nth r xs [], nth r ys []), nth r data no_data3))) (seq 0 P)).
    { transitivity (combine (combine (map (fun r => nth r fs no_feti) (seq 0 P)) (map (fun r => nth r mss []) (seq 0 P)))
        (combine (combine (map (fun r => nth r xs []) (seq 0 P)) (map (fun r => nth r ys []) (seq 0 P))) (map (fun r => nth r data no_data3) (seq 0 P)))).
      - rewrite <- !list_as_map; auto.
      - rewrite !combine_map; auto. }
    rewrite CB.
    destruct (mapM_exists (fun x : (feti * list M) * ((list T * list T) * apply_data T) => apply_local mv (fst (fst x)) (snd (fst x)) alpha (fst (fst (snd x))) (snd (fst (snd x))) (snd (snd x)))
      (fun r => ((nth r fs no_feti, nth r mss []), ((nth r xs [], nth r ys []), nth r data no_data3)))
      (fun r a => is_data1 r a /\ a_direct a = nth r ys [] /\ local_product r (nth r mss []) alpha (nth r xs []) (a_out a)) no_data3 (seq 0 P)) as (data' & E & L' & Q).
    { intros r Hr. apply in_seq in Hr. cbn [fst snd]. apply apply_local_ok; [lia|..].
      - apply (ID r). apply nth_error_nth'. lia.
      - apply IM. lia.
      - rewrite VX by lia. apply (stored_size dofs us ts mesh). lia.
      - rewrite VY by lia. apply (stored_size dofs us ts mesh). lia. }
    rewrite E. cbn [obind]. rewrite seq_length in L'.
    assert (Q' : forall r, r < P -> is_data1 r (nth r data' no_data3) /\ a_direct (nth r data' no_data3) = nth r ys [] /\ local_product r (nth r mss []) alpha (nth r xs []) (a_out (nth r data' no_data3))).
    { intros r Hr. apply Q. rewrite (nth_error_nth' _ 0) by (rewrite seq_length; auto). rewrite seq_nth by auto. auto. }
    assert (NO : forall r, r < P -> nth r (map a_out data') [] = a_out (nth r data' no_data3)).
    { intros r Hr. apply (nth_map _ _ _ _ no_data3). lia. }
    assert (FV : is_feti_vector dofs ts (map a_out data')).
    { split; [rewrite map_length; lia|]. intros r Hr. rewrite LT in Hr. rewrite NO by auto. apply Q'; auto. }
    destruct (sum_to_ok dofs nb us ts fs dofs_pos N mesh dec zero add sync (map a_out data') ys H FV (conj LY VY)) as (sync' & ys1 & ES & H' & [L1 V1] & QS). rewrite ES. cbn [obind].
    assert (CB' : combine ys1 data' = map (fun r => (nth r ys1 [], nth r data' no_data3)) (seq 0 P)).
    { rewrite <- combine_map. rewrite <- !list_as_map; auto. }
    rewrite CB'.
    rewrite (mapM_map _ _ (fun r => map (fun z : T * T => add (fst z) (mul beta (snd z))) (combine (nth r ys1 []) (nth r ys [])))).
    2:{ intros r Hr. apply in_seq in Hr. cbn [fst snd]. destruct (Q' r) as (_ & Ed & _); [lia|]. rewrite Ed. unfold blas_add. rewrite V1, VY by lia. rewrite Nat.ltb_irrefl. auto. }
    cbn [obind]. eexists sync', _, data', (map a_out data'). split; [reflexivity|]. split; auto. split.
    { split; [rewrite map_length, seq_length; auto|]. intros r Hr. rewrite nth_map_seq by auto. rewrite map_length, combine_length, V1, VY by auto. lia. }
    split; [split; [lia|]; intros r a Ea; apply (nth_error_nth_iff _ _ _ no_data3) in Ea; destruct Ea as [Lr <-]; apply Q'; lia|].
    split; [split; auto; intros r d m Hr; rewrite LT in Hr; rewrite NO by auto; apply Q'; auto|].
    intros r g x y (Hr & p & Ep & Ex) (_ & q & Eq' & Ey). rewrite nth_map_seq in Ex by auto.
    assert (p = q). { pose proof (stored_nodup dofs nb us dofs_pos N r Hr) as ND. rewrite NoDup_nth_error in ND. apply ND; [apply nth_error_Some; congruence|]. rewrite Ep, Eq'. auto. } subst q.
    apply (nth_error_nth_iff _ _ _ zero) in Ex. destruct Ex as [Lp Ex]. rewrite map_length, combine_length in Lp. rewrite (nth_map _ _ _ _ (zero, zero)) in Ex by (rewrite combine_length; auto).
    rewrite combine_nth in Ex by (rewrite V1, VY by auto; auto). cbn [fst snd] in Ex. rewrite (nth_error_nth _ _ zero Ey) in Ex. rewrite <- Ex. f_equal.
    apply (QS r g). split; auto. exists p. split; auto. apply nth_error_nth'. lia.
  Qed.
End Apply.

(** the sum of the copies of a consistent vector *)
Section Count.
  Local Open Scope Z_scope.
  Variables (dofs : nat) (nb : list (list nat)) (us : list uniq_info) (ts : list torn).
  Hypothesis dofs_pos : (0 < dofs)%nat.
  Hypothesis N : numbered nb us.
  Hypothesis mesh : torn_mesh dofs us ts.
  Hypothesis same : same_domains us ts.
  Notation P := (length us).
  Notation t r := (nth r ts no_torn).
  Notation u r := (nth r us no_info).
  Lemma total_sum l : total 0 Z.add l = fold_right Z.add 0 l.
  Proof. destruct l as [|a l]; auto. cbn [total fold_right]. revert a. induction l as [|b l IH]; intros a; cbn [fold_left fold_right]; [lia|]. rewrite IH. lia. Qed.
  Lemma fold_left_sum l a : fold_left Z.add l a = a + fold_right Z.add 0 l.
  Proof. revert a. induction l as [|b l IH]; intros a; cbn [fold_left fold_right]; [lia|]. rewrite IH. lia. Qed.
  Lemma sum_app l l' : fold_right Z.add 0 (l ++ l') = fold_right Z.add 0 l + fold_right Z.add 0 l'.
  Proof. induction l; cbn [app fold_right]; lia. Qed.
  Lemma sum_const {A} (f : A -> Z) x l : (forall a, In a l -> f a = x) -> fold_right Z.add 0 (map f l) = Z.of_nat (length l) * x.
  Proof. induction l as [|a l IH]; intros H; cbn [map fold_right length]; [lia|]. rewrite (H a) by (left; auto). rewrite IH by (intros; apply H; right; auto). lia. Qed.

  Lemma sum_scale {A} (f g : A -> Z) x l : (forall a, In a l -> f a = g a * x) -> fold_right Z.add 0 (map f l) = fold_right Z.add 0 (map g l) * x.
  Proof. induction l as [|a l IH]; intros H; cbn [map fold_right]; [lia|]. rewrite (H a) by (left; auto). rewrite IH by (intros; apply H; right; auto). lia. Qed.

  Lemma values_sum (vs : list (list Z)) g : is_vector dofs us vs ->
    fold_right Z.add 0 (values dofs us vs g) = fold_right Z.add 0 (map (fun r => if memb g (stored_dofs dofs (u r)) then nth (index_of g (stored_dofs dofs (u r))) (nth r vs []) 0 else 0) (seq 0 P)).
  Proof.
    intros [LV V]. unfold values. assert (S : forall r, In r (seq 0 P) -> (r < P)%nat) by (intros r Hr; apply in_seq in Hr; lia). revert S. generalize (seq 0 P). induction l as [|r l IH]; intros S; auto.
    cbn [flat_map map fold_right]. rewrite sum_app, IH by (intros; apply S; right; auto). f_equal. specialize (S r (or_introl eq_refl)).
    destruct (memb g (stored_dofs dofs (u r))) eqn:Mg.
    - apply memb_in in Mg. pose proof (at_pos_nth 0%Z (stored_dofs dofs (u r)) (nth r vs []) (stored_nodup dofs nb us dofs_pos N r S) (V r S) (index_of g (stored_dofs dofs (u r)))) as A.
      rewrite (nth_error_nth _ _ O (index_of_in _ _ Mg)) in A. unfold at_pos in A. rewrite A by (apply index_of_lt; auto). cbn; lia.
    - apply memb_out in Mg. pose proof (at_pos_not_in g (stored_dofs dofs (u r)) (nth r vs []) Mg) as A. unfold at_pos in A. rewrite A. auto.
  Qed.

  (** every domain of a list is counted by exactly one rank *)
  Lemma partition_count (l : list nat) (R : list nat) (st : nat -> bool) : NoDup R -> (forall d, In d l -> exists r, In r R /\ st r = true /\ t_own (t r) d = true) ->
    (forall r s d, In r R -> In s R -> t_own (t r) d = true -> t_own (t s) d = true -> r = s) ->
    fold_right Z.add 0 (map (fun r => if st r then Z.of_nat (length (filter (t_own (t r)) l)) else 0) R) = Z.of_nat (length l).
  Proof.
    intros ND H D. induction l as [|d l IH].
    - cbn. induction R as [|r R IHR]; auto. cbn. rewrite IHR; [destruct (st r); auto| |intros ? []|].
      + inversion ND; auto.
      + intros; eapply D; eauto; right; auto.
    - cbn [length]. rewrite Nat2Z.inj_succ, <- IH by (intros; apply H; right; auto). destruct (H d (or_introl eq_refl)) as (r & Hr & Sr & Or). clear H IH.
      apply in_split in Hr. destruct Hr as (R1 & R2 & ->). rewrite !map_app, !sum_app. cbn [map fold_right filter]. rewrite Or, Sr. cbn [length].
      assert (F : forall R', (forall s, In s R' -> In s (R1 ++ r :: R2) /\ s <> r) -> map (fun s => if st s then Z.of_nat (length (if t_own (t s) d then d :: filter (t_own (t s)) l else filter (t_own (t s)) l)) else 0) R' =
        map (fun s => if st s then Z.of_nat (length (filter (t_own (t s)) l)) else 0) R').
      { intros R' HR. apply map_ext_in. intros s Hs. destruct (HR s Hs) as [H1 H2]. destruct (t_own (t s) d) eqn:O; auto. exfalso. apply H2. apply (D s r d); auto. apply in_or_app; right; left; auto. }
      rewrite !F.
      + lia.
      + intros s Hs. split; [apply in_or_app; right; right; auto|]. intros ->. apply NoDup_remove_2 in ND. apply ND. apply in_or_app; auto.
      + intros s Hs. split; [apply in_or_app; auto|]. intros ->. apply NoDup_remove_2 in ND. apply ND. apply in_or_app; auto.
  Qed.

  Lemma consistent_sum doms X r k g : is_feti_vector dofs ts doms -> consistent dofs us ts doms X -> (r < P)%nat -> nth_error (stored_dofs dofs (u r)) k = Some g ->
    total 0 Z.add (values dofs us (local_sums 0 Z.add dofs ts doms) g) = Z.of_nat (length (t_domains dofs (t r) k)) * X g.
  Proof.
    intros [LD D] C Hr E. pose proof (ts_length dofs us ts mesh) as LT. rewrite LT in *. rewrite total_sum, values_sum by (apply (local_sums_vector dofs us ts mesh); auto).
    destruct (stored_node dofs us ts dofs_pos mesh r k g Hr E) as (Hk & Hn & Hm).
    rewrite <- (partition_count (t_domains dofs (t r) k) (seq 0 P) (fun s => memb g (stored_dofs dofs (u s)))).
    - rewrite (local_sums_eq dofs us ts mesh) by auto. apply sum_scale. intros s S. apply in_seq in S. assert (S' : (s < P)%nat) by lia. clear S. rename S' into S.
      destruct (memb g (stored_dofs dofs (u s))) eqn:Mg; [|lia]. apply memb_in in Mg. pose proof (index_of_in _ _ Mg) as Ei. set (i := index_of g (stored_dofs dofs (u s))) in *.
      destruct (stored_node dofs us ts dofs_pos mesh s i g S Ei) as (Hi & Hn' & Hm'). rewrite nth_map_seq by auto. rewrite nth_map_seq by auto.
      rewrite fold_left_sum, Z.add_0_l. assert (EQ : t_domains dofs (t s) i = t_domains dofs (t r) k) by (apply (sd_same us ts same s r _ _ (g / dofs)); auto).
      rewrite (copies_eq dofs (t s) 0) by (auto; apply D; auto). rewrite <- EQ. apply sum_const. intros d Hd. apply filter_In in Hd. destruct Hd as [Hd Od]. apply (C s d i g); auto.
      apply (copy_in_iff dofs (t s) 0); auto. split; auto. split; auto. apply ks_in. auto.
    - apply seq_NoDup.
    - intros d Hd. destruct (sd_owner us ts same r (k / dofs) (g / dofs) d Hr Hn Hd) as (s & m & Hs & O & Hm'). exists s. split; [apply in_seq; lia|]. split; auto. apply memb_in.
      destruct (node_stored dofs us ts dofs_pos mesh s m g Hs Hm') as [E' _]. eapply nth_error_In; eauto.
    - intros a b d Ha Hb. apply in_seq in Ha, Hb. apply (sd_disjoint us ts same); lia.
  Qed.
End Count.
