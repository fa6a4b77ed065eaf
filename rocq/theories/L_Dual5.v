(** * Lemmas: local intervals *)
From Coq Require Import List Arith Lia Bool Permutation.
From Verif Require Import Base M_Nb S_Nb S_Comm M_Dual S_Dual L_Dual2 L_Dual3 L_Dual4.
Import ListNotations.
Local Open Scope out_scope.

(** every element is selected by exactly one of the predicates *)
Lemma split_cons (p : nat -> nat -> bool) m s rs : NoDup rs -> (exists r, In r rs /\ p r m = true) ->
  (forall r r', In r rs -> In r' rs -> p r m = true -> p r' m = true -> r = r') ->
  Permutation (concat (map (fun r => filter (p r) (m :: s)) rs)) (m :: concat (map (fun r => filter (p r) s) rs)).
Proof.
  induction rs as [|r rs IH]; intros ND (r0 & I0 & P0) U; [destruct I0|]. cbn [map concat]. inversion ND as [|? ? ND1 ND2]; subst. cbn [filter].
  destruct (p r m) eqn:E.
  - assert (F : forall r', In r' rs -> p r' m = false).
    { intros r' I'. apply not_true_is_false. intros P'. assert (r = r') by (apply U; auto; [left|right]; auto). subst. auto. }
    rewrite (map_ext_in (fun r => filter (p r) (m :: s)) (fun r => filter (p r) s)) by (intros r' I'; cbn [filter]; now rewrite F). reflexivity.
  - assert (I1 : In r0 rs) by (destruct I0 as [<-|]; [congruence|auto]).
    transitivity (filter (p r) s ++ m :: concat (map (fun r => filter (p r) s) rs)).
    + apply Permutation_app_head. apply IH; eauto. intros; apply U; auto; right; auto.
    + symmetry. apply Permutation_middle.
Qed.
Lemma split_perm (p : nat -> nat -> bool) rs s : NoDup rs -> (forall m, In m s -> exists r, In r rs /\ p r m = true) ->
  (forall m r r', In r rs -> In r' rs -> p r m = true -> p r' m = true -> r = r') ->
  Permutation (concat (map (fun r => filter (p r) s) rs)) s.
Proof.
  intros ND. induction s as [|m s IH]; intros H U.
  - rewrite (map_ext (fun r => filter (p r) []) (fun _ => [])) by auto. clear. induction rs; cbn; auto.
  - etransitivity; [apply split_cons; auto|]; [apply H; left; auto|intros; eapply U; eauto|]. constructor. apply IH; auto. intros; apply H; right; auto.
Qed.

Section Rank.
  Variables (first : nat -> nat) (L : list (list nat)) (r : nat).
  Local Notation held := (held first L r).
  Local Notation domains := (domains L).

  Lemma owned_touches m : owned first L r m = true -> touches first r (domains m) = true.
  Proof.
    unfold owned, touches. rewrite !existsb_exists. intros (d & I & O). exists d. split; auto. destruct (domains m); cbn in *; tauto.
  Qed.

  Lemma groups_held sizes : forall from, filter (fun m => touches first r (domains m)) (seq from (list_sum sizes)) = flat_map (S_Dual.held_in first L r) (groups from sizes).
  Proof.
    induction sizes as [|s sizes IH]; intros from; [reflexivity|]. cbn [groups flat_map].
    replace (list_sum (s :: sizes)) with (s + list_sum sizes) by reflexivity. rewrite seq_app, filter_app, IH. reflexivity.
  Qed.
  Lemma groups_owned sizes : forall from, filter (owned first L r) (seq from (list_sum sizes)) = flat_map (fun g => filter (owned first L r) (seq (fst g) (snd g))) (groups from sizes).
  Proof.
    induction sizes as [|s sizes IH]; intros from; [reflexivity|]. cbn [groups flat_map].
    replace (list_sum (s :: sizes)) with (s + list_sum sizes) by reflexivity. rewrite seq_app, filter_app, IH. reflexivity.
  Qed.

  (** the parts of the intervals: other's and own multipliers *)
  Definition part : Type := list nat * list nat.
  Definition joined (ps : list part) : list nat := flat_map (fun p => fst p ++ snd p) ps.
  Fixpoint bounds (o : nat) (ps : list part) : list (nat * nat) :=
    match ps with [] => [] | p :: ps => (length (fst p) + o, length (fst p) + o + length (snd p)) :: bounds (length (fst p) + o + length (snd p)) ps end.
  Definition fine (p : part) : Prop := (forall m, In m (fst p) -> owned first L r m = false) /\ (forall m, In m (snd p) -> owned first L r m = true).

  Lemma filter_none (p : nat -> bool) l : (forall m, In m l -> p m = false) -> filter p l = [].
  Proof. induction l as [|x l IH]; intros H; cbn; auto. rewrite (H x) by (left; auto). apply IH. intros; apply H; right; auto. Qed.
  Lemma filter_every (p : nat -> bool) l : (forall m, In m l -> p m = true) -> filter p l = l.
  Proof. induction l as [|x l IH]; intros H; cbn; auto. rewrite (H x) by (left; auto). f_equal. apply IH. intros; apply H; right; auto. Qed.
  Lemma filter_filter (p q : nat -> bool) l : (forall m, q m = true -> p m = true) -> filter q (filter p l) = filter q l.
  Proof.
    intros H. induction l as [|x l IH]; cbn; auto. destruct (p x) eqn:E; cbn; rewrite IH; auto. destruct (q x) eqn:Q; auto. rewrite H in E by auto. discriminate.
  Qed.

  Lemma intervals_parts sizes itv : intervals_ok first L sizes r itv ->
    exists ps, joined ps = held /\ set_intervals 0 itv = bounds 0 ps /\ Forall fine ps /\ flat_map snd ps = filter (owned first L r) (seq 0 (length L)).
  Proof.
    intros (E & F). unfold S_Dual.held. rewrite <- E. rewrite groups_held, groups_owned. clear E.
    assert (G : forall gs itv o, Forall2 (interval_of first L r) gs itv -> exists ps, joined ps = flat_map (S_Dual.held_in first L r) gs /\ set_intervals o itv = bounds o ps /\ Forall fine ps /\
      flat_map snd ps = flat_map (fun g => filter (owned first L r) (seq (fst g) (snd g))) gs).
    { clear itv F. intros gs itv o F. revert o. induction F as [|g i gs itv (halo & own & H1 & -> & H3 & H4) F IH]; intros o.
      - exists []. repeat split; auto.
      - destruct (IH (length halo + o + length own)) as (ps & P1 & P2 & P3 & P4). exists ((halo, own) :: ps). cbn [joined flat_map fst snd set_intervals bounds]. repeat split.
        + unfold joined in P1. rewrite P1, H1. reflexivity.
        + now rewrite P2.
        + constructor; auto. split; auto.
        + rewrite P4. f_equal. rewrite <- (filter_filter (fun m => touches first r (domains m)) (owned first L r)) by apply owned_touches.
          fold (S_Dual.held_in first L r g). rewrite H1, filter_app, filter_none, filter_every by auto. reflexivity. }
    apply (G _ _ 0 F).
  Qed.

  Lemma bounds_slices ps : forall pre, flat_map (fun i => slice (fst i) (snd i) (pre ++ joined ps)) (bounds (length pre) ps) = flat_map snd ps.
  Proof.
    induction ps as [|(a, b) ps IH]; intros pre; [reflexivity|]. cbn [bounds flat_map fst snd joined]. fold (joined ps).
    replace (pre ++ (a ++ b) ++ joined ps) with ((pre ++ a) ++ b ++ joined ps) by (rewrite !app_assoc; auto). rewrite slice_mid by (rewrite app_length; lia). f_equal.
    specialize (IH (pre ++ a ++ b)). rewrite !app_length in IH. replace (length pre + (length a + length b)) with (length a + length pre + length b) in IH by lia.
    rewrite <- !app_assoc in *. exact IH.
  Qed.

  Section Data.
    Context {T : Type}.
    Variables (zero : T) (add mul : T -> T -> T).

    Lemma dot_run (x y : nat -> T) ps : forall pre sum,
      foldM (dot_interval zero add mul (map x (pre ++ joined ps)) (map y (pre ++ joined ps))) (bounds (length pre) ps) sum =
      Ok (fold_left (fun s p => add s (blas_dot zero add mul (map x (snd p)) (map y (snd p)))) ps sum).
    Proof.
      induction ps as [|(a, b) ps IH]; intros pre sum; [reflexivity|]. cbn [bounds foldM fold_left fst snd joined flat_map]. fold (joined ps). unfold dot_interval at 1.
      replace (pre ++ (a ++ b) ++ joined ps) with ((pre ++ a) ++ b ++ joined ps) by (rewrite !app_assoc; auto).
      rewrite !map_length, !app_length.
      destruct (Nat.leb_spec (length a + length pre) (length a + length pre + length b)) as [_|C]; [|lia].
      destruct (Nat.leb_spec (length a + length pre + length b) (length pre + length a + (length b + length (joined ps)))) as [_|C]; [|lia]. cbn [andb obind].
      rewrite !(map_app _ (pre ++ a)), !(map_app _ b). rewrite !slice_mid by (rewrite !map_length, app_length; lia).
      specialize (IH (pre ++ a ++ b) (add sum (blas_dot zero add mul (map x b) (map y b)))). rewrite !app_length in IH.
      replace (length pre + (length a + length b)) with (length a + length pre + length b) in IH by lia.
      rewrite <- !map_app, <- !app_assoc in *. exact IH.
    Qed.

    Lemma copy_run (v : nat -> T) ps : forall pre to did, length to = length (joined ps) -> length did = length pre ->
      foldM (copy_interval zero (map v (pre ++ joined ps))) (bounds (length pre) ps) (did ++ to, length pre) =
      Ok (did ++ flat_map (fun p => map (fun _ => zero) (fst p) ++ map v (snd p)) ps, length pre + length (joined ps)).
    Proof.
      induction ps as [|(a, b) ps IH]; intros pre to did Lt Ld.
      - cbn in *. destruct to; [|discriminate]. rewrite Nat.add_0_r. reflexivity.
      - cbn [bounds foldM fst snd joined flat_map] in *. fold (joined ps) in *. rewrite !app_length in Lt.
        unfold copy_interval at 1.
        destruct (Nat.leb_spec (length pre) (length a + length pre)) as [_|C]; [|lia].
        destruct (Nat.leb_spec (length a + length pre) (length a + length pre + length b)) as [_|C]; [|lia].
        destruct (Nat.leb_spec (length a + length pre + length b) (length (did ++ to))) as [_|C]; [|rewrite app_length in C; lia].
        destruct (Nat.leb_spec (length a + length pre + length b) (length (map v (pre ++ (a ++ b) ++ joined ps)))) as [_|C]; [|rewrite map_length, !app_length in C; lia].
        cbn [andb obind]. replace (length a + length pre - length pre) with (length a) by lia.
        assert (Et : to = firstn (length a) to ++ firstn (length b) (skipn (length a) to) ++ skipn (length b) (skipn (length a) to)) by now rewrite !firstn_skipn.
        set (t1 := firstn (length a) to) in *. set (t2 := firstn (length b) (skipn (length a) to)) in *. set (t3 := skipn (length b) (skipn (length a) to)) in *.
        assert (L1 : length t1 = length a) by (unfold t1; rewrite firstn_length; lia).
        assert (L2 : length t2 = length b) by (unfold t2; rewrite firstn_length, skipn_length; lia).
        assert (L3 : length t3 = length (joined ps)) by (unfold t3; rewrite !skipn_length; lia).
        rewrite Et. rewrite (put_mid did t1 (t2 ++ t3)) by lia.
        replace (did ++ repeat zero (length a) ++ t2 ++ t3) with ((did ++ repeat zero (length a)) ++ t2 ++ t3) by (rewrite <- app_assoc; auto).
        replace (pre ++ (a ++ b) ++ joined ps) with ((pre ++ a) ++ b ++ joined ps) by (rewrite !app_assoc; auto).
        rewrite (map_app v (pre ++ a)), (map_app v b). rewrite slice_mid by (rewrite ?map_length, app_length; lia).
        rewrite put_mid by (rewrite ?app_length, ?repeat_length; lia).
        specialize (IH (pre ++ a ++ b) t3 ((did ++ repeat zero (length a)) ++ map v b) L3). rewrite !app_length, map_length, repeat_length in IH.
        specialize (IH ltac:(lia)). replace (length pre + (length a + length b)) with (length a + length pre + length b) in IH by lia.
        rewrite <- !app_assoc in IH. rewrite !map_app in *. rewrite <- !app_assoc. rewrite IH. f_equal. f_equal; [|rewrite !app_length; lia].
        f_equal. f_equal. clear. induction a; cbn; congruence.
    Qed.

    Lemma parts_map (v : nat -> T) ps : Forall fine ps ->
      flat_map (fun p => map (fun _ => zero) (fst p) ++ map v (snd p)) ps = map (fun m => if owned first L r m then v m else zero) (joined ps).
    Proof.
      induction 1 as [|p ps (F1 & F2) F IH]; auto. cbn [flat_map joined]. fold (joined ps). rewrite !map_app, IH. f_equal. f_equal; apply map_ext_in; intros m Hm.
      - now rewrite F1.
      - now rewrite F2.
    Qed.

    (** sums *)
    Hypothesis HA : associative add.
    Hypothesis HCm : commutative add.
    Hypothesis HZ : forall x, add zero x = x.
    Definition sum (l : list T) : T := fold_right add zero l.
    Lemma sum_app l l' : sum (l ++ l') = add (sum l) (sum l').
    Proof. induction l as [|x l IH]; cbn; [now rewrite HZ|]. unfold sum in IH. rewrite IH. apply HA. Qed.
    Lemma sum_perm l l' : Permutation l l' -> sum l = sum l'.
    Proof.
      induction 1 as [|x l l' P IH|x y l|l l' l'' P1 IH1 P2 IH2]; cbn; auto.
      - unfold sum in IH. now rewrite IH.
      - rewrite !HA. f_equal. apply HCm.
      - congruence.
    Qed.
    Lemma fold_sum {B} (f : B -> T) l : forall s, fold_left (fun s p => add s (f p)) l s = add s (sum (map f l)).
    Proof.
      induction l as [|x l IH]; intros s; cbn; [rewrite HCm; auto|]. rewrite IH. unfold sum. rewrite HA. reflexivity.
    Qed.
    Lemma blas_dot_sum (x y : nat -> T) l : blas_dot zero add mul (map x l) (map y l) = sum (map (fun m => mul (x m) (y m)) l).
    Proof.
      unfold blas_dot. rewrite fold_sum, HZ. f_equal. induction l as [|m l IH]; cbn; congruence.
    Qed.
    Lemma sum_concat {B} (f : B -> list T) l : sum (map (fun b => sum (f b)) l) = sum (concat (map f l)).
    Proof. induction l as [|b l IH]; cbn [map concat]; auto. rewrite sum_app, <- IH. reflexivity. Qed.
    Lemma reduction_sum l s : reduction add l s -> s = sum l.
    Proof.
      induction 1 as [x|l l' x y R1 IH1 R2 IH2|l l' x P R IH].
      - cbn. now rewrite HCm, HZ.
      - now rewrite sum_app, IH1, IH2.
      - rewrite IH. now apply sum_perm.
    Qed.
  End Data.
End Rank.
