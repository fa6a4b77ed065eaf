(** * Properties of distributed vectors of Lagrange multipliers: C59, C60 *)
From Coq Require Import List Arith ZArith Lia Bool Permutation.
From Verif Require Import Base M_Nb S_Nb S_Comm M_Exchange P_Exchange M_Dual S_Dual L_Dual L_Dual2 L_Dual3 L_Dual4 L_Dual5.
Import ListNotations.
Local Open Scope out_scope.

Section Synchronize.
  Context {T : Type}.
  Variables (add : T -> T -> T) (n limit : nat) (first : nat -> nat) (L : list (list nat)) (nb cmap : nat -> list nat).
  Hypothesis HC : consistent n first L nb cmap.

  (** C59: [Dual_Map::set] ends without undefined behaviour and counts the multipliers shared with every neighbour *)
  Theorem dual_map_sizes r sz itv : r < n ->
    exists M, dual_map_set (decomposed first nb r) sz itv (cmap r) = Ok M /\ nsize M = map (fun q => length (common first L r q)) (nb r).
  Proof.
    intros Hr. destruct (groups_exist n first L nb cmap HC r Hr) as (gs & G & E & O). eexists. split; [apply (set_ok n first L nb cmap HC r Hr sz itv gs G E O)|]. reflexivity.
  Qed.

  Variables (M : nat -> dual_map) (sz : nat -> nat) (itv : nat -> list (nat * nat)).
  Hypothesis HM : forall r, r < n -> dual_map_set (decomposed first nb r) (sz r) (itv r) (cmap r) = Ok (M r).
  Variables (v : nat -> nat -> T) (send recv : nat -> list (list T)).
  Hypothesis Hsend : forall r, r < n -> buffers (M r) (send r).
  Hypothesis Hrecv : forall r, r < n -> buffers (M r) (recv r).
  Hypothesis Hlimit : forall r q, r < n -> In q (nb r) -> length (common first L r q) <= limit.

  (** C59, any arithmetic: in every execution every rank adds the values of the other ranks that keep a copy to its value, in the order of
      their numbers; the buffers are ready for the next call *)
  Theorem synchronize_exact :
    ncompletes n (map (fun r => synchronize add limit (decomposed first nb r) (M r) (vector first L v r) (send r) (recv r)) (seq 0 n))
      (map (fun r => (vector first L (fun r m => fold_left add (map (fun q => v q m) (filter (fun q => touches first q (domains L m)) (nb r))) (v r m)) r,
                      map (fun q => map (v r) (common first L r q)) (nb r), map (fun q => map (v q) (common first L r q)) (nb r))) (seq 0 n)).
  Proof.
    rewrite (map_ext_in _ (fun r => nfin (finish add (M r) (vector first L v r) (map (fun q => map (v r) (common first L r q)) (nb r)) (recv r))
      (exchange_known limit (map (fun q => map (v r) (common first L r q)) (nb r)) (recv r) (nb r)))).
    2: { intros r Hr. apply in_seq in Hr. unfold synchronize. rewrite (pack_ok n first L nb cmap HC r ltac:(lia) v (M r) (sz r) (itv r)); auto; [apply HM; lia|apply Hsend; lia]. }
    apply (nfin_completes n (fun r => finish add (M r) (vector first L v r) (map (fun q => map (v r) (common first L r q)) (nb r)) (recv r))) with
      (P := fun r => exchange_known limit (map (fun q => map (v r) (common first L r q)) (nb r)) (recv r) (nb r))
      (R := fun r => Some (map (fun q => map (v q) (common first L q r)) (nb r))).
    - apply (exchange_known_delivers n limit nb (c_neighbours _ _ _ _ _ HC) (fun r q => map (v r) (common first L r q)) recv).
      + intros r q Hr Hq. rewrite map_length. auto.
      + intros r Hr. destruct (dual_map_sizes r (sz r) (itv r) Hr) as (M' & E & S). rewrite HM in E by auto. injection E as <-.
        specialize (Hrecv r Hr). unfold buffers in Hrecv. rewrite Hrecv, S. apply map_ext. intros q. rewrite map_length. now rewrite common_sym.
    - intros r Hr. unfold finish. rewrite (map_ext _ (fun q => map (v q) (common first L r q))) by (intros q; now rewrite (common_sym first L q r)).
      rewrite (unpack_ok n first L nb cmap HC r Hr add v (M r) (sz r) (itv r)) by auto. reflexivity.
  Qed.

  (** C59, exact arithmetic: afterwards all ranks that keep a copy hold the sum of the values of all of them *)
  Theorem synchronize_sums (dflt : T) : associative add -> commutative add ->
    ncompletes n (map (fun r => synchronize add limit (decomposed first nb r) (M r) (vector first L v r) (send r) (recv r)) (seq 0 n))
      (map (fun r => (vector first L (fun _ m => reduce add dflt (map (fun q => v q m) (sharing n first L m))) r,
                      map (fun q => map (v r) (common first L r q)) (nb r), map (fun q => map (v q) (common first L r q)) (nb r))) (seq 0 n)).
  Proof.
    intros HA HCm. rewrite (map_ext_in _ (fun r => (vector first L (fun r m => fold_left add (map (fun q => v q m) (filter (fun q => touches first q (domains L m)) (nb r))) (v r m)) r,
                      map (fun q => map (v r) (common first L r q)) (nb r), map (fun q => map (v q) (common first L r q)) (nb r)))); [apply synchronize_exact|].
    intros r Hr. apply in_seq in Hr. f_equal. f_equal. unfold vector. apply map_ext_in. intros m Hm.
    change (fold_left add (map (fun q => v q m) (filter (fun q => touches first q (domains L m)) (nb r))) (v r m)) with
      (reduce add dflt (map (fun q => v q m) (r :: filter (fun q => touches first q (domains L m)) (nb r)))).
    apply reduce_perm; auto. apply Permutation_map. apply Permutation_sym, (sharing_perm n first L nb cmap HC); auto; lia.
  Qed.

  (** C59: a multiplier of at most two ranks is the same on both of them if the addition is commutative, as that of floating-point numbers *)
  Theorem synchronize_pairs (dflt : T) : commutative add -> (forall m, m < length L -> length (sharing n first L m) <= 2) ->
    ncompletes n (map (fun r => synchronize add limit (decomposed first nb r) (M r) (vector first L v r) (send r) (recv r)) (seq 0 n))
      (map (fun r => (vector first L (fun _ m => reduce add dflt (map (fun q => v q m) (sharing n first L m))) r,
                      map (fun q => map (v r) (common first L r q)) (nb r), map (fun q => map (v q) (common first L r q)) (nb r))) (seq 0 n)).
  Proof.
    intros HCm H2. rewrite (map_ext_in _ (fun r => (vector first L (fun r m => fold_left add (map (fun q => v q m) (filter (fun q => touches first q (domains L m)) (nb r))) (v r m)) r,
                      map (fun q => map (v r) (common first L r q)) (nb r), map (fun q => map (v q) (common first L r q)) (nb r)))); [apply synchronize_exact|].
    intros r Hr. apply in_seq in Hr. f_equal. f_equal. unfold vector. apply map_ext_in. intros m Hm.
    pose proof (sharing_perm n first L nb cmap HC r m Hm ltac:(lia)) as P. specialize (H2 m ltac:(apply held_in in Hm; apply Hm)).
    rewrite <- (Permutation_length P) in H2. destruct (filter (fun q => touches first q (domains L m)) (nb r)) as [|q [|q' l]]; [| |cbn in H2; lia].
    - apply Permutation_length_1_inv in P. rewrite P. reflexivity.
    - apply Permutation_length_2_inv in P. destruct P as [-> | ->]; cbn; auto.
  Qed.

  (** C59: entries that no other rank keeps do not change *)
  Theorem synchronize_unshared r m : r < n -> In m (held first L r) -> sharing n first L m = [r] ->
    fold_left add (map (fun q => v q m) (filter (fun q => touches first q (domains L m)) (nb r))) (v r m) = v r m.
  Proof.
    intros Hr Hm E. pose proof (sharing_perm n first L nb cmap HC r m Hm Hr) as P. rewrite E in P. apply Permutation_length in P.
    destruct (filter (fun q => touches first q (domains L m)) (nb r)); [reflexivity|discriminate].
  Qed.

  (** C59, finding: nobody looks at the result of the exchange.  If a message is longer than the limit (2^30 bytes), the rank returns without
      any communication and adds what the receive buffers contain from before ([w]) *)
  Theorem synchronize_too_long_refuted (w : nat -> nat -> T) r q : r < n -> In q (nb r) -> limit < length (common first L r q) ->
    recv r = map (fun q => map (w q) (common first L r q)) (nb r) ->
    synchronize add limit (decomposed first nb r) (M r) (vector first L v r) (send r) (recv r) =
    NRet (vector first L (fun r m => fold_left add (map (fun q => w q m) (filter (fun q => touches first q (domains L m)) (nb r))) (v r m)) r,
          map (fun q => map (v r) (common first L r q)) (nb r), recv r).
  Proof.
    intros Hr Hq Hlong E. unfold synchronize. rewrite (pack_ok n first L nb cmap HC r Hr v (M r) (sz r) (itv r)) by auto.
    unfold exchange_known. change (neighbors (decomposed first nb r)) with (nb r). rewrite map_length, Nat.eqb_refl.
    replace (length (recv r)) with (length (nb r)) by (rewrite E; now rewrite map_length). rewrite Nat.eqb_refl. cbn [negb orb].
    replace (too_long limit (map (fun q => map (v r) (common first L r q)) (nb r))) with true.
    2: { symmetry. unfold too_long. apply existsb_exists. exists (map (v r) (common first L r q)). split; [apply (in_map (fun q => map (v r) (common first L r q))); auto|].
         rewrite map_length. now apply Nat.ltb_lt. }
    cbn [orb nfin finish]. set (v' := fun p m => if p =? r then v r m else w p m).
    assert (Ew : forall p m, In p (nb r) -> v' p m = w p m).
    { intros p m Hp. unfold v'. destruct (Nat.eqb_spec p r) as [->|]; auto. exfalso. exact (c_not_me _ _ _ _ _ HC r Hr Hp). }
    assert (Er : forall m, v' r m = v r m) by (intros; unfold v'; now rewrite Nat.eqb_refl).
    pose proof (unpack_ok n first L nb cmap HC r Hr add v' (M r) (sz r) (itv r) (HM r Hr)) as U.
    rewrite (map_ext_in _ (fun q => map (w q) (common first L r q))) in U by (intros p Hp; apply map_ext; intros; now apply Ew). rewrite <- E in U.
    unfold vector in U. rewrite (map_ext (v' r) (v r)) in U by auto. unfold finish. unfold vector at 1. rewrite U. cbn [obind]. f_equal. f_equal. f_equal. unfold vector.
    apply map_ext_in. intros m Hm. unfold synced. rewrite Er. f_equal. apply map_ext_in. intros p Hp. apply filter_In in Hp. now apply Ew.
  Qed.

  (** ** C60 *)
  Variable sizes : list nat.
  Hypothesis Hitv : forall r, r < n -> intervals_ok first L sizes r (itv r).

  Lemma intervals_set r : r < n -> local_intervals (M r) = set_intervals 0 (itv r).
  Proof.
    intros Hr. specialize (HM r Hr). unfold dual_map_set in HM. destruct (set_blocks _ _ _ _ _ _ _) as [(nm, ns)| |]; cbn [obind] in HM; try discriminate.
    injection HM as <-. reflexivity.
  Qed.
  Lemma owner_exists m : m < length L -> exists r, r < n /\ owned first L r m = true.
  Proof.
    intros Hm. pose proof (domains_some _ _ _ (c_gluing _ _ _ _ _ HC) m Hm) as S. pose proof (domains_ranks _ _ _ (c_gluing _ _ _ _ _ HC) m) as D.
    unfold owned. destruct (domains L m) as [|d ds]; [congruence|]. cbn [firstn]. destruct (some_rank n first d) as (q & Hq & Oq); [apply D; auto; left; auto|].
    exists q. split; auto. unfold touches. cbn [existsb]. unfold on in Oq. now rewrite Oq.
  Qed.
  Lemma owner_unique m r r' : r < n -> r' < n -> owned first L r m = true -> owned first L r' m = true -> r = r'.
  Proof.
    intros H H' O O'. unfold owned, touches in *. destruct (domains L m) as [|d ds]; [discriminate|]. cbn [firstn existsb] in *. rewrite orb_false_r in *.
    apply (on_rank n first L nb cmap HC r r' d); auto.
  Qed.

  (** C60: the local intervals of all ranks together hold every multiplier exactly once *)
  Theorem local_intervals_partition :
    Permutation (concat (map (fun r => flat_map (fun i => slice (fst i) (snd i) (held first L r)) (local_intervals (M r))) (seq 0 n))) (seq 0 (length L)).
  Proof.
    rewrite (map_ext_in _ (fun r => filter (owned first L r) (seq 0 (length L)))).
    - apply split_perm; [apply seq_NoDup| |].
      + intros m Hm. apply in_seq in Hm. destruct (owner_exists m ltac:(lia)) as (r & Hr & O). exists r. split; auto. apply in_seq. lia.
      + intros m r r' Hr Hr'. apply in_seq in Hr, Hr'. apply owner_unique; lia.
    - intros r Hr. apply in_seq in Hr. rewrite intervals_set by lia. destruct (intervals_parts first L r sizes (itv r) (Hitv r ltac:(lia))) as (ps & P1 & P2 & P3 & P4).
      rewrite P2, <- P4, <- P1. apply (bounds_slices ps []).
  Qed.

  (** C60: the dot product of two vectors whose copies agree is the sum over all multipliers, whatever the order of the global reduction *)
  Theorem dot_counts_once (zero : T) (mul : T -> T -> T) (x y : nat -> T) : associative add -> commutative add -> (forall a, add zero a = a) ->
    exists locals, (forall r, r < n -> local_dot zero add mul (M r) (vector first L (fun _ => x) r) (vector first L (fun _ => y) r) = Ok (locals r)) /\
      forall s, reduction add (map locals (seq 0 n)) s -> s = fold_right add zero (map (fun m => mul (x m) (y m)) (seq 0 (length L))).
  Proof.
    intros HA HCm HZ. exists (fun r => sum zero add (map (fun m => mul (x m) (y m)) (filter (owned first L r) (seq 0 (length L))))). split.
    - intros r Hr. unfold local_dot. rewrite intervals_set by auto. destruct (intervals_parts first L r sizes (itv r) (Hitv r Hr)) as (ps & P1 & P2 & P3 & P4).
      rewrite P2, <- P4. unfold vector. rewrite <- P1. pose proof (dot_run zero add mul x y ps [] zero) as R. cbn [app length] in R. rewrite R. f_equal.
      rewrite (fold_sum zero add HA HCm HZ), HZ.
      rewrite (map_ext (fun p => blas_dot zero add mul (map x (snd p)) (map y (snd p))) (fun p => sum zero add (map (fun m => mul (x m) (y m)) (snd p))))
        by (intros p; apply (blas_dot_sum zero add mul HA HCm HZ)).
      rewrite (sum_concat zero add HA HZ). f_equal. rewrite flat_map_concat_map, concat_map, map_map. reflexivity.
    - intros s R. rewrite (reduction_sum zero add HA HCm HZ _ _ R). rewrite (sum_concat zero add HA HZ). apply (sum_perm zero add HA HCm).
      rewrite <- (map_map (fun r => filter (owned first L r) (seq 0 (length L))) (map (fun m => mul (x m) (y m)))), <- concat_map. apply Permutation_map.
      apply split_perm; [apply seq_NoDup| |].
      + intros m Hm. apply in_seq in Hm. destruct (owner_exists m ltac:(lia)) as (r & Hr & O). exists r. split; auto. apply in_seq. lia.
      + intros m r r' Hr Hr'. apply in_seq in Hr, Hr'. apply owner_unique; lia.
  Qed.

  (** C60: [copyToWithoutHalo] keeps the own multipliers and clears the others *)
  Theorem copy_without_halo_owned (zero : T) r to : r < n -> length to = length (held first L r) ->
    copy_without_halo zero (M r) (vector first L v r) to = Ok (vector first L (fun r m => if owned first L r m then v r m else zero) r).
  Proof.
    intros Hr Lt. unfold copy_without_halo. rewrite intervals_set by auto. destruct (intervals_parts first L r sizes (itv r) (Hitv r Hr)) as (ps & P1 & P2 & P3 & P4).
    rewrite P2. unfold vector. rewrite <- P1 in *. pose proof (copy_run zero (v r) ps [] to [] Lt eq_refl) as R. cbn [app length] in R. rewrite R. cbn [obind]. f_equal.
    apply parts_map. exact P3.
  Qed.
End Synchronize.

(** C60: after [copyToWithoutHalo] [synchronize] restores a vector whose copies agree *)
Theorem synchronize_without_halo {T} (zero : T) (add : T -> T -> T) n limit first L nb cmap M sz itv (x : nat -> T) send recv sizes (to : nat -> list T) (y : nat -> list T) :
  (forall a, add zero a = a) -> (forall a, add a zero = a) -> consistent n first L nb cmap ->
  (forall r, r < n -> dual_map_set (decomposed first nb r) (sz r) (itv r) (cmap r) = Ok (M r)) ->
  (forall r, r < n -> buffers (M r) (send r)) -> (forall r, r < n -> buffers (M r) (recv r)) ->
  (forall r q, r < n -> In q (nb r) -> length (common first L r q) <= limit) ->
  (forall r, r < n -> intervals_ok first L sizes r (itv r)) ->
  (forall r, r < n -> length (to r) = length (held first L r)) ->
  (forall r, r < n -> copy_without_halo zero (M r) (vector first L (fun _ => x) r) (to r) = Ok (y r)) ->
  exists bufs, ncompletes n (map (fun r => synchronize add limit (decomposed first nb r) (M r) (y r) (send r) (recv r)) (seq 0 n))
    (map (fun r => (vector first L (fun _ => x) r, fst (bufs r), snd (bufs r))) (seq 0 n)).
Proof.
  intros Z1 Z2 HC HM HS HR HL HI HT HY. set (v := fun r m => if owned first L r m then x m else zero).
  exists (fun r => (map (fun q => map (v r) (common first L r q)) (nb r), map (fun q => map (v q) (common first L r q)) (nb r))). cbn [fst snd].
  rewrite (map_ext_in (fun r => synchronize _ _ _ _ _ _ _) (fun r => synchronize add limit (decomposed first nb r) (M r) (vector first L v r) (send r) (recv r))).
  2: { intros r Hr. apply in_seq in Hr. pose proof (copy_without_halo_owned n first L nb cmap M sz itv HM (fun _ => x) sizes HI zero r (to r) ltac:(lia) (HT r ltac:(lia))) as C.
       rewrite HY in C by lia. injection C as ->. reflexivity. }
  rewrite (map_ext_in (fun r => (vector first L (fun _ => x) r, _, _)) (fun r => (vector first L (fun r m => fold_left add (map (fun q => v q m) (filter (fun q => touches first q (domains L m)) (nb r))) (v r m)) r,
                      map (fun q => map (v r) (common first L r q)) (nb r), map (fun q => map (v q) (common first L r q)) (nb r)))).
  - apply (synchronize_exact add n limit first L nb cmap HC M sz itv HM v send recv HS HR HL).
  - intros r Hr. apply in_seq in Hr. f_equal. f_equal. unfold vector. apply map_ext_in. intros m Hm.
    pose proof (sharing_perm n first L nb cmap HC r m Hm ltac:(lia)) as P. apply held_in in Hm. destruct Hm as (Hm & _).
    destruct (owner_exists n first L nb cmap HC m Hm) as (o & Ho & Oo).
    assert (In o (sharing n first L m)) as Io. { unfold sharing. apply filter_In. split; [apply in_seq; lia|]. now apply owned_touches. }
    apply Permutation_sym in P. apply (Permutation_in _ P) in Io. set (l := filter (fun q => touches first q (domains L m)) (nb r)) in *.
    assert (ND : NoDup (r :: l)). { apply (Permutation_NoDup P). apply NoDup_filter, seq_NoDup. }
    assert (Hl : forall q, In q (r :: l) -> q < n). { intros q Hq. apply Permutation_sym in P. apply (Permutation_in _ P) in Hq. unfold sharing in Hq. apply filter_In in Hq. destruct Hq as (Hq & _). apply in_seq in Hq. lia. }
    assert (Vz : forall q, In q (r :: l) -> q <> o -> v q m = zero).
    { intros q Hq NE. unfold v. destruct (owned first L q m) eqn:E; auto. destruct NE. apply (owner_unique n first L nb cmap HC m); auto. }
    assert (Vo : v o m = x m) by (unfold v; now rewrite Oo).
    assert (Zs : forall l s, (forall q, In q l -> v q m = zero) -> fold_left add (map (fun q => v q m) l) s = s).
    { clear -Z2. induction l as [|q l IH]; intros s H; cbn [map fold_left]; auto. rewrite (H q) by (left; auto). rewrite Z2. apply IH. intros; apply H; right; auto. }
    inversion ND as [|? ? ND1 ND2]; subst.
    destruct (Nat.eq_dec r o) as [->|NE].
    + rewrite Zs; auto. intros q Hq. apply Vz; [right; auto|]. intros ->. auto.
    + rewrite (Vz r (or_introl eq_refl) NE). destruct Io as [|Io]; [congruence|].
      assert (G : forall l, In o l -> NoDup l -> (forall q, In q l -> q <> o -> v q m = zero) -> fold_left add (map (fun q => v q m) l) zero = x m).
      { clear -Z1 Z2 Zs Vo. induction l as [|q l IH]; intros I ND V; [destruct I|]. cbn [map fold_left]. inversion ND as [|? ? ND1 ND2]; subst.
        destruct (Nat.eq_dec q o) as [->|NE].
        - rewrite Vo, Z1. apply Zs. intros q Hq. apply V; [right; auto|]. intros ->. auto.
        - rewrite (V q (or_introl eq_refl) NE), Z1. destruct I as [|I]; [congruence|]. apply IH; auto. intros; apply V; auto; right; auto. }
      symmetry. apply G; auto. intros q Hq. apply Vz. right; auto.
Qed.

(** ** A case: three ranks with 2, 1 and 2 domains; the last multiplier fixes a boundary value of domain 1 *)
Definition ex_first (r : nat) : nat := nth r [0; 2; 3; 5] 5.
Definition ex_L : list (list nat) := [[0; 1]; [0; 2]; [0; 2]; [0; 2; 3]; [2; 4]; [3; 4]; [1]].
Definition ex_nbs (r : nat) : list nat := nth r [[1; 2]; [0; 2]; [0; 1]] [].
Definition ex_cmap (r : nat) : list nat :=
  nth r [[1; 2; 0; 1;  2; 2; 0; 2;  1; 3; 0; 2; 3;  1; 1; 1]; [2; 2; 0; 2;  1; 3; 0; 2; 3;  1; 2; 2; 4]; [1; 3; 0; 2; 3;  1; 2; 2; 4;  1; 2; 3; 4]] [].
Definition ex_itv (r : nat) : list (nat * nat) := nth r [[(0, 5)]; [(3, 1)]; [(2, 1)]] [].

Ltac cases_lt x H := repeat (destruct x as [|x]; [|try (exfalso; cbn in H; lia)]).

Lemma ex_consistent : consistent 3 ex_first ex_L ex_nbs ex_cmap.
Proof.
  split; [split| split| | |].
  - intros r H. cases_lt r H; cbn; lia.
  - intros m i j Hm. cbn in Hm. cases_lt m Hm; cbn; intros H; cases_lt i H; cases_lt j H; cbn; lia.
  - intros m d Hm. cbn in Hm. cases_lt m Hm; cbn; lia.
  - intros m Hm. cbn in Hm. cases_lt m Hm; cbn; discriminate.
  - intros r j k Hr. cases_lt r Hr; cbn; intros H; cases_lt j H; cases_lt k H; cbn; lia.
  - intros r q Hr. cases_lt r Hr; cbn; lia.
  - intros r q Hr. cases_lt r Hr; cbn; intros H; cases_lt q H; cbn; lia.
  - intros r Hr. cases_lt r Hr; cbn; lia.
  - intros r q m Hr Hq Hm. cbn in Hm. cases_lt r Hr; cases_lt q Hq; cases_lt m Hm; cbn; intros; try discriminate; try congruence; tauto.
  - intros r Hr. cases_lt r Hr;
      [exists [(1, [0; 1]); (2, [0; 2]); (1, [0; 2; 3]); (1, [1])]|exists [(2, [0; 2]); (1, [0; 2; 3]); (1, [2; 4])]|exists [(1, [0; 2; 3]); (1, [2; 4]); (1, [3; 4])]];
      (split; [reflexivity|split; [reflexivity|repeat constructor]]).
Qed.

Definition ex_map (r : nat) : dual_map :=
  match dual_map_set (decomposed ex_first ex_nbs r) (nth r [5; 4; 3] 0) (ex_itv r) (ex_cmap r) with Ok M => M | _ => {| size := 0; local_intervals := []; nmap := []; nsize := [] |} end.
Lemma ex_map_ok r : r < 3 -> dual_map_set (decomposed ex_first ex_nbs r) (nth r [5; 4; 3] 0) (ex_itv r) (ex_cmap r) = Ok (ex_map r).
Proof. intros H. cases_lt r H; reflexivity. Qed.
Lemma ex_intervals_ok r : r < 3 -> intervals_ok ex_first ex_L [7] r (ex_itv r).
Proof.
  intros H. split; [reflexivity|]. cases_lt r H; (constructor; [|constructor]);
    [exists [], [0; 1; 2; 3; 6]|exists [1; 2; 3], [4]|exists [3; 4], [5]]; (split; [reflexivity|split; [reflexivity|]]);
    split; cbn; intros m Hm; repeat (destruct Hm as [<-|Hm]; [reflexivity|]); destruct Hm.
Qed.
Definition ex_val (r m : nat) : nat := 10 ^ r * (m + 1).
Definition ex_buf (r : nat) : list (list nat) := map (fun s => repeat 77 s) (nsize (ex_map r)).

Example synchronize_ex :
  ncompletes 3 (map (fun r => synchronize Nat.add 3 (decomposed ex_first ex_nbs r) (ex_map r) (vector ex_first ex_L ex_val r) (ex_buf r) (ex_buf r)) (seq 0 3))
    [([1; 22; 33; 444; 7], [[2; 3; 4]; [4]], [[20; 30; 40]; [400]]); ([22; 33; 444; 550], [[20; 30; 40]; [40; 50]], [[2; 3; 4]; [400; 500]]);
     ([444; 550; 600], [[400]; [400; 500]], [[4]; [40; 50]])].
Proof.
  apply (synchronize_sums Nat.add 3 3 ex_first ex_L ex_nbs ex_cmap ex_consistent ex_map (fun r => nth r [5; 4; 3] 0) ex_itv ex_map_ok ex_val ex_buf ex_buf) with (dflt := 0).
  - intros r H. cases_lt r H; reflexivity.
  - intros r H. cases_lt r H; reflexivity.
  - intros r q Hr. cases_lt r Hr; cbn; intros Hq; repeat (destruct Hq as [<-|Hq]; [cbn; lia|]); destruct Hq.
  - intros x y z. lia.
  - intros x y. lia.
Qed.

Example dot_ex : (forall r, r < 3 -> local_dot 0 Nat.add Nat.mul (ex_map r) (vector ex_first ex_L (fun _ m => m) r) (vector ex_first ex_L (fun _ m => 10 * m) r) =
                    Ok (nth r [500; 160; 250] 0)) /\ reduction Nat.add [500; 160; 250] 910.
Proof.
  split; [intros r H; cases_lt r H; reflexivity|]. apply (red_app Nat.add [500; 160] [250] 660 250); [|constructor]. apply (red_app Nat.add [500] [160] 500 160); constructor.
Qed.
Example dot_ex_sum : 910 = fold_right Nat.add 0 (map (fun m => m * (10 * m)) (seq 0 7)).
Proof. reflexivity. Qed.

Example without_halo_ex : copy_without_halo 0 (ex_map 1) [22; 33; 444; 550] [9; 9; 9; 9] = Ok [0; 0; 0; 550].
Proof. reflexivity. Qed.

(** messages of two numbers only: rank 0 adds the numbers 77 that its buffers contain *)
Example too_long_ex : synchronize Nat.add 2 (decomposed ex_first ex_nbs 0) (ex_map 0) (vector ex_first ex_L ex_val 0) (ex_buf 0) (ex_buf 0) =
  NRet ([1; 79; 80; 158; 7], [[2; 3; 4]; [4]], ex_buf 0).
Proof. reflexivity. Qed.
(** C59, finding: with the addition of doubles three ranks that share a multiplier may end with different values *)
Definition f3_L : list (list nat) := [[0; 1; 2]].
Definition f3_nb (r : nat) : list nat := nth r [[1; 2]; [0; 2]; [0; 1]] [].
Definition f3_map : dual_map := {| size := 1; local_intervals := [(0, 1)]; nmap := [0; 1; 2; 0; 1]; nsize := [1; 1] |}.
Lemma f3_consistent : consistent 3 (fun r => r) f3_L f3_nb (fun _ => [1; 3; 0; 1; 2]).
Proof.
  split; [split| split| | |].
  - intros r H. lia.
  - intros m i j Hm. cbn in Hm. cases_lt m Hm; cbn; intros H; cases_lt i H; cases_lt j H; cbn; lia.
  - intros m d Hm. cbn in Hm. cases_lt m Hm; cbn; lia.
  - intros m Hm. cbn in Hm. cases_lt m Hm; cbn; discriminate.
  - intros r j k Hr. cases_lt r Hr; cbn; intros H; cases_lt j H; cases_lt k H; cbn; lia.
  - intros r q Hr. cases_lt r Hr; cbn; lia.
  - intros r q Hr. cases_lt r Hr; cbn; intros H; cases_lt q H; cbn; lia.
  - intros r Hr. cases_lt r Hr; cbn; lia.
  - intros r q m Hr Hq Hm. cbn in Hm. cases_lt r Hr; cases_lt q Hq; cases_lt m Hm; cbn; intros; try discriminate; try congruence; tauto.
  - intros r Hr. exists [(1, [0; 1; 2])]. cases_lt r Hr; (split; [reflexivity|split; [reflexivity|repeat constructor]]).
Qed.
(** two of them *)
Lemma f2_consistent : consistent 2 (fun r => r) [[0; 1]; [1]] (fun r => [1 - r]) (fun r => nth r [[1; 2; 0; 1]; [1; 2; 0; 1; 1; 1; 1]] []).
Proof.
  split; [split| split| | |].
  - intros r H. lia.
  - intros m i j Hm. cbn in Hm. cases_lt m Hm; cbn; intros H; cases_lt i H; cases_lt j H; cbn; lia.
  - intros m d Hm. cbn in Hm. cases_lt m Hm; cbn; lia.
  - intros m Hm. cbn in Hm. cases_lt m Hm; cbn; discriminate.
  - intros r j k Hr. cbn; intros H; lia.
  - intros r q Hr. cases_lt r Hr; cbn; lia.
  - intros r q Hr. cases_lt r Hr; cbn; intros [<-|[]]; cbn; tauto.
  - intros r Hr. cases_lt r Hr; cbn; lia.
  - intros r q m Hr Hq Hm. cbn in Hm. cases_lt r Hr; cases_lt q Hq; cases_lt m Hm; cbn; intros; try discriminate; try congruence; tauto.
  - intros r Hr. cases_lt r Hr; [exists [(1, [0; 1])]|exists [(1, [0; 1]); (1, [1])]]; (split; [reflexivity|split; [reflexivity|repeat constructor]]).
Qed.
Example synchronize_pairs_ex : double_add 1 (2 ^ 53) = (2 ^ 53)%Z /\
  ncompletes 2 (map (fun r => synchronize double_add 1 (decomposed (fun r => r) (fun r => [1 - r]) r)
      {| size := S r; local_intervals := []; nmap := [0; 1; 1; 0]; nsize := [1] |} (nth r [[1]; [2 ^ 53; 5]] [])%Z [[0%Z]] [[0%Z]]) (seq 0 2))
    [([2 ^ 53], [[1]], [[2 ^ 53]]); ([2 ^ 53; 5], [[2 ^ 53]], [[1]])]%Z.
Proof.
  split; [reflexivity|].
  pose proof (synchronize_pairs double_add 2 1 (fun r => r) [[0; 1]; [1]] (fun r => [1 - r]) (fun r => nth r [[1; 2; 0; 1]; [1; 2; 0; 1; 1; 1; 1]] []) f2_consistent
    (fun r => {| size := S r; local_intervals := []; nmap := [0; 1; 1; 0]; nsize := [1] |}) S (fun _ => [])) as P.
  specialize (P ltac:(intros r H; cases_lt r H; reflexivity) (fun r m => nth m (nth r [[1]; [2 ^ 53; 5]] []) 0)%Z (fun _ => [[0%Z]]) (fun _ => [[0%Z]])).
  specialize (P ltac:(intros; reflexivity) ltac:(intros; reflexivity)).
  specialize (P ltac:(intros r q Hr [<-|[]]; cases_lt r Hr; cbn; lia) 0%Z).
  specialize (P ltac:(intros a b; unfold double_add; now rewrite Z.add_comm)).
  specialize (P ltac:(intros m Hm; cbn in Hm; cases_lt m Hm; cbn; lia)). exact P.
Qed.

Theorem synchronize_floating_point_refuted : exists (v : nat -> Z) (a b : Z), a <> b /\
  ncompletes 3 (map (fun r => synchronize double_add 1 (decomposed (fun r => r) f3_nb r) f3_map [v r] [[0%Z]; [0%Z]] [[0%Z]; [0%Z]]) (seq 0 3))
    [([a], [[v 0]; [v 0]], [[v 1]; [v 2]]); ([a], [[v 1]; [v 1]], [[v 0]; [v 2]]); ([b], [[v 2]; [v 2]], [[v 0]; [v 1]])].
Proof.
  exists (fun r => nth r [1; 1; 2 ^ 53] 0)%Z, (2 ^ 53 + 2)%Z, (2 ^ 53)%Z. split; [vm_compute; discriminate|].
  pose proof (synchronize_exact double_add 3 1 (fun r => r) f3_L f3_nb (fun _ => [1; 3; 0; 1; 2]) f3_consistent (fun _ => f3_map) (fun _ => 1) (fun _ => [(0, 1)])) as S.
  specialize (S ltac:(intros r H; cases_lt r H; reflexivity) (fun r _ => nth r [1; 1; 2 ^ 53] 0)%Z (fun _ => [[0%Z]; [0%Z]]) (fun _ => [[0%Z]; [0%Z]])).
  specialize (S ltac:(intros; reflexivity) ltac:(intros; reflexivity)).
  assert (HL : forall r q, r < 3 -> In q (f3_nb r) -> length (common (fun r => r) f3_L r q) <= 1).
  { intros r q Hr. cases_lt r Hr; cbn; intros Hq; repeat (destruct Hq as [<-|Hq]; [cbn; lia|]); destruct Hq. }
  specialize (S HL). exact S.
Qed.

Print Assumptions dual_map_sizes.
Print Assumptions synchronize_exact.
Print Assumptions synchronize_sums.
Print Assumptions synchronize_pairs.
Print Assumptions synchronize_unshared.
Print Assumptions synchronize_too_long_refuted.
Print Assumptions local_intervals_partition.
Print Assumptions dot_counts_once.
Print Assumptions copy_without_halo_owned.
Print Assumptions synchronize_without_halo.
Print Assumptions synchronize_floating_point_refuted.
