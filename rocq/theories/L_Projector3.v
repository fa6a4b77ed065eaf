(** Lemmas about the projectors: all ranks. *)
From Coq Require Import List Arith Bool Permutation Sorted Reals Lia Lra.
From Verif Require Import Base S_Nb S_Comm S_Mpi M_Mpi M_Comm P_Comm L_Coll M_Nb M_Exchange M_Dual S_Dual P_Dual S_Equality M_Equality L_Equality6 L_Equality7 P_Equality M_TotalFeti S_Feti L_TotalFeti L_TotalFeti2 M_Projector S_Projector L_Projector L_Projector2.
Import ListNotations.
Local Open Scope out_scope.
Local Open Scope R_scope.

Lemma put_put {T} off (e a b : list T) : (off + length a + length b <= length e)%nat ->
  put (off + length a) (off + length a + length b) (put off (off + length a) e a) b = put off (off + length (a ++ b)) e (a ++ b).
Proof.
  intros H. unfold put. rewrite app_length.
  assert (F : firstn (off + length a) (firstn off e ++ a ++ skipn (off + length a) e) = firstn off e ++ a).
  { rewrite app_assoc, firstn_app, app_length, firstn_length. replace (off + length a - (Nat.min off (length e) + length a))%nat with 0%nat by lia. cbn [firstn]. rewrite app_nil_r. apply firstn_all2. rewrite app_length, firstn_length. lia. }
  rewrite F. rewrite skipn_app, skipn_app, firstn_length. rewrite skipn_all2 by (rewrite firstn_length; lia). cbn [app].
  rewrite skipn_all2 by lia. cbn [app]. rewrite skipn_skipn. rewrite <- !app_assoc. do 4 f_equal. lia.
Qed.

Section Ranks.
  Variables (n limit : nat) (first : nat -> nat) (L : list (list nat)) (nb : nat -> list nat) (cmap : nat -> list nat).
  Hypothesis HC : consistent n first L nb cmap.
  Variables (len : nat -> nat) (row : nat -> nat -> list (nat * R)).
  Hypothesis HB : entries_ok L len row.
  Variables (ksize : nat -> nat) (Rk : nat -> nat -> nat -> R).
  Local Notation kernel_vector := (kernel_vector ksize).
  Local Notation kidx := (kidx ksize).
  Local Notation own := (own first).
  Local Notation all := (everything n first).
  Local Notation before := (kernels_before first ksize).

  Lemma own_upto k : (k <= n)%nat -> (first 0 <= first k)%nat /\ flat_map own (seq 0 k) = seq (first 0%nat) (first k - first 0%nat).
  Proof.
    induction k as [|k IH]; intros Hk; [split; [lia|]; now rewrite Nat.sub_diag|]. destruct (IH ltac:(lia)) as [L0 E]. pose proof (first_mono _ _ _ (c_gluing _ _ _ _ _ HC) k ltac:(lia)) as L1. replace (k + 1)%nat with (S k) in L1 by lia.
    split; [lia|]. rewrite seq_S, flat_map_app, E. cbn [flat_map Nat.add]. rewrite app_nil_r. unfold S_Feti.own, own_domains. replace (k + 1)%nat with (S k) by lia.
    replace (first (S k) - first 0%nat)%nat with ((first k - first 0%nat) + (first (S k) - first k))%nat by lia. rewrite seq_app. do 2 f_equal. lia.
  Qed.
  Lemma own_in_all r d : (r < n)%nat -> In d (own r) -> In d all.
  Proof. intros Hr I. unfold everything, all_domains. rewrite <- (proj2 (own_upto n (le_n _))). apply in_flat_map. exists r. split; [apply in_seq; lia|easy]. Qed.
  Lemma all_own d : In d all -> exists r, (r < n)%nat /\ In d (own r).
  Proof. intros I. unfold everything, all_domains in I. rewrite <- (proj2 (own_upto n (le_n _))) in I. apply in_flat_map in I as (r & Ir & I). apply in_seq in Ir. exists r. split; [lia|easy]. Qed.

  Lemma gathered_kernels w k : (k <= n)%nat -> gathered (fun r => kernel_vector (own r) w) 0 k = kernel_vector (seq (first 0%nat) (first k - first 0%nat)) w.
  Proof.
    intros Hk. unfold gathered. rewrite Nat.sub_0_r. rewrite <- (proj2 (own_upto k Hk)). unfold S_Projector.kernel_vector. generalize (seq 0 k). clear.
    induction l as [|r l IH]; [reflexivity|]. cbn [map concat flat_map]. now rewrite flat_map_app, IH.
  Qed.
  Lemma before_offset w r : (r <= n)%nat -> offset (fun r => kernel_vector (own r) w) r = before r.
  Proof. intros Hr. unfold offset. rewrite gathered_kernels by easy. unfold kernels_before. now rewrite !kernel_vector_length. Qed.
  Lemma before_next r : (r < n)%nat -> before (r + 1) = (before r + length (kidx (own r)))%nat.
  Proof.
    intros Hr. rewrite <- !(before_offset (fun _ _ => 0)) by lia. unfold offset. rewrite (gathered_split _ 0 r (r + 1)) by lia. rewrite app_length, gathered_one, kernel_vector_length. reflexivity.
  Qed.
  Lemma before_total : before n = length (kidx all).
  Proof. unfold kernels_before. rewrite kernel_vector_length. reflexivity. Qed.
  Lemma before_le r : (r <= n)%nat -> (before r <= length (kidx all))%nat.
  Proof. intros Hr. rewrite <- before_total. rewrite <- !(before_offset (fun _ _ => 0)) by lia. unfold offset. rewrite (gathered_split _ 0 r n) by lia. rewrite app_length. lia. Qed.
  Lemma before_room r : (r < n)%nat -> (before r + length (kidx (own r)) <= length (kidx all))%nat.
  Proof. intros Hr. rewrite <- before_next by easy. apply before_le. lia. Qed.

  (** the synchronization of vectors of kernels *)
  Lemma kernels_gathered w (arr : nat -> list R) : (0 < n)%nat ->
    (forall r, (r < n)%nat -> length (arr r) = length (kidx all)) ->
    (forall r, (r < n)%nat -> exists old, length old = length (kidx all) /\ arr r = put (before r) (before r + length (kidx (own r))) old (kernel_vector (own r) w)) ->
    completes n (map (fun r => all_gather_inplace n r (arr r) (before r) (length (kidx (own r))) (fun x => Ret x)) (seq 0 n)) (map (fun _ => kernel_vector all w) (seq 0 n)).
  Proof.
    intros Hn La Ha. pose proof (all_gather_inplace_concat n (length (kidx all)) (fun r => kernel_vector (own r) w) arr Hn) as C.
    rewrite before_offset in C by lia. specialize (C (before_le n (le_n _)) La).
    rewrite (map_ext_in _ (fun i => all_gather_inplace n i (arr i) (offset (fun r => kernel_vector (own r) w) i) (length (kernel_vector (own i) w)) (fun x => Ret x))).
    - rewrite (map_ext_in _ (fun i => gathered (fun r => kernel_vector (own r) w) 0 n ++ skipn (before n) (arr i))).
      + apply C. intros r Hr. rewrite !before_offset, before_next by lia. destruct (Ha r Hr) as (old & Lo & ->). rewrite <- (kernel_vector_length ksize (own r) w). apply put_slice.
        rewrite kernel_vector_length, Lo. now apply before_room.
      + intros r Ir. apply in_seq in Ir. rewrite before_total, <- (La r) by lia. rewrite skipn_all, app_nil_r, gathered_kernels by lia. reflexivity.
    - intros r Ir. apply in_seq in Ir. rewrite before_offset, kernel_vector_length by lia. reflexivity.
  Qed.

  (** ** e *)
  Local Notation K d := {| nrows := ksize d; ncols := len d; vals := flat_map (fun k => map (Rk d k) (seq 0 (len d))) (seq 0 (ksize d)) |}.
  Lemma e_domain_ok f d g e : (g + ksize d <= length e)%nat ->
    e_domain 0 1 Rplus Rmult Ropp (K d) (dense len f d) g e = Ok (put g (g + ksize d) e (map (e_of len Rk f d) (seq 0 (ksize d)))).
  Proof.
    intros Le. unfold e_domain. cbn [nrows]. apply write_range; [easy|]. intros v k Hk Lv. unfold e_row. cbn [ncols vals].
    assert (LV : length (flat_map (fun k => map (Rk d k) (seq 0 (len d))) (seq 0 (ksize d))) = (ksize d * len d)%nat) by (rewrite (flat_map_length_const _ (len d)); [now rewrite seq_length|intros; now rewrite map_length, seq_length]).
    rewrite row_product_ok; [|rewrite LV; nia|now rewrite dense_length]. cbn [obind]. rewrite wr_ok by lia. do 2 f_equal. unfold e_of.
    rewrite (Sum_ext_in _ _ (fun j => Rk d k j * f d j)); [lra|]. intros j Ij. apply in_seq in Ij. rewrite dense_nth by lia. f_equal.
    rewrite (flat_map_nth_const _ (len d)) by (lia || (intros; now rewrite map_length, seq_length)). cbn [Nat.add]. now rewrite map_seq_nth by lia.
  Qed.
  Lemma e_ok f ds : forall off e, (off + length (kidx ds) <= length e)%nat ->
    foldM (fun e x => e_domain 0 1 Rplus Rmult Ropp (fst (fst x)) (snd x) (snd (fst x)) e)
      (combine (combine (map (fun d => K d) ds) (map (fun o => (off + o)%nat) (kernel_offsets 0 (map (fun d => K d) ds)))) (map (dense len f) ds)) e
    = Ok (put off (off + length (kidx ds)) e (kernel_vector ds (e_of len Rk f))).
  Proof.
    induction ds as [|d ds IH]; intros off e Le.
    - cbn [map combine foldM kernel_offsets]. unfold put, S_Projector.kernel_vector. cbn [flat_map app L_Projector2.kidx length]. rewrite Nat.add_0_r. now rewrite firstn_skipn.
    - change (kidx (d :: ds)) with (map (pair d) (seq 0 (ksize d)) ++ kidx ds) in *. rewrite app_length, map_length, seq_length in *. cbn [map kernel_offsets nrows combine foldM fst snd Nat.add].
      rewrite Nat.add_0_r, e_domain_ok by lia. cbn [obind].
      replace (map (fun o => (off + o)%nat) (kernel_offsets (ksize d) (map (fun d => K d) ds))) with (map (fun o => ((off + ksize d) + o)%nat) (kernel_offsets 0 (map (fun d => K d) ds))).
      2: { rewrite !offsets_idx, !map_map. apply map_ext. intros i. lia. }
      assert (Lm : length (map (e_of len Rk f d) (seq 0 (ksize d))) = ksize d) by (now rewrite map_length, seq_length).
      rewrite IH.
      + change (kernel_vector (d :: ds) (e_of len Rk f)) with (map (e_of len Rk f d) (seq 0 (ksize d)) ++ kernel_vector ds (e_of len Rk f)).
        pose proof (put_put off e (map (e_of len Rk f d) (seq 0 (ksize d))) (kernel_vector ds (e_of len Rk f))) as P. rewrite app_length, kernel_vector_length, Lm in P. rewrite P by lia. reflexivity.
      + rewrite <- Lm at 2. rewrite put_length by (rewrite Lm; lia). lia.
  Qed.

  (** ** sums over the sharing ranks *)
  Lemma own_total m (f : nat -> R) : (m < length L)%nat -> (forall d, ~ In d (domains L m) -> f d = 0) -> Sum (sharing n first L m) (fun q => Sum (own q) f) = Sum all f.
  Proof.
    intros Hm Hf. unfold everything, all_domains. rewrite <- (proj2 (own_upto n (le_n _))), Sum_flat_map. unfold sharing. rewrite Sum_filter. apply Sum_ext_in. intros q Iq. destruct (touches first q (domains L m)) eqn:E; [reflexivity|].
    symmetry. apply Sum_zero. intros d Id. apply Hf. intros I. assert (X : In m (held first L q)) by (now apply (own_held first L q d)). unfold held in X. apply filter_In in X as [_ X]. congruence.
  Qed.
  Lemma owned_sum m (x : R) : (m < length L)%nat -> Sum (sharing n first L m) (fun q => if owned first L q m then x else 0) = x.
  Proof.
    intros Hm. destruct (owner_exists n first L nb cmap HC m Hm) as (o & Ho & O). rewrite (Sum_single _ o).
    - now rewrite O.
    - unfold sharing. apply NoDup_filter, seq_NoDup.
    - unfold sharing. apply filter_In. split; [apply in_seq; lia|]. unfold owned in O. unfold touches in *. apply existsb_exists in O as (d & I & E). apply existsb_exists. exists d. split; [|easy].
      rewrite <- (firstn_skipn 1 (domains L m)). apply in_or_app. now left.
    - intros q Iq N. destruct (owned first L q m) eqn:E; [|reflexivity]. destruct N. unfold sharing in Iq. apply filter_In in Iq as [Iq _]. apply in_seq in Iq. apply (owner_unique n first L nb cmap HC m); auto; lia.
  Qed.
End Ranks.
