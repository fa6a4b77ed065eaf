(** * Lemmas about the preconditioners: all domains of a rank *)
From Coq Require Import List Arith Bool ZArith Permutation Sorted Reals Lia Lra.
From Verif Require Import Base M_Csx M_Dnx S_Csx S_Dnx M_Math S_Math S_Dual M_Dual S_Equality M_Equality L_Equality6 L_Equality7 M_TotalFeti S_Feti L_TotalFeti L_TotalFeti2 M_Precond S_Precond L_Precond L_Precond2.
Import ListNotations.
Local Open Scope out_scope.
Local Open Scope R_scope.

Section Rank.
  Variables (first : nat -> nat) (L : list (list nat)) (len : nat -> nat) (row : nat -> nat -> list (nat * R)).
  Hypothesis HB : entries_ok L len row.
  Variable r : nat.
  Local Notation own := (own first r).
  Local Notation st := (stored first L len row r).
  Local Notation surface := (surface L row).

  Lemma not_surface m d j : (m < length L)%nat -> surface d j = false -> B row m d j = 0.
  Proof.
    intros Hm Hs. unfold S_Feti.B. apply Sum_zero. intros e Ie. destruct (fst e =? j)%nat eqn:E; [|reflexivity]. exfalso. unfold S_Precond.surface in Hs.
    assert (X : existsb (fun m => existsb (fun e => (fst e =? j)%nat) (row m d)) (multiplier_list L) = true); [|congruence].
    apply existsb_exists. exists m. split; [apply in_seq; lia|]. apply existsb_exists. now exists e.
  Qed.
  Lemma Bt_inside x d j : surface d j = false -> Bt_of L row x d j = 0.
  Proof. intros Hs. unfold Bt_of. apply Sum_zero. intros m Im. apply in_seq in Im. rewrite not_surface by (auto; lia). lra. Qed.

  (** the marked columns *)
  Lemma columns_in d c : In d own -> In c (columns (stored_rows first L row r d)) <-> exists m e, (m < length L)%nat /\ In e (row m d) /\ fst e = c.
  Proof.
    intros Id. unfold columns. rewrite in_flat_map. split.
    - intros (x & Ix & Ic). unfold stored_rows in Ix. apply in_map_iff in Ix. destruct Ix as ([p m] & <- & Ix). cbn [fst snd] in *. apply filter_In in Ix. destruct Ix as [Ix _]. apply in_combine_r in Ix. apply in_map_iff in Ic. destruct Ic as (e & <- & Ie).
      exists m, e. split; [now apply (held_lt first L r)|]. easy.
    - intros (m & e & Hm & Ie & <-). assert (Dm : In d (domains L m)) by (destruct (in_dec Nat.eq_dec d (domains L m)) as [|N]; [easy|]; rewrite (proj2 (HB m d Hm) N) in Ie; destruct Ie).
      pose proof (own_held first L r d m Id Hm Dm) as Hh. destruct (In_nth _ _ 0%nat Hh) as (p & Hp & Ep). exists (p, row m d). split; [|now apply in_map]. unfold stored_rows. apply in_map_iff. exists (p, m). split; [reflexivity|]. apply filter_In. split.
      + rewrite <- Ep at 1. replace (p, nth p (held first L r) 0%nat) with (nth p (combine (seq 0 (length (held first L r))) (held first L r)) (0, 0)%nat); [apply nth_In; rewrite combine_length, seq_length; lia|]. rewrite combine_nth by (now rewrite seq_length). rewrite seq_nth by easy. reflexivity.
      + cbn [snd]. apply existsb_exists. exists d. split; [easy|]. apply Nat.eqb_refl.
  Qed.
  Lemma columns_lt d c : In d own -> In c (columns (stored_rows first L row r d)) -> (c < len d)%nat.
  Proof. intros Id Ic. apply columns_in in Ic; [|easy]. destruct Ic as (m & e & Hm & Ie & <-). now apply (HB m d Hm). Qed.
  Lemma columns_surface d j : In d own -> surface d j = existsb (Nat.eqb j) (columns (stored_rows first L row r d)).
  Proof.
    intros Id. apply eq_true_iff_eq. unfold S_Precond.surface. rewrite !existsb_exists. split.
    - intros (m & Im & H). apply existsb_exists in H. destruct H as (e & Ie & E). apply Nat.eqb_eq in E. apply in_seq in Im. exists j. split; [|apply Nat.eqb_refl]. apply columns_in; [easy|]. exists m, e. repeat split; auto. lia.
    - intros (c & Ic & E). apply Nat.eqb_eq in E. subst c. apply columns_in in Ic; [|easy]. destruct Ic as (m & e & Hm & Ie & E). exists m. split; [apply in_seq; lia|]. apply existsb_exists. exists e. split; [easy|]. now apply Nat.eqb_eq.
  Qed.

  (** the parts of the result depend only on the surface *)
  Lemma part_surface u v m : (m < length L)%nat -> (forall d j, In d own -> (j < len d)%nat -> surface d j = true -> u d j = v d j) -> part len row own u m = part len row own v m.
  Proof.
    intros Hm H. apply Sum_ext_in. intros d Id. apply Sum_ext_in. intros j Ij. apply in_seq in Ij. destruct (surface d j) eqn:E; [rewrite H by (auto; lia); reflexivity|]. rewrite not_surface by easy. lra.
  Qed.

  Lemma precond_ok (f : nat -> list R -> outcome (list R)) (u : nat -> nat -> R) x :
    (forall d, In d own -> exists w, f (d - first r)%nat (dense len (Bt_of L row x) d) = Ok w /\ length w = len d /\ forall j, (j < len d)%nat -> surface d j = true -> nth j w 0 = u d j) ->
    precond_apply 0 1 Rplus Rmult st f (dual first L x r) = Ok (map (part len row own u) (held first L r)).
  Proof.
    intros H. unfold precond_apply. rewrite all_Btx_ok by easy. cbn [obind]. rewrite Kn_length, own_seq.
    assert (G : forall ds acc, incl ds own -> exists ws, foldM (precond_domain f (map (dense len (Bt_of L row x)) own)) (map (fun d => (d - first r)%nat) ds) acc = Ok (acc ++ ws) /\ length ws = length ds /\
      forall i, (i < length ds)%nat -> f (nth i ds 0 - first r)%nat (dense len (Bt_of L row x) (nth i ds 0%nat)) = Ok (nth i ws [])).
    { induction ds as [|d ds IH]; intros acc Hd; cbn [map foldM]; [exists []; rewrite app_nil_r; repeat split; auto; cbn; intros; lia|]. assert (Id : In d own) by (apply Hd; now left).
      unfold precond_domain at 1. rewrite own_rd by easy. cbn [obind]. destruct (H d Id) as (w & Ew & Lw & Hw). rewrite Ew. cbn [obind].
      destruct (IH (acc ++ [w])) as (ws & E & Lws & Hws); [intros y Iy; apply Hd; now right|]. exists (w :: ws). rewrite E, <- app_assoc. cbn [app length]. split; [reflexivity|]. split; [lia|].
      intros i Hi. destruct i as [|i]; cbn [nth]; [exact Ew|]. apply Hws. cbn in Hi; lia. }
    destruct (G own [] (incl_refl _)) as (ws & E & Lws & Hws). rewrite E. cbn [obind app].
    assert (N : forall d, In d own -> nth (d - first r) own 0%nat = d) by (intros d Id; pose proof (own_nth first r (fun x => x) d 0%nat Id) as X; now rewrite map_id in X).
    assert (Hlt : forall d, In d own -> (d - first r < length own)%nat) by (intros d Id; unfold S_Feti.own, own_domains in *; apply in_seq in Id; rewrite seq_length; lia).
    assert (W : forall d, In d own -> length (nth (d - first r) ws []) = len d /\ forall j, (j < len d)%nat -> surface d j = true -> nth j (nth (d - first r) ws []) 0 = u d j).
    { intros d Id. specialize (Hws (d - first r)%nat (Hlt d Id)). rewrite N in Hws by easy. destruct (H d Id) as (w & Ew & Lw & Hw). rewrite Ew in Hws. injection Hws as <-. auto. }
    rewrite (apply_B_ok first L len row HB r own ws (fun d j => nth j (nth (d - first r) ws []) 0)); [|apply incl_refl|easy|].
    - f_equal. apply map_ext_in. intros m Im. apply part_surface; [now apply (held_lt first L r)|]. intros d j Id Hj Sj. now apply W.
    - intros d Id. unfold dense. destruct (W d Id) as [Lw _]. rewrite <- Lw. apply L_Utils.list_as_map.
  Qed.
End Rank.
