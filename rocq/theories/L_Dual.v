(** * Lemmas: a local computation after a neighbourhood operation *)
From Coq Require Import List Arith Lia Bool.
From Verif Require Import Base M_Nb S_Nb M_Dual.
Import ListNotations.

Section Fin.
  Context {Msg A B : Type}.
  Variables (n : nat) (f : nat -> A -> outcome B).

  Fixpoint fins (i : nat) (ps : list (nprog Msg A)) : list (nprog Msg B) :=
    match ps with [] => [] | p :: ps => nfin (f i) p :: fins (S i) ps end.
  Definition fworld (s : nworld Msg A) : nworld Msg B := {| n_procs := fins 0 (n_procs s); n_chan := n_chan s |}.

  Lemma fins_nth ps k i : nth_error (fins k ps) i = option_map (nfin (f (k + i))) (nth_error ps i).
  Proof.
    revert k i; induction ps as [|p ps IH]; intros k [|i]; cbn; auto.
    - now rewrite Nat.add_0_r.
    - rewrite IH. now replace (S k + i) with (k + S i) by lia.
  Qed.
  Lemma fins_upd ps k i p : fins k (upd ps i p) = upd (fins k ps) i (nfin (f (k + i)) p).
  Proof.
    revert k i; induction ps as [|q ps IH]; intros k [|i]; cbn; auto.
    - now rewrite Nat.add_0_r.
    - rewrite IH. now replace (S k + i) with (k + S i) by lia.
  Qed.

  Lemma fworld_sure s s' : nstep_sure n s s' -> nstep_sure n (fworld s) (fworld s').
  Proof.
    intros H. destruct H as [i j m k ps ch q Hi Hj Hp Hc|i j m srcs k ps ch q Hi Hj Hp Ha Hc|i k ps ch Hi Hp Hc]; unfold fworld; cbn [n_procs n_chan];
      rewrite fins_upd; cbn [Nat.add].
    - apply StepIsend with (m := m); auto. rewrite fins_nth, Hp. reflexivity.
    - apply (StepRecv _ _ _ _ _ m srcs (fun i m => nfin (f j) (k i m))); auto. rewrite fins_nth, Hp. reflexivity.
    - apply StepSent; auto. rewrite fins_nth, Hp. reflexivity.
  Qed.

  Ltac fin_inv p := destruct p as [a|j0 m0 k0|s0 k0|k0|]; cbn [option_map nfin] in *; try (destruct (f _ a)); try discriminate.

  Lemma fworld_back s t : nstep n (fworld s) t -> exists s', t = fworld s' /\ nstep n s s'.
  Proof.
    destruct s as [ps ch]. unfold fworld. cbn [n_procs n_chan]. intros [H|H].
    - inversion H as [i j m k ps' ch' q Hi Hj Hp Hc E1 E2|i j m srcs k ps' ch' q Hi Hj Hp Ha Hc E1 E2|i k ps' ch' Hi Hp Hc E1 E2]; clear H;
        rewrite fins_nth in Hp; cbn [Nat.add] in Hp.
      + destruct (nth_error ps i) as [p|] eqn:P; [|discriminate]. fin_inv p. injection Hp as <- <- <-.
        eexists. split. 2: { left. apply (StepIsend _ _ _ i j0 m0 k0 _ _ q); auto. } cbn [n_procs n_chan]. now rewrite fins_upd.
      + destruct (nth_error ps j) as [p|] eqn:P; [|discriminate]. fin_inv p. injection Hp as <- <-.
        eexists. split. 2: { left. apply (StepRecv _ _ _ i j m s0 k0 _ _ q); auto. } cbn [n_procs n_chan]. now rewrite fins_upd.
      + destruct (nth_error ps i) as [p|] eqn:P; [|discriminate]. fin_inv p. injection Hp as <-.
        eexists. split. 2: { left. apply (StepSent _ _ _ i k0); auto. } cbn [n_procs n_chan]. now rewrite fins_upd.
    - inversion H as [i k ps' ch' Hi Hp E1 E2]; clear H. rewrite fins_nth in Hp; cbn [Nat.add] in Hp.
      destruct (nth_error ps i) as [p|] eqn:P; [|discriminate]. fin_inv p. injection Hp as <-.
      eexists. split. 2: { right. apply (StepBuffered _ _ _ i k0); auto. } cbn [n_procs n_chan]. now rewrite fins_upd.
  Qed.

  Lemma fworld_steps s t : nsteps n (fworld s) t -> exists s', t = fworld s' /\ nsteps n s s'.
  Proof.
    intros H. remember (fworld s) as u eqn:E. revert s E. induction H as [u|u u' u'' H1 H2 IH]; intros s E.
    - exists s. split; auto. constructor.
    - subst u. destruct (fworld_back _ _ H1) as (s' & E' & S1). destruct (IH s' E') as (s'' & E'' & S2).
      exists s''. split; auto. econstructor; eauto.
  Qed.

  Lemma fworld_trace s k (tr : nat -> nworld Msg B) : tr 0 = fworld s -> (forall i, i < k -> nstep n (tr i) (tr (S i))) ->
    exists tr', tr' 0 = s /\ (forall i, i < k -> nstep n (tr' i) (tr' (S i))) /\ tr k = fworld (tr' k).
  Proof.
    intros E0. induction k as [|k IH]; intros H.
    - exists (fun _ => s). repeat split; auto. intros; lia.
    - destruct IH as (tr' & T0 & TS & TK); [intros; apply H; lia|].
      destruct (fworld_back (tr' k) (tr (S k))) as (s' & E' & S1); [rewrite <- TK; apply H; lia|].
      exists (fun i => if i <=? k then tr' i else s'). repeat split.
      + exact T0.
      + intros i Hi. destruct (Nat.leb_spec i k) as [L|L]; [|lia]. destruct (Nat.leb_spec (S i) k) as [L'|L'].
        * apply TS. lia.
        * replace i with k by lia. exact S1.
      + destruct (Nat.leb_spec (S k) k) as [L|L]; [lia|]. exact E'.
  Qed.

  Lemma fins_map (P : nat -> nprog Msg A) k m : fins k (map P (seq k m)) = map (fun i => nfin (f i) (P i)) (seq k m).
  Proof. revert k; induction m as [|m IH]; intros k; cbn; auto. now rewrite IH. Qed.

  (** after an operation that completes the ranks go on locally *)
  Lemma nfin_completes (P : nat -> nprog Msg A) (R : nat -> A) (Q : nat -> B) :
    ncompletes n (map P (seq 0 n)) (map R (seq 0 n)) -> (forall i, i < n -> f i (R i) = Ok (Q i)) ->
    ncompletes n (map (fun i => nfin (f i) (P i)) (seq 0 n)) (map Q (seq 0 n)).
  Proof.
    intros ((bound & HB) & H2 & H3) HF.
    assert (ES : nstart n (map (fun i => nfin (f i) (P i)) (seq 0 n)) = fworld (nstart n (map P (seq 0 n)))).
    { unfold fworld, nstart. cbn [n_procs n_chan]. now rewrite fins_map. }
    assert (EE : fworld (nstart n (map NRet (map R (seq 0 n)))) = nstart n (map NRet (map Q (seq 0 n)))).
    { unfold fworld, nstart. cbn [n_procs n_chan]. f_equal. rewrite map_map, fins_map, map_map. apply map_ext_in. intros i Hi. apply in_seq in Hi.
      cbn [nfin]. rewrite HF by lia. reflexivity. }
    unfold ncompletes. rewrite ES. repeat split.
    - exists bound. intros k tr E0 HS. destruct (fworld_trace _ _ _ E0 HS) as (tr' & T0 & TS & _). apply (HB k tr'); auto.
    - intros t Ht. destruct (fworld_steps _ _ Ht) as (s & -> & Hs). destruct (H2 s Hs) as [->|(s' & Hs')]; [left; exact EE|].
      right. exists (fworld s'). now apply fworld_sure.
    - intros t Ht Stop. destruct (fworld_steps _ _ Ht) as (s & -> & Hs). destruct (H2 s Hs) as [->|(s' & Hs')]; [exact EE|].
      exfalso. apply (Stop (fworld s')). left. now apply fworld_sure.
  Qed.
End Fin.
