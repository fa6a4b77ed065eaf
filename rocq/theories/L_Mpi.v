(** * Confluence of blocking point-to-point programs *)
From Coq Require Import List Arith Lia Bool.
From Verif Require Import Base M_Mpi S_Mpi.
Import ListNotations.

Lemma upd_comm {A} (l : list A) i j a b : i <> j -> upd (upd l i a) j b = upd (upd l j b) i a.
Proof. revert i j. induction l as [|x l IH]; intros [|i] [|j] H; cbn; auto; try lia. f_equal. apply IH. lia. Qed.
Lemma upd_twice {A} (l : list A) i a b : upd (upd l i a) i b = upd l i b.
Proof. revert i. induction l as [|x l IH]; intros [|i]; cbn; auto. f_equal. auto. Qed.
Lemma upd_same {A} (l : list A) i a : nth_error l i = Some a -> upd l i a = l.
Proof. revert i. induction l as [|x l IH]; intros [|i]; cbn; intros H; try discriminate; [congruence|]. f_equal. auto. Qed.

Lemma nth_error_lt {A} (l : list A) i a : nth_error l i = Some a -> i < length l.
Proof. intros H. apply nth_error_Some. congruence. Qed.

Lemma nth_error_ext' {A} (l l' : list A) : length l = length l' -> (forall i, nth_error l i = nth_error l' i) -> l = l'.
Proof.
  revert l'. induction l as [|x l IH]; intros [|y l'] L H; cbn in L; try lia; auto.
  pose proof (H 0) as E. cbn in E. injection E as ->. f_equal. apply IH; [lia|]. intros i. exact (H (S i)).
Qed.

Section Conf.
  Context {M A : Type}.
  Variable n : nat.
  Local Notation W := (world M A).

  (** a run without buffering a further message; a meeting counts twice *)
  Inductive sure_run : nat -> W -> W -> Prop :=
  | sr_nil s : sure_run 0 s s
  | sr_rcv w s s' s'' : step_rcv n s s' -> sure_run w s' s'' -> sure_run (S w) s s''
  | sr_syn w s s' s'' : step_syn n s s' -> sure_run w s' s'' -> sure_run (S (S w)) s s''.

  Definition final (s : W) : Prop := forall i p, nth_error (w_procs s) i = Some p -> exists a, p = Ret a.

  Ltac ne := rewrite ?nth_error_upd_neq by auto.

  Lemma chan_inj i j i' j' : j < n -> j' < n -> chan_of n i j = chan_of n i' j' -> i = i' /\ j = j'.
  Proof.
    unfold chan_of. intros H H' E.
    assert (i = i').
    { destruct (Nat.lt_trichotomy i i') as [L|[L|L]]; auto.
      - assert (n * (i + 1) <= n * i') by (apply Nat.mul_le_mono_l; lia). lia.
      - assert (n * (i' + 1) <= n * i) by (apply Nat.mul_le_mono_l; lia). lia. }
    subst. split; auto. lia.
  Qed.

  Lemma final_no_step s : final s -> forall s', ~ step n s s'.
  Proof.
    intros F s' [H|[H|H]]; inversion H as [? ? ? ? ? ? ? Hi Hj E E']; subst.
    - destruct (F _ _ E) as (a & X); discriminate.
    - destruct (F _ _ E) as (a & X); discriminate.
    - match goal with X : nth_error ps ?a = Some (Snd _ _ _) |- _ => destruct (F _ _ X) as (a' & Y); discriminate end.
  Qed.

  (** one step in any direction does not lose the way to the final state *)
  Lemma diamond F : final F -> forall w s, sure_run w s F -> forall s', step n s s' -> exists w', w' < w /\ sure_run w' s' F.
  Proof.
    intros HF. induction w as [w IH] using lt_wf_ind. intros s Rn s' St.
    inversion Rn as [x|w0 x s1 y R1 R2|w0 x s1 y R1 R2]; subst.
    - exfalso. eapply final_no_step; eauto.
    - (* the run starts by a receive of j from i *)
      inversion R1 as [i j m k ps ch q Hi Hj E1 E2]; subst.
      destruct St as [St|[St|St]].
      + inversion St as [i' j' m' k' ? ? q' Hi' Hj' E1' E2']; subst.
        assert (N : i' <> j) by (intros ->; congruence).
        set (s1' := {| w_procs := upd (upd ps j (k m)) i' k';
                       w_chan := upd (upd ch (chan_of n i j) q) (chan_of n i' j')
                                  (nth (chan_of n i' j') (upd ch (chan_of n i j) q) [] ++ [m']) |}).
        assert (B : step_buf n {| w_procs := upd ps j (k m); w_chan := upd ch (chan_of n i j) q |} s1').
        { constructor; auto. - rewrite nth_error_upd_neq; auto.
          - apply nth_error_nth'. rewrite upd_length. eapply nth_error_lt; eauto. }
        destruct (IH w0 ltac:(lia) _ R2 s1' (or_introl B)) as (w' & Lw & R').
        exists (S w'). split; [lia|]. eapply sr_rcv; [|exact R'].
        subst s1'. destruct (Nat.eq_dec (chan_of n i j) (chan_of n i' j')) as [Ec|Ec].
        * destruct (chan_inj _ _ _ _ Hj Hj' Ec) as [<- <-]. rewrite E2 in E2'. injection E2' as <-.
          rewrite (nth_upd_eq ch) by (eapply nth_error_lt; eauto). rewrite upd_twice.
          replace (upd ch (chan_of n i j) (q ++ [m'])) with (upd (upd ch (chan_of n i j) ((m :: q) ++ [m'])) (chan_of n i j) (q ++ [m'])) by apply upd_twice.
          rewrite upd_comm by auto. constructor; auto.
          -- rewrite nth_error_upd_neq; auto.
          -- rewrite nth_error_upd_eq; [reflexivity|]. eapply nth_error_lt; eauto.
        * rewrite (nth_upd_neq ch) by auto. rewrite (nth_error_nth _ _ _ E2').
          rewrite (upd_comm ps) by auto. rewrite (upd_comm ch) by auto. constructor; auto.
          -- rewrite nth_error_upd_neq; auto.
          -- rewrite nth_error_upd_neq; auto.
      + inversion St as [i' j' m' k' ? ? q' Hi' Hj' E1' E2']; subst.
        destruct (Nat.eq_dec j j') as [<-|N].
        { rewrite E1 in E1'. injection E1' as <- <-. rewrite E2 in E2'. injection E2' as <- <-. exists w0. auto. }
        assert (Nc : chan_of n i j <> chan_of n i' j') by (intros Ec; destruct (chan_inj _ _ _ _ Hj Hj' Ec); auto).
        set (s1' := {| w_procs := upd (upd ps j (k m)) j' (k' m'); w_chan := upd (upd ch (chan_of n i j) q) (chan_of n i' j') q' |}).
        assert (B : step_rcv n {| w_procs := upd ps j (k m); w_chan := upd ch (chan_of n i j) q |} s1').
        { constructor; auto; rewrite nth_error_upd_neq; auto. }
        destruct (IH w0 ltac:(lia) _ R2 s1' (or_intror (or_introl B))) as (w' & Lw & R').
        exists (S w'). split; [lia|]. eapply sr_rcv; [|exact R']. subst s1'.
        rewrite (upd_comm ps), (upd_comm ch) by auto. constructor; auto; rewrite nth_error_upd_neq; auto.
      + inversion St as [i' j' m' k' k'' ? ? Hi' Hj' E1' E2' E3']; subst.
        assert (N1 : i' <> j) by (intros ->; congruence).
        assert (N2 : j' <> j). { intros ->. rewrite E1 in E2'. injection E2' as <- <-. congruence. }
        assert (N3 : i' <> j') by (intros ->; congruence).
        assert (Nc : chan_of n i j <> chan_of n i' j') by (intros Ec; destruct (chan_inj _ _ _ _ Hj Hj' Ec); auto).
        set (s1' := {| w_procs := upd (upd (upd ps j (k m)) i' k') j' (k'' m'); w_chan := upd ch (chan_of n i j) q |}).
        assert (B : step_syn n {| w_procs := upd ps j (k m); w_chan := upd ch (chan_of n i j) q |} s1').
        { constructor; auto; rewrite nth_error_upd_neq; auto. }
        destruct (IH w0 ltac:(lia) _ R2 s1' (or_intror (or_intror B))) as (w' & Lw & R').
        exists (S w'). split; [lia|]. eapply sr_rcv; [|exact R']. subst s1'.
        rewrite (upd_comm ps j i') by auto. rewrite (upd_comm _ j j') by auto. constructor; auto.
        rewrite !nth_error_upd_neq; auto.
    - (* the run starts by a meeting of i and j *)
      inversion R1 as [i j m k k0 ps ch Hi Hj E1 E2 E3]; subst.
      assert (Nij : i <> j) by (intros ->; congruence).
      destruct St as [St|[St|St]].
      + inversion St as [i' j' m' k' ? ? q' Hi' Hj' E1' E2']; subst.
        destruct (Nat.eq_dec i i') as [<-|N].
        { rewrite E1 in E1'. injection E1' as <- <- <-. rewrite E3 in E2'. injection E2' as <-.
          exists (S w0). split; [lia|]. eapply sr_rcv; [|exact R2]. cbn [app].
          replace ch with (upd (upd ch (chan_of n i j) [m]) (chan_of n i j) []) at 2
            by (rewrite upd_twice; apply upd_same; auto).
          constructor; auto. - rewrite nth_error_upd_neq; auto.
          - rewrite nth_error_upd_eq; auto. eapply nth_error_lt; eauto. }
        assert (N1 : i' <> j) by (intros ->; congruence).
        assert (Nc : chan_of n i j <> chan_of n i' j') by (intros Ec; destruct (chan_inj _ _ _ _ Hj Hj' Ec); auto).
        set (s1' := {| w_procs := upd (upd (upd ps i k) j (k0 m)) i' k'; w_chan := upd ch (chan_of n i' j') (q' ++ [m']) |}).
        assert (B : step_buf n {| w_procs := upd (upd ps i k) j (k0 m); w_chan := ch |} s1').
        { constructor; auto. rewrite !nth_error_upd_neq; auto. }
        destruct (IH w0 ltac:(lia) _ R2 s1' (or_introl B)) as (w' & Lw & R').
        exists (S (S w')). split; [lia|]. eapply sr_syn; [|exact R']. subst s1'.
        rewrite (upd_comm _ j i') by auto. rewrite (upd_comm _ i i') by auto. constructor; auto; rewrite nth_error_upd_neq; auto.
      + inversion St as [i' j' m' k' ? ? q' Hi' Hj' E1' E2']; subst.
        assert (N1 : j' <> i) by (intros ->; congruence).
        assert (N2 : j' <> j). { intros ->. rewrite E2 in E1'. injection E1' as <- <-. congruence. }
        assert (Nc : chan_of n i j <> chan_of n i' j') by (intros Ec; destruct (chan_inj _ _ _ _ Hj Hj' Ec); auto).
        set (s1' := {| w_procs := upd (upd (upd ps i k) j (k0 m)) j' (k' m'); w_chan := upd ch (chan_of n i' j') q' |}).
        assert (B : step_rcv n {| w_procs := upd (upd ps i k) j (k0 m); w_chan := ch |} s1').
        { constructor; auto. rewrite !nth_error_upd_neq; auto. }
        destruct (IH w0 ltac:(lia) _ R2 s1' (or_intror (or_introl B))) as (w' & Lw & R').
        exists (S (S w')). split; [lia|]. eapply sr_syn; [|exact R']. subst s1'.
        rewrite (upd_comm _ j j') by auto. rewrite (upd_comm _ i j') by auto. constructor; auto; rewrite nth_error_upd_neq; auto.
      + inversion St as [i' j' m' k' k'' ? ? Hi' Hj' E1' E2' E3']; subst.
        destruct (Nat.eq_dec i i') as [<-|N].
        { rewrite E1 in E1'. injection E1' as <- <- <-. rewrite E2 in E2'. injection E2' as <-. exists w0. split; auto. }
        assert (N1 : i' <> j) by (intros ->; congruence).
        assert (N2 : j' <> i) by (intros ->; congruence).
        assert (N3 : j' <> j). { intros ->. rewrite E2 in E2'. injection E2' as <- <-. auto. }
        assert (N4 : i' <> j') by (intros ->; congruence).
        set (s1' := {| w_procs := upd (upd (upd (upd ps i k) j (k0 m)) i' k') j' (k'' m'); w_chan := ch |}).
        assert (B : step_syn n {| w_procs := upd (upd ps i k) j (k0 m); w_chan := ch |} s1').
        { constructor; auto; rewrite !nth_error_upd_neq; auto. }
        destruct (IH w0 ltac:(lia) _ R2 s1' (or_intror (or_intror B))) as (w' & Lw & R').
        exists (S (S w')). split; [lia|]. eapply sr_syn; [|exact R']. subst s1'.
        rewrite (upd_comm _ j i') by auto. rewrite (upd_comm _ i i') by auto.
        rewrite (upd_comm _ j j') by auto. rewrite (upd_comm _ i j') by auto.
        constructor; auto; rewrite !nth_error_upd_neq; auto.
  Qed.

  Lemma sure_run_progress w s F : sure_run w s F -> s = F \/ exists s', step_sure n s s'.
  Proof. intros H. inversion H; subst; auto; right; eexists; [left|right]; eauto. Qed.

  Lemma steps_sure_run F : final F -> forall w s, sure_run w s F -> forall s', steps (step n) s s' -> exists w', w' <= w /\ sure_run w' s' F.
  Proof.
    intros HF w s R s' St. revert w R. induction St as [s|s s1 s2 S1 St IH]; intros w R; eauto.
    destruct (diamond F HF w s R s1 S1) as (w1 & L & R1). destruct (IH w1 R1) as (w2 & L2 & R2). exists w2. split; auto. lia.
  Qed.
End Conf.

(** ** Executions in which all messages meet, with programs given as a function of the rank *)
Section Sync.
  Context {M A : Type}.
  Variable n : nat.
  Local Notation P := (prog M A).

  Definition fset (f : nat -> P) (i : nat) (p : P) : nat -> P := fun r => if r =? i then p else f r.

  Inductive frun : (nat -> P) -> (nat -> P) -> Prop :=
  | fr_ext f g : (forall r, r < n -> f r = g r) -> frun f g
  | fr_step f i j m k k' g : i < n -> j < n -> f i = Snd j m k -> f j = Rcv i k' ->
      frun (fset (fset f i k) j (k' m)) g -> frun f g.

  Lemma frun_refl f : frun f f.
  Proof. constructor; auto. Qed.

  Lemma frun_pre f f' g : (forall r, r < n -> f r = f' r) -> frun f' g -> frun f g.
  Proof.
    intros E R. revert f E. induction R as [f' g H|f' i j m k k' g Hi Hj E1 E2 R IH]; intros f E.
    - constructor. intros r Hr. rewrite E; auto.
    - apply (fr_step f i j m k k' g Hi Hj); [rewrite E; auto|rewrite E; auto|]. apply IH. intros r Hr. unfold fset. destruct (r =? j); auto. destruct (r =? i); auto.
  Qed.

  Lemma frun_trans f g h : frun f g -> frun g h -> frun f h.
  Proof.
    intros R1 R2. induction R1 as [f g H|f i j m k k' g Hi Hj E1 E2 R IH].
    - eapply frun_pre; eauto.
    - exact (fr_step f i j m k k' h Hi Hj E1 E2 (IH R2)).
  Qed.

  Lemma frun_post f g g' : (forall r, r < n -> g r = g' r) -> frun f g -> frun f g'.
  Proof. intros E R. eapply frun_trans; eauto. constructor; auto. Qed.

  Definition procs (f : nat -> P) : list P := map f (seq 0 n).

  Lemma procs_nth f i : i < n -> nth_error (procs f) i = Some (f i).
  Proof.
    intros H. unfold procs. rewrite nth_error_map. rewrite (nth_error_nth' _ 0) by (rewrite seq_length; auto).
    rewrite seq_nth by auto. reflexivity.
  Qed.

  Lemma procs_fset f i p : i < n -> upd (procs f) i p = procs (fset f i p).
  Proof.
    intros H. apply nth_error_ext'; [rewrite upd_length; unfold procs; rewrite !map_length; auto|].
    intros r. destruct (Nat.lt_ge_cases r n) as [Hr|Hr].
    - rewrite procs_nth by auto. unfold fset. destruct (Nat.eqb_spec r i) as [->|N].
      + rewrite nth_error_upd_eq; auto. unfold procs. rewrite map_length, seq_length. auto.
      + rewrite nth_error_upd_neq by auto. apply procs_nth; auto.
    - rewrite !(proj2 (nth_error_None _ _)); auto; rewrite ?upd_length; unfold procs; rewrite map_length, seq_length; auto.
  Qed.

  Lemma frun_sure f g : frun f g -> exists w, sure_run n w (start n (procs f)) (start n (procs g)).
  Proof.
    intros R. induction R as [f g H|f i j m k k' g Hi Hj E1 E2 R IH].
    - exists 0. replace (procs g) with (procs f). constructor. unfold procs. apply map_ext_in. intros r Hr. apply in_seq in Hr. apply H. lia.
    - destruct IH as (w & IH). exists (S (S w)). eapply sr_syn; [|exact IH].
      unfold start. rewrite <- procs_fset, <- procs_fset by auto. constructor; auto.
      + rewrite procs_nth; auto. congruence.
      + rewrite procs_nth; auto. congruence.
      + rewrite nth_error_repeat; auto. unfold chan_of. assert (n * (i + 1) <= n * n) by (apply Nat.mul_le_mono_l; lia). lia.
  Qed.

  Lemma sure_completes (ps : list P) (rs : list A) w : sure_run n w (start n ps) (start n (map Ret rs)) -> completes n ps rs.
  Proof.
    intros S0. set (F := start n (map Ret rs)) in *.
    assert (HF : final F).
    { intros i p Hp. subst F. cbn [start w_procs] in Hp. rewrite nth_error_map in Hp.
      destruct (nth_error rs i) as [x|]; [|discriminate]. injection Hp as <-. eauto. }
    split; [|split].
    - exists w. intros k tr E0 Hst.
      assert (G : forall i, i <= k -> exists w', w' + i <= w /\ sure_run n w' (tr i) F).
      { induction i as [|i IH]; intros Hi.
        - exists w. rewrite E0. split; auto. lia.
        - destruct (IH ltac:(lia)) as (w' & L & Rr). destruct (diamond n F HF w' (tr i) Rr (tr (S i)) (Hst i ltac:(lia))) as (w2 & L2 & R2).
          exists w2. split; auto. lia. }
      destruct (G k ltac:(lia)) as (w' & L & _). lia.
    - intros s St. destruct (steps_sure_run n F HF w _ S0 s St) as (w' & _ & R'). apply (sure_run_progress n w' s F R').
    - intros s St N. destruct (steps_sure_run n F HF w _ S0 s St) as (w' & _ & R').
      destruct (sure_run_progress n w' s F R') as [E|(s' & [H|H])]; auto; exfalso; apply (N s'); unfold step; auto.
  Qed.

  Theorem frun_completes f (r : nat -> A) : frun f (fun i => Ret (r i)) -> completes n (procs f) (map r (seq 0 n)).
  Proof.
    intros R. destruct (frun_sure _ _ R) as (w & S0). apply sure_completes with (w := w).
    replace (map Ret (map r (seq 0 n))) with (procs (fun i => Ret (r i))); auto. unfold procs. rewrite map_map. reflexivity.
  Qed.

  (** the result is reached *)
  Lemma completes_reach (ps : list P) (rs : list A) : completes n ps rs -> steps (step n) (start n ps) (start n (map Ret rs)).
  Proof.
    intros ((B & HB) & Hp & _).
    assert (G : forall k, steps (step n) (start n ps) (start n (map Ret rs)) \/
      exists tr : nat -> world M A, tr 0 = start n ps /\ (forall i, i < k -> step n (tr i) (tr (S i)))).
    { induction k as [|k IH].
      - right. exists (fun _ => start n ps). split; auto. lia.
      - destruct IH as [IH|(tr & E0 & Hs)]; auto.
        assert (R : forall i, i <= k -> steps (step n) (start n ps) (tr i)).
        { intros i Hi. rewrite <- E0. assert (forall j, j <= k -> forall c, c <= j -> steps (step n) (tr (j - c)) (tr j)) as X.
          { intros j Hj. induction c as [|c IHc]; intros Hc.
            - replace (j - 0) with j by lia. constructor.
            - apply steps_next with (s' := tr (j - c)); [|apply IHc; lia].
              replace (j - c) with (S (j - S c)) by lia. apply Hs. lia. }
          specialize (X i Hi i (le_n _)). rewrite Nat.sub_diag in X. exact X. }
        destruct (Hp (tr k) (R k (le_n _))) as [E|(s' & Hs')].
        + left. rewrite <- E. apply R. auto.
        + right. exists (fun i => if i <=? k then tr i else s'). split; auto. intros i Hi.
          destruct (Nat.leb_spec i k); [|lia]. destruct (Nat.leb_spec (S i) k); [apply Hs; lia|].
          replace i with k by lia. destruct Hs' as [X|X]; unfold step; auto. }
    destruct (G (S B)) as [H|(tr & E0 & Hs)]; auto. specialize (HB (S B) tr E0 Hs). lia.
  Qed.

  Lemma map_ret_inj (a b : list A) : map (@Ret M A) a = map Ret b -> a = b.
  Proof. revert b. induction a as [|x a IH]; intros [|y b] E; cbn in E; try discriminate; auto. injection E as E1 E2. f_equal; auto. Qed.

  (** the result is unique *)
  Theorem completes_unique (ps : list P) (rs rs' : list A) : completes n ps rs -> completes n ps rs' -> rs = rs'.
  Proof.
    intros H (_ & _ & H'). apply completes_reach in H. specialize (H' _ H).
    assert (start n (map Ret rs) = start n (map (@Ret M A) rs')) as E.
    { apply H'. apply final_no_step. intros i p Hp. cbn [start w_procs] in Hp. rewrite nth_error_map in Hp.
      destruct (nth_error rs i) as [x|]; [|discriminate]. injection Hp as <-. eauto. }
    injection E as E. apply map_ret_inj; auto.
  Qed.

  (** a schedule for concrete programs *)
  Fixpoint pick (ps : list P) (is_ : list nat) : option (list P) :=
    match is_ with
    | [] => None
    | i :: is_ =>
      match nth_error ps i with
      | Some (Snd j m k) =>
        match nth_error ps j with
        | Some (Rcv i' k') => if (i' =? i) && (i <? n) && (j <? n) then Some (upd (upd ps i k) j (k' m)) else pick ps is_
        | _ => pick ps is_
        end
      | _ => pick ps is_
      end
    end.
  Fixpoint results (ps : list P) : option (list A) :=
    match ps with
    | [] => Some []
    | Ret a :: ps => match results ps with Some rs => Some (a :: rs) | None => None end
    | _ => None
    end.
  Fixpoint exec (fuel : nat) (ps : list P) : option (list A) :=
    match fuel with
    | O => None
    | S fuel => match pick ps (seq 0 n) with Some ps => exec fuel ps | None => results ps end
    end.

  Lemma pick_step ps ps' is_ : pick ps is_ = Some ps' -> step_syn n (start n ps) (start n ps').
  Proof.
    induction is_ as [|i is_ IH]; cbn [pick]; intros H; [discriminate|].
    destruct (nth_error ps i) as [[a|j m k|src k|]|] eqn:Ei; auto.
    destruct (nth_error ps j) as [[a|j' m' k'|i' k'|]|] eqn:Ej; auto.
    destruct (Nat.eqb_spec i' i); cbn [andb] in H; auto.
    destruct (Nat.ltb_spec i n); cbn [andb] in H; auto. destruct (Nat.ltb_spec j n); auto. injection H as <-. subst i'.
    unfold start. constructor; auto. rewrite nth_error_repeat; auto.
    unfold chan_of. assert (n * (i + 1) <= n * n) by (apply Nat.mul_le_mono_l; lia). lia.
  Qed.
  Lemma results_ok : forall ps rs, results ps = Some rs -> ps = map Ret rs.
  Proof.
    induction ps as [|p ps IH]; cbn; intros rs H; [injection H as <-; auto|].
    destruct p; try discriminate. destruct (results ps) as [rs'|]; [|discriminate]. injection H as <-. cbn. f_equal. auto.
  Qed.
  Lemma exec_completes fuel ps rs : exec fuel ps = Some rs -> completes n ps rs.
  Proof.
    intros H. assert (exists w, sure_run n w (start n ps) (start n (map Ret rs))) as (w & R); [|apply (sure_completes _ _ _ R)].
    revert ps H. induction fuel as [|fuel IH]; cbn [exec]; intros ps H; [discriminate|].
    destruct (pick ps (seq 0 n)) as [ps'|] eqn:E.
    - destruct (IH ps' H) as (w & R). exists (S (S w)). eapply sr_syn; [|exact R]. eapply pick_step; eauto.
    - apply results_ok in H. subst ps. exists 0. constructor.
  Qed.
End Sync.
