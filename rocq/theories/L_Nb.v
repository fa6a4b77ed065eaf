(** * Executions of calls with non-blocking sends *)
From Coq Require Import List Arith Lia Bool Permutation.
From Verif Require Import Base M_Nb S_Nb.
Import ListNotations.

Lemma nth_error_map_seq {A} (f : nat -> A) n i : i < n -> nth_error (map f (seq 0 n)) i = Some (f i).
Proof.
  intros H. rewrite nth_error_map. rewrite (nth_error_nth' _ 0) by (rewrite seq_length; auto). rewrite seq_nth by auto. reflexivity.
Qed.

Lemma nth_error_ext2 {A} (l l' : list A) : length l = length l' -> (forall i, i < length l -> nth_error l i = nth_error l' i) -> l = l'.
Proof.
  revert l'. induction l as [|x l IH]; intros [|y l'] L H; cbn in L; try lia; auto.
  pose proof (H 0 ltac:(cbn; lia)) as E. cbn in E. injection E as ->. f_equal. apply IH; [lia|]. intros i Hi. apply (H (S i)). cbn. lia.
Qed.

Lemma upd_map_seq {A} (f g : nat -> A) n i x : i < n -> g i = x -> (forall r, r < n -> r <> i -> g r = f r) ->
  upd (map f (seq 0 n)) i x = map g (seq 0 n).
Proof.
  intros Hi E N. apply nth_error_ext2. { rewrite upd_length, !map_length. auto. }
  rewrite upd_length, map_length, seq_length. intros r Hr. rewrite nth_error_map_seq by auto.
  destruct (Nat.eq_dec r i) as [->|D].
  - rewrite nth_error_upd_eq by (rewrite map_length, seq_length; auto). congruence.
  - rewrite nth_error_upd_neq by auto. rewrite nth_error_map_seq by auto. rewrite N; auto.
Qed.

Lemma nodup_app_l {A} (l l' : list A) : NoDup (l ++ l') -> NoDup l.
Proof.
  induction l as [|x l IH]; cbn; intros H; [constructor|]. inversion H; subst. constructor; auto. intros I. apply H2. apply in_or_app. auto.
Qed.

(** a matrix of channels *)
Definition matrix {B} (n : nat) (f : nat -> nat -> B) : list B := map (fun c => f (c / n) (c mod n)) (seq 0 (n * n)).
Lemma pair_lt n i j : i < n -> j < n -> i * n + j < n * n.
Proof. intros. assert (n * (i + 1) <= n * n) by (apply Nat.mul_le_mono_l; lia). lia. Qed.
Lemma pair_div n i j : j < n -> (i * n + j) / n = i.
Proof. intros. rewrite Nat.div_add_l by lia. rewrite Nat.div_small by auto. lia. Qed.
Lemma pair_mod n i j : j < n -> (i * n + j) mod n = j.
Proof. intros. rewrite Nat.add_comm, Nat.mod_add by lia. apply Nat.mod_small. auto. Qed.
Lemma matrix_nth {B} n (f : nat -> nat -> B) i j : i < n -> j < n -> nth_error (matrix n f) (i * n + j) = Some (f i j).
Proof. intros. unfold matrix. rewrite nth_error_map_seq by (apply pair_lt; auto). rewrite pair_div, pair_mod by auto. auto. Qed.
Lemma matrix_upd {B} n (f g : nat -> nat -> B) i j x : i < n -> j < n -> g i j = x ->
  (forall a b, a < n -> b < n -> (a, b) <> (i, j) -> g a b = f a b) -> upd (matrix n f) (i * n + j) x = matrix n g.
Proof.
  intros Hi Hj E N. apply upd_map_seq.
  - apply pair_lt; auto.
  - rewrite pair_div, pair_mod by auto. auto.
  - intros r Hr D. assert (n <> 0) by lia. pose proof (Nat.div_mod r n H). pose proof (Nat.mod_upper_bound r n H).
    apply N; auto.
    + apply Nat.div_lt_upper_bound; lia.
    + intros P. injection P as P1 P2. apply D. rewrite H0, P1, P2. lia.
Qed.
Lemma matrix_nil {B} n (f : nat -> nat -> list B) : (forall i j, i < n -> j < n -> f i j = []) -> matrix n f = repeat [] (n * n).
Proof.
  intros H. apply nth_error_ext2. { unfold matrix. rewrite map_length, seq_length, repeat_length. auto. }
  unfold matrix. rewrite map_length, seq_length. intros c Hc. rewrite nth_error_map_seq by auto. rewrite nth_error_repeat by auto. f_equal.
  assert (n <> 0) by lia. apply H; [apply Nat.div_lt_upper_bound; lia|apply Nat.mod_upper_bound; auto].
Qed.

Section Engine.
  Context {M A X : Type}.
  Variable n : nat.
  Variable snd_ : nat -> list (nat * M).      (** what a rank sends *)
  Variable cnt : nat -> nat.
  Variable src : nat -> option (list nat).
  Variable h : nat -> X -> nat -> M -> outcome X.
  Variable acc0 : nat -> X.
  Variable kr : nat -> X -> A.
  Variable res : nat -> A.

  (** messages from [j] to [i] and all messages to [i] *)
  Definition msgs (j i : nat) : list M := map snd (filter (fun x => fst x =? i) (snd_ j)).
  Definition expected (i : nat) : list (nat * M) := concat (map (fun j => map (fun m => (j, m)) (msgs j i)) (seq 0 n)).
  Definition store (i : nat) (a : outcome X) (x : nat * M) : outcome X := obind a (fun a => h i a (fst x) (snd x)).

  Hypothesis Targets : forall i, i < n -> Forall (fun x => fst x < n) (snd_ i).
  Hypothesis Once : forall i, i < n -> NoDup (map fst (snd_ i)).
  Hypothesis Cnt : forall i, i < n -> cnt i = length (expected i).
  Hypothesis Src : forall i l, i < n -> src i = Some l -> forall x, In x (expected i) -> In (fst x) l.
  Hypothesis Fin : forall i L, i < n -> Permutation L (expected i) -> exists a, fold_left (store i) L (Ok (acc0 i)) = Ok a /\ kr i a = res i.

  Lemma in_expected i j m : In (j, m) (expected i) <-> j < n /\ In (i, m) (snd_ j).
  Proof.
    unfold expected. rewrite in_concat. split.
    - intros (l & Hl & H). apply in_map_iff in Hl. destruct Hl as (j' & <- & Hj). apply in_seq in Hj. apply in_map_iff in H.
      destruct H as (m' & E & H). injection E as -> ->. split; [lia|]. unfold msgs in H. apply in_map_iff in H. destruct H as ((t, m') & E & H).
      cbn in E. subst m'. apply filter_In in H. destruct H as (H & E). cbn in E. apply Nat.eqb_eq in E. subst t. auto.
    - intros (Hj & H). exists (map (fun m => (j, m)) (msgs j i)). split.
      + apply in_map_iff. exists j. split; auto. apply in_seq. lia.
      + apply in_map. unfold msgs. apply in_map_iff. exists (i, m). split; auto. apply filter_In. split; auto. cbn. apply Nat.eqb_refl.
  Qed.

  Lemma once_unique (l : list (nat * M)) i m m' : NoDup (map fst l) -> In (i, m) l -> In (i, m') l -> m = m'.
  Proof.
    induction l as [|(t, x) l IH]; cbn; intros N H H'; [tauto|]. inversion N as [|? ? N1 N2]; subst.
    destruct H as [H|H], H' as [H'|H']; auto.
    - congruence.
    - injection H as -> ->. exfalso. apply N1. apply in_map_iff. exists (i, m'). auto.
    - injection H' as -> ->. exfalso. apply N1. apply in_map_iff. exists (i, m). auto.
  Qed.

  Lemma filter_once (l : list (nat * M)) i m : NoDup (map fst l) -> In (i, m) l -> filter (fun x => fst x =? i) l = [(i, m)].
  Proof.
    induction l as [|(t, x) l IH]; cbn; intros N H; [tauto|]. inversion N as [|? ? N1 N2]; subst.
    destruct (Nat.eqb_spec t i) as [->|D].
    - assert (filter (fun x => fst x =? i) l = []) as ->.
      { destruct (filter (fun x => fst x =? i) l) as [|(a, b) l'] eqn:E; auto. exfalso. apply N1.
        assert (In (a, b) (filter (fun x => fst x =? i) l)) as Hf by (rewrite E; left; auto).
        apply filter_In in Hf. cbn in Hf. destruct Hf as (Hf & E'). apply Nat.eqb_eq in E'. subst a. apply in_map_iff. exists (i, b). auto. }
      destruct H as [H|H]; [congruence|]. exfalso. apply N1. apply in_map_iff. exists (i, m). auto.
    - destruct H as [H|H]; [congruence|]. auto.
  Qed.

  Lemma expected_nodup i : NoDup (map fst (expected i)) /\ NoDup (expected i).
  Proof.
    assert (H : NoDup (map fst (expected i))).
    { unfold expected. assert (forall c s, (forall j, s <= j < s + c -> j < n) ->
        NoDup (map fst (concat (map (fun j => map (fun m => (j, m)) (msgs j i)) (seq s c)))) /\
        forall x, In x (map fst (concat (map (fun j => map (fun m => (j, m)) (msgs j i)) (seq s c)))) -> s <= x) as G.
      { induction c as [|c IH]; intros s Hs; cbn [seq map concat]; [split; [constructor|cbn; tauto]|].
        destruct (IH (S s)) as (N & L). { intros j Hj. apply Hs. lia. }
        rewrite map_app, map_map. cbn [fst].
        assert (Lm : msgs s i = [] \/ exists m, msgs s i = [m]).
        { unfold msgs. destruct (filter (fun x => fst x =? i) (snd_ s)) as [|(t, m) l] eqn:E; [auto|].
          assert (In (t, m) (filter (fun x => fst x =? i) (snd_ s))) as Hf by (rewrite E; left; auto).
          apply filter_In in Hf. cbn in Hf. destruct Hf as (Hf & E'). apply Nat.eqb_eq in E'. subst t.
          rewrite (filter_once _ i m (Once s (Hs s ltac:(lia))) Hf) in E. injection E as <-. right. exists m. auto. }
        destruct Lm as [->|(m & ->)]; cbn.
        - split; auto. intros x Hx. specialize (L x Hx). lia.
        - split.
          + constructor; auto. intros Hx. specialize (L s Hx). lia.
          + intros x [<-|Hx]; auto. specialize (L x Hx). lia. }
      apply G. intros; lia. }
    split; auto. eapply NoDup_map_inv; eauto.
  Qed.

  (** the state of a rank: number of started sends, received messages, finished *)
  Record rs := { p_ : nat; l_ : list (nat * M); w_ : bool }.
  Definition proc (i : nat) (s : rs) : nprog M A :=
    if p_ s <? length (snd_ i) then
      isends (skipn (p_ s) (snd_ i)) (recvs (cnt i) (src i) (fun acc j m => obind acc (fun acc => h i acc j m)) (Ok (acc0 i)) (call_end (kr i)))
    else if w_ s then NRet (res i)
    else recvs (cnt i - length (l_ s)) (option_map (fun l => fold_left (fun l x => remove Nat.eq_dec (fst x) l) (l_ s) l) (src i))
           (fun acc j m => obind acc (fun acc => h i acc j m)) (fold_left (store i) (l_ s) (Ok (acc0 i))) (call_end (kr i)).
  Definition chan (st : nat -> rs) (j i : nat) : list M :=
    if existsb (fun x => fst x =? j) (l_ (st i)) then [] else map snd (filter (fun x => fst x =? i) (firstn (p_ (st j)) (snd_ j))).
  Definition mk (st : nat -> rs) : nworld M A := {| n_procs := map (fun i => proc i (st i)) (seq 0 n); n_chan := matrix n (chan st) |}.

  Definition inv (st : nat -> rs) : Prop := forall i, i < n ->
    p_ (st i) <= length (snd_ i) /\
    NoDup (map fst (l_ (st i))) /\
    (forall j m, In (j, m) (l_ (st i)) -> j < n /\ In (i, m) (firstn (p_ (st j)) (snd_ j))) /\
    (p_ (st i) < length (snd_ i) -> l_ (st i) = []) /\
    (w_ (st i) = true -> p_ (st i) = length (snd_ i) /\ length (l_ (st i)) = cnt i).

  Definition rank_measure (i : nat) (s : rs) : nat := length (snd_ i) - p_ s + (cnt i - length (l_ s)) + (if w_ s then 0 else 1).
  Definition measure (st : nat -> rs) : nat := list_sum (map (fun i => rank_measure i (st i)) (seq 0 n)).
  Definition sset (st : nat -> rs) (i : nat) (s : rs) : nat -> rs := fun r => if r =? i then s else st r.

  Lemma measure_lt st i s : i < n -> rank_measure i s < rank_measure i (st i) -> measure (sset st i s) < measure st.
  Proof.
    intros Hi H. unfold measure.
    assert (G : forall c b, b <= i < b + c -> list_sum (map (fun j => rank_measure j (sset st i s j)) (seq b c)) < list_sum (map (fun j => rank_measure j (st j)) (seq b c))).
    { induction c as [|c IH]; intros b Hb; [lia|]. cbn [seq map list_sum fold_right]. unfold sset at 1. unfold list_sum in IH.
      destruct (Nat.eqb_spec b i) as [->|D].
      - rewrite (map_ext_in (fun j => rank_measure j (sset st i s j)) (fun j => rank_measure j (st j))); [lia|].
        intros j Hj. apply in_seq in Hj. unfold sset. destruct (Nat.eqb_spec j i); [lia|auto].
      - specialize (IH (S b) ltac:(lia)). lia. }
    apply G. lia.
  Qed.

  Lemma recv_len i L : i < n -> NoDup (map fst L) -> (forall j m, In (j, m) L -> j < n /\ In (i, m) (snd_ j)) ->
    length L <= cnt i /\ (length L = cnt i -> Permutation L (expected i)).
  Proof.
    intros Hi N HL. rewrite Cnt by auto.
    assert (I : incl L (expected i)) by (intros (j, m) H; apply in_expected; auto).
    assert (N' : NoDup L) by (eapply NoDup_map_inv; eauto).
    split; [apply NoDup_incl_length; auto|]. intros E. apply NoDup_Permutation_bis; auto. lia.
  Qed.

  Lemma chan_in st j i m q : inv st -> i < n -> j < n -> chan st j i = m :: q ->
    q = [] /\ In (i, m) (firstn (p_ (st j)) (snd_ j)) /\ ~ In j (map fst (l_ (st i))).
  Proof.
    intros HI Hi Hj. unfold chan. destruct (existsb (fun x => fst x =? j) (l_ (st i))) eqn:Ex; [discriminate|]. intros E.
    assert (N : NoDup (map fst (firstn (p_ (st j)) (snd_ j)))).
    { pose proof (Once j Hj) as N. rewrite <- (firstn_skipn (p_ (st j)) (snd_ j)), map_app in N. apply nodup_app_l in N. auto. }
    destruct (filter (fun x => fst x =? i) (firstn (p_ (st j)) (snd_ j))) as [|(t, m') l] eqn:Ef; [discriminate|].
    assert (In (t, m') (filter (fun x => fst x =? i) (firstn (p_ (st j)) (snd_ j)))) as Hf by (rewrite Ef; left; auto).
    apply filter_In in Hf. cbn in Hf. destruct Hf as (Hf & E'). apply Nat.eqb_eq in E'. subst t.
    rewrite (filter_once _ i m' N Hf) in Ef. injection Ef as <-. cbn in E. injection E as <- <-. split; auto. split; auto.
    intros H. apply in_map_iff in H. destruct H as ((j', m2) & Ej & H). cbn in Ej. subst j'.
    assert (existsb (fun x => fst x =? j) (l_ (st i)) = true); [|congruence]. apply existsb_exists. exists (j, m2). split; auto. cbn. apply Nat.eqb_refl.
  Qed.

  Lemma in_firstn {B} (l : list B) k x : In x (firstn k l) -> In x l.
  Proof. intros H. rewrite <- (firstn_skipn k l). apply in_or_app. auto. Qed.

  (** the kinds of programs *)
  Lemma proc_cases st i : inv st -> i < n ->
    (exists x, p_ (st i) < length (snd_ i) /\ nth_error (snd_ i) (p_ (st i)) = Some x /\
       proc i (st i) = Isend (fst x) (snd x) (proc i {| p_ := S (p_ (st i)); l_ := l_ (st i); w_ := w_ (st i) |})) \/
    (p_ (st i) = length (snd_ i) /\ w_ (st i) = false /\ length (l_ (st i)) < cnt i /\
       exists srcs k, proc i (st i) = Recv srcs k /\
         (forall j m, In (j, m) (expected i) -> ~ In j (map fst (l_ (st i))) -> accepts srcs j) /\
         forall j m, k j m = proc i {| p_ := p_ (st i); l_ := l_ (st i) ++ [(j, m)]; w_ := false |}) \/
    (p_ (st i) = length (snd_ i) /\ w_ (st i) = false /\ length (l_ (st i)) = cnt i /\
       proc i (st i) = WaitSent (proc i {| p_ := p_ (st i); l_ := l_ (st i); w_ := true |})) \/
    (p_ (st i) = length (snd_ i) /\ w_ (st i) = true /\ length (l_ (st i)) = cnt i /\ proc i (st i) = NRet (res i)).
  Proof.
    intros HI Hi. destruct (HI i Hi) as (Hp & HN & HL & HE & HW). destruct (st i) as [p L w]. cbn [p_ l_ w_] in *.
    unfold proc at 1 3 5 7. cbn [p_ l_ w_]. destruct (Nat.ltb_spec p (length (snd_ i))) as [Lt|Ge].
    - left. destruct (nth_error (snd_ i) p) as [x|] eqn:E; [|apply nth_error_None in E; lia]. exists x. split; auto. split; auto.
      assert (skipn p (snd_ i) = x :: skipn (S p) (snd_ i)) as ->.
      { clear -E. revert E. generalize (snd_ i). intros l. revert p. induction l as [|y l IH]; intros [|p] E; cbn in *; try discriminate.
        - congruence.
        - apply IH. auto. }
      cbn [isends]. f_equal. unfold proc. cbn [p_ l_ w_]. destruct (Nat.ltb_spec (S p) (length (snd_ i))); auto.
      rewrite skipn_all2 by lia. cbn [isends]. specialize (HE Lt). subst L.
      destruct w. { destruct (HW eq_refl). lia. } cbn [length fold_left]. rewrite Nat.sub_0_r. destruct (src i); auto.
    - right. assert (p = length (snd_ i)) by lia. destruct w; [right; right; destruct (HW eq_refl); auto|].
      assert (HL' : forall j m, In (j, m) L -> j < n /\ In (i, m) (snd_ j)).
      { intros j m H'. destruct (HL j m H') as (A1 & A2). split; auto. eapply in_firstn; eauto. }
      destruct (recv_len i L Hi HN HL') as (L1 & L2).
      destruct (Nat.eq_dec (length L) (cnt i)) as [E|D].
      + right. left. split; auto. split; auto. split; auto. rewrite E, Nat.sub_diag. cbn [recvs].
        destruct (Fin i L Hi (L2 E)) as (a & Ea & Er). rewrite Ea. cbn [call_end]. unfold proc. cbn [p_ l_ w_].
        destruct (Nat.ltb_spec p (length (snd_ i))); [lia|]. rewrite Er. auto.
      + left. split; auto. split; auto. split; [lia|]. destruct (cnt i - length L) as [|c] eqn:Ec; [lia|]. cbn [recvs].
        eexists. eexists. split; [reflexivity|]. split.
        * intros j m Hj Nj. destruct (src i) as [l|] eqn:Es; cbn; auto. pose proof (Src i l Hi Es _ Hj) as Hl. cbn in Hl.
          clear -Hl Nj. revert l Hl Nj. induction L as [|(a, b) L IH]; intros l Hl Nj; cbn; auto. apply IH.
          -- apply in_in_remove; auto. intros ->. apply Nj. left. auto.
          -- intros H. apply Nj. right. auto.
        * intros j m. unfold proc. cbn [p_ l_ w_]. destruct (Nat.ltb_spec p (length (snd_ i))); [lia|].
          rewrite app_length. cbn [length]. replace (cnt i - (length L + 1)) with c by lia.
          rewrite fold_left_app. cbn [fold_left]. unfold store at 3. cbn [fst snd].
          destruct (src i) as [l|]; cbn [option_map]; auto. rewrite fold_left_app. auto.
  Qed.

  Lemma proc_eq i s s' : s = s' -> proc i s = proc i s'.
  Proof. intros ->. auto. Qed.

  (** ** Started sends *)
  Definition send_next (st : nat -> rs) (i : nat) : nat -> rs := sset st i {| p_ := S (p_ (st i)); l_ := l_ (st i); w_ := w_ (st i) |}.
  Definition recv_next (st : nat -> rs) (i : nat) (x : nat * M) : nat -> rs := sset st i {| p_ := p_ (st i); l_ := l_ (st i) ++ [x]; w_ := false |}.
  Definition wait_next (st : nat -> rs) (i : nat) : nat -> rs := sset st i {| p_ := p_ (st i); l_ := l_ (st i); w_ := true |}.

  Lemma firstn_snoc {B} (l : list B) k x : nth_error l k = Some x -> firstn (S k) l = firstn k l ++ [x].
  Proof. revert k. induction l as [|y l IH]; intros [|k] E; cbn in *; try discriminate; [congruence|]. rewrite (IH k E). auto. Qed.

  Lemma not_received st i x : inv st -> i < n -> nth_error (snd_ i) (p_ (st i)) = Some x ->
    existsb (fun y => fst y =? i) (l_ (st (fst x))) = false.
  Proof.
    intros HI Hi E. assert (In x (snd_ i)) as Hx by (eapply nth_error_In; eauto).
    pose proof (proj1 (Forall_forall _ _) (Targets i Hi) x Hx) as Ht. cbn in Ht.
    destruct (existsb (fun y => fst y =? i) (l_ (st (fst x)))) eqn:Ex; auto. exfalso.
    apply existsb_exists in Ex. destruct Ex as ((j, m) & H & Ej). cbn in Ej. apply Nat.eqb_eq in Ej. subst j.
    destruct (HI (fst x) Ht) as (_ & _ & HL & _). destruct (HL i m H) as (_ & Hm).
    pose proof (Once i Hi) as N.
    pose proof (firstn_snoc _ _ _ E) as Fs. rewrite <- (firstn_skipn (S (p_ (st i))) (snd_ i)), Fs in N.
    rewrite !map_app in N. apply nodup_app_l in N. cbn [map] in N. apply NoDup_remove_2 in N. rewrite app_nil_r in N. apply N.
    apply in_map_iff. exists (fst x, m). auto.
  Qed.

  Lemma send_step st i x : inv st -> i < n -> nth_error (snd_ i) (p_ (st i)) = Some x ->
    proc i (st i) = Isend (fst x) (snd x) (proc i {| p_ := S (p_ (st i)); l_ := l_ (st i); w_ := w_ (st i) |}) ->
    upd (map (fun i => proc i (st i)) (seq 0 n)) i (proc i {| p_ := S (p_ (st i)); l_ := l_ (st i); w_ := w_ (st i) |}) =
      map (fun j => proc j (send_next st i j)) (seq 0 n) /\
    upd (matrix n (chan st)) (i * n + fst x) (chan st i (fst x) ++ [snd x]) = matrix n (chan (send_next st i)) /\
    inv (send_next st i) /\ measure (send_next st i) < measure st.
  Proof.
    intros HI Hi E Ep. assert (In x (snd_ i)) as Hx by (eapply nth_error_In; eauto).
    pose proof (proj1 (Forall_forall _ _) (Targets i Hi) x Hx) as Ht. cbn in Ht.
    assert (Lt : p_ (st i) < length (snd_ i)) by (apply nth_error_Some; congruence).
    pose proof (not_received st i x HI Hi E) as NR.
    split; [|split; [|split]].
    - apply upd_map_seq; auto.
      + unfold send_next, sset. rewrite Nat.eqb_refl. auto.
      + intros r Hr D. unfold send_next, sset. destruct (Nat.eqb_spec r i); [lia|auto].
    - assert (L_eq : forall b, l_ (send_next st i b) = l_ (st b)) by (intros b; unfold send_next, sset; destruct (Nat.eqb_spec b i) as [->|]; auto).
      apply matrix_upd; auto.
      + unfold chan. rewrite L_eq. rewrite NR. unfold send_next, sset. rewrite Nat.eqb_refl. cbn [p_]. rewrite (firstn_snoc _ _ _ E).
        rewrite filter_app, map_app. f_equal. cbn [filter]. rewrite Nat.eqb_refl. auto.
      + intros a b Ha Hb D. unfold chan. rewrite L_eq. destruct (existsb (fun x : nat * M => fst x =? a) (l_ (st b))); auto. unfold send_next, sset.
        destruct (Nat.eqb_spec a i) as [->|]; auto. cbn [p_]. rewrite (firstn_snoc _ _ _ E). rewrite filter_app, map_app. cbn [filter].
        destruct (Nat.eqb_spec (fst x) b) as [<-|]; [congruence|]. cbn. apply app_nil_r.
    - intros j Hj. unfold send_next, sset. destruct (HI j Hj) as (A1 & A2 & A3 & A4 & A5).
      assert (G : forall r m, In (r, m) (l_ (st j)) -> r < n /\ In (j, m) (firstn (p_ (if r =? i then {| p_ := S (p_ (st i)); l_ := l_ (st i); w_ := w_ (st i) |} else st r)) (snd_ r))).
      { intros r m Hr. destruct (A3 r m Hr) as (B1 & B2). split; auto. destruct (Nat.eqb_spec r i) as [->|]; auto. cbn [p_].
        rewrite (firstn_snoc _ _ _ E). apply in_or_app. auto. }
      destruct (Nat.eqb_spec j i) as [->|D]; cbn [p_ l_ w_].
      + split; [lia|]. split; auto. split; auto. split. { intros _. apply A4. auto. } intros W. destruct (A5 W). lia.
      + split; auto.
    - apply measure_lt; auto. unfold rank_measure. cbn [p_ l_ w_]. lia.
  Qed.

  Lemma recv_step st i j m q : inv st -> i < n -> j < n -> p_ (st i) = length (snd_ i) -> length (l_ (st i)) < cnt i -> w_ (st i) = false ->
    chan st j i = m :: q ->
    upd (map (fun i => proc i (st i)) (seq 0 n)) i (proc i {| p_ := p_ (st i); l_ := l_ (st i) ++ [(j, m)]; w_ := false |}) =
      map (fun r => proc r (recv_next st i (j, m) r)) (seq 0 n) /\
    upd (matrix n (chan st)) (j * n + i) q = matrix n (chan (recv_next st i (j, m))) /\
    inv (recv_next st i (j, m)) /\ measure (recv_next st i (j, m)) < measure st.
  Proof.
    intros HI Hi Hj Ep Ec Ew Eq. destruct (chan_in st j i m q HI Hi Hj Eq) as (-> & Hin & Nin).
    assert (P_eq : forall b, p_ (recv_next st i (j, m) b) = p_ (st b)) by (intros b; unfold recv_next, sset; destruct (Nat.eqb_spec b i) as [->|]; auto).
    split; [|split; [|split]].
    - apply upd_map_seq; auto.
      + unfold recv_next, sset. rewrite Nat.eqb_refl. auto.
      + intros r Hr D. unfold recv_next, sset. destruct (Nat.eqb_spec r i); [lia|auto].
    - apply matrix_upd; auto.
      + unfold chan. rewrite P_eq. unfold recv_next, sset. rewrite Nat.eqb_refl. cbn [l_]. rewrite existsb_app. cbn [existsb fst].
        rewrite Nat.eqb_refl. rewrite orb_true_r. auto.
      + intros a b Ha Hb D. unfold chan. rewrite P_eq. unfold recv_next, sset. destruct (Nat.eqb_spec b i) as [->|]; auto. cbn [l_].
        rewrite existsb_app. cbn [existsb fst]. destruct (Nat.eqb_spec j a) as [->|]; [congruence|]. cbn [orb]. rewrite orb_false_r. auto.
    - intros r Hr. destruct (HI r Hr) as (A1 & A2 & A3 & A4 & A5). unfold recv_next at 2 3 6 7 9. unfold sset.
      destruct (Nat.eqb_spec r i) as [->|D]; cbn [p_ l_ w_].
      + rewrite P_eq. split; auto. split; [|split; [|split]].
        * rewrite map_app. cbn [map fst]. apply NoDup_Add with (a := j) (l := map fst (l_ (st i))).
          { rewrite <- (app_nil_r (map fst (l_ (st i)))) at 1. apply Add_app. } auto.
        * intros j' m' H. rewrite P_eq. apply in_app_or in H. destruct H as [H|[H|[]]]; [apply A3; auto|]. injection H as <- <-. auto.
        * intros Lt. lia.
        * discriminate.
      + rewrite P_eq. split; auto. split; auto. split.
        * intros j' m' H. rewrite P_eq. apply A3. auto.
        * split; auto.
    - apply measure_lt; auto. unfold rank_measure. cbn [p_ l_ w_]. rewrite app_length, Ew. cbn [length]. lia.
  Qed.

  Lemma wait_step st i : inv st -> i < n -> p_ (st i) = length (snd_ i) -> length (l_ (st i)) = cnt i -> w_ (st i) = false ->
    upd (map (fun i => proc i (st i)) (seq 0 n)) i (proc i {| p_ := p_ (st i); l_ := l_ (st i); w_ := true |}) =
      map (fun r => proc r (wait_next st i r)) (seq 0 n) /\
    matrix n (chan st) = matrix n (chan (wait_next st i)) /\
    inv (wait_next st i) /\ measure (wait_next st i) < measure st.
  Proof.
    intros HI Hi Ep Ec Ew.
    assert (P_eq : forall b, p_ (wait_next st i b) = p_ (st b)) by (intros b; unfold wait_next, sset; destruct (Nat.eqb_spec b i) as [->|]; auto).
    assert (L_eq : forall b, l_ (wait_next st i b) = l_ (st b)) by (intros b; unfold wait_next, sset; destruct (Nat.eqb_spec b i) as [->|]; auto).
    split; [|split; [|split]].
    - apply upd_map_seq; auto.
      + unfold wait_next, sset. rewrite Nat.eqb_refl. auto.
      + intros r Hr D. unfold wait_next, sset. destruct (Nat.eqb_spec r i); [lia|auto].
    - unfold matrix. apply map_ext. intros c. unfold chan. rewrite P_eq, L_eq. auto.
    - intros r Hr. destruct (HI r Hr) as (A1 & A2 & A3 & A4 & A5). rewrite P_eq, L_eq. split; auto. split; auto. split.
      + intros j m H. rewrite P_eq. auto.
      + split; auto. unfold wait_next, sset. destruct (Nat.eqb_spec r i) as [->|]; auto.
    - apply measure_lt; auto. unfold rank_measure. cbn [p_ l_ w_]. rewrite Ew. lia.
  Qed.

  (** every step leads to a state of this form *)
  Lemma nstep_mk st s' : inv st -> nstep n (mk st) s' -> exists st', s' = mk st' /\ inv st' /\ measure st' < measure st.
  Proof.
    intros HI H.
    assert (Pn : forall i, i < n -> nth_error (map (fun i => proc i (st i)) (seq 0 n)) i = Some (proc i (st i))).
    { intros i Hi. apply (nth_error_map_seq (fun i => proc i (st i))). auto. }
    destruct H as [H|H]; [inversion H as [i j m k ps ch q Hi Hj E1 E2|i j m srcs k ps ch q Hi Hj E1 Ha E2|i k ps ch Hi E1 E2]; subst|].
    - rewrite Pn in E1 by auto. injection E1 as E1. rewrite matrix_nth in E2 by auto. injection E2 as <-.
      destruct (proc_cases st i HI Hi) as [(x & Lt & Ex & Ep)|[(_ & _ & _ & s0 & k0 & Ep & _)|[(_ & _ & _ & Ep)|(_ & _ & _ & Ep)]]]; rewrite Ep in E1; try discriminate.
      injection E1 as E1a E1b E1c. destruct (send_step st i x HI Hi Ex Ep) as (S1 & S2 & S3 & S4).
      exists (send_next st i). split; auto. subst j m k. unfold mk. rewrite S1, S2. auto.
    - rewrite Pn in E1 by auto. injection E1 as E1. rewrite matrix_nth in E2 by auto. injection E2 as E2.
      destruct (proc_cases st j HI Hj) as [(x & Lt & Ex & Ep)|[(C1 & C2 & C3 & s0 & k0 & Ep & _ & Ek)|[(_ & _ & _ & Ep)|(_ & _ & _ & Ep)]]]; rewrite Ep in E1; try discriminate.
      injection E1 as E1a E1b. subst k0 s0. destruct (recv_step st j i m q HI Hj Hi C1 C3 C2 E2) as (S1 & S2 & S3 & S4).
      exists (recv_next st j (i, m)). split; auto. unfold mk. rewrite Ek, S1, S2. auto.
    - rewrite Pn in E1 by auto. injection E1 as E1.
      destruct (proc_cases st i HI Hi) as [(x & Lt & Ex & Ep)|[(_ & _ & _ & s0 & k0 & Ep & _)|[(C1 & C2 & C3 & Ep)|(_ & _ & _ & Ep)]]]; rewrite Ep in E1; try discriminate.
      injection E1 as E1. destruct (wait_step st i HI Hi C1 C3 C2) as (S1 & S2 & S3 & S4).
      exists (wait_next st i). split; auto. subst k. unfold mk. rewrite S1, S2. auto.
    - inversion H as [i k ps' ch' Hi E1 X1 X2]; subst. rewrite Pn in E1 by auto. injection E1 as E1.
      destruct (proc_cases st i HI Hi) as [(x & Lt & Ex & Ep)|[(_ & _ & _ & s0 & k0 & Ep & _)|[(C1 & C2 & C3 & Ep)|(_ & _ & _ & Ep)]]]; rewrite Ep in E1; try discriminate.
      injection E1 as E1. destruct (wait_step st i HI Hi C1 C3 C2) as (S1 & S2 & S3 & S4).
      exists (wait_next st i). split; auto. subst k. unfold mk. rewrite S1, S2. auto.
  Qed.

  Lemma find_rank (Q : nat -> Prop) : (forall i, {Q i} + {~ Q i}) -> forall m, {i | i < m /\ Q i} + {forall i, i < m -> ~ Q i}.
  Proof.
    intros D. induction m as [|m IH]; [right; lia|]. destruct IH as [(i & Hi & H)|IH].
    - left. exists i. split; auto.
    - destruct (D m) as [H|H]; [left; exists m; auto|]. right. intros i Hi. destruct (Nat.eq_dec i m) as [->|]; auto. apply IH. lia.
  Qed.

  Lemma progress st : inv st -> mk st = nstart n (map NRet (map res (seq 0 n))) \/ exists s', nstep_sure n (mk st) s'.
  Proof.
    intros HI.
    assert (Pn : forall i, i < n -> nth_error (map (fun i => proc i (st i)) (seq 0 n)) i = Some (proc i (st i))).
    { intros i Hi. apply (nth_error_map_seq (fun i => proc i (st i))). auto. }
    destruct (find_rank (fun i => p_ (st i) < length (snd_ i)) (fun i => lt_dec _ _) n) as [(i & Hi & Lt)|NS].
    { right. destruct (proc_cases st i HI Hi) as [(x & _ & Ex & Ep)|[(C & _)|[(C & _)|(C & _)]]]; try lia.
      assert (In x (snd_ i)) as Hx by (eapply nth_error_In; eauto).
      pose proof (proj1 (Forall_forall _ _) (Targets i Hi) x Hx) as Ht. cbn in Ht.
      eexists. unfold mk. eapply (StepIsend _ _ n i (fst x) (snd x)); [exact Hi|exact Ht| |].
      - rewrite Pn by auto. rewrite Ep. reflexivity.
      - apply matrix_nth; auto. }
    assert (PF : forall i, i < n -> p_ (st i) = length (snd_ i)).
    { intros i Hi. destruct (HI i Hi) as (A1 & _). specialize (NS i Hi). lia. }
    assert (Ex : forall i, i < n -> forall j m, In (j, m) (l_ (st i)) -> j < n /\ In (i, m) (snd_ j)).
    { intros i Hi j m H. destruct (HI i Hi) as (_ & _ & A3 & _). destruct (A3 j m H) as (B1 & B2). split; auto. eapply in_firstn; eauto. }
    destruct (find_rank (fun i => length (l_ (st i)) < cnt i) (fun i => lt_dec _ _) n) as [(i & Hi & Lt)|NR].
    { right. destruct (proc_cases st i HI Hi) as [(x & C & _)|[(C1 & C2 & C3 & s0 & k0 & Ep & Ha & Ek)|[(_ & _ & C & _)|(_ & _ & C & _)]]];
        [specialize (PF i Hi); lia| |lia|lia].
      (* a missing message *)
      assert (exists j m, In (j, m) (expected i) /\ ~ In j (map fst (l_ (st i)))) as (j & m & He & Hn).
      { destruct (Exists_dec (fun x => ~ In (fst x) (map fst (l_ (st i)))) (expected i)) as [H|H].
        { intros x. destruct (in_dec Nat.eq_dec (fst x) (map fst (l_ (st i)))); [right; tauto|left; auto]. }
        - apply Exists_exists in H. destruct H as ((j, m) & H & Hn). exists j, m. auto.
        - exfalso. assert (incl (map fst (expected i)) (map fst (l_ (st i)))) as I.
          { intros j Hj. destruct (in_dec Nat.eq_dec j (map fst (l_ (st i)))); auto. exfalso. apply H. apply Exists_exists.
            apply in_map_iff in Hj. destruct Hj as (x & <- & Hx). exists x. auto. }
          pose proof (NoDup_incl_length (proj1 (expected_nodup i)) I) as L. rewrite !map_length in L. rewrite Cnt in Lt by auto. lia. }
      apply in_expected in He as He'. destruct He' as (Hj & Hm).
      assert (Ech : chan st j i = [m]).
      { unfold chan. destruct (existsb (fun x => fst x =? j) (l_ (st i))) eqn:Exb.
        - exfalso. apply existsb_exists in Exb. destruct Exb as (x & Hx & Ej). apply Nat.eqb_eq in Ej. apply Hn. rewrite <- Ej. apply in_map. auto.
        - rewrite (PF j Hj), firstn_all. rewrite (filter_once _ i m (Once j Hj) Hm). auto. }
      eexists. unfold mk. eapply (StepRecv _ _ n j i m s0 k0 _ _ []); [exact Hj|exact Hi| | |].
      - rewrite Pn by auto. rewrite Ep. reflexivity.
      - eapply Ha; eauto.
      - rewrite matrix_nth by auto. rewrite Ech. auto. }
    assert (LF : forall i, i < n -> length (l_ (st i)) = cnt i /\ Permutation (l_ (st i)) (expected i)).
    { intros i Hi. destruct (HI i Hi) as (_ & A2 & _). destruct (recv_len i (l_ (st i)) Hi A2 (Ex i Hi)) as (L1 & L2).
      specialize (NR i Hi). split; [lia|]. apply L2. lia. }
    assert (CE : forall j i, j < n -> i < n -> chan st j i = []).
    { intros j i Hj Hi. destruct (chan st j i) as [|m q] eqn:E; auto. exfalso.
      destruct (chan_in st j i m q HI Hi Hj E) as (_ & Hin & Nin). apply in_firstn in Hin. apply Nin.
      apply in_map_iff. exists (j, m). split; auto. eapply Permutation_in; [symmetry; apply LF; auto|]. apply in_expected. auto. }
    destruct (find_rank (fun i => w_ (st i) = false) (fun i => Bool.bool_dec _ _) n) as [(i & Hi & Lt)|NW].
    { right. destruct (proc_cases st i HI Hi) as [(x & C & _)|[(C1 & C2 & C3 & _)|[(C1 & C2 & C3 & Ep)|(_ & C & _ & _)]]];
        [specialize (PF i Hi); lia|pose proof (proj1 (LF i Hi)); lia| |congruence].
      eexists. unfold mk. eapply (StepSent _ _ n i); [exact Hi| |].
      - rewrite Pn by auto. rewrite Ep. reflexivity.
      - intros j Hj. rewrite matrix_nth by auto. rewrite CE; auto. }
    left. unfold mk, nstart. f_equal.
    - rewrite map_map. apply map_ext_in. intros i Hi. apply in_seq in Hi.
      destruct (proc_cases st i HI ltac:(lia)) as [(x & C & _)|[(C1 & C2 & C3 & _)|[(C1 & C2 & C3 & Ep)|(_ & C & _ & Ep)]]]; auto;
        exfalso; [specialize (PF i ltac:(lia)); lia|apply (NW i); auto; lia|apply (NW i); auto; lia].
    - apply matrix_nil. auto.
  Qed.

  Definition st0 (i : nat) : rs := {| p_ := 0; l_ := []; w_ := false |}.
  Lemma st0_inv : inv st0.
  Proof. intros i Hi. cbn. repeat split; auto; try lia; try tauto; try discriminate. constructor. Qed.
  Lemma st0_mk : mk st0 = nstart n (map (fun i => call (snd_ i) (cnt i) (src i) (h i) (acc0 i) (kr i)) (seq 0 n)).
  Proof.
    unfold mk, nstart. f_equal.
    - apply map_ext. intros i. unfold proc, st0, call. cbn [p_ l_ w_]. destruct (Nat.ltb_spec 0 (length (snd_ i))); auto.
      destruct (snd_ i); [|cbn in *; lia]. cbn [isends length fold_left]. rewrite Nat.sub_0_r. destruct (src i); auto.
    - apply matrix_nil. intros i j Hi Hj. reflexivity.
  Qed.

  Theorem engine : ncompletes n (map (fun i => call (snd_ i) (cnt i) (src i) (h i) (acc0 i) (kr i)) (seq 0 n)) (map res (seq 0 n)).
  Proof.
    rewrite <- (map_map (fun i => call (snd_ i) (cnt i) (src i) (h i) (acc0 i) (kr i)) (fun x => x)) at 1. rewrite map_id.
    unfold ncompletes. rewrite <- st0_mk.
    assert (R : forall s, nsteps n (mk st0) s -> exists st, s = mk st /\ inv st).
    { intros s H. remember (mk st0) as s0 eqn:E0. assert (exists st, s0 = mk st /\ inv st) as G by (exists st0; split; auto; apply st0_inv).
      clear E0. induction H as [s|s s' s'' H1 H2 IH]; auto. apply IH. destruct G as (st & -> & HI).
      destruct (nstep_mk st s' HI H1) as (st' & E & HI' & _). eauto. }
    split; [|split].
    - exists (measure st0). intros k tr E0 Hs.
      assert (G : forall i, i <= k -> exists st, tr i = mk st /\ inv st /\ measure st + i <= measure st0).
      { induction i as [|i IH]; intros Hi.
        - exists st0. split; auto. split; [apply st0_inv|lia].
        - destruct (IH ltac:(lia)) as (st & E & HI & L). specialize (Hs i ltac:(lia)). rewrite E in Hs.
          destruct (nstep_mk st _ HI Hs) as (st' & E' & HI' & L'). exists st'. split; auto. split; auto. lia. }
      destruct (G k ltac:(lia)) as (st & _ & _ & L). lia.
    - intros s Hs. destruct (R s Hs) as (st & -> & HI). apply progress. auto.
    - intros s Hs N. destruct (R s Hs) as (st & -> & HI). destruct (progress st HI) as [E|(s' & H)]; auto.
      exfalso. apply (N s'). left. auto.
  Qed.
End Engine.
