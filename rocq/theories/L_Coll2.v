(** * Rounds of the scatters and shifts *)
From Coq Require Import List Arith Bool Lia Permutation ZArith.
From Verif Require Import Base M_Mpi S_Mpi L_Mpi M_Comm L_Comm S_Comm S_Order L_Coll.
Import ListNotations.

Lemma slice_slice {A} a b e r (s : list A) : a <= b <= e -> e <= r -> slice (b - a) (e - a) (slice a r s) = slice b e s.
Proof.
  intros H1 H2. unfold slice. rewrite skipn_firstn_comm, firstn_firstn, skipn_skipn.
  f_equal; [lia|]. f_equal. lia.
Qed.

Lemma resize_less {A} k (l : list A) d : k <= length l -> resize k l d = firstn k l.
Proof. intros H. unfold resize. replace (k - length l) with 0 by lia. cbn. apply app_nil_r. Qed.
Lemma resize_len {A} k (l : list A) d : length (resize k l d) = k.
Proof. unfold resize. rewrite app_length, firstn_length, repeat_length. lia. Qed.

(** ** scatterv and scatter *)
Section Scatter.
  Context {T A : Type}.
  Variables (dflt : T) (n : nat) (sb : list T) (D : nat -> nat).
  Hypothesis Mono : forall i j, i <= j <= n -> D i <= D j.
  Hypothesis D0 : D 0 = 0.
  Hypothesis Dn : D n <= length sb.
  Local Notation P := (prog (list T) A).

  Definition sc_core (rank l r : nat) (st : list T * list T) (k : list T * list T -> P) : P :=
    let sbuf := fst st in
    let rbuf := snd st in
    let mid := rh_mid l r in
    let then_recv := fun rbuf : list T =>
      if mid =? rank then Rcv l (fun m => into (resize (D r - D mid) rbuf dflt) m (fun rbuf => k (sbuf, rbuf))) else k (sbuf, rbuf) in
    if l =? rank then
      if rank =? 0 then range sbuf (D mid - D l) (D r - D l) (fun m => Snd mid m (then_recv rbuf))
      else range rbuf (D mid - D l) (D r - D l) (fun m => Snd mid m (then_recv (resize (D mid - D l) rbuf dflt)))
    else then_recv rbuf.

  Variable body : nat -> nat -> nat -> list T * list T -> (list T * list T -> P) -> P.
  Hypothesis Hbody : forall rank l r st k, l + 1 < r -> r <= n -> body rank l r st k = sc_core rank l r st k.

  Definition sc_pre (l r : nat) (g : nat -> list T * list T) : Prop :=
    if l =? 0 then fst (g 0) = sb else snd (g l) = slice (D l) (D r) sb.
  Definition sc_post (l r : nat) (g gF : nat -> list T * list T) : Prop := forall i, l <= i < r -> sc_pre i (i + 1) gF.

  Lemma sc_td l r g : l < r -> r <= n -> sc_pre l r g -> exists gF, td_run n body l r g gF /\ sc_post l r g gF.
  Proof.
    intros Hlr Hn HP.
    apply (td_ok n body _ (fun _ x => x) (fun l r g => l < r /\ sc_pre l r g) sc_post); auto.
    - intros l' r' g' H (Hl & H') i Hi. assert (i = l' /\ r' = l' + 1) as [-> ->] by lia. auto.
    - clear l r g Hlr Hn HP. intros l r g H Hn (_ & HP). destruct (rh_mid_spec l r H) as (X & _ & _).
      pose proof (Mono l (rh_mid l r) ltac:(lia)). pose proof (Mono (rh_mid l r) r ltac:(lia)). pose proof (Mono r n ltac:(lia)).
      exists (fun i => if i =? l then (fst (g l), if l =? 0 then snd (g l) else slice (D l) (D (rh_mid l r)) sb)
                       else if i =? rh_mid l r then (fst (g i), slice (D (rh_mid l r)) (D r) sb) else g i).
      split; [|split; [|split]].
      + apply body_pre with (p' := fun i => sc_core i l r (g i)). { intros i Hi k. apply Hbody; auto. }
        apply (round_one n l r l (rh_mid l r) _ (slice (D (rh_mid l r)) (D r) sb)); auto; try lia.
        * intros k. unfold sc_core. rewrite !Nat.eqb_refl. destruct (Nat.eqb_spec (rh_mid l r) l); [lia|].
          unfold sc_pre in HP. destruct (Nat.eqb_spec l 0) as [->|N].
          -- unfold range. rewrite HP, D0, !Nat.sub_0_r. rewrite (proj2 (Nat.leb_le (D (rh_mid 0 r)) (D r))) by auto.
             rewrite (proj2 (Nat.leb_le (D r) (length sb))) by lia. cbn [andb]. auto.
          -- unfold range. rewrite HP. rewrite slice_length by lia.
             rewrite (proj2 (Nat.leb_le (D (rh_mid l r) - D l) (D r - D l))) by lia. rewrite Nat.leb_refl. cbn [andb].
             rewrite slice_slice by lia. f_equal. f_equal. f_equal.
             rewrite resize_less by (rewrite slice_length; lia). unfold slice. rewrite firstn_firstn. f_equal. lia.
        * intros k. unfold sc_core. destruct (Nat.eqb_spec l (rh_mid l r)); [lia|]. rewrite Nat.eqb_refl.
          eexists. split; [reflexivity|]. cbn beta. rewrite into_same by (rewrite resize_len, slice_length; lia).
          destruct (Nat.eqb_spec (rh_mid l r) l); [lia|]. auto.
        * intros x k Hx N1 N2. unfold sc_core. destruct (Nat.eqb_spec l x); [lia|]. destruct (Nat.eqb_spec (rh_mid l r) x); [lia|].
          destruct (Nat.eqb_spec x l); [lia|]. destruct (Nat.eqb_spec x (rh_mid l r)); [lia|]. destruct (g x); auto.
      + split; [lia|]. unfold sc_pre in *. destruct (Nat.eqb_spec l 0) as [->|N].
        * rewrite Nat.eqb_refl. auto.
        * rewrite Nat.eqb_refl. auto.
      + split; [lia|]. unfold sc_pre in *. destruct (Nat.eqb_spec (rh_mid l r) 0); [lia|]. destruct (Nat.eqb_spec (rh_mid l r) l); [lia|].
        rewrite Nat.eqb_refl. auto.
      + intros gl gu Ql Qu i Hi. unfold sc_pre. destruct (Nat.ltb_spec i (rh_mid l r)).
        * specialize (Ql i ltac:(lia)). unfold sc_pre in Ql. destruct (Nat.eqb_spec i 0); auto.
          destruct (Nat.ltb_spec 0 (rh_mid l r)); [auto|lia].
        * specialize (Qu i ltac:(lia)). unfold sc_pre in Qu. destruct (Nat.eqb_spec i 0); [lia|]. auto.
  Qed.
End Scatter.

(** ** receiveLower and receiveUpper *)
Section Shift.
  Context {T : Type}.
  Variables (dflt : T) (n : nat) (s rb : nat -> list T).
  Hypothesis Same : forall i j, i < n -> j < n -> length (s i) = length (s j).

  Lemma seg_windows {M A} (p q : nat -> prog M A) : forall c b, (forall x, x < c -> seg_run n (b + 2 * x) (b + 2 * x + 2) p q) -> seg_run n b (b + 2 * c) p q.
  Proof.
    induction c as [|c IH]; intros b H.
    - apply seg_ext. lia.
    - apply seg_split with (m := b + 2 * c); [lia| |].
      + apply IH. intros x Hx. apply H. lia.
      + replace (b + 2 * S c) with (b + 2 * c + 2) by lia. apply H. lia.
  Qed.

  Lemma mod_even q : (2 * q) mod 2 = 0.
  Proof. rewrite Nat.mul_comm. apply Nat.mod_mul. lia. Qed.
  Lemma mod_odd q : (2 * q + 1) mod 2 = 1.
  Proof. rewrite Nat.add_comm, Nat.mul_comm, Nat.mod_add by lia. auto. Qed.
  Lemma half_cases m : exists c, m = 2 * c \/ m = 2 * c + 1.
  Proof. exists (m / 2). pose proof (Nat.div_mod m 2 ltac:(lia)). pose proof (Nat.mod_upper_bound m 2 ltac:(lia)). lia. Qed.

  Lemma lower_run : 0 < n ->
    seg_run n 0 n (fun i => receive_lower dflt n i (s i) (rb i) (fun x => Ret x))
      (fun i => Ret (if i =? 0 then resize (length (s 0)) (rb 0) dflt else s (i - 1))).
  Proof.
    intros Hn0.
    set (tr := fun i => if negb (i =? 0) then Rcv (i - 1) (fun m => into (resize (length (s i)) (rb i) dflt) m (fun x => Ret x))
                        else Ret (M := list T) (resize (length (s i)) (rb i) dflt)).
    set (p1 := fun i => if i mod 2 =? 1 then (if negb (i + 1 =? n) then Snd (i + 1) (s i) (Ret (s (i - 1))) else Ret (s (i - 1))) else tr i).
    apply seg_trans with (q := p1).
    - destruct (half_cases n) as (c & Hc).
      apply seg_split with (m := 2 * c); [lia| |].
      + apply (seg_windows _ _ c 0). intros x Hx. cbn [Nat.add].
        eapply (seg_step n (2 * x) (2 * x + 2) (2 * x) (2 * x + 1)); try lia.
        * unfold receive_lower. rewrite mod_even. cbn [Nat.eqb]. destruct (Nat.eqb_spec (2 * x + 1) n); [lia|]. cbn [negb]. reflexivity.
        * unfold receive_lower. rewrite mod_odd. cbn [Nat.eqb]. replace (2 * x + 1 - 1) with (2 * x) by lia. reflexivity.
        * intros y Hy. cbn beta. subst p1. cbn beta. destruct (Nat.eqb_spec y (2 * x + 1)) as [->|N].
          -- rewrite mod_odd. cbn [Nat.eqb]. rewrite into_same by (rewrite resize_len; apply Same; lia).
             replace (2 * x + 1 - 1) with (2 * x) by lia. auto.
          -- assert (y = 2 * x) as -> by lia. rewrite Nat.eqb_refl, mod_even. cbn [Nat.eqb]. auto.
      + apply seg_ext. intros i Hi. assert (i = 2 * c /\ n = 2 * c + 1) as [-> E] by lia. subst p1. cbn beta. unfold receive_lower.
        rewrite mod_even. cbn [Nat.eqb]. destruct (Nat.eqb_spec (2 * c + 1) n); [|lia]. cbn [negb]. auto.
    - destruct (half_cases (n - 1)) as (c & Hc).
      apply seg_split with (m := 1); [lia| |].
      { apply seg_ext. intros i Hi. assert (i = 0) as -> by lia. subst p1 tr. reflexivity. }
      apply seg_split with (m := 1 + 2 * c); [lia| |].
      + apply seg_windows. intros x Hx.
        eapply (seg_step n (1 + 2 * x) (1 + 2 * x + 2) (2 * x + 1) (2 * (x + 1))); try lia.
        * subst p1. cbn beta. rewrite mod_odd. cbn [Nat.eqb]. destruct (Nat.eqb_spec (2 * x + 1 + 1) n); [lia|]. cbn [negb].
          replace (2 * x + 1 + 1) with (2 * (x + 1)) by lia. reflexivity.
        * subst p1 tr. cbn beta. rewrite mod_even. cbn [Nat.eqb]. destruct (Nat.eqb_spec (2 * (x + 1)) 0); [lia|]. cbn [negb].
          replace (2 * (x + 1) - 1) with (2 * x + 1) by lia. reflexivity.
        * intros y Hy. cbn beta. destruct (Nat.eqb_spec y 0); [lia|]. destruct (Nat.eqb_spec y (2 * (x + 1))) as [->|N].
          -- rewrite into_same by (rewrite resize_len; apply Same; lia). replace (2 * (x + 1) - 1) with (2 * x + 1) by lia. auto.
          -- assert (y = 2 * x + 1) as -> by lia. rewrite Nat.eqb_refl. auto.
      + apply seg_ext. intros i Hi. assert (i = 2 * c + 1 /\ n = 2 * c + 2) as [-> E] by lia. subst p1. cbn beta.
        rewrite mod_odd. cbn [Nat.eqb]. destruct (Nat.eqb_spec (2 * c + 1 + 1) n); [|lia]. cbn [negb].
        destruct (Nat.eqb_spec (2 * c + 1) 0); [lia|]. auto.
  Qed.

  Lemma upper_run : 0 < n ->
    seg_run n 0 n (fun i => receive_upper dflt n i (s i) (rb i) (fun x => Ret x))
      (fun i => Ret (if i + 1 =? n then resize (length (s i)) (rb i) dflt else s (i + 1))).
  Proof.
    intros Hn0.
    set (res := fun i => if i + 1 =? n then resize (length (s i)) (rb i) dflt else s (i + 1)).
    set (p1 := fun i => if i mod 2 =? 1 then (if negb (i + 1 =? n) then Rcv (i + 1) (fun m => into (resize (length (s i)) (rb i) dflt) m (fun x => Ret x))
                                             else Ret (resize (length (s i)) (rb i) dflt))
                        else if negb (i =? 0) then Snd (i - 1) (s i) (Ret (res i)) else Ret (res i)).
    apply seg_trans with (q := p1).
    - destruct (half_cases n) as (c & Hc).
      apply seg_split with (m := 2 * c); [lia| |].
      + apply (seg_windows _ _ c 0). intros x Hx. cbn [Nat.add].
        eapply (seg_step n (2 * x) (2 * x + 2) (2 * x + 1) (2 * x)); try lia.
        * unfold receive_upper. rewrite mod_odd. cbn [Nat.eqb]. replace (2 * x + 1 - 1) with (2 * x) by lia. reflexivity.
        * unfold receive_upper. rewrite mod_even. cbn [Nat.eqb]. destruct (Nat.eqb_spec (2 * x + 1) n); [lia|]. cbn [negb]. reflexivity.
        * intros y Hy. cbn beta. subst p1 res. cbn beta. destruct (Nat.eqb_spec y (2 * x)) as [->|N].
          -- rewrite mod_even. cbn [Nat.eqb]. rewrite into_same by (rewrite resize_len; apply Same; lia).
             destruct (Nat.eqb_spec (2 * x + 1) n); [lia|]. auto.
          -- assert (y = 2 * x + 1) as -> by lia. rewrite Nat.eqb_refl, mod_odd. cbn [Nat.eqb]. auto.
      + apply seg_ext. intros i Hi. assert (i = 2 * c /\ n = 2 * c + 1) as [-> E] by lia. subst p1 res. cbn beta. unfold receive_upper.
        rewrite mod_even. cbn [Nat.eqb]. destruct (Nat.eqb_spec (2 * c + 1) n); [|lia]. cbn [negb]. auto.
    - destruct (half_cases (n - 1)) as (c & Hc).
      apply seg_split with (m := 1); [lia| |].
      { apply seg_ext. intros i Hi. assert (i = 0) as -> by lia. subst p1 res. reflexivity. }
      apply seg_split with (m := 1 + 2 * c); [lia| |].
      + apply seg_windows. intros x Hx.
        eapply (seg_step n (1 + 2 * x) (1 + 2 * x + 2) (2 * (x + 1)) (2 * x + 1)); try lia.
        * subst p1. cbn beta. rewrite mod_even. cbn [Nat.eqb]. destruct (Nat.eqb_spec (2 * (x + 1)) 0); [lia|]. cbn [negb].
          replace (2 * (x + 1) - 1) with (2 * x + 1) by lia. reflexivity.
        * subst p1. cbn beta. rewrite mod_odd. cbn [Nat.eqb]. destruct (Nat.eqb_spec (2 * x + 1 + 1) n); [lia|]. cbn [negb].
          replace (2 * x + 1 + 1) with (2 * (x + 1)) by lia. reflexivity.
        * intros y Hy. cbn beta. destruct (Nat.eqb_spec y (2 * x + 1)) as [->|N].
          -- rewrite into_same by (rewrite resize_len; apply Same; lia). subst res. cbn beta.
             destruct (Nat.eqb_spec (2 * x + 1 + 1) n); [lia|]. replace (2 * x + 1 + 1) with (2 * (x + 1)) by lia. auto.
          -- assert (y = 2 * (x + 1)) as -> by lia. rewrite Nat.eqb_refl. auto.
      + apply seg_ext. intros i Hi. assert (i = 2 * c + 1 /\ n = 2 * c + 2) as [-> E] by lia. subst p1 res. cbn beta.
        rewrite mod_odd. cbn [Nat.eqb]. destruct (Nat.eqb_spec (2 * c + 1 + 1) n); [|lia]. cbn [negb]. auto.
  Qed.
End Shift.
