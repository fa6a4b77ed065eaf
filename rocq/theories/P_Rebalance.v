(** * Properties of the balancing of distributed data: C33 *)
From Coq Require Import List Arith Lia Bool Permutation.
From Verif Require Import Base L_Utils L_Balance L_Coll2 M_Nb S_Nb L_Nb M_Exchange L_Exchange.
Import ListNotations.
Local Open Scope out_scope.

Lemma dist_mono n dist total : distribution n dist total -> forall i j, i <= j -> j <= n -> nth i dist 0 <= nth j dist 0.
Proof. intros (_ & _ & H & _). apply mono_steps. auto. Qed.

Lemma lower_bound_spec l x : (forall i j, i <= j -> j < length l -> nth i l 0 <= nth j l 0) ->
  lower_bound l x <= length l /\ (forall i, i < lower_bound l x -> nth i l 0 < x) /\ (lower_bound l x < length l -> x <= nth (lower_bound l x) l 0).
Proof.
  induction l as [|y l IH]; intros M; cbn [lower_bound length]; [repeat split; intros; lia|].
  destruct (Nat.ltb_spec y x) as [L|L].
  - destruct IH as (I1 & I2 & I3). { intros i j H1 H2. apply (M (S i) (S j)); cbn; lia. }
    repeat split; [lia| |].
    + intros [|i] Hi; cbn [nth]; auto. apply I2. lia.
    + intros H. cbn [nth]. apply I3. lia.
  - repeat split; [lia| |]; intros; cbn [nth]; auto; lia.
Qed.

(** common part of two intervals *)
Definition overlap (b e b' e' : nat) : nat := Nat.min e e' - Nat.max b b'.

Section Fill.
  Variables (n total b e : nat) (to : list nat).
  Hypothesis D : distribution n to total.
  Hypothesis Be : b <= e <= total.
  Local Notation ov t := (overlap b e (nth t to 0) (nth (t + 1) to 0)).

  Lemma fill_loop_ok fuel : forall off rest tI tOff size disp,
    tI <= n -> (n - tI) + 2 <= fuel -> b + off + rest = e -> (0 < rest -> b + off = Nat.max b (nth tI to 0) /\ tOff = b + off - nth tI to 0 /\ b < nth (tI + 1) to 0) ->
    (rest = 0 -> forall t, tI <= t < n -> ov t = 0) ->
    length size = n -> length disp = n ->
    (forall t, t < tI -> nth t size 0 = ov t /\ (ov t <> 0 -> nth t disp 0 = Nat.max b (nth t to 0) - b)) ->
    (forall t, tI <= t < n -> nth t size 0 = 0) ->
    exists s p, fill_loop fuel to off rest tI tOff size disp = Ok (s, p) /\ length s = n /\ length p = n /\
      forall t, t < n -> nth t s 0 = ov t /\ (ov t <> 0 -> nth t p 0 = Nat.max b (nth t to 0) - b).
  Proof.
    induction fuel as [|fuel IH]; intros off rest tI tOff size disp HtI HF HR HG HZ Ls Lp HB HA; [lia|]. cbn [fill_loop].
    destruct (Nat.eqb_spec rest 0) as [R0|R0].
    - exists size, disp. repeat split; auto.
      + destruct (le_lt_dec tI t); [rewrite HA, HZ by (auto; lia); auto|apply HB; auto].
      + intros Ho. destruct (le_lt_dec tI t) as [Ht|Ht]; [rewrite (HZ R0 t) in Ho by lia; lia|apply HB; auto].
    - destruct (HG ltac:(lia)) as (Eg & Et & Eb). destruct D as (Ld & D0 & Dm & Dn). pose proof (dist_mono n to total D) as Mono.
      assert (tI < n). { destruct (Nat.eq_dec tI n) as [->|]; [|lia]. lia. }
      rewrite (rd_ok to (tI + 1) 0) by lia. cbn [obind]. rewrite (rd_ok to tI 0) by lia. cbn [obind]. cbn zeta.
      pose proof (Dm tI ltac:(lia)).
      set (room := nth (tI + 1) to 0 - nth tI to 0 - tOff). 
      destruct (Nat.ltb_spec rest room) as [HL|HL].
      + rewrite !wr_ok by lia. cbn [obind]. destruct fuel as [|fuel]; [lia|]. cbn [fill_loop Nat.eqb].
        do 2 eexists. split; [reflexivity|]. rewrite !upd_length. split; auto. split; auto. intros t Ht.
        destruct (lt_eq_lt_dec t tI) as [[Hlt| ->]|Hgt].
        * rewrite !nth_upd_neq by lia. apply HB. auto.
        * rewrite !nth_upd_eq by lia. unfold room in HL. unfold overlap. split; lia.
        * rewrite !nth_upd_neq by lia. rewrite HA by lia. pose proof (Mono (tI + 1) t ltac:(lia) ltac:(lia)). unfold room in HL. unfold overlap. split; lia.
      + rewrite !wr_ok by lia. cbn [obind]. apply IH; try rewrite !upd_length; auto; try lia.
        * intros Hr. assert (tI + 1 < n). { destruct (Nat.eq_dec (tI + 1) n) as [E|]; [|lia].
            assert (nth (tI + 1) to 0 = total) by (rewrite E; auto). unfold room in *. lia. }
          pose proof (Dm (tI + 1) ltac:(lia)). unfold room in *. repeat split; lia.
        * intros R t Ht. pose proof (Mono (tI + 1) t ltac:(lia) ltac:(lia)). unfold overlap. unfold room in *. lia.
        * intros t Ht. destruct (Nat.eq_dec t tI) as [->|Dt].
          -- rewrite !nth_upd_eq by lia. unfold room in *. unfold overlap. split; lia.
          -- rewrite !nth_upd_neq by lia. apply HB. lia.
        * intros t Ht. rewrite nth_upd_neq by lia. apply HA. lia.
  Qed.
End Fill.

Lemma fill_ok n total from to i : distribution n from total -> distribution n to total -> i < n ->
  exists s p, fill n i from to = Ok (s, p) /\ forall t, t < n ->
    nth t s 0 = overlap (nth i from 0) (nth (i + 1) from 0) (nth t to 0) (nth (t + 1) to 0) /\
    (nth t s 0 <> 0 -> nth t p 0 = Nat.max (nth i from 0) (nth t to 0) - nth i from 0).
Proof.
  intros Df Dt Hi. pose proof (dist_mono n from total Df) as Mf. pose proof (dist_mono n to total Dt) as Mt.
  destruct Df as (Lf & F0 & Fm & Fn). unfold fill.
  rewrite (rd_ok from i 0), (rd_ok from (i + 1) 0) by lia. cbn [obind]. set (b := nth i from 0). set (e := nth (i + 1) from 0).
  assert (Be : b <= e <= total). { split; [apply Fm; auto|]. rewrite <- Fn. apply Mf; lia. }
  assert (Lt : length to = n + 1) by apply Dt.
  destruct (lower_bound_spec to (b + 1)) as (B1 & B2 & B3). { intros j k H1 H2. apply Mt; lia. }
  assert (B0 : lower_bound to (b + 1) <> 0). { intros E. rewrite E in B3. destruct Dt as (_ & T0 & _). rewrite T0 in B3. lia. }
  destruct (Nat.eqb_spec (lower_bound to (b + 1)) 0); [lia|].
  rewrite (rd_ok to _ 0) by lia. cbn [obind]. set (l := lower_bound to (b + 1)) in *.
  pose proof (B2 (l - 1) ltac:(lia)) as Hb.
  destruct (fill_loop_ok n total b e to Dt Be (length to + 2) 0 (e - b) (l - 1) (b - nth (l - 1) to 0) (repeat 0 n) (repeat 0 n)) as (s & p & E & Ls & Lp & H);
    try rewrite repeat_length; auto; try lia.
  - intros Hr. repeat split; try lia. assert (l < length to). { destruct (Nat.eq_dec l (length to)) as [E|]; [|lia]. destruct Dt as (_ & _ & _ & Tn).
      replace (l - 1) with n in Hb by lia. lia. }
    replace (l - 1 + 1) with l by lia. specialize (B3 ltac:(lia)). lia.
  - intros Hz t Ht. unfold overlap. lia.
  - intros t Ht. rewrite nth_repeat. assert (overlap b e (nth t to 0) (nth (t + 1) to 0) = 0) as ->; [|split; auto; lia].
    pose proof (Mt (t + 1) (l - 1) ltac:(lia) ltac:(lia)). unfold overlap. lia.
  - intros. apply nth_repeat.
  - exists s, p. split; auto. intros t Ht. destruct (H t Ht) as (H1 & H2). split; auto. intros N. apply H2. now rewrite <- H1.
Qed.

Lemma transfers_eq n (sd : list nat * list nat) : transfers n sd = map (fun r => (r, nth r (snd sd) 0, nth r (fst sd) 0)) (filter (fun r => negb (nth r (fst sd) 0 =? 0)) (seq 0 n)).
Proof.
  unfold transfers. generalize (seq 0 n). intros l. induction l as [|x l IH]; auto. cbn [map filter snd].
  destruct (nth x (fst sd) 0 =? 0); cbn [negb]; [auto|]. cbn [map]. now f_equal.
Qed.
Lemma filter_ext_seq n (p q : nat -> bool) : (forall r, r < n -> p r = q r) -> filter p (seq 0 n) = filter q (seq 0 n).
Proof. intros H. apply filter_ext_in. intros r Hr. apply in_seq in Hr. apply H. lia. Qed.
Lemma owner n dist total y : distribution n dist total -> y < total -> exists j, j < n /\ nth j dist 0 <= y < nth (j + 1) dist 0.
Proof.
  intros (L & D0 & Dm & Dn) Hy. assert (G : forall k, k <= n -> y < nth k dist 0 -> exists j, j < n /\ nth j dist 0 <= y < nth (j + 1) dist 0).
  { induction k as [|k IH]; intros Hk H; [lia|]. destruct (le_lt_dec (nth k dist 0) y) as [H'|H'].
    - exists k. split; [lia|]. rewrite Nat.add_1_r. lia.
    - apply IH; auto. lia. }
  apply (G n); auto. lia.
Qed.

(** C33: [G] is the global data; rank [i] holds its part of the current distribution and ends with its part of the target distribution *)
Theorem balance_parts {T} (dflt : T) limit n (G : list T) cur tgt :
  distribution n cur (length G) -> distribution n tgt (length G) ->
  (forall i, i < n -> nth (i + 1) cur 0 - nth i cur 0 <= limit) ->
  ncompletes n (map (fun i => balance dflt limit n i (slice (nth i cur 0) (nth (i + 1) cur 0) G) cur tgt) (seq 0 n))
               (map (fun i => Some (slice (nth i tgt 0) (nth (i + 1) tgt 0) G)) (seq 0 n)).
Proof.
  intros Dc Dt HL. pose proof (dist_mono n cur _ Dc) as Mc. pose proof (dist_mono n tgt _ Dt) as Mt.
  set (ov := fun i j => overlap (nth i cur 0) (nth (i + 1) cur 0) (nth j tgt 0) (nth (j + 1) tgt 0)).   (* of rank i's data for rank j *)
  set (d := fun i j => slice (Nat.max (nth i cur 0) (nth j tgt 0)) (Nat.max (nth i cur 0) (nth j tgt 0) + ov i j) G).
  set (pos := fun i j => Nat.max (nth i tgt 0) (nth j cur 0) - nth i tgt 0).
  set (ts := fun i => filter (fun j => negb (ov i j =? 0)) (seq 0 n)). set (ks := fun i => filter (fun j => negb (ov j i =? 0)) (seq 0 n)).
  assert (Bc : forall i, i < n -> nth i cur 0 <= nth (i + 1) cur 0 <= length G).
  { intros i Hi. split; [apply Mc; lia|]. destruct Dc as (_ & _ & _ & <-). apply Mc; lia. }
  assert (Bt : forall i, i < n -> nth i tgt 0 <= nth (i + 1) tgt 0 <= length G).
  { intros i Hi. split; [apply Mt; lia|]. destruct Dt as (_ & _ & _ & <-). apply Mt; lia. }
  assert (Ld : forall i j, i < n -> j < n -> length (d i j) = ov i j).
  { intros i j Hi Hj. pose proof (Bc i Hi). pose proof (Bt j Hj). unfold d. destruct (Nat.eq_dec (ov i j) 0) as [E|E].
    - rewrite E, Nat.add_0_r. unfold slice. rewrite Nat.sub_diag. auto.
    - rewrite slice_length; [lia|]. unfold ov, overlap in *. lia. }
  assert (In_ts : forall i j, In j (ts i) <-> j < n /\ ov i j <> 0).
  { intros i j. unfold ts. rewrite filter_In, in_seq, negb_true_iff, Nat.eqb_neq. lia. }
  assert (In_ks : forall i j, In j (ks i) <-> j < n /\ ov j i <> 0).
  { intros i j. unfold ks. rewrite filter_In, in_seq, negb_true_iff, Nat.eqb_neq. lia. }
  assert (Rcv : forall i, i < n -> exists s p, fill n i tgt cur = Ok (s, p) /\ forall j, j < n -> nth j s 0 = ov j i /\ (ov j i <> 0 -> nth j p 0 = pos i j)).
  { intros i Hi. destruct (fill_ok n _ tgt cur i Dt Dc Hi) as (s & p & E & H). exists s, p. split; auto. intros j Hj. destruct (H j Hj) as (H1 & H2).
    assert (nth j s 0 = ov j i) as E1 by (rewrite H1; unfold ov, overlap; lia). split; auto. intros O. rewrite H2 by lia. reflexivity. }
  set (R := fun i => match fill n i tgt cur with Ok r => r | _ => ([], []) end).
  rewrite (map_ext_in _ (fun i => call (map (fun t => (t, d i t)) (ts i)) (length (ks i)) (Some (ks i))
    (fun res j m => store_at (nth j (fst (R i)) 0) (nth j (snd (R i)) 0) res m) (repeat dflt (nth (i + 1) tgt 0 - nth i tgt 0)) Some)).
  2:{ intros i Hi. apply in_seq in Hi. assert (Hin : i < n) by lia. clear Hi. pose proof (Bc i Hin) as Bi. unfold balance.
      rewrite slice_length by lia. specialize (HL i Hin). destruct (Nat.ltb_spec limit (nth (i + 1) cur 0 - nth i cur 0)) as [?|_]; [lia|].
      destruct (fill_ok n _ cur tgt i Dc Dt Hin) as (s & p & E & H). rewrite E. destruct (Rcv i Hin) as (s' & p' & E' & H'). unfold R. rewrite E'.
      rewrite !transfers_eq. cbn [fst snd].
      rewrite (filter_ext_seq n (fun r => negb (nth r s 0 =? 0)) (fun j => negb (ov i j =? 0))) by (intros r Hr; rewrite (proj1 (H r Hr)); auto). fold (ts i).
      rewrite (filter_ext_seq n (fun r => negb (nth r s' 0 =? 0)) (fun j => negb (ov j i =? 0))) by (intros r Hr; rewrite (proj1 (H' r Hr)); auto). fold (ks i).
      rewrite (loads_ok (fun r => r) (fun r => nth r p 0) (fun r => nth r s 0)).
      - rewrite map_length, map_map. cbn [fst]. rewrite map_id. f_equal. apply map_ext_in. intros t Ht. apply In_ts in Ht. destruct Ht as (Ht & O).
        destruct (H t Ht) as (H1 & H2). f_equal. fold (ov i t) in H1. rewrite H2, H1 by lia. pose proof (Bt t Ht). unfold d, slice.
        rewrite skipn_firstn_comm, firstn_firstn, skipn_skipn. f_equal; [|f_equal]; unfold ov, overlap in *; lia.
      - intros t Ht. apply In_ts in Ht. destruct Ht as (Ht & O). destruct (H t Ht) as (H1 & H2). fold (ov i t) in H1. rewrite H2, H1 by lia. rewrite slice_length by lia.
        unfold ov, overlap in *. lia. }
  apply (flat_complete n ts ks d (fun i => repeat dflt (nth (i + 1) tgt 0 - nth i tgt 0)) pos).
  - intros i t Hi Ht. apply In_ts in Ht. tauto.
  - intros. apply NoDup_filter, seq_NoDup.
  - intros. apply NoDup_filter, seq_NoDup.
  - intros i j Hi. rewrite In_ks, In_ts. tauto.
  - intros i j Hi Hj. apply In_ks in Hj. destruct Hj as (Hj & O). rewrite repeat_length, Ld by auto. unfold pos. unfold ov, overlap in *. lia.
  - intros i j j' Hi Hj Hj' N. apply In_ks in Hj, Hj'. destruct Hj as (Hj & O), Hj' as (Hj' & O'). rewrite !Ld by auto.
    destruct (le_lt_dec j j') as [L|L]; [left; pose proof (Mc (j + 1) j' ltac:(lia) ltac:(lia))|right; pose proof (Mc (j' + 1) j ltac:(lia) ltac:(lia))]; unfold pos, ov, overlap in *; lia.
  - intros i a j Hi Hj La. apply In_ks in Hj. destruct Hj as (Hj & O). destruct (Rcv i Hi) as (s & p & E & H). unfold R. rewrite E. cbn [fst snd].
    destruct (H j Hj) as (H1 & H2). rewrite H1, H2 by auto. unfold store_at. rewrite Ld, Nat.leb_refl by auto. cbn [andb]. rewrite La, repeat_length.
    destruct (Nat.leb_spec (pos i j + ov j i) (nth (i + 1) tgt 0 - nth i tgt 0)); [auto|]. unfold pos, ov, overlap in *. lia.
  - intros i a Hi (La & H1 & _). f_equal. pose proof (Bt i Hi) as Bi. rewrite repeat_length in La. apply list_ext_all.
    + rewrite slice_length by lia. auto.
    + intros x df Hx. rewrite nth_slice by lia. destruct (owner n cur _ (nth i tgt 0 + x) Dc) as (j & Hj & Hy); [lia|].
      assert (O : ov j i <> 0) by (unfold ov, overlap; lia).
      rewrite (H1 x j df); [|apply In_ks; auto|red; rewrite Ld by auto; unfold pos, ov, overlap in *; lia].
      unfold d. rewrite nth_slice by (unfold pos, ov, overlap in *; lia). f_equal. unfold pos. lia.
Qed.

Example balance_parts_ex :
  ncompletes 3 (map (fun i => balance 0 10 3 i (slice (nth i [0; 4; 4; 6] 0) (nth (i + 1) [0; 4; 4; 6] 0) [1; 2; 3; 4; 5; 6]) [0; 4; 4; 6] [0; 2; 4; 6]) (seq 0 3))
    [Some [1; 2]; Some [3; 4]; Some [5; 6]].
Proof.
  apply (balance_parts 0 10 3 [1; 2; 3; 4; 5; 6] [0; 4; 4; 6] [0; 2; 4; 6]).
  - repeat split. intros i Hi. do 3 (destruct i as [|i]; [cbn; lia|]). lia.
  - repeat split. intros i Hi. do 3 (destruct i as [|i]; [cbn; lia|]). lia.
  - intros i Hi. do 3 (destruct i as [|i]; [cbn; lia|]). lia.
Qed.

Print Assumptions balance_parts.
