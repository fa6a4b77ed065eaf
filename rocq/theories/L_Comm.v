(** * Runs of the recursive-halving collectives *)
From Coq Require Import List Arith Bool Lia Permutation.
From Verif Require Import Base M_Mpi S_Mpi L_Mpi M_Comm.
Import ListNotations.

Section Seg.
  Context {M A : Type}.
  Variable n : nat.
  Local Notation P := (prog M A).

  Definition inr (l r i : nat) : bool := (l <=? i) && (i <? r).
  Lemma inr_spec l r i : reflect (l <= i < r) (inr l r i).
  Proof. unfold inr. destruct (Nat.leb_spec0 l i), (Nat.ltb_spec0 i r); cbn; constructor; lia. Qed.

  (** ranks [l, r) run from [p] to [q] and the others do nothing *)
  Definition seg_run (l r : nat) (p q : nat -> P) : Prop :=
    forall f, (forall i, l <= i < r -> f i = p i) -> frun n f (fun i => if inr l r i then q i else f i).

  Lemma seg_ext l r p q : (forall i, l <= i < r -> p i = q i) -> seg_run l r p q.
  Proof. intros E f Hf. constructor. intros i Hi. destruct (inr_spec l r i); auto. rewrite Hf, E; auto. Qed.

  Lemma seg_trans l r p q s : seg_run l r p q -> seg_run l r q s -> seg_run l r p s.
  Proof.
    intros R1 R2 f Hf. eapply frun_trans. apply R1; auto.
    eapply frun_post; [|apply R2].
    - intros i Hi. cbn beta. destruct (inr l r i); auto.
    - intros i Hi. destruct (inr_spec l r i); auto. lia.
  Qed.

  Lemma seg_pre l r p p' q : (forall i, l <= i < r -> p i = p' i) -> seg_run l r p' q -> seg_run l r p q.
  Proof. intros E R f Hf. apply R. intros i Hi. rewrite Hf; auto. Qed.
  Lemma seg_post l r p q q' : (forall i, l <= i < r -> q i = q' i) -> seg_run l r p q -> seg_run l r p q'.
  Proof. intros E R. eapply seg_trans; eauto. apply seg_ext; auto. Qed.

  Lemma seg_split l m r p q : l <= m <= r -> seg_run l m p q -> seg_run m r p q -> seg_run l r p q.
  Proof.
    intros L R1 R2 f Hf. eapply frun_trans. apply R1. { intros i Hi. apply Hf. lia. }
    eapply frun_post; [|apply R2].
    - intros i Hi. cbn beta. destruct (inr_spec m r i), (inr_spec l m i), (inr_spec l r i); auto; lia.
    - intros i Hi. destruct (inr_spec l m i); try lia. apply Hf. lia.
  Qed.

  (** one meeting *)
  Lemma seg_step l r i j m k k' p q : r <= n -> l <= i < r -> l <= j < r -> p i = Snd j m k -> p j = Rcv i k' ->
    (forall x, l <= x < r -> q x = if x =? j then k' m else if x =? i then k else p x) -> seg_run l r p q.
  Proof.
    intros Hr Hi Hj Ei Ej Hq f Hf.
    apply (fr_step n f i j m k k'); try lia; try (rewrite Hf; auto; fail).
    constructor. intros x Hx. unfold fset. destruct (inr_spec l r x).
    - rewrite Hq by auto. destruct (x =? j); auto. destruct (x =? i); auto.
    - destruct (Nat.eqb_spec x j); [lia|]. destruct (Nat.eqb_spec x i); [lia|]. auto.
  Qed.

  (** every lower rank of a pair sends, then receives *)
  Lemma seg_pairs l r h a b (F : nat -> M -> P) (k Q : nat -> P) p : forall c, r <= n -> c <= h -> l + h + c <= r ->
    (forall x, x < c -> exists k', p (l + x) = Snd (l + h + x) (a x) (Rcv (l + h + x) k') /\ p (l + h + x) = Rcv (l + x) (F x) /\
                                 F x (a x) = Snd (l + x) (b x) (Q x) /\ k' (b x) = k x) ->
    seg_run l r p (fun i => if inr l (l + c) i then k (i - l) else if inr (l + h) (l + h + c) i then Q (i - l - h) else p i).
  Proof.
    induction c as [|c IH]; intros Hr Hc Hl H.
    - apply seg_ext. intros i Hi. destruct (inr_spec l (l + 0) i), (inr_spec (l + h) (l + h + 0) i); auto; lia.
    - eapply seg_trans. { apply IH; try lia. intros x Hx. apply H. lia. }
      destruct (H c ltac:(lia)) as (k' & E1 & E2 & E3 & E4).
      set (p1 := fun i => if inr l (l + c) i then k (i - l) else if inr (l + h) (l + h + c) i then Q (i - l - h) else p i).
      assert (X1 : p1 (l + c) = p (l + c)).
      { subst p1. cbn. destruct (inr_spec l (l + c) (l + c)), (inr_spec (l + h) (l + h + c) (l + c)); auto; lia. }
      assert (X2 : p1 (l + h + c) = p (l + h + c)).
      { subst p1. cbn. destruct (inr_spec l (l + c) (l + h + c)), (inr_spec (l + h) (l + h + c) (l + h + c)); auto; lia. }
      set (p2 := fun x => if x =? l + h + c then Snd (l + c) (b c) (Q c) else if x =? l + c then Rcv (l + h + c) k' else p1 x).
      eapply seg_trans with (q := p2).
      + apply (seg_step l r (l + c) (l + h + c) (a c) (Rcv (l + h + c) k') (F c)); try lia.
        * rewrite X1. auto.
        * rewrite X2. auto.
        * intros x Hx. subst p2. cbn. destruct (x =? l + h + c); auto.
      + apply (seg_step l r (l + h + c) (l + c) (b c) (Q c) k'); try lia.
        * subst p2. cbn. rewrite Nat.eqb_refl. auto.
        * subst p2. cbn. destruct (Nat.eqb_spec (l + c) (l + h + c)); [lia|]. rewrite Nat.eqb_refl. auto.
        * intros x Hx. subst p2 p1. cbn beta.
          destruct (Nat.eqb_spec x (l + c)) as [->|N1].
          { destruct (inr_spec l (l + S c) (l + c)); [|lia]. replace (l + c - l) with c by lia. auto. }
          destruct (Nat.eqb_spec x (l + h + c)) as [->|N2].
          { destruct (inr_spec l (l + S c) (l + h + c)); [lia|].
            destruct (inr_spec (l + h) (l + h + S c) (l + h + c)); [|lia].
            replace (l + h + c - l - h) with c by lia. auto. }
          destruct (inr_spec l (l + S c) x), (inr_spec l (l + c) x); try lia; auto.
          destruct (inr_spec (l + h) (l + h + S c) x), (inr_spec (l + h) (l + h + c) x); try lia; auto.
  Qed.
End Seg.

(** ** The middle of an interval *)
Lemma rh_mid_spec l r : l + 1 < r -> l < rh_mid l r < r /\ rh_mid l r - l = r - rh_mid l r + (r - l) mod 2 /\ (r - l) mod 2 < 2.
Proof.
  intros H. unfold rh_mid. pose proof (Nat.div_mod (r - l) 2 ltac:(lia)) as E. pose proof (Nat.mod_upper_bound (r - l) 2 ltac:(lia)).
  set (q := (r - l) / 2) in *. set (o := (r - l) mod 2) in *. clearbody q o. lia.
Qed.

Lemma rh_more_spec l r : reflect (l + 1 < r) (rh_more l r).
Proof. unfold rh_more. apply Nat.ltb_spec0. Qed.

Section Rounds.
  Context {M A St : Type}.
  Variable n : nat.
  Local Notation P := (prog M A).

  (** ranks [l, r) run the parts [p] of their programs, whatever follows, and [st1] are their local variables then *)
  Definition body_run (l r : nat) (p : nat -> (St -> P) -> P) (st1 : nat -> St) : Prop :=
    forall K : nat -> St -> P, seg_run n l r (fun i => p i (K i)) (fun i => K i (st1 i)).

  Lemma body_split l m r p st1 : l <= m <= r -> body_run l m p st1 -> body_run m r p st1 -> body_run l r p st1.
  Proof. intros L R1 R2 K. eapply seg_split; eauto. Qed.
  Lemma body_ext l r p st1 st2 : (forall i, l <= i < r -> st1 i = st2 i) -> body_run l r p st1 -> body_run l r p st2.
  Proof. intros E R K. eapply seg_post; [|apply R]. intros i Hi. cbn. rewrite E; auto. Qed.
  Lemma body_pre l r p p' st1 : (forall i, l <= i < r -> forall k, p i k = p' i k) -> body_run l r p' st1 -> body_run l r p st1.
  Proof. intros E R K. eapply seg_pre; [|apply R]. intros i Hi. cbn. rewrite E; auto. Qed.

  Variable body : nat -> nat -> nat -> St -> (St -> P) -> P.

  (** the loop from the whole interval down *)
  Definition td_run (l r : nat) (st stF : nat -> St) : Prop :=
    forall fuel, r - l <= fuel -> body_run l r (fun i => rh_loop body fuel i l r (st i)) stF.

  Lemma td_leaf l r st stF : r <= l + 1 -> (forall i, l <= i < r -> stF i = st i) -> td_run l r st stF.
  Proof.
    intros H E fuel _ K. apply seg_ext. intros i Hi. rewrite E by auto.
    destruct fuel; cbn [rh_loop]; destruct (rh_more_spec l r); auto; lia.
  Qed.

  Lemma td_node l r st st1 stF : l + 1 < r -> body_run l r (fun i => body i l r (st i)) st1 ->
    td_run l (rh_mid l r) st1 stF -> td_run (rh_mid l r) r st1 stF -> td_run l r st stF.
  Proof.
    intros H R1 R2 R3 fuel Hf K. destruct (rh_mid_spec l r H) as (Hm & E & _).
    destruct fuel as [|fuel]; [lia|]. cbn [rh_loop]. destruct (rh_more_spec l r); [|lia].
    eapply seg_trans; [apply R1|]. cbn beta.
    eapply seg_split with (m := rh_mid l r); [lia| |].
    - eapply seg_pre; [|apply (R2 fuel); lia]. intros i Hi. cbn beta. unfold rh_exchanged, rh_lower.
      destruct (Nat.ltb_spec i (rh_mid l r)); [auto|lia].
    - eapply seg_pre; [|apply (R3 fuel); lia]. intros i Hi. cbn beta. unfold rh_exchanged, rh_lower.
      destruct (Nat.ltb_spec i (rh_mid l r)); [lia|auto].
  Qed.

  (** the intervals of a level *)
  Lemma exchanged_lower i l r : i < rh_mid l r -> rh_exchanged i l r = (l, rh_mid l r).
  Proof. intros H. unfold rh_exchanged, rh_lower. destruct (Nat.ltb_spec i (rh_mid l r)); auto; lia. Qed.
  Lemma exchanged_upper i l r : rh_mid l r <= i -> rh_exchanged i l r = (rh_mid l r, r).
  Proof. intros H. unfold rh_exchanged, rh_lower. destruct (Nat.ltb_spec i (rh_mid l r)); auto; lia. Qed.

  Lemma descend_leaf d : forall i l r, l <= i < r -> r - l <= 2 ^ d -> rh_descend d i l r = (i, i + 1).
  Proof.
    induction d as [|d IH]; intros i l r Hi H; cbn [rh_descend].
    - cbn in H. f_equal; lia.
    - destruct (rh_more_spec l r) as [Hm|Hm].
      + destruct (rh_mid_spec l r Hm) as (X & E & Y). cbn [Nat.pow] in H.
        destruct (Nat.lt_ge_cases i (rh_mid l r)) as [L|L].
        * rewrite exchanged_lower by auto. cbn [fst snd]. apply IH; lia.
        * rewrite exchanged_upper by auto. cbn [fst snd]. apply IH; lia.
      + f_equal; lia.
  Qed.

  Lemma depth_leaf i size : i < size -> rh_descend (rh_depth size) i 0 size = (i, i + 1).
  Proof.
    intros H. apply descend_leaf; [lia|]. unfold rh_depth. rewrite Nat.sub_0_r.
    destruct (Nat.lt_ge_cases 1 size) as [L|L].
    - apply Nat.log2_up_spec; auto.
    - assert (size = 1) as -> by lia. cbn. lia.
  Qed.

  (** [Inv l r i s]: local variables of rank [i] after its interval was [l, r) *)
  Variable Inv : nat -> nat -> nat -> St -> Prop.
  Definition round_ok : Prop := forall l r st, l + 1 < r -> r <= n ->
    (forall i, l <= i < rh_mid l r -> Inv l (rh_mid l r) i (st i)) -> (forall i, rh_mid l r <= i < r -> Inv (rh_mid l r) r i (st i)) ->
    exists st1, body_run l r (fun i => body i l r (st i)) st1 /\ forall i, l <= i < r -> Inv l r i (st1 i).

  Lemma level_run : round_ok -> forall d l r st, l <= r -> r <= n ->
    (forall i, l <= i < r -> Inv (fst (rh_descend (S d) i l r)) (snd (rh_descend (S d) i l r)) i (st i)) ->
    exists st1, body_run l r (fun i => rh_act body i (rh_descend d i l r) (st i)) st1 /\
      forall i, l <= i < r -> Inv (fst (rh_descend d i l r)) (snd (rh_descend d i l r)) i (st1 i).
  Proof.
    intros RO. induction d as [|d IH]; intros l r st Hlr Hn H.
    - cbn [rh_descend fst snd] in *. destruct (rh_more_spec l r) as [Hm|Hm].
      + destruct (rh_mid_spec l r Hm) as (X & _ & _).
        destruct (RO l r st Hm Hn) as (st1 & R & I1).
        * intros i Hi. specialize (H i ltac:(lia)). rewrite exchanged_lower in H by lia. exact H.
        * intros i Hi. specialize (H i ltac:(lia)). rewrite exchanged_upper in H by lia. exact H.
        * exists st1. split; auto. eapply body_pre; [|exact R]. intros i Hi k. unfold rh_act. cbn [fst snd].
          destruct (rh_more_spec l r); [auto|lia].
      + exists st. split; auto. intros K. apply seg_ext. intros i Hi. unfold rh_act. cbn [fst snd].
        destruct (rh_more_spec l r); [lia|auto].
    - destruct (rh_more_spec l r) as [Hm|Hm].
      + destruct (rh_mid_spec l r Hm) as (X & _ & _).
        assert (EL : forall i d, l <= i < rh_mid l r -> rh_descend (S d) i l r = rh_descend d i l (rh_mid l r)).
        { intros i d' Hi. cbn [rh_descend]. destruct (rh_more_spec l r); [|lia]. rewrite exchanged_lower by lia. auto. }
        assert (EU : forall i d, rh_mid l r <= i < r -> rh_descend (S d) i l r = rh_descend d i (rh_mid l r) r).
        { intros i d' Hi. cbn [rh_descend]. destruct (rh_more_spec l r); [|lia]. rewrite exchanged_upper by lia. auto. }
        destruct (IH l (rh_mid l r) st) as (stl & Rl & Il); try lia.
        { intros i Hi. rewrite <- EL by auto. apply H. lia. }
        destruct (IH (rh_mid l r) r st) as (stu & Ru & Iu); try lia.
        { intros i Hi. rewrite <- EU by auto. apply H. lia. }
        exists (fun i => if i <? rh_mid l r then stl i else stu i). split.
        * apply body_split with (m := rh_mid l r); [lia| |].
          -- eapply body_pre; [|eapply body_ext; [|exact Rl]].
             ++ intros i Hi k. rewrite EL by auto. auto.
             ++ intros i Hi. cbn beta. destruct (Nat.ltb_spec i (rh_mid l r)); auto; lia.
          -- eapply body_pre; [|eapply body_ext; [|exact Ru]].
             ++ intros i Hi k. rewrite EU by auto. auto.
             ++ intros i Hi. cbn beta. destruct (Nat.ltb_spec i (rh_mid l r)); auto; lia.
        * intros i Hi. cbn beta. destruct (Nat.ltb_spec i (rh_mid l r)).
          -- rewrite EL by lia. apply Il. lia.
          -- rewrite EU by lia. apply Iu. lia.
      + assert (E0 : forall i d, rh_descend d i l r = (l, r)).
        { intros i [|d']; cbn [rh_descend]; auto. destruct (rh_more_spec l r); [lia|auto]. }
        exists st. split.
        * intros K. apply seg_ext. intros i Hi. unfold rh_act. rewrite E0. cbn [fst snd]. destruct (rh_more_spec l r); [lia|auto].
        * intros i Hi. specialize (H i Hi). rewrite E0 in *. exact H.
  Qed.

  Lemma levels_run : round_ok -> forall L l r st, l <= r -> r <= n ->
    (forall i, l <= i < r -> Inv (fst (rh_descend L i l r)) (snd (rh_descend L i l r)) i (st i)) ->
    exists st1, body_run l r (fun i => rh_levels body L i l r (st i)) st1 /\ forall i, l <= i < r -> Inv l r i (st1 i).
  Proof.
    intros RO. induction L as [|L IH]; intros l r st Hlr Hn H.
    - cbn [rh_descend fst snd] in H. exists st. split; auto. intros K. apply seg_ext. auto.
    - destruct (level_run RO L l r st Hlr Hn H) as (st1 & R1 & I1).
      destruct (IH l r st1 Hlr Hn I1) as (st2 & R2 & I2).
      exists st2. split; auto. intros K. cbn [rh_levels].
      eapply seg_trans; [apply (R1 (fun i st => rh_levels body L i l r st (K i)))|]. apply R2.
  Qed.

  (** the same for the loop from the whole interval down; [emb] gives the local variables of a rank *)
  Variable G : Type.
  Variable emb : nat -> G -> St.
  Variable Pre : nat -> nat -> (nat -> G) -> Prop.
  Variable Post : nat -> nat -> (nat -> G) -> (nat -> G) -> Prop.
  Lemma td_ok :
    (forall l r g, r <= l + 1 -> Pre l r g -> Post l r g g) ->
    (forall l r g, l + 1 < r -> r <= n -> Pre l r g -> exists g1, body_run l r (fun i => body i l r (emb i (g i))) (fun i => emb i (g1 i)) /\
       Pre l (rh_mid l r) g1 /\ Pre (rh_mid l r) r g1 /\
       forall gl gu, Post l (rh_mid l r) g1 gl -> Post (rh_mid l r) r g1 gu -> Post l r g (fun i => if i <? rh_mid l r then gl i else gu i)) ->
    forall l r g, r <= n -> Pre l r g -> exists gF, td_run l r (fun i => emb i (g i)) (fun i => emb i (gF i)) /\ Post l r g gF.
  Proof.
    intros H0 H1 l r. remember (r - l) as s eqn:Es. revert l r Es.
    induction s as [s IH] using lt_wf_ind. intros l r Es g Hn HP.
    destruct (Nat.lt_ge_cases (l + 1) r) as [Hm|Hm].
    - destruct (rh_mid_spec l r Hm) as (X & _ & _).
      destruct (H1 l r g Hm Hn HP) as (g1 & R1 & P1 & P2 & HQ).
      destruct (IH (rh_mid l r - l) ltac:(lia) l (rh_mid l r) eq_refl g1 ltac:(lia) P1) as (gl & Rl & Ql).
      destruct (IH (r - rh_mid l r) ltac:(lia) (rh_mid l r) r eq_refl g1 ltac:(lia) P2) as (gu & Ru & Qu).
      exists (fun i => if i <? rh_mid l r then gl i else gu i). split; [|apply HQ; auto].
      apply td_node with (st1 := fun i => emb i (g1 i)); auto.
      + intros fuel Hf. eapply body_ext; [|apply Rl; auto]. intros i Hi. cbn beta. destruct (Nat.ltb_spec i (rh_mid l r)); auto; lia.
      + intros fuel Hf. eapply body_ext; [|apply Ru; auto]. intros i Hi. cbn beta. destruct (Nat.ltb_spec i (rh_mid l r)); auto; lia.
    - exists g. split; [|apply H0; auto]. apply td_leaf; auto.
  Qed.
End Rounds.

(** ** Two kinds of rounds *)
Section Exchange.
  Context {M A St : Type}.
  Variable n : nat.
  Local Notation P := (prog M A).

  (** rank [mid - 1] of an odd interval only sends, to [mid] *)
  Lemma round_up l r (p : nat -> (St -> P) -> P) (a b : nat -> M) (st1 : nat -> St) :
    l + 1 < r -> r <= n ->
    (forall i k, l <= i < rh_mid l r -> rh_odd i l r = false -> exists k',
       p i k = Snd (i + (rh_mid l r - l)) (a i) (Rcv (i + (rh_mid l r - l)) k') /\ k' (b (i + (rh_mid l r - l))) = k (st1 i)) ->
    (forall i k, l <= i < rh_mid l r -> rh_odd i l r = true -> p i k = Snd (rh_mid l r) (a i) (k (st1 i))) ->
    (forall i k, rh_mid l r <= i < r -> exists k' q, p i k = Rcv (i - (rh_mid l r - l)) k' /\
       k' (a (i - (rh_mid l r - l))) = Snd (i - (rh_mid l r - l)) (b i) q /\
       if rh_treatodd i l r then exists k2, q = Rcv (rh_mid l r - 1) k2 /\ k2 (a (rh_mid l r - 1)) = k (st1 i) else q = k (st1 i)) ->
    body_run n l r p st1.
  Proof.
    intros H Hn HL HO HU K. destruct (rh_mid_spec l r H) as (X & E & Y).
    set (mid := rh_mid l r) in *. set (h := mid - l) in *. set (c := r - mid) in *.
    assert (Odd : forall i, rh_odd i l r = true <-> (r - l) mod 2 = 1 /\ i + 1 = mid).
    { intros i. unfold rh_odd. fold mid. rewrite andb_true_iff, negb_true_iff, Nat.eqb_neq, Nat.eqb_eq. lia. }
    assert (Trt : forall i, rh_treatodd i l r = true <-> (r - l) mod 2 = 1 /\ i = mid).
    { intros i. unfold rh_treatodd. fold mid. rewrite andb_true_iff, negb_true_iff, Nat.eqb_neq, Nat.eqb_eq. lia. }
    set (k2 := fun x => match p (l + h + x) (K (l + h + x)) with Rcv _ k' => k' | _ => fun _ => Crash end).
    set (Q := fun x => match k2 x (a (l + x)) with Snd _ _ q => q | _ => Crash end).
    eapply seg_trans.
    { apply (seg_pairs n l r h (fun x => a (l + x)) (fun x => b (l + h + x)) k2 (fun x => K (l + x) (st1 (l + x))) Q) with (c := c); try lia.
      intros x Hx.
      assert (NO : rh_odd (l + x) l r = false) by (destruct (rh_odd (l + x) l r) eqn:EO; auto; apply Odd in EO; lia).
      destruct (HL (l + x) (K (l + x)) ltac:(lia) NO) as (k' & E1 & E2).
      destruct (HU (l + h + x) (K (l + h + x)) ltac:(lia)) as (k'' & q & E3 & E4 & _).
      replace (l + x + h) with (l + h + x) in * by lia. replace (l + h + x - h) with (l + x) in * by lia.
      exists k'. subst k2 Q. cbn beta. rewrite E3. rewrite E4. auto. }
    destruct (Nat.eq_dec ((r - l) mod 2) 1) as [Od|Od].
    - assert (EO : rh_odd (mid - 1) l r = true) by (apply Odd; lia).
      assert (ET : rh_treatodd mid l r = true) by (apply Trt; auto).
      pose proof (HO (mid - 1) (K (mid - 1)) ltac:(lia) EO) as E1.
      destruct (HU mid (K mid) ltac:(lia)) as (k'' & q & E3 & E4 & E5). rewrite ET in E5. destruct E5 as (k3 & E5 & E6).
      assert (EQ : Q 0 = Rcv (mid - 1) k3).
      { subst Q k2. cbn beta. replace (l + h + 0) with mid by lia. rewrite E3. replace (mid - h) with (l + 0) in E4 by lia. rewrite E4. auto. }
      apply (seg_step n l r (mid - 1) mid (a (mid - 1)) (K (mid - 1) (st1 (mid - 1))) k3); try lia.
      + destruct (inr_spec l (l + c) (mid - 1)), (inr_spec (l + h) (l + h + c) (mid - 1)); try lia. auto.
      + destruct (inr_spec l (l + c) mid), (inr_spec (l + h) (l + h + c) mid); try lia. replace (mid - l - h) with 0 by lia. auto.
      + intros x Hx. destruct (Nat.eqb_spec x mid) as [->|N1]; auto. destruct (Nat.eqb_spec x (mid - 1)) as [->|N2]; auto.
        destruct (inr_spec l (l + c) x). { replace (l + (x - l)) with x by lia. auto. }
        destruct (inr_spec (l + h) (l + h + c) x); [|lia].
        destruct (HU x (K x) ltac:(lia)) as (kk & qq & F3 & F4 & F5).
        destruct (rh_treatodd x l r) eqn:ETx; [apply Trt in ETx; lia|].
        subst Q k2. cbn beta. replace (l + h + (x - l - h)) with x by lia. rewrite F3.
        replace (x - h) with (l + (x - l - h)) in F4 by lia. rewrite F4. auto.
    - apply seg_ext. intros x Hx.
      destruct (inr_spec l (l + c) x). { replace (l + (x - l)) with x by lia. auto. }
      destruct (inr_spec (l + h) (l + h + c) x); [|lia].
      destruct (HU x (K x) ltac:(lia)) as (kk & qq & F3 & F4 & F5).
      destruct (rh_treatodd x l r) eqn:ETx; [apply Trt in ETx; lia|].
      subst Q k2. cbn beta. replace (l + h + (x - l - h)) with x by lia. rewrite F3.
      replace (x - h) with (l + (x - l - h)) in F4 by lia. rewrite F4. auto.
  Qed.

  (** rank [mid - 1] of an odd interval only receives, from [mid] *)
  Lemma round_down l r (p : nat -> (St -> P) -> P) (a b : nat -> M) (st1 : nat -> St) :
    l + 1 < r -> r <= n ->
    (forall i k, l <= i < rh_mid l r -> rh_odd i l r = false -> exists k',
       p i k = Snd (i + (rh_mid l r - l)) (a i) (Rcv (i + (rh_mid l r - l)) k') /\ k' (b (i + (rh_mid l r - l))) = k (st1 i)) ->
    (forall i k, l <= i < rh_mid l r -> rh_odd i l r = true -> exists k', p i k = Rcv (rh_mid l r) k' /\ k' (b (rh_mid l r)) = k (st1 i)) ->
    (forall i k, rh_mid l r <= i < r -> exists k' q, p i k = Rcv (i - (rh_mid l r - l)) k' /\
       k' (a (i - (rh_mid l r - l))) = Snd (i - (rh_mid l r - l)) (b i) q /\
       if rh_treatodd i l r then q = Snd (rh_mid l r - 1) (b i) (k (st1 i)) else q = k (st1 i)) ->
    body_run n l r p st1.
  Proof.
    intros H Hn HL HO HU K. destruct (rh_mid_spec l r H) as (X & E & Y).
    set (mid := rh_mid l r) in *. set (h := mid - l) in *. set (c := r - mid) in *.
    assert (Odd : forall i, rh_odd i l r = true <-> (r - l) mod 2 = 1 /\ i + 1 = mid).
    { intros i. unfold rh_odd. fold mid. rewrite andb_true_iff, negb_true_iff, Nat.eqb_neq, Nat.eqb_eq. lia. }
    assert (Trt : forall i, rh_treatodd i l r = true <-> (r - l) mod 2 = 1 /\ i = mid).
    { intros i. unfold rh_treatodd. fold mid. rewrite andb_true_iff, negb_true_iff, Nat.eqb_neq, Nat.eqb_eq. lia. }
    set (k2 := fun x => match p (l + h + x) (K (l + h + x)) with Rcv _ k' => k' | _ => fun _ => Crash end).
    set (Q := fun x => match k2 x (a (l + x)) with Snd _ _ q => q | _ => Crash end).
    eapply seg_trans.
    { apply (seg_pairs n l r h (fun x => a (l + x)) (fun x => b (l + h + x)) k2 (fun x => K (l + x) (st1 (l + x))) Q) with (c := c); try lia.
      intros x Hx.
      assert (NO : rh_odd (l + x) l r = false) by (destruct (rh_odd (l + x) l r) eqn:EO; auto; apply Odd in EO; lia).
      destruct (HL (l + x) (K (l + x)) ltac:(lia) NO) as (k' & E1 & E2).
      destruct (HU (l + h + x) (K (l + h + x)) ltac:(lia)) as (k'' & q & E3 & E4 & _).
      replace (l + x + h) with (l + h + x) in * by lia. replace (l + h + x - h) with (l + x) in * by lia.
      exists k'. subst k2 Q. cbn beta. rewrite E3. rewrite E4. auto. }
    destruct (Nat.eq_dec ((r - l) mod 2) 1) as [Od|Od].
    - assert (EO : rh_odd (mid - 1) l r = true) by (apply Odd; lia).
      assert (ET : rh_treatodd mid l r = true) by (apply Trt; auto).
      destruct (HO (mid - 1) (K (mid - 1)) ltac:(lia) EO) as (k3 & E1 & E2).
      destruct (HU mid (K mid) ltac:(lia)) as (k'' & q & E3 & E4 & E5). rewrite ET in E5.
      assert (EQ : Q 0 = Snd (mid - 1) (b mid) (K mid (st1 mid))).
      { subst Q k2. cbn beta. replace (l + h + 0) with mid by lia. rewrite E3. replace (mid - h) with (l + 0) in E4 by lia. rewrite E4. auto. }
      apply (seg_step n l r mid (mid - 1) (b mid) (K mid (st1 mid)) k3); try lia.
      + destruct (inr_spec l (l + c) mid), (inr_spec (l + h) (l + h + c) mid); try lia. replace (mid - l - h) with 0 by lia. auto.
      + destruct (inr_spec l (l + c) (mid - 1)), (inr_spec (l + h) (l + h + c) (mid - 1)); try lia. auto.
      + intros x Hx. destruct (Nat.eqb_spec x (mid - 1)) as [->|N2]; auto. destruct (Nat.eqb_spec x mid) as [->|N1]; auto.
        destruct (inr_spec l (l + c) x). { replace (l + (x - l)) with x by lia. auto. }
        destruct (inr_spec (l + h) (l + h + c) x); [|lia].
        destruct (HU x (K x) ltac:(lia)) as (kk & qq & F3 & F4 & F5).
        destruct (rh_treatodd x l r) eqn:ETx; [apply Trt in ETx; lia|].
        subst Q k2. cbn beta. replace (l + h + (x - l - h)) with x by lia. rewrite F3.
        replace (x - h) with (l + (x - l - h)) in F4 by lia. rewrite F4. auto.
    - apply seg_ext. intros x Hx.
      destruct (inr_spec l (l + c) x). { replace (l + (x - l)) with x by lia. auto. }
      destruct (inr_spec (l + h) (l + h + c) x); [|lia].
      destruct (HU x (K x) ltac:(lia)) as (kk & qq & F3 & F4 & F5).
      destruct (rh_treatodd x l r) eqn:ETx; [apply Trt in ETx; lia|].
      subst Q k2. cbn beta. replace (l + h + (x - l - h)) with x by lia. rewrite F3.
      replace (x - h) with (l + (x - l - h)) in F4 by lia. rewrite F4. auto.
  Qed.

  (** rank [l] sends to rank [mid], nothing else *)
  Lemma round_one l r i j (p : nat -> (St -> P) -> P) (m : M) (st1 : nat -> St) :
    r <= n -> l <= i < r -> l <= j < r -> i <> j ->
    (forall k, p i k = Snd j m (k (st1 i))) -> (forall k, exists k', p j k = Rcv i k' /\ k' m = k (st1 j)) ->
    (forall x k, l <= x < r -> x <> i -> x <> j -> p x k = k (st1 x)) -> body_run n l r p st1.
  Proof.
    intros Hn Hi Hj N Ei Ej Ex K. destruct (Ej (K j)) as (k' & E1 & E2).
    apply (seg_step n l r i j m (K i (st1 i)) k'); auto.
    intros x Hx. destruct (Nat.eqb_spec x j) as [->|Nj]; auto. destruct (Nat.eqb_spec x i) as [->|Ni]; auto. rewrite Ex; auto.
  Qed.
End Exchange.

(** ** From runs to completion *)
Lemma body_completes {A M St} n (p : nat -> (St -> prog M A) -> prog M A) st1 (k : nat -> St -> A) l r (out : nat -> A) :
  r <= n -> body_run n l r p st1 ->
  completes n (map (fun i => if inr l r i then p i (fun st => Ret (k i st)) else Ret (out i)) (seq 0 n))
              (map (fun i => if inr l r i then k i (st1 i) else out i) (seq 0 n)).
Proof.
  intros Hn R. apply (frun_completes n). eapply frun_post; [|apply (R (fun i st => Ret (k i st)))].
  - intros i Hi. cbn beta. destruct (inr l r i); auto.
  - intros i Hi. cbn beta. destruct (inr_spec l r i); auto. lia.
Qed.

Lemma body_completes_all {A M St} n (p : nat -> (St -> prog M A) -> prog M A) st1 (k : nat -> St -> A) :
  body_run n 0 n p st1 ->
  completes n (map (fun i => p i (fun st => Ret (k i st))) (seq 0 n)) (map (fun i => k i (st1 i)) (seq 0 n)).
Proof.
  intros R. apply (frun_completes n). eapply frun_post; [|apply (R (fun i st => Ret (k i st)))].
  - intros i Hi. cbn beta. destruct (inr_spec 0 n i); auto. lia.
  - auto.
Qed.
