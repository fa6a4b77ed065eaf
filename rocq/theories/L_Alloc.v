(** * Lemmas about the arenas *)
From Coq Require Import ZArith List Bool Arith Lia.
From Verif Require Import Base M_Alloc S_Alloc.
Import ListNotations.
Local Open Scope Z_scope.

Lemma w64_small z : 0 <= z < 2 ^ 64 -> w64 z = z.
Proof. intros. unfold w64, wrap. now apply Z.mod_small. Qed.

Lemma pairwise_cons x l : pairwise_disjoint (x :: l) <-> Forall (disjoint x) l /\ pairwise_disjoint l.
Proof. split; [intros H; inversion H; auto | intros []; constructor; auto]. Qed.

Lemma disjoint_sym x y : disjoint x y -> disjoint y x.
Proof. unfold disjoint; lia. Qed.

(** ** arena_allocator_resource *)
Section Arena.
  Variables mem capacity align : Z.
  Hypothesis Hs : arena_sane mem capacity align.
  Hypothesis Hm : mem mod align = 0.

  Definition block_ok (off : Z) (x : Z * Z) : Prop :=
    0 < snd x /\ inside mem capacity x /\ fst x mod align = 0 /\ fst x + snd x <= mem + off.

  Definition arena_inv (a : arena) (S : list (Z * Z)) : Prop :=
    a_mem a = mem /\ a_capacity a = capacity /\ a_align a = align /\
    0 <= a_offset a <= capacity + align + 1 /\ a_offset a mod align = 0 /\
    Forall (block_ok (a_offset a)) S /\ pairwise_disjoint S /\ Z.of_nat (length S) <= a_offset a.

  Lemma next_offset off : 0 <= off <= capacity ->
    let r := w64 ((w64 (off + 1) / align + 1) * align) in
    off < r <= capacity + align + 1 /\ r mod align = 0.
  Proof using Hs.
    destruct Hs as (? & ? & ? & ? & ?). intros. subst r.
    rewrite (w64_small (off + 1)) by lia.
    pose proof (Z.div_mod (off + 1) align). pose proof (Z.mod_pos_bound (off + 1) align).
    rewrite w64_small by nia. split; [nia|]. apply Z.mod_mul. lia.
  Qed.

  Lemma arena_allocate_inv a S n a' p :
    arena_inv a S -> 0 <= n < 2 ^ 63 -> arena_allocate a n = Ok (a', p) ->
    if n =? 0 then a' = a /\ p = 0
    else p = mem + a_offset a /\ a_offset a + n <= capacity /\ a_num a' = w64 (a_num a + 1) /\
         a_offset a < a_offset a' /\ arena_inv a' ((p, n) :: S).
  Proof using Hs Hm.
    intros (Em & Ec & Ea & Ho & Hd & Hf & Hp & Hl) Hn. unfold arena_allocate.
    destruct Hs as (? & ? & ? & ? & ?).
    destruct (Z.eqb_spec n 0). { intros E; inversion E; auto. }
    rewrite (w64_small (a_offset a + n)) by lia.
    destruct (Z.gtb_spec (a_offset a + n) (a_capacity a)) as [|Hle]; [discriminate|].
    intros E; inversion E; clear E; subst a' p. simpl.
    rewrite Em, w64_small by lia. rewrite Ec in Hle. rewrite Ea.
    destruct (next_offset (a_offset a + n)) as [Hr Hr']; [lia|].
    set (r := w64 _) in *. clearbody r.
    unfold arena_inv; simpl. repeat split; auto; try lia.
    - constructor.
      + repeat split; simpl; try lia. rewrite Z.add_mod, Hm, Hd by lia. reflexivity.
      + eapply Forall_impl; [|exact Hf]. intros x (? & ? & ? & ?). split; [auto|split; [auto|split; [auto|lia]]].
    - apply pairwise_cons. split; auto. eapply Forall_impl; [|exact Hf].
      intros x (? & ? & ? & ?). right. simpl. lia.
  Qed.

  Lemma give_back_incl q l : incl (give_back q l) l.
  Proof using.
    clear. induction l as [|x l IH]; simpl; intros y Hy; auto. destruct (fst x =? q); [now right|].
    destruct Hy; [now left|right; auto].
  Qed.
  Lemma give_back_pairwise q l : pairwise_disjoint l -> pairwise_disjoint (give_back q l).
  Proof using.
    induction l as [|x l IH]; simpl; auto. intros H. apply pairwise_cons in H as [H1 H2].
    destruct (fst x =? q); auto. apply pairwise_cons. split; [|auto].
    rewrite Forall_forall in *. intros y Hy. apply H1. now apply (give_back_incl q).
  Qed.
  Lemma give_back_length q l : In q (map fst l) -> S (length (give_back q l)) = length l.
  Proof using.
    induction l as [|x l IH]; simpl; [tauto|]. intros [E|H].
    - destruct (Z.eqb_spec (fst x) q); tauto.
    - destruct (Z.eqb_spec (fst x) q); simpl; auto.
  Qed.
  Lemma give_back_null l : Forall (fun x => 0 < fst x) l -> give_back 0 l = l.
  Proof using.
    induction 1; simpl; auto. destruct (Z.eqb_spec (fst x) 0); [lia|]. now rewrite IHForall.
  Qed.

  Lemma arena_num_inv a S k : arena_inv a S ->
    arena_inv {| a_mem := a_mem a; a_capacity := a_capacity a; a_align := a_align a;
                 a_offset := a_offset a; a_num := k |} S.
  Proof using. exact (fun H => H). Qed.
  Lemma arena_zero_inv a S k : arena_inv a S ->
    arena_inv {| a_mem := a_mem a; a_capacity := a_capacity a; a_align := a_align a;
                 a_offset := 0; a_num := k |} [].
  Proof using Hs.
    intros (Em & Ec & Ea & _). destruct Hs as (? & ? & ? & ? & ?). unfold arena_inv; simpl.
    rewrite Em, Ec, Ea, Zmod_0_l. repeat split; auto; try lia; constructor.
  Qed.
  Lemma arena_dealloc_inv a S p : arena_inv a S -> arena_inv (arena_deallocate a p) S.
  Proof using. unfold arena_deallocate. destruct (p =? 0); auto. Qed.

  Lemma arena_run_inv cs : forall a S, arena_inv a S -> Forall request_sane cs ->
    forall a' h, arena_run a cs = Ok (a', h) -> arena_inv a' (since_reset S h).
  Proof using Hs Hm.
    induction cs as [|c cs IH]; simpl; intros a S HI Hc a' h E.
    { inversion E; subst; auto. }
    inversion Hc; subst. destruct (arena_exec a c) as [[a1 p]| |] eqn:Ee; try discriminate. simpl in E.
    destruct (arena_run a1 cs) as [[a2 h2]| |] eqn:Er; try discriminate. simpl in E. inversion E; subst.
    destruct c; simpl in *.
    - pose proof (arena_allocate_inv _ _ _ _ _ HI H1 Ee) as Ha.
      destruct (n =? 0). { destruct Ha; subst. eapply IH; eauto. }
      destruct Ha as (_ & _ & _ & _ & Ha). eapply IH; eauto.
    - inversion Ee; subst. apply (IH (arena_deallocate a ptr)); auto. now apply arena_dealloc_inv.
    - unfold arena_reset in Ee. destruct (a_num a =? 0); inversion Ee; subst.
      refine (IH _ _ _ H2 _ _ Er). now apply arena_zero_inv with (S := S).
  Qed.

  (** honest clients: the counter counts the outstanding blocks *)
  Definition honest_inv (a : arena) (S O : list (Z * Z)) : Prop :=
    arena_inv a S /\ incl O S /\ pairwise_disjoint O /\ (length O <= length S)%nat /\
    a_num a = Z.of_nat (length O).

  Lemma arena_run_honest cs : forall a S O, honest_inv a S O -> Forall request_sane cs ->
    forall a' h, arena_run a cs = Ok (a', h) -> honest O h ->
    honest_inv a' (since_reset S h) (outstanding O h).
  Proof using Hs Hm.
    induction cs as [|c cs IH]; simpl; intros a S O HI Hc a' h E Hh.
    { inversion E; subst; auto. }
    inversion Hc; subst. destruct (arena_exec a c) as [[a1 p]| |] eqn:Ee; try discriminate. simpl in E.
    destruct (arena_run a1 cs) as [[a2 h2]| |] eqn:Er; try discriminate. simpl in E. inversion E; subst.
    destruct HI as (HI & Hin & HpO & HlO & Hnum).
    pose proof HI as (_ & _ & _ & Hoff & _ & HfS & _ & HlS).
    destruct Hs as (? & ? & ? & ? & ?).
    destruct c; simpl in *.
    - pose proof (arena_allocate_inv _ _ _ _ _ HI H1 Ee) as Ha.
      destruct (n =? 0). { destruct Ha; subst. eapply IH; eauto. split; auto. }
      destruct Ha as (Ep & Hle & Hn' & Hoff' & Ha). eapply IH; eauto.
      pose proof Ha as (_ & _ & _ & ? & _ & _ & Hpw & Hl'). simpl in Hl'.
      split; [exact Ha|]. split; [|split; [|split]].
      + intros x [->|Hx]; [now left|right; auto].
      + apply pairwise_cons. apply pairwise_cons in Hpw as [Hpw _]. split; auto.
        rewrite Forall_forall in *. intros x Hx. apply Hpw. auto.
      + simpl; lia.
      + rewrite Hn', Hnum. simpl length. rewrite w64_small; lia.
    - destruct Hh as [Hq Hh]. inversion Ee; subst. apply (IH (arena_deallocate a ptr)); auto. clear IH Er.
      assert (Hpos : Forall (fun x => 0 < fst x) O).
      { rewrite Forall_forall in *. intros x Hx. destruct (HfS x (Hin x Hx)) as (? & [? ?] & _). lia. }
      unfold arena_deallocate. destruct (Z.eqb_spec ptr 0).
      { subst ptr. rewrite give_back_null by auto. split; auto. }
      destruct Hq as [|Hq]; [lia|]. pose proof (give_back_length _ _ Hq).
      split; [now apply arena_num_inv|]. split; [|split; [|split]]; simpl.
      + intros x Hx. apply Hin. now apply (give_back_incl ptr).
      + now apply give_back_pairwise.
      + lia.
      + rewrite Hnum. rewrite w64_small; lia.
    - unfold arena_reset in Ee. destruct (Z.eqb_spec (a_num a) 0); inversion Ee; subst.
      refine (IH _ _ _ _ H2 _ _ Er Hh). destruct O; [|simpl in Hnum; lia].
      split; [now apply arena_zero_inv with (S := S)|]. split; [intros x []|].
      split; [constructor|]. split; [simpl; lia|reflexivity].
  Qed.

  Lemma arena_new_inv a : arena_new mem capacity align = Ok a -> arena_inv a [] /\ honest_inv a [] [].
  Proof using Hs.
    unfold arena_new. destruct (mem mod align =? 0); intros E; inversion E. destruct Hs as (? & ? & ? & ? & ?).
    assert (Hn : arena_inv {| a_mem := mem; a_capacity := capacity; a_align := align; a_offset := 0; a_num := 0 |} []).
    { unfold arena_inv; simpl. rewrite Zmod_0_l. repeat split; auto; try lia; constructor. }
    split; [exact Hn|]. split; [exact Hn|]. split; [intros x []|].
    split; [constructor|]. split; [simpl; lia|reflexivity].
  Qed.
End Arena.

Lemma arena_new_aligned mem capacity align a : arena_new mem capacity align = Ok a -> mem mod align = 0.
Proof. unfold arena_new. destruct (Z.eqb_spec (mem mod align) 0); [auto|discriminate]. Qed.

(** ** AllocatorArena_new *)
Lemma round_up64_ok x a : 0 < a -> 0 < x -> x + a <= 2 ^ 64 ->
  exists y, round_up64 x a = y /\ x <= y < x + a /\ y mod a = 0.
Proof.
  intros. exists ((((x - 1) / a) + 1) * a). pose proof (Z.div_mod (x - 1) a). pose proof (Z.mod_pos_bound (x - 1) a).
  unfold round_up64. rewrite (w64_small (x - 1)) by lia. rewrite w64_small by nia.
  split; auto. split; [nia|]. apply Z.mod_mul; lia.
Qed.

Section Arena2.
  Variables mem capacity align : Z.
  Hypothesis Hs : arena_sane mem capacity align.
  Hypothesis Hm : mem mod align = 0.

  Definition arena2_inv (a : arena2) (S : list (Z * Z)) : Prop :=
    n_start a = mem /\ n_capacity a = capacity /\ n_align a = align /\
    0 <= n_used a < capacity + align /\ n_used a mod align = 0 /\
    Forall (block_ok mem capacity align (n_used a)) S /\ pairwise_disjoint S.

  Lemma arena2_alloc_inv a S n a' p :
    arena2_inv a S -> 0 <= n < 2 ^ 63 -> arena2_alloc a n = Ok (a', p) ->
    if n =? 0 then a' = a /\ p = 0
    else p = mem + n_used a /\ n_used a + n <= capacity /\ arena2_inv a' ((p, n) :: S).
  Proof using Hs Hm.
    intros (Em & Ec & Ea & Ho & Hd & Hf & Hp) Hn. unfold arena2_alloc.
    destruct Hs as (? & ? & ? & ? & ?).
    destruct (Z.eqb_spec n 0). { intros E; inversion E; auto. }
    destruct (Z.eqb_spec (n_start a) 0); [lia|].
    rewrite (w64_small (n_used a + n)) by lia.
    destruct (Z.gtb_spec (n_used a + n) (n_capacity a)) as [|Hle]; [discriminate|].
    rewrite Em, w64_small by lia. rewrite Ec in Hle. rewrite Ea.
    destruct (round_up64_ok (n_used a + n) align) as (r & -> & Hr & Hr'); try lia.
    intros E; inversion E; clear E; subst a' p.
    unfold arena2_inv; simpl. repeat split; auto; try lia.
    - constructor.
      + repeat split; simpl; try lia. rewrite Z.add_mod, Hm, Hd by lia. reflexivity.
      + eapply Forall_impl; [|exact Hf]. intros x (? & ? & ? & ?). split; [auto|split; [auto|split; [auto|lia]]].
    - apply pairwise_cons. split; auto. eapply Forall_impl; [|exact Hf].
      intros x (? & ? & ? & ?). right. simpl. lia.
  Qed.

  Lemma arena2_run_inv cs : forall a S, arena2_inv a S -> Forall request2_sane cs ->
    forall a' h, arena2_run a cs = Ok (a', h) -> arena2_inv a' (since_clear S h).
  Proof using Hs Hm.
    induction cs as [|c cs IH]; simpl; intros a S HI Hc a' h E.
    { inversion E; subst; auto. }
    inversion Hc; subst. destruct (arena2_exec a c) as [[a1 p]| |] eqn:Ee; try discriminate. simpl in E.
    destruct (arena2_run a1 cs) as [[a2 h2]| |] eqn:Er; try discriminate. simpl in E. inversion E; subst.
    destruct c; simpl in *.
    - pose proof (arena2_alloc_inv _ _ _ _ _ HI H1 Ee) as Ha.
      destruct (n =? 0). { destruct Ha; subst. exact (IH _ _ HI H2 _ _ Er). }
      destruct Ha as (_ & _ & Ha). exact (IH _ _ Ha H2 _ _ Er).
    - inversion Ee; subst. refine (IH _ _ _ H2 _ _ Er).
      destruct HI as (Em & Ec & Ea & _). destruct Hs as (? & ? & ? & ? & ?).
      unfold arena2_inv; simpl. rewrite Zmod_0_l. repeat split; auto; try lia; constructor.
  Qed.
End Arena2.
