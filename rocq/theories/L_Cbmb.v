(** * Invariant of the circular buffer allocator *)
From Coq Require Import ZArith List Bool Arith Lia Permutation.
From Verif Require Import Base M_Alloc S_Alloc L_Alloc.
Import ListNotations.
Local Open Scope Z_scope.

(** a block of the circular buffer (ghost): positions, alignment, and whether a client holds it *)
Record gb := { g_start : Z; g_al : Z; g_end : Z; g_align : Z; g_held : bool }.

Definition good (base pool : Z) (b : gb) : Prop :=
  0 <= g_start b /\ g_start b <= g_al b < g_end b /\ g_end b <= g_start b + pool /\
  g_al b / pool = (g_end b - 1) / pool /\
  0 < g_align b /\ g_al b mod g_align b = 0 /\ pool mod g_align b = 0 /\ base mod g_align b = 0.

Fixpoint chain (lo : Z) (B : list gb) (hi : Z) : Prop :=
  match B with
  | [] => lo <= hi
  | b :: t => lo <= g_start b /\ chain (g_end b) t hi
  end.

Definition strip (q : wreq) := (q_aligned q, q_end q, q_size q, q_align q).
Definition wof (b : gb) := (g_al b, g_end b, g_end b - g_al b, g_align b).
Definition gof (pool : Z) (b : gb) := {| b_off := g_al b mod pool; b_size := g_end b - g_al b; b_align := g_align b |}.
Definition free_ (b : gb) := negb (g_held b).

Definition cinv (base pool : Z) (k : nat) (s : cbmb) (B : list gb) : Prop :=
  full_blocks s = map (fun b => (g_start b, g_al b)) B /\
  0 <= start_full s /\ chain (start_full s) B (start_empty s) /\
  Forall (good base pool) B /\
  Forall (fun b => g_held b = true -> g_end b <= start_full s + pool) B /\
  map strip (waiting s) = map wof (filter free_ B) /\
  Permutation (granted s) (map (gof pool) (filter g_held B)) /\
  start_empty s <= 2 * pool * Z.of_nat k + pool /\
  2 * pool * (Z.of_nat k + 2) <= 2 ^ 64 /\
  (B = [] -> start_full s = 0 /\ start_empty s <= pool) /\
  (power_of_two pool -> match B with [] => start_empty s = 0 | b :: _ => start_full s = g_start b end).

Lemma chain_le lo B hi base pool : Forall (good base pool) B -> chain lo B hi -> lo <= hi.
Proof.
  revert lo. induction B as [|b B IH]; simpl; auto. intros lo H [H1 H2]. inversion H; subst.
  specialize (IH _ H5 H2). destruct H4 as (? & ? & _). lia.
Qed.

Lemma chain_snoc lo B m b hi base pool : Forall (good base pool) B -> chain lo B m -> m <= g_start b -> g_end b <= hi ->
  chain lo (B ++ [b]) hi.
Proof.
  revert lo. induction B as [|x B IH]; simpl; intros lo H H1 H2 H3.
  - lia.
  - inversion H; subst. destruct H1. split; auto.
Qed.

Lemma chain_weaken lo lo' B hi hi' : chain lo B hi -> lo' <= lo -> hi <= hi' -> chain lo' B hi'.
Proof.
  revert lo lo'. induction B as [|x B IH]; simpl; intros lo lo' H H1 H2; [lia|].
  destruct H. split; [lia|]. eapply IH; eauto. lia.
Qed.

Lemma chain_split lo B1 B2 hi : chain lo (B1 ++ B2) hi ->
  exists m, chain lo B1 m /\ chain m B2 hi.
Proof.
  revert lo. induction B1 as [|x B IH]; simpl; intros lo H.
  - exists lo. split; [lia|auto].
  - destruct H as [H1 H2]. destruct (IH _ H2) as (m & ? & ?). exists m. auto.
Qed.

(** removing an element *)
Lemma chain_remove lo B1 b B2 hi base pool : Forall (good base pool) (B1 ++ b :: B2) ->
  chain lo (B1 ++ b :: B2) hi -> chain lo (B1 ++ B2) hi.
Proof.
  revert lo. induction B1 as [|x B IH]; simpl; intros lo Hg H.
  - destruct H as [H1 H2]. inversion Hg; subst. destruct H3 as (? & ? & _).
    eapply chain_weaken; eauto; lia.
  - inversion Hg; subst. destruct H. split; auto.
Qed.

(** later blocks start after the end of earlier ones *)
Lemma chain_order lo B1 b B2 c hi base pool : Forall (good base pool) (B1 ++ b :: B2) ->
  chain lo (B1 ++ b :: B2) hi -> In c B2 -> g_end b <= g_start c.
Proof.
  intros Hg H Hc. destruct (chain_split _ _ _ _ H) as (m & _ & H2). simpl in H2. destruct H2 as [_ H2].
  apply Forall_app in Hg as [_ Hg]. inversion Hg; subst. clear - H2 Hc H4.
  revert H2 Hc. generalize (g_end b). induction B2 as [|x B IH]; simpl; intros e H Hc; [tauto|]. destruct Hc as [->|Hc].
  - lia.
  - destruct H as [H H0]. inversion H4 as [|? ? G1 G2]; subst. specialize (IH G2 _ H0 Hc). destruct G1 as (? & ? & _). lia.
Qed.

Lemma chain_lo lo B c hi base pool : Forall (good base pool) B -> chain lo B hi -> In c B -> lo <= g_start c.
Proof.
  revert lo. induction B as [|x B IH]; simpl; intros lo Hg H Hc; [tauto|]. destruct H, Hc as [->|Hc]; auto.
  inversion Hg as [|? ? G1 G2]; subst. specialize (IH _ G2 H0 Hc). destruct G1 as (? & ? & _). lia.
Qed.

Lemma chain_hi lo B c hi base pool : Forall (good base pool) B -> chain lo B hi -> In c B -> g_end c <= hi.
Proof.
  revert lo. induction B as [|x B IH]; simpl; intros lo Hg H Hc; [tauto|]. inversion Hg; subst.
  destruct H, Hc as [->|Hc]; [|eauto]. eapply chain_le; eauto.
Qed.

(** ** Placement of a new block *)
Lemma round_up64_zero a : power_of_two a -> round_up64 0 a = 0.
Proof.
  intros (j & Hj & ->). unfold round_up64, w64, wrap.
  assert (0 < 2 ^ j) by (apply Z.pow_pos_nonneg; lia).
  replace ((0 - 1) mod 2 ^ 64) with (2 ^ (64 - j) * 2 ^ j - 1).
  - replace (2 ^ (64 - j) * 2 ^ j - 1) with ((2 ^ j - 1) + (2 ^ (64 - j) - 1) * 2 ^ j) by ring.
    rewrite Z.div_add by lia. rewrite Z.div_small by lia.
    replace ((0 + (2 ^ (64 - j) - 1) + 1) * 2 ^ j) with (2 ^ (64 - j) * 2 ^ j) by ring.
    rewrite <- Z.pow_add_r by lia. replace (64 - j + j) with 64 by lia. now rewrite Z.mod_same.
  - rewrite <- Z.pow_add_r by lia. replace (64 - j + j) with 64 by lia. reflexivity.
Qed.

Lemma round_up64_any x a : power_of_two a -> 0 <= x -> x + a <= 2 ^ 64 ->
  exists y, round_up64 x a = y /\ x <= y < x + a /\ y mod a = 0.
Proof.
  intros Ha Hx Hb. assert (0 < a).
  { destruct Ha as (j & ? & ->). apply Z.pow_pos_nonneg; lia. }
  destruct (Z.eq_dec x 0) as [->|].
  - exists 0. rewrite round_up64_zero by auto. repeat split; try lia.
  - apply round_up64_ok; lia.
Qed.

Lemma round_up64_exact x a : 0 < a -> 0 <= x -> x mod a = 0 -> power_of_two a \/ 0 < x -> x + a <= 2 ^ 64 ->
  round_up64 x a = x.
Proof.
  intros Ha Hx Hm Hor Hb. destruct (Z.eq_dec x 0) as [->|].
  { destruct Hor; [|lia]. now apply round_up64_zero. }
  destruct (round_up64_ok x a) as (y & E & Hy & Hd); try lia. rewrite E.
  pose proof (Z.div_mod x a ltac:(lia)) as Dx. pose proof (Z.div_mod y a ltac:(lia)) as Dy.
  rewrite Hm in Dx. rewrite Hd in Dy. assert (y / a < x / a + 1) by nia. assert (x / a <= y / a) by nia. nia.
Qed.

Lemma div_interval p q a : 0 < p -> 0 <= a -> q * p <= a < (q + 1) * p -> a / p = q.
Proof. intros. symmetry. apply Z.div_unique with (a - q * p); lia. Qed.

Lemma place_ok base pool se n align :
  0 < pool -> power_of_two align -> pool mod align = 0 -> base mod align = 0 ->
  0 <= se -> se + 3 * pool <= 2 ^ 64 -> 0 < n <= pool ->
  exists st al, cbmb_place pool se n align = (st, al, al + n) /\
    se <= st /\ al + n <= se + 2 * pool /\ (se = 0 -> st = 0) /\
    (forall h, good base pool {| g_start := st; g_al := al; g_end := al + n; g_align := align; g_held := h |}).
Proof.
  intros Hp Ha Hpa Hba Hse Hb Hn.
  assert (Hap : 0 < align). { destruct Ha as (j & ? & ->). apply Z.pow_pos_nonneg; lia. }
  assert (Hle : align <= pool). { destruct (Z_le_gt_dec align pool); auto. rewrite Z.mod_small in Hpa; lia. }
  unfold cbmb_place.
  destruct (round_up64_any se align) as (al & Ea & Hal & Hdal); try lia; auto.
  rewrite Ea. rewrite (w64_small (al + n)) by lia. rewrite (w64_small (al + n - 1)) by lia.
  pose proof (Z.div_mod se pool ltac:(lia)) as Dse. pose proof (Z.mod_pos_bound se pool ltac:(lia)).
  pose proof (Z.div_mod (al + n - 1) pool ltac:(lia)) as Dn. pose proof (Z.mod_pos_bound (al + n - 1) pool ltac:(lia)).
  destruct (Z.gtb_spec ((al + n - 1) / pool) (se / pool)) as [Hc|Hc].
  - (* crossing *)
    assert (se <> 0).
    { intros ->. rewrite round_up64_zero in Ea by auto. subst al. rewrite (Z.div_small (0 + n - 1)) in Hc by lia.
      rewrite Z.div_0_l in Hc; lia. }
    destruct (round_up64_ok se pool) as (st & Es & Hst & Hdst); try lia. rewrite Es.
    assert (Hm : st mod align = 0).
    { pose proof (Z.div_mod st pool ltac:(lia)). pose proof (Z.div_mod pool align ltac:(lia)).
      replace st with ((st / pool * (pool / align)) * align) by nia. apply Z.mod_mul; lia. }
    rewrite (round_up64_exact st align) by (auto; lia). rewrite w64_small by lia.
    exists st, st. split; auto. split; [lia|]. split; [lia|]. split; [lia|]. intros h.
    unfold good; simpl. pose proof (Z.div_mod st pool ltac:(lia)) as Dst.
    repeat split; auto; try lia.
    symmetry. apply div_interval; nia.
  - exists se, al. split; auto. split; [lia|]. split; [lia|]. split; [lia|]. intros h.
    unfold good; simpl.
    assert ((al + n - 1) / pool = se / pool).
    { assert (se / pool <= (al + n - 1) / pool) by (apply Z.div_le_mono; lia). lia. }
    assert (se / pool <= al / pool <= (al + n - 1) / pool) by (split; apply Z.div_le_mono; lia).
    repeat split; auto; try lia; nia.
Qed.

(** ** List lemmas *)
Lemma remove_first_map {A B} (f : A -> B) (t : B -> bool) l r :
  remove_first t (map f l) = Some r ->
  exists l1 x l2, l = l1 ++ x :: l2 /\ t (f x) = true /\ Forall (fun y => t (f y) = false) l1 /\ r = map f (l1 ++ l2).
Proof.
  revert r. induction l as [|a l IH]; simpl; intros r H; [discriminate|].
  destruct (t (f a)) eqn:E.
  - inversion H; subst. exists [], a, l. auto.
  - destruct (remove_first t (map f l)) as [r'|] eqn:Er; [|discriminate]. simpl in H. inversion H; subst.
    destruct (IH _ eq_refl) as (l1 & x & l2 & -> & ? & ? & ->). exists (a :: l1), x, l2. simpl. auto.
Qed.

Lemma remove_first_some {A} (t : A -> bool) l : existsb t l = true ->
  exists x r, remove_first t l = Some r /\ t x = true /\ In x l /\ Permutation l (x :: r).
Proof.
  induction l as [|a l IH]; simpl; [discriminate|]. destruct (t a) eqn:E; simpl; intros H.
  - exists a, l. auto.
  - destruct (IH H) as (x & r & -> & ? & ? & ?). exists x, (a :: r). simpl. repeat split; auto.
    rewrite H2. apply perm_swap.
Qed.

Lemma filter_remove {A} (f : A -> bool) l1 x l2 :
  filter f (l1 ++ x :: l2) = filter f l1 ++ (if f x then [x] else []) ++ filter f l2.
Proof. rewrite filter_app. simpl. destruct (f x); auto. Qed.

Lemma filter_pick {A} (f : A -> bool) l i x : nth_error (filter f l) i = Some x ->
  exists l1 l2, l = l1 ++ x :: l2 /\ length (filter f l1) = i /\ f x = true.
Proof.
  revert i. induction l as [|a l IH]; simpl; intros i H; [destruct i; discriminate|].
  destruct (f a) eqn:E.
  - destruct i; simpl in H.
    + inversion H; subst. exists [], l. auto.
    + destruct (IH _ H) as (l1 & l2 & -> & ? & ?). exists (a :: l1), l2. simpl. rewrite E. simpl. auto.
  - destruct (IH _ H) as (l1 & l2 & -> & ? & ?). exists (a :: l1), l2. simpl. rewrite E. auto.
Qed.

Lemma map_upd {A B} (f : A -> B) l i x y : nth_error l i = Some y -> f x = f y -> map f (upd l i x) = map f l.
Proof.
  revert i. induction l; destruct i; simpl; intros H E; try discriminate.
  - inversion H; subst. now rewrite E.
  - now rewrite IHl.
Qed.

Lemma good_flip base pool b h : good base pool b ->
  good base pool {| g_start := g_start b; g_al := g_al b; g_end := g_end b; g_align := g_align b; g_held := h |}.
Proof. exact (fun H => H). Qed.

Section Steps.
  Variables base pool : Z.
  Hypothesis Hpool : 0 < pool.

  Lemma fits_eq k s B e : cinv base pool k s B ->
    cbmb_fits pool (start_full s) e = (e <=? start_full s + pool).
  Proof using Hpool.
    intros (_ & H0 & Hc & Hg & _ & _ & _ & Hse & Hk & _). unfold cbmb_fits. rewrite w64_small; auto.
    pose proof (chain_le _ _ _ _ _ Hg Hc). nia.
  Qed.

  (** a waiting call corresponds to a block that is not held *)
  Lemma waiting_block s B i q : map strip (waiting s) = map wof (filter free_ B) ->
    nth_error (waiting s) i = Some q ->
    exists B1 b B2, B = B1 ++ b :: B2 /\ length (filter free_ B1) = i /\ g_held b = false /\ strip q = wof b.
  Proof using.
    clear. intros E Hq.
    assert (H : nth_error (map strip (waiting s)) i = Some (strip q)) by now apply map_nth_error.
    rewrite E in H. destruct (nth_error (filter free_ B) i) as [b|] eqn:Eb.
    - rewrite (map_nth_error wof _ _ Eb) in H.
      destruct (filter_pick _ _ _ _ Eb) as (B1 & B2 & -> & ? & Hf). exists B1, b, B2.
      repeat split; auto; [|congruence]. unfold free_ in Hf. now destruct (g_held b).
    - apply nth_error_None in Eb. assert (nth_error (map wof (filter free_ B)) i = None).
      { apply nth_error_None. now rewrite map_length. } congruence.
  Qed.

  Lemma allocate_inv k s B n align s' :
    cinv base pool k s B -> 0 <= n -> power_of_two align ->
    2 * pool * (Z.of_nat k + 3) <= 2 ^ 64 ->
    cbmb_allocate base pool s n align = Ok s' ->
    exists B', cinv base pool (S k) s' B'.
  Proof using Hpool.
    intros HI Hn Ha Hk. unfold cbmb_allocate.
    pose proof HI as (Ef & H0 & Hc & Hg & Hh & Hw & Hp & Hse & _ & He & H2).
    pose proof (chain_le _ _ _ _ _ Hg Hc) as Hfe.
    destruct (Z.eqb_spec n 0).
    { intros E; inversion E; subst. exists B. unfold cinv in *. repeat (split; [tauto||lia|]); tauto. }
    destruct (Z.gtb_spec n pool); [discriminate|].
    destruct (Z.eqb_spec (pool mod align) 0) as [Hpa|]; [|discriminate]. simpl negb. cbv iota.
    destruct (Z.eqb_spec (base mod align) 0) as [Hba|]; [|discriminate]. simpl negb. cbv iota.
    destruct (place_ok base pool (start_empty s) n align) as (st & al & Ep & Hst & Hal & Hz & Hgood); auto; try nia.
    rewrite Ep. destruct (in_transaction s && _); [discriminate|].
    rewrite (fits_eq k s B) by auto.
    set (h := al + n <=? start_full s + pool). intros E.
    pose proof (Hgood h) as Hgb. set (nb := {| g_start := st; g_al := al; g_end := al + n; g_align := align; g_held := h |}) in *.
    exists (B ++ [nb]). inversion E; clear E; subst s'. unfold cinv; rewrite Nat2Z.inj_succ; cbn [full_blocks start_full start_empty waiting granted].
    split. { rewrite Ef, map_app. reflexivity. }
    split; [auto|]. split. { eapply chain_snoc; eauto; simpl; lia. }
    split. { apply Forall_app; auto. }
    split. { apply Forall_app; split; auto. constructor; auto. simpl. intros Eh. unfold h in Eh. lia. }
    split. { rewrite filter_app, map_app. simpl. unfold free_ at 2; simpl. destruct h; simpl.
             - now rewrite app_nil_r.
             - rewrite map_app, Hw. f_equal. unfold strip, wof, nb; simpl. replace (al + n - al) with n by lia. reflexivity. }
    split. { rewrite filter_app, map_app. simpl. destruct h; simpl.
             - apply Permutation_app; auto. unfold gof, nb; simpl. replace (al + n - al) with n by lia. reflexivity.
             - now rewrite app_nil_r. }
    split; [nia|]. split; [nia|]. split. { intros E; destruct B; discriminate. }
    intros P2. specialize (H2 P2). destruct B as [|b0 B']; simpl; auto.
    destruct (He eq_refl) as [E0 _]. rewrite E0, Hz; auto.
  Qed.

  Lemma wake_inv k s B i s' :
    cinv base pool k s B -> cbmb_wake pool s i = Some s' -> exists B', cinv base pool k s' B'.
  Proof using Hpool.
    intros HI. unfold cbmb_wake. destruct (nth_error (waiting s) i) as [q|] eqn:Eq; [|discriminate].
    rewrite (fits_eq k s B) by auto.
    pose proof HI as (Ef & H0 & Hc & Hg & Hh & Hw & Hp & Hse & Hk & He & H2).
    destruct (waiting_block _ _ _ _ Hw Eq) as (B1 & b & B2 & -> & Hi & Hb & Es).
    destruct (Z.leb_spec (q_end q) (start_full s + pool)); intros E; inversion E; clear E; subst s'.
    - set (b' := {| g_start := g_start b; g_al := g_al b; g_end := g_end b; g_align := g_align b; g_held := true |}).
      exists (B1 ++ b' :: B2). unfold cinv; cbn [full_blocks start_full start_empty waiting granted set_waiting cbmb_notify cbmb_new].
      unfold strip, wof in Es. inversion Es as [[Ea Ee Esz Eal]].
      split. { rewrite Ef, !map_app. reflexivity. }
      split; [auto|]. split. { clear - Hc. revert Hc. generalize (start_full s). induction B1; simpl; intros z H; intuition. }
      split. { apply Forall_app in Hg as [G1 G2]. inversion G2; subst. apply Forall_app; split; auto. }
      split. { apply Forall_app in Hh as [G1 G2]. inversion G2; subst. apply Forall_app; split; auto.
               constructor; auto. simpl. intros _. lia. }
      split. { rewrite filter_remove in Hw |- *. unfold free_ at 2 in Hw. rewrite Hb in Hw. simpl in Hw |- *.
               rewrite map_app in Hw |- *. simpl in Hw.
               assert (L : length (map strip (firstn i (waiting s))) = length (map wof (filter free_ B1))).
               { rewrite !map_length, firstn_length. assert (nth_error (waiting s) i <> None) by congruence.
                 apply nth_error_Some in H1. lia. }
               assert (Hsp : waiting s = firstn i (waiting s) ++ q :: skipn (S i) (waiting s)).
               { clear - Eq. revert Eq. generalize (waiting s). induction i; intros [|x l] E; simpl in *; try discriminate.
                 - now inversion E.
                 - f_equal. now apply IHi. }
               rewrite Hsp, map_app in Hw. destruct (app_inv_len _ _ _ _ L Hw) as [W1 W2].
               rewrite map_app, W1. f_equal. simpl in W2. now inversion W2. }
      split. { rewrite filter_remove in Hp |- *. rewrite Hb in Hp. simpl in Hp |- *.
               rewrite map_app in Hp |- *. simpl.
               eapply Permutation_trans; [symmetry; apply Permutation_cons_append|].
               eapply Permutation_trans; [|apply Permutation_middle]. unfold gof at 1; simpl.
               rewrite Esz, Ee, Ea, Eal. now apply perm_skip. }
      split; [lia|]. split; [lia|]. split. { intros E; destruct B1; discriminate. }
      intros P2. specialize (H2 P2). now destruct B1.
    - exists (B1 ++ b :: B2). unfold cinv; cbn [full_blocks start_full start_empty waiting granted set_waiting cbmb_notify cbmb_new].
      split; [auto|]. split; [auto|]. split; [auto|]. split; [auto|]. split; [auto|].
      split. { rewrite <- Hw. eapply map_upd; eauto. }
      split; [auto|]. split; [auto|]. auto.
  Qed.

  (** a held block is the first one with its offset *)
  Lemma held_unique k s B1 b B2 h : cinv base pool k s (B1 ++ b :: B2) -> In h (B1 ++ b :: B2) -> g_held h = true ->
    Forall (fun y => (g_al y mod pool =? g_al h mod pool) = false) B1 ->
    (g_al b mod pool =? g_al h mod pool) = true -> h = b.
  Proof using Hpool.
    intros (_ & _ & Hc & Hg & Hh & _) Hin Hheld HB Hb. apply in_app_or in Hin as [Hin|[Hin|Hin]]; auto.
    - rewrite Forall_forall in HB. specialize (HB _ Hin). rewrite Z.eqb_refl in HB. discriminate.
    - exfalso. assert (In h (B1 ++ b :: B2)) as Hin' by (apply in_or_app; simpl; auto).
      pose proof (chain_order _ _ _ _ _ _ _ _ Hg Hc Hin) as Hord.
      pose proof (chain_lo _ _ b _ _ _ Hg Hc ltac:(apply in_or_app; simpl; auto)) as Hlo.
      rewrite Forall_forall in Hh, Hg. specialize (Hh _ Hin' Hheld).
      destruct (Hg _ Hin') as (? & ? & ? & _). destruct (Hg b) as (? & ? & ? & _); [apply in_or_app; simpl; auto|].
      apply Z.eqb_eq in Hb.
      pose proof (Z.div_mod (g_al b) pool ltac:(lia)). pose proof (Z.div_mod (g_al h) pool ltac:(lia)).
      assert (g_al b / pool < g_al h / pool) by nia. nia.
  Qed.

  Lemma granted_block s B x : Permutation (granted s) (map (gof pool) (filter g_held B)) -> In x (granted s) ->
    exists h, In h B /\ g_held h = true /\ x = gof pool h.
  Proof using.
    clear. intros P Hx. apply (Permutation_in _ P) in Hx. apply in_map_iff in Hx as (h & <- & Hh).
    apply filter_In in Hh as []. eauto.
  Qed.

  Lemma deallocate_inv k s B off :
    cinv base pool k s B -> existsb (fun b => b_off b =? off) (granted s) = true ->
    exists s', cbmb_deallocate pool s off = Ok s' /\ (exists B', cinv base pool k s' B') /\
      (exists b, b_off b = off /\ Permutation (granted s) (b :: granted s')) /\ waiting s' = waiting s /\
      (forall e, waiting s <> [] -> cbmb_fits pool (start_full s) e = true -> cbmb_fits pool (start_full s') e = true).
  Proof using Hpool.
    intros HI Hex. pose proof HI as (Ef & H0 & Hc & Hg & Hh & Hw & Hp & Hse & Hk & He & H2).
    destruct (remove_first_some _ _ Hex) as (x & g & Eg & Hx & Hxin & Hperm).
    apply Z.eqb_eq in Hx.
    destruct (granted_block _ _ _ Hp Hxin) as (h & Hin & Hheld & Exh).
    assert (Hoff : g_al h mod pool = off) by (rewrite <- Hx, Exh; reflexivity).
    unfold cbmb_deallocate. rewrite Ef.
    destruct (remove_first _ (map _ B)) as [fb|] eqn:Er.
    2: { exfalso. clear - Er Hin Hoff. induction B as [|b B IH]; [destruct Hin|]. simpl in *.
         destruct (Z.eqb_spec (g_al b mod pool) off); [discriminate|].
         destruct (remove_first _ (map _ B)); [discriminate|]. destruct Hin as [->|Hin]; auto. }
    apply remove_first_map in Er as (B1 & b & B2 & -> & Hb & HB1 & ->). simpl in Hb.
    rewrite <- Hoff in Hb, HB1. simpl in HB1.
    assert (h = b) by (eapply held_unique; eauto). subst b.
    assert (HX : x = gof pool h) by auto.
    rewrite Eg. eexists. split; [reflexivity|].
    assert (Hg' : Forall (good base pool) (B1 ++ B2)).
    { apply Forall_app in Hg as [G1 G2]. inversion G2; subst. apply Forall_app; auto. }
    assert (Hc' : chain (start_full s) (B1 ++ B2) (start_empty s)) by (eapply chain_remove; eauto).
    set (sf := match map (fun b : gb => (g_start b, g_al b)) (B1 ++ B2) with [] => 0 | b :: _ => fst b end).
    assert (Hsf : B1 ++ B2 <> [] -> start_full s <= sf).
    { unfold sf. destruct (B1 ++ B2) as [|c B'] eqn:E; [congruence|]. simpl in *. intros _. lia. }
    assert (Hsf2 : sf = match B1 ++ B2 with [] => 0 | b :: _ => g_start b end).
    { unfold sf. destruct (B1 ++ B2); reflexivity. }
    split; [|split; [|split]].
    - exists (B1 ++ B2). unfold cinv; cbn [full_blocks start_full start_empty waiting granted set_waiting cbmb_notify cbmb_new]. fold sf.
      split; [auto|]. split. { rewrite Hsf2. destruct (B1 ++ B2) as [|c B'] eqn:E; [lia|]. inversion Hg'; subst. apply H3. }
      split. { rewrite Hsf2. destruct (B1 ++ B2) as [|c B'] eqn:E; simpl in *; [lia|]. intuition lia. }
      split; [auto|].
      split. { destruct (list_eq_dec (fun a b : gb => ltac:(repeat decide equality)) (B1 ++ B2) []) as [E|E].
               - rewrite E. constructor.
               - specialize (Hsf E). apply Forall_app in Hh as [G1 G2]. apply Forall_inv_tail in G2.
                 apply Forall_app; split; [eapply Forall_impl; [|exact G1]|eapply Forall_impl; [|exact G2]];
                   simpl; intros ? Q Q'; specialize (Q Q'); lia. }
      split. { rewrite Hw, filter_remove, filter_app. unfold free_ at 2. now rewrite Hheld. }
      split. { rewrite Hperm in Hp. rewrite filter_remove, Hheld in Hp. rewrite filter_app.
               simpl in Hp. rewrite map_app in Hp |- *. simpl in Hp. rewrite <- Permutation_middle, <- HX in Hp.
               now apply Permutation_cons_inv in Hp. }
      split. { destruct (map _ (B1 ++ B2)); lia || nia. }
      split; [auto|]. split. { intros E. rewrite Hsf2, E. simpl. split; lia. }
      intros P2. destruct (B1 ++ B2) eqn:E; simpl; auto.
    - exists x. auto.
    - reflexivity.
    - intros e Hne. simpl. fold sf.
      assert (B1 ++ B2 <> []).
      { intros E. apply app_eq_nil in E as [-> ->]. simpl in Hw. unfold free_ in Hw. rewrite Hheld in Hw. simpl in Hw.
        destruct (waiting s); [congruence|discriminate]. }
      specialize (Hsf H). rewrite (fits_eq k s _ e) by eauto. unfold cbmb_fits.
      rewrite w64_small.
      + rewrite !Z.leb_le. lia.
      + pose proof (chain_le _ _ _ _ _ Hg' Hc'). rewrite Hsf2 in *. destruct (B1 ++ B2) as [|c B'] eqn:E; [congruence|].
        simpl in Hc'. inversion Hg' as [|? ? G1 G2]; subst. destruct Hc' as [_ Hc']. pose proof (chain_le _ _ _ _ _ G2 Hc').
        destruct G1 as (? & ? & _). nia.
  Qed.

  Lemma notify_inv k s B : cinv base pool k s B -> cinv base pool k (cbmb_notify s) B.
  Proof using.
    intros (Ef & H0 & Hc & Hg & Hh & Hw & Hp & Hse & Hk & He & H2).
    unfold cinv; cbn [full_blocks start_full start_empty waiting granted set_waiting cbmb_notify cbmb_new]. rewrite map_map. do 5 (split; [assumption|]). split; [exact Hw|]. auto.
  Qed.
  Lemma begin_inv k s B : cinv base pool k s B -> cinv base pool k (cbmb_begin pool s) B.
  Proof using. exact (fun H => H). Qed.
  Lemma end_inv k s B : cinv base pool k s B -> 2 * pool * (Z.of_nat k + 3) <= 2 ^ 64 ->
    cinv base pool (S k) (cbmb_end pool s) B.
  Proof using Hpool.
    intros (Ef & H0 & Hc & Hg & Hh & Hw & Hp & Hse & _ & He & H2) Hk.
    pose proof (chain_le _ _ _ _ _ Hg Hc) as Hfe.
    unfold cinv; rewrite Nat2Z.inj_succ; cbn [full_blocks start_full start_empty waiting granted cbmb_end]. do 2 (split; [assumption|]).
    destruct (do_reset_to_start_after_transaction s).
    2: { split; [auto|]. do 4 (split; [auto|]). split; [nia|]. split; [nia|]. auto. }
    destruct (Z.eq_dec (start_empty s) 0) as [E0|N0].
    - (* the word 0 - 1 *)
      rewrite E0.
      assert (Hr : 0 <= round_up64 0 pool <= pool /\ (power_of_two pool -> round_up64 0 pool = 0)).
      { split; [|apply round_up64_zero]. unfold round_up64.
        replace (w64 (0 - 1)) with (2 ^ 64 - 1) by reflexivity. unfold w64, wrap.
        pose proof (Z.div_mod (2 ^ 64 - 1) pool ltac:(lia)) as D.
        pose proof (Z.mod_pos_bound (2 ^ 64 - 1) pool ltac:(lia)) as M.
        set (q := (2 ^ 64 - 1) / pool) in *. set (m := (2 ^ 64 - 1) mod pool) in *.
        replace ((q + 1) * pool) with ((pool - 1 - m) + 1 * 2 ^ 64) by nia. rewrite Z.mod_add by lia.
        assert (pool < 2 ^ 64) by nia. rewrite Z.mod_small by lia. lia. }
      destruct Hr as [Hr Hr2].
      split. { eapply chain_weaken; eauto; lia. }
      do 4 (split; [assumption|]). split; [nia|]. split; [nia|].
      split. { intros E. destruct (He E). lia. }
      intros P2. rewrite Hr2 by auto. specialize (H2 P2). destruct B; auto.
    - destruct (round_up64_ok (start_empty s) pool) as (y & Ey & Hy & Hm); try nia. rewrite Ey.
      split. { eapply chain_weaken; eauto; lia. }
      do 4 (split; [assumption|]). split; [nia|]. split; [nia|].
      split. { intros E. destruct (He E) as [? Hle]. split; auto.
               pose proof (Z.div_mod y pool ltac:(lia)) as D. rewrite Hm in D. assert (y / pool < 2) by nia. nia. }
      intros P2. specialize (H2 P2). destruct B; auto. congruence.
  Qed.

  Lemma idle_inv k s B : cinv base pool k s B -> idle s = true -> cinv base pool 0 s B.
  Proof using Hpool.
    intros (Ef & H0 & Hc & Hg & Hh & Hw & Hp & Hse & Hk & He & H2) Hid.
    assert (B = []).
    { unfold idle in Hid. destruct (waiting s); [|discriminate]. destruct (granted s); [|discriminate].
      apply Permutation_nil in Hp. apply map_eq_nil in Hp. symmetry in Hw. simpl in Hw. apply map_eq_nil in Hw.
      destruct B as [|b B]; auto. simpl in *. unfold free_ in Hw at 1. destruct (g_held b); simpl in *; discriminate. }
    destruct (He H). unfold cinv. do 7 (split; [assumption|]). split; [nia|]. split; [nia|]. auto.
  Qed.

  Lemma reach_inv k s : 4 * pool <= 2 ^ 64 -> cbmb_reach base pool k s -> exists B, cinv base pool k s B.
  Proof using Hpool.
    intros H4. induction 1 as [|k s e s' Hr (B & HI) Hs He Hk].
    { exists []. unfold cinv; cbn -[Z.mul Z.add Z.pow]. repeat split; auto; try lia; try constructor. }
    assert (G : exists B', cinv base pool (k + advances e) s' B').
    { destruct e; simpl in *.
      - inversion He. rewrite Nat.add_1_r. destruct Hs. eapply allocate_inv; eauto.
      - rewrite Nat.add_0_r. destruct (cbmb_wake pool s i) eqn:E; inversion He; subst. eapply wake_inv; eauto.
      - rewrite Nat.add_0_r. destruct (existsb _ (granted s)) eqn:E; [|discriminate].
        destruct (deallocate_inv _ _ _ _ HI E) as (s1 & E1 & HB & _). inversion He as [E2]. rewrite E1 in E2.
        inversion E2; subst. auto.
      - rewrite Nat.add_0_r. destruct (notifying s); inversion He; subst. eexists; eapply notify_inv; eauto.
      - rewrite Nat.add_0_r. destruct (in_transaction s); inversion He; subst. eexists; eapply begin_inv; eauto.
      - rewrite Nat.add_1_r. destruct (in_transaction s); inversion He; subst. eexists; eapply end_inv; eauto. }
    destruct G as (B' & G). destruct (idle s') eqn:Ei; [|eauto]. exists B'. eapply idle_inv; eauto.
  Qed.
End Steps.
