(** * Lemmas: tarray::distribute *)
From Coq Require Import ZArith List Bool Arith Lia.
From Verif Require Import Base M_Distribute L_Balance.
Import ListNotations.
Local Open Scope Z_scope.

Lemma nearest_even_spec a b : 0 < b -> 2 * Z.abs (a - nearest_even a b * b) <= b.
Proof.
  intros H. unfold nearest_even. pose proof (Z.div_mod a b ltac:(lia)) as E. pose proof (Z.mod_pos_bound a b H) as B.
  destruct (Z.ltb_spec (2 * (a mod b)) b); [nia|].
  destruct (Z.ltb_spec b (2 * (a mod b))); [nia|]. destruct (Z.even (a / b)); nia.
Qed.

Lemma exponent_bounds a b : 0 < a -> 0 < b -> a < 2 ^ 53 * b ->
  exponent a b <= 0 /\ 2 ^ 52 * b <= a * 2 ^ (- exponent a b).
Proof.
  intros Ha Hb Hab. unfold exponent.
  pose proof (Z.log2_spec a Ha) as La. pose proof (Z.log2_spec b Hb) as Lb.
  pose proof (Z.log2_nonneg a) as Na. pose proof (Z.log2_nonneg b) as Nb.
  rewrite Z.pow_succ_r in La, Lb by auto.
  set (la := Z.log2 a) in *. set (lb := Z.log2 b) in *.
  set (e := la - lb - 52).
  destruct (Z.leb_spec 0 e) as [He|He].
  - assert (Hla : la = lb + 52 + e) by (unfold e; lia).
    assert (Ee : e < 2).
    { destruct (Z.lt_ge_cases e 2); auto. exfalso.
      assert (2 ^ la >= 2 ^ (lb + 54)) by (apply Z.le_ge, Z.pow_le_mono_r; lia).
      rewrite Z.pow_add_r in H0 by lia. change (2 ^ 54) with (2 * 2 ^ 53) in H0. nia. }
    assert (e = 0 \/ e = 1) as [E|E] by lia; rewrite E.
    + rewrite Z.pow_0_r, Z.mul_1_r. destruct (Z.ltb_spec (a / b) (2 ^ 52)) as [Hl|Hl].
      * split; [lia|]. replace (- (0 - 1)) with 1 by lia. rewrite Z.pow_1_r.
        rewrite Hla, E, !Z.pow_add_r in La by lia. rewrite Z.pow_0_r in La. nia.
      * split; [lia|]. simpl (- 0). rewrite Z.pow_0_r. assert (2 ^ 52 * b <= a / b * b) by nia.
        pose proof (Z.mul_div_le a b ltac:(lia)). lia.
    + rewrite Z.pow_1_r. destruct (Z.ltb_spec (a / (b * 2)) (2 ^ 52)) as [Hl|Hl].
      * split; [lia|]. simpl (- (1 - 1)). rewrite Z.pow_0_r.
        rewrite Hla, E, !Z.pow_add_r in La by lia. rewrite Z.pow_1_r in La. nia.
      * exfalso. pose proof (Z.mul_div_le a (b * 2) ltac:(lia)). change (2 ^ 53) with (2 ^ 52 * 2) in Hab. nia.
  - set (k := - e). assert (Hk : 0 < k) by (unfold k; lia).
    destruct (Z.ltb_spec (a * 2 ^ k / b) (2 ^ 52)) as [Hl|Hl].
    + split; [lia|]. replace (- (e - 1)) with (k + 1) by (unfold k; lia). rewrite Z.pow_add_r, Z.pow_1_r by lia.
      assert (E : lb + 52 = la + k) by (unfold k, e; lia).
      assert (2 ^ la * 2 ^ k = 2 ^ lb * 2 ^ 52) by (rewrite <- !Z.pow_add_r by lia; f_equal; lia). 
      assert (0 < 2 ^ k) by (apply Z.pow_pos_nonneg; lia). nia.
    + split; [lia|]. fold k. assert (2 ^ 52 * b <= a * 2 ^ k / b * b) by nia.
      pose proof (Z.mul_div_le (a * 2 ^ k) b ltac:(lia)). lia.
Qed.

(** the ceiling of the rounded quotient is the ceiling of the exact one *)
Lemma fceil_fdiv a b : 0 <= a < 2 ^ 53 -> 0 < b -> fceil (fdiv a b) = - ((- a) / b).
Proof.
  intros Ha Hb. unfold fdiv. destruct (Z.eqb_spec a 0) as [->|H0].
  - reflexivity.
  - destruct (exponent_bounds a b) as (He & Hx); try nia.
    set (e := exponent a b) in *. set (k := - e) in *. assert (Hk : 0 <= k) by (unfold k; lia).
    assert (P : 0 < 2 ^ k) by (apply Z.pow_pos_nonneg; lia).
    set (c := - ((- a) / b)).
    assert (Hc : (c - 1) * b < a <= c * b).
    { unfold c. pose proof (Z.div_mod (- a) b ltac:(lia)). pose proof (Z.mod_pos_bound (- a) b Hb). nia. }
    assert (G : forall m, 2 * Z.abs (a * 2 ^ k - m * b) <= b -> - ((- m) / 2 ^ k) = c).
    { intros m Hm.
      assert (M1 : m <= c * 2 ^ k) by nia.
      assert (K : b < 2 * 2 ^ k) by (change (2 ^ 53) with (2 * 2 ^ 52) in Ha; nia).
      assert (M2 : (c - 1) * 2 ^ k < m).
      { assert (D : (c - 1) * b + 1 <= a) by lia.
        assert ((c - 1) * b * 2 ^ k + 2 ^ k <= a * 2 ^ k) by nia.
        assert (2 * (a * 2 ^ k - m * b) <= b) by lia.
        nia. }
      symmetry. replace c with (- (- c)) by lia. f_equal. 
      apply Z.div_unique with (r := c * 2 ^ k - m); [left; nia|nia]. }
    unfold fceil. destruct (Z.leb_spec 0 e) as [H|H].
    + assert (E : e = 0) by lia. rewrite E. rewrite Z.pow_0_r, !Z.mul_1_r.
      specialize (G (nearest_even a b)). assert (Ek : k = 0) by lia. rewrite Ek, Z.pow_0_r in G. rewrite Z.div_1_r in G.
      rewrite <- G; [lia|]. rewrite Z.mul_1_r. apply nearest_even_spec; auto.
    + fold k. apply G. apply nearest_even_spec; auto.
Qed.

Lemma of_int_small n : 0 <= n < 2 ^ 53 -> of_int n = n.
Proof.
  intros H. unfold of_int. destruct (Z.eqb_spec n 0); auto.
  assert (Z.log2 n < 53) by (apply Z.log2_lt_pow2; lia).
  destruct (Z.leb_spec (Z.log2 n - 52) 0); lia.
Qed.

Definition representable (ty : ity) (z : Z) : Prop :=
  match ty with Unsigned W => 0 <= z < 2 ^ W | Signed W => 0 <= z < 2 ^ (W - 1) end.
Lemma fit_ok ty z : representable ty z -> fit ty z = Ok z.
Proof.
  destruct ty; simpl; intros H; [now rewrite Z.mod_small|].
  rewrite (proj2 (Z.leb_le _ _)) by lia. rewrite (proj2 (Z.ltb_lt _ _)) by lia. reflexivity.
Qed.
Lemma of_float_ok ty z : representable ty z -> of_float ty z = Ok z.
Proof.
  destruct ty; simpl; intros H; rewrite (proj2 (Z.leb_le _ _)) by lia; rewrite (proj2 (Z.ltb_lt _ _)) by lia; reflexivity.
Qed.
Lemma representable_le ty a b : representable ty b -> 0 <= a <= b -> representable ty a.
Proof. destruct ty; simpl; lia. Qed.

Lemma distribute_ok ty threads size minchunk :
  (0 < threads)%nat -> 0 <= size < 2 ^ 53 -> 0 <= minchunk -> representable ty size ->
  let chunk := Z.max (- ((- size) / Z.of_nat threads)) minchunk in
  representable ty ((Z.of_nat threads - 1) * chunk) ->
  exists d, distribute ty threads size minchunk = Ok d /\ length d = (threads + 1)%nat /\
    (forall t, (t < threads)%nat -> nth t d 0 = Z.min (Z.of_nat t * chunk) size) /\ nth threads d 0 = size.
Proof.
  intros Ht Hs Hm Hr chunk Hov. unfold distribute. destruct (Nat.eqb_spec threads 0); [lia|].
  rewrite of_int_small by auto. rewrite fceil_fdiv by lia.
  set (c := - ((- size) / Z.of_nat threads)) in *.
  assert (Hc : 0 <= c <= size).
  { unfold c. pose proof (Z.div_mod (- size) (Z.of_nat threads) ltac:(lia)). pose proof (Z.mod_pos_bound (- size) (Z.of_nat threads) ltac:(lia)). nia. }
  rewrite of_float_ok by (eapply representable_le; [apply Hr|lia]). cbn [obind]. fold chunk.
  destruct (foldM_seq_inv (distribute_step ty chunk size)
    (fun k d => length d = (threads + 1)%nat /\ nth 0 d 0 = 0 /\
       forall t, (1 <= t < k)%nat -> nth t d 0 = Z.min (Z.of_nat t * chunk) size) 1 (threads - 1) (repeat 0 (threads + 1)))
    as (d & E & L & D0 & D).
  - rewrite repeat_length. repeat split; auto.
    + destruct (threads + 1)%nat eqn:E; [lia|reflexivity].
    + intros; lia.
  - intros k d Hk (L & D0 & D). unfold distribute_step.
    assert (Hf : representable ty (Z.of_nat k * chunk)).
    { eapply representable_le; [apply Hov|]. assert (0 <= chunk) by (unfold chunk; lia). nia. }
    rewrite fit_ok by auto. cbn [obind]. rewrite wr_ok by lia. eexists. split; [reflexivity|].
    rewrite upd_length. split; auto. split; [rewrite nth_upd_neq by lia; auto|].
    intros t Hlt. destruct (Nat.eq_dec t k) as [->|Hn].
    + rewrite nth_upd_eq by lia. destruct (Z.ltb_spec size (Z.of_nat k * chunk)); lia.
    + rewrite nth_upd_neq by lia. apply D. lia.
  - rewrite E. cbn [obind]. rewrite wr_ok by lia. eexists. split; [reflexivity|]. rewrite upd_length. split; auto. split.
    + intros t Hlt. rewrite nth_upd_neq by lia. destruct t; [rewrite D0; lia|]. apply D. lia.
    + apply nth_upd_eq. lia.
Qed.
