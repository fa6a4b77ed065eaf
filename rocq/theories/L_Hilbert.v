(** * Lemmas about the Hilbert curve conversions *)
From Coq Require Import ZArith Bool Lia ZifyBool.
From Verif Require Import Base M_Hilbert.
Local Open Scope Z_scope.

Lemma pair3 {A B C} (a a' : A) (b b' : B) (c c' : C) :
  a = a' -> b = b' -> c = c' -> (a, b, c) = (a', b', c').
Proof. congruence. Qed.

(** ** Machine word facts *)
Lemma pow_split a b : 0 <= a -> 0 <= b -> 2 ^ (a + b) = 2 ^ a * 2 ^ b.
Proof. intros; apply Z.pow_add_r; lia. Qed.

Lemma pow2_pos k : 0 <= k -> 0 < 2 ^ k.
Proof. intros; apply Z.pow_pos_nonneg; lia. Qed.

Lemma wrap_small W z : 0 <= z < 2 ^ W -> wrap W z = z.
Proof. intros; unfold wrap; now apply Z.mod_small. Qed.

Lemma wrap_range W z : 0 <= W -> 0 <= wrap W z < 2 ^ W.
Proof. intros; unfold wrap; apply Z.mod_pos_bound; apply pow2_pos; lia. Qed.

Lemma wrap_mod W z k : 0 <= k <= W -> (wrap W z) mod 2 ^ k = z mod 2 ^ k.
Proof.
  intros. unfold wrap.
  replace W with (k + (W - k)) by lia. rewrite pow_split by lia.
  rewrite Z.rem_mul_r by (pose proof (pow2_pos k); pose proof (pow2_pos (W - k)); lia).
  rewrite Z.mul_comm, Z.mod_add by (pose proof (pow2_pos k); lia).
  apply Z.mod_mod. pose proof (pow2_pos k); lia.
Qed.

Lemma wrap_add_l W a b : 0 <= W -> wrap W (wrap W a + b) = wrap W (a + b).
Proof. intros; unfold wrap. apply Zplus_mod_idemp_l. Qed.

Lemma wrap_add_r W a b : 0 <= W -> wrap W (a + wrap W b) = wrap W (a + b).
Proof. intros; unfold wrap. apply Zplus_mod_idemp_r. Qed.

Lemma pow2_monotone a b : 0 <= a <= b -> 2 ^ a <= 2 ^ b.
Proof. intros; apply Z.pow_le_mono_r; lia. Qed.

Lemma bit_of_div x k : 0 <= k -> 0 <= x ->
  bit_of x (2 ^ k) = (x mod 2 ^ (k + 1)) / 2 ^ k.
Proof.
  intros Hk Hx. unfold bit_of.
  assert (Hb : Z.land x (2 ^ k) = if Z.testbit x k then 2 ^ k else 0).
  { apply Z.bits_inj'. intros i Hi. rewrite Z.land_spec, Z.pow2_bits_eqb by lia.
    destruct (Z.eqb_spec k i) as [<-|Hne].
    - destruct (Z.testbit x k) eqn:Ex.
      + rewrite Z.pow2_bits_true by lia. reflexivity.
      + rewrite Z.bits_0. reflexivity.
    - rewrite andb_false_r. destruct (Z.testbit x k).
      + now rewrite Z.pow2_bits_false by lia.
      + now rewrite Z.bits_0. }
  rewrite Hb. pose proof (pow2_pos k Hk).
  assert (Ht : Z.testbit x k = Z.odd ((x mod 2 ^ (k+1)) / 2 ^ k)).
  { rewrite <- Z.shiftr_div_pow2 by lia. rewrite <- Z.bit0_odd, Z.shiftr_spec by lia.
    rewrite Z.mod_pow2_bits_low by lia. reflexivity. }
  assert (Hr : 0 <= (x mod 2 ^ (k+1)) / 2 ^ k < 2).
  { pose proof (Z.mod_pos_bound x (2 ^ (k+1))) as Hm.
    rewrite Z.pow_add_r in * by lia. change (2 ^ 1) with 2 in *.
    split. apply Z.div_pos; lia. apply Z.div_lt_upper_bound; lia. }
  assert (Hc : (x mod 2 ^ (k+1)) / 2 ^ k = 0 \/ (x mod 2 ^ (k+1)) / 2 ^ k = 1) by lia.
  destruct Hc as [Hc|Hc]; rewrite Hc in Ht |- *; simpl in Ht; rewrite Ht.
  - reflexivity.
  - destruct (Z.gtb_spec (2 ^ k) 0); lia.
Qed.

Lemma split_mod x k : 0 <= k ->
  x mod 2 ^ (k + 1) = 2 ^ k * ((x mod 2 ^ (k + 1)) / 2 ^ k) + x mod 2 ^ k.
Proof.
  intros. pose proof (pow2_pos k H).
  rewrite (Z.div_mod (x mod 2 ^ (k+1)) (2 ^ k)) at 1 by lia. f_equal.
  rewrite Z.pow_add_r by lia. change (2^1) with 2.
  rewrite Z.rem_mul_r by lia.
  rewrite Z.mul_comm, Z.mod_add by lia. apply Z.mod_mod; lia.
Qed.

(** ** Mathematical Hilbert curve: recursion over the depth *)

Definition rot2 (s x y rx ry : Z) : Z * Z :=
  if ry =? 0 then
    if rx =? 1 then (s - 1 - y, s - 1 - x) else (y, x)
  else (x, y).

Definition rot3 (s x y z rx ry rz : Z) : Z * Z * Z :=
  if rz =? 0 then
    if rx =? 1 then (s - 1 - z, y, s - 1 - x)
    else if ry =? 1 then (x, s - 1 - z, s - 1 - y) else (x, z, y)
  else
    if ry =? 1 then (s - 1 - y, s - 1 - x, z) else (y, x, z).

Fixpoint henc2 (k : nat) (x y : Z) : Z :=
  match k with
  | O => 0
  | S j =>
    let s := 2 ^ Z.of_nat j in
    let rx := x / s in
    let ry := y / s in
    let '(x', y') := rot2 s (x mod s) (y mod s) rx ry in
    s * s * Z.lxor (3 * rx) ry + henc2 j x' y'
  end.

Fixpoint hdec2 (k : nat) (d : Z) : Z * Z :=
  match k with
  | O => (0, 0)
  | S j =>
    let s := 2 ^ Z.of_nat j in
    let t := d / (s * s) in
    let rx := Z.land 1 (t / 2) in
    let ry := Z.land 1 (Z.lxor t rx) in
    let '(x, y) := hdec2 j (d mod (s * s)) in
    let '(x', y') := rot2 s x y rx ry in
    (x' + s * rx, y' + s * ry)
  end.

Fixpoint henc3 (k : nat) (x y z : Z) : Z :=
  match k with
  | O => 0
  | S j =>
    let s := 2 ^ Z.of_nat j in
    let rx := x / s in
    let ry := y / s in
    let rz := z / s in
    let '(x', y', z') := rot3 s (x mod s) (y mod s) (z mod s) rx ry rz in
    s * s * s * (4 * ry + Z.lxor (3 * Z.lxor ry rx) rz) + henc3 j x' y' z'
  end.

Fixpoint hdec3 (k : nat) (d : Z) : Z * Z * Z :=
  match k with
  | O => (0, 0, 0)
  | S j =>
    let s := 2 ^ Z.of_nat j in
    let t := d / (s * s * s) in
    let rx := Z.lxor (Z.land 1 (t / 4)) (Z.land 1 (t / 2)) in
    let ry := Z.land 1 (t / 4) in
    let rz := Z.lxor (Z.land 1 (t / 2)) (Z.land 1 t) in
    let '(x, y, z) := hdec3 j (d mod (s * s * s)) in
    let '(x', y', z') := rot3 s x y z rx ry rz in
    (x' + s * rx, y' + s * ry, z' + s * rz)
  end.

Definition inb (s x : Z) : Prop := 0 <= x < s.

Lemma rot2_inb s x y rx ry : inb s x -> inb s y ->
  let '(x', y') := rot2 s x y rx ry in inb s x' /\ inb s y'.
Proof.
  unfold rot2, inb; intros.
  destruct (ry =? 0); [destruct (rx =? 1)|]; split; lia.
Qed.

Lemma rot2_invol s x y rx ry :
  let '(x', y') := rot2 s x y rx ry in rot2 s x' y' rx ry = (x, y).
Proof.
  unfold rot2. destruct (ry =? 0) eqn:E1; [destruct (rx =? 1) eqn:E2|]; rewrite ?E1, ?E2; f_equal; lia.
Qed.

Lemma rot3_inb s x y z rx ry rz : inb s x -> inb s y -> inb s z ->
  let '(x', y', z') := rot3 s x y z rx ry rz in inb s x' /\ inb s y' /\ inb s z'.
Proof.
  unfold rot3, inb; intros.
  destruct (rz =? 0); [destruct (rx =? 1); [|destruct (ry =? 1)]|destruct (ry =? 1)]; repeat split; lia.
Qed.

Lemma rot3_invol s x y z rx ry rz :
  let '(x', y', z') := rot3 s x y z rx ry rz in rot3 s x' y' z' rx ry rz = (x, y, z).
Proof.
  unfold rot3.
  destruct (rz =? 0) eqn:E1; [destruct (rx =? 1) eqn:E2; [|destruct (ry =? 1) eqn:E3]|destruct (ry =? 1) eqn:E3];
    rewrite ?E1, ?E2, ?E3; apply pair3; lia.
Qed.

Lemma quadrant s x : 0 < s -> inb (2 * s) x -> (x / s = 0 \/ x / s = 1) /\ x = s * (x / s) + x mod s /\ inb s (x mod s).
Proof.
  intros Hs [H1 H2]. repeat split.
  - assert (0 <= x / s < 2); [|lia]. split. apply Z.div_pos; lia. apply Z.div_lt_upper_bound; lia.
  - apply Z.div_mod; lia.
  - apply Z.mod_pos_bound; lia.
  - apply Z.mod_pos_bound; lia.
Qed.

Lemma two_s j : 2 ^ Z.of_nat (S j) = 2 * 2 ^ Z.of_nat j.
Proof. rewrite Nat2Z.inj_succ. apply Z.pow_succ_r; lia. Qed.

(** the digit of a quadrant *)
Lemma digit2 rx ry : (rx = 0 \/ rx = 1) -> (ry = 0 \/ ry = 1) ->
  let q := Z.lxor (3 * rx) ry in
  0 <= q < 4 /\ Z.land 1 (q / 2) = rx /\ Z.land 1 (Z.lxor q rx) = ry.
Proof. intros [->| ->] [->| ->]; cbv; intuition discriminate. Qed.

Lemma digit2_inv q : 0 <= q < 4 ->
  let rx := Z.land 1 (q / 2) in let ry := Z.land 1 (Z.lxor q rx) in
  (rx = 0 \/ rx = 1) /\ (ry = 0 \/ ry = 1) /\ Z.lxor (3 * rx) ry = q.
Proof.
  intros. assert (q = 0 \/ q = 1 \/ q = 2 \/ q = 3) as [->|[->|[->| ->]]] by lia; cbv; intuition.
Qed.

Lemma digit3 rx ry rz : (rx = 0 \/ rx = 1) -> (ry = 0 \/ ry = 1) -> (rz = 0 \/ rz = 1) ->
  let q := 4 * ry + Z.lxor (3 * Z.lxor ry rx) rz in
  0 <= q < 8 /\ Z.lxor (Z.land 1 (q / 4)) (Z.land 1 (q / 2)) = rx /\ Z.land 1 (q / 4) = ry
  /\ Z.lxor (Z.land 1 (q / 2)) (Z.land 1 q) = rz.
Proof. intros [->| ->] [->| ->] [->| ->]; cbv; intuition discriminate. Qed.

Lemma digit3_inv q : 0 <= q < 8 ->
  let rx := Z.lxor (Z.land 1 (q / 4)) (Z.land 1 (q / 2)) in
  let ry := Z.land 1 (q / 4) in
  let rz := Z.lxor (Z.land 1 (q / 2)) (Z.land 1 q) in
  (rx = 0 \/ rx = 1) /\ (ry = 0 \/ ry = 1) /\ (rz = 0 \/ rz = 1) /\
  4 * ry + Z.lxor (3 * Z.lxor ry rx) rz = q.
Proof.
  intros. assert (q = 0 \/ q = 1 \/ q = 2 \/ q = 3 \/ q = 4 \/ q = 5 \/ q = 6 \/ q = 7)
    as [->|[->|[->|[->|[->|[->|[->| ->]]]]]]] by lia; cbv; intuition.
Qed.

Lemma div_digit s q r : 0 < s -> 0 <= r < s -> (s * q + r) / s = q /\ (s * q + r) mod s = r.
Proof.
  intros. split.
  - rewrite Z.mul_comm, Z.div_add_l by lia. rewrite Z.div_small; lia.
  - rewrite Z.add_comm, Z.mul_comm, Z.mod_add by lia. apply Z.mod_small; lia.
Qed.

Lemma quad_split s x : 0 < s -> inb (s * 4) x -> inb 4 (x / s) /\ inb s (x mod s) /\ x = s * (x / s) + x mod s.
Proof.
  intros Hs [H1 H2]. repeat split.
  - apply Z.div_pos; lia.
  - apply Z.div_lt_upper_bound; lia.
  - apply Z.mod_pos_bound; lia.
  - apply Z.mod_pos_bound; lia.
  - apply Z.div_mod; lia.
Qed.

Lemma oct_split s x : 0 < s -> inb (s * 8) x -> inb 8 (x / s) /\ inb s (x mod s) /\ x = s * (x / s) + x mod s.
Proof.
  intros Hs [H1 H2]. repeat split.
  - apply Z.div_pos; lia.
  - apply Z.div_lt_upper_bound; lia.
  - apply Z.mod_pos_bound; lia.
  - apply Z.mod_pos_bound; lia.
  - apply Z.div_mod; lia.
Qed.

Lemma henc2_range k : forall x y, inb (2 ^ Z.of_nat k) x -> inb (2 ^ Z.of_nat k) y ->
  inb (2 ^ Z.of_nat k * 2 ^ Z.of_nat k) (henc2 k x y).
Proof.
  induction k as [|j IH]; intros x y Hx Hy.
  - simpl. cbv; intuition discriminate.
  - pose proof (pow2_pos (Z.of_nat j) ltac:(lia)) as Hs.
    rewrite two_s in *. cbn [henc2]. set (s := 2 ^ Z.of_nat j) in *.
    destruct (quadrant s x Hs Hx) as (Bx & Ex & Mx).
    destruct (quadrant s y Hs Hy) as (By & Ey & My).
    pose proof (rot2_inb s (x mod s) (y mod s) (x / s) (y / s) Mx My) as Hr.
    destruct (rot2 s (x mod s) (y mod s) (x / s) (y / s)) as [x' y'].
    destruct Hr as [Hx' Hy'].
    specialize (IH x' y' Hx' Hy').
    destruct (digit2 _ _ Bx By) as (Hq & _). cbv zeta in Hq.
    set (q := Z.lxor (3 * (x / s)) (y / s)) in *. unfold inb in *. nia.
Qed.

Lemma hdec2_henc2 k : forall x y, inb (2 ^ Z.of_nat k) x -> inb (2 ^ Z.of_nat k) y ->
  hdec2 k (henc2 k x y) = (x, y).
Proof.
  induction k as [|j IH]; intros x y Hx Hy.
  - unfold inb in *. simpl in *. f_equal; lia.
  - pose proof (pow2_pos (Z.of_nat j) ltac:(lia)) as Hs.
    rewrite two_s in *. cbn [henc2 hdec2]. set (s := 2 ^ Z.of_nat j) in *.
    destruct (quadrant s x Hs Hx) as (Bx & Ex & Mx).
    destruct (quadrant s y Hs Hy) as (By & Ey & My).
    pose proof (rot2_inb s (x mod s) (y mod s) (x / s) (y / s) Mx My) as Hr.
    pose proof (rot2_invol s (x mod s) (y mod s) (x / s) (y / s)) as Hi.
    destruct (rot2 s (x mod s) (y mod s) (x / s) (y / s)) as [x' y'].
    destruct Hr as [Hx' Hy'].
    pose proof (henc2_range j x' y' Hx' Hy') as Hrng. fold s in Hrng.
    destruct (digit2 _ _ Bx By) as (Hq & D1 & D2). cbv zeta in *.
    set (q := Z.lxor (3 * (x / s)) (y / s)) in *.
    destruct (div_digit (s * s) q (henc2 j x' y')) as [Ed Em]; [nia|exact Hrng|].
    rewrite Ed, Em, D1, D2, IH, Hi by auto. f_equal; lia.
Qed.

Lemma hdec2_range k : forall d, inb (2 ^ Z.of_nat k * 2 ^ Z.of_nat k) d ->
  let '(x, y) := hdec2 k d in inb (2 ^ Z.of_nat k) x /\ inb (2 ^ Z.of_nat k) y.
Proof.
  induction k as [|j IH]; intros d Hd.
  - unfold inb; simpl; lia.
  - pose proof (pow2_pos (Z.of_nat j) ltac:(lia)) as Hs.
    rewrite two_s in *. cbn [hdec2]. set (s := 2 ^ Z.of_nat j) in *.
    replace (2 * s * (2 * s)) with (s * s * 4) in Hd by lia.
    destruct (quad_split (s * s) d ltac:(nia) Hd) as (Bq & Bm & Ed).
    specialize (IH _ Bm).
    destruct (digit2_inv _ Bq) as (Rx & Ry & _). cbv zeta in *.
    set (rx := Z.land 1 (d / (s * s) / 2)) in *.
    set (ry := Z.land 1 (Z.lxor (d / (s * s)) rx)) in *.
    destruct (hdec2 j (d mod (s * s))) as [x y]. destruct IH as [Hx Hy].
    pose proof (rot2_inb s x y rx ry Hx Hy) as Hr.
    destruct (rot2 s x y rx ry) as [x' y']. unfold inb in *.
    destruct Hr. destruct Rx as [-> | ->], Ry as [-> | ->]; lia.
Qed.

Lemma henc2_hdec2 k : forall d, inb (2 ^ Z.of_nat k * 2 ^ Z.of_nat k) d ->
  let '(x, y) := hdec2 k d in henc2 k x y = d.
Proof.
  induction k as [|j IH]; intros d Hd.
  - unfold inb in *; simpl in *; lia.
  - pose proof (pow2_pos (Z.of_nat j) ltac:(lia)) as Hs.
    rewrite two_s in *. cbn [hdec2 henc2]. set (s := 2 ^ Z.of_nat j) in *.
    replace (2 * s * (2 * s)) with (s * s * 4) in Hd by lia.
    destruct (quad_split (s * s) d ltac:(nia) Hd) as (Bq & Bm & Ed).
    specialize (IH _ Bm).
    pose proof (hdec2_range j _ Bm) as Hrng. fold s in Hrng.
    destruct (digit2_inv _ Bq) as (Rx & Ry & Dq). cbv zeta in *.
    set (rx := Z.land 1 (d / (s * s) / 2)) in *.
    set (ry := Z.land 1 (Z.lxor (d / (s * s)) rx)) in *.
    destruct (hdec2 j (d mod (s * s))) as [x y]. destruct Hrng as [Hx Hy].
    pose proof (rot2_inb s x y rx ry Hx Hy) as Hr.
    pose proof (rot2_invol s x y rx ry) as Hi.
    destruct (rot2 s x y rx ry) as [x' y']. destruct Hr as [Hx' Hy'].
    destruct (div_digit s rx x' Hs Hx') as [E1 E2].
    destruct (div_digit s ry y' Hs Hy') as [E3 E4].
    replace (x' + s * rx) with (s * rx + x') by lia.
    replace (y' + s * ry) with (s * ry + y') by lia.
    rewrite E1, E2, E3, E4, Hi, Dq, IH. lia.
Qed.

(** ** 3D *)
Lemma henc3_range k : forall x y z, inb (2 ^ Z.of_nat k) x -> inb (2 ^ Z.of_nat k) y -> inb (2 ^ Z.of_nat k) z ->
  inb (2 ^ Z.of_nat k * 2 ^ Z.of_nat k * 2 ^ Z.of_nat k) (henc3 k x y z).
Proof.
  induction k as [|j IH]; intros x y z Hx Hy Hz.
  - simpl. cbv; intuition discriminate.
  - pose proof (pow2_pos (Z.of_nat j) ltac:(lia)) as Hs.
    rewrite two_s in *. cbn [henc3]. set (s := 2 ^ Z.of_nat j) in *.
    destruct (quadrant s x Hs Hx) as (Bx & Ex & Mx).
    destruct (quadrant s y Hs Hy) as (By & Ey & My).
    destruct (quadrant s z Hs Hz) as (Bz & Ez & Mz).
    pose proof (rot3_inb s (x mod s) (y mod s) (z mod s) (x / s) (y / s) (z / s) Mx My Mz) as Hr.
    destruct (rot3 s (x mod s) (y mod s) (z mod s) (x / s) (y / s) (z / s)) as [[x' y'] z'].
    destruct Hr as (Hx' & Hy' & Hz').
    specialize (IH x' y' z' Hx' Hy' Hz').
    destruct (digit3 _ _ _ Bx By Bz) as (Hq & _). cbv zeta in Hq.
    set (q := 4 * (y / s) + Z.lxor (3 * Z.lxor (y / s) (x / s)) (z / s)) in *. unfold inb in *.
    assert (0 < s * s * s) by nia.
    set (c := s * s * s) in *. replace (2 * s * (2 * s) * (2 * s)) with (c * 8) by (unfold c; ring). nia.
Qed.

Lemma hdec3_henc3 k : forall x y z, inb (2 ^ Z.of_nat k) x -> inb (2 ^ Z.of_nat k) y -> inb (2 ^ Z.of_nat k) z ->
  hdec3 k (henc3 k x y z) = (x, y, z).
Proof.
  induction k as [|j IH]; intros x y z Hx Hy Hz.
  - unfold inb in *. simpl in *. apply pair3; lia.
  - pose proof (pow2_pos (Z.of_nat j) ltac:(lia)) as Hs.
    rewrite two_s in *. cbn [henc3 hdec3]. set (s := 2 ^ Z.of_nat j) in *.
    destruct (quadrant s x Hs Hx) as (Bx & Ex & Mx).
    destruct (quadrant s y Hs Hy) as (By & Ey & My).
    destruct (quadrant s z Hs Hz) as (Bz & Ez & Mz).
    pose proof (rot3_inb s (x mod s) (y mod s) (z mod s) (x / s) (y / s) (z / s) Mx My Mz) as Hr.
    pose proof (rot3_invol s (x mod s) (y mod s) (z mod s) (x / s) (y / s) (z / s)) as Hi.
    destruct (rot3 s (x mod s) (y mod s) (z mod s) (x / s) (y / s) (z / s)) as [[x' y'] z'].
    destruct Hr as (Hx' & Hy' & Hz').
    pose proof (henc3_range j x' y' z' Hx' Hy' Hz') as Hrng. fold s in Hrng.
    destruct (digit3 _ _ _ Bx By Bz) as (Hq & D1 & D2 & D3). cbv zeta in *.
    set (q := 4 * (y / s) + Z.lxor (3 * Z.lxor (y / s) (x / s)) (z / s)) in *.
    destruct (div_digit (s * s * s) q (henc3 j x' y' z')) as [Ed Em]; [nia|exact Hrng|].
    rewrite Ed, Em, D1, D2, D3, IH, Hi by auto. apply pair3; lia.
Qed.

Lemma cube2 s : 2 * s * (2 * s) * (2 * s) = s * s * s * 8.
Proof. ring. Qed.

Lemma hdec3_range k : forall d, inb (2 ^ Z.of_nat k * 2 ^ Z.of_nat k * 2 ^ Z.of_nat k) d ->
  let '(x, y, z) := hdec3 k d in inb (2 ^ Z.of_nat k) x /\ inb (2 ^ Z.of_nat k) y /\ inb (2 ^ Z.of_nat k) z.
Proof.
  induction k as [|j IH]; intros d Hd.
  - unfold inb; simpl; lia.
  - pose proof (pow2_pos (Z.of_nat j) ltac:(lia)) as Hs.
    rewrite two_s in *. cbn [hdec3]. set (s := 2 ^ Z.of_nat j) in *.
    rewrite cube2 in Hd.
    destruct (oct_split (s * s * s) d ltac:(nia) Hd) as (Bq & Bm & Ed).
    specialize (IH _ Bm).
    destruct (digit3_inv _ Bq) as (Rx & Ry & Rz & _). cbv zeta in *.
    set (rx := Z.lxor (Z.land 1 (d / (s * s * s) / 4)) (Z.land 1 (d / (s * s * s) / 2))) in *.
    set (ry := Z.land 1 (d / (s * s * s) / 4)) in *.
    set (rz := Z.lxor (Z.land 1 (d / (s * s * s) / 2)) (Z.land 1 (d / (s * s * s)))) in *.
    destruct (hdec3 j (d mod (s * s * s))) as [[x y] z]. destruct IH as (Hx & Hy & Hz).
    pose proof (rot3_inb s x y z rx ry rz Hx Hy Hz) as Hr.
    destruct (rot3 s x y z rx ry rz) as [[x' y'] z']. unfold inb in *.
    destruct Hr as (? & ? & ?). destruct Rx as [-> | ->], Ry as [-> | ->], Rz as [-> | ->]; lia.
Qed.

Lemma henc3_hdec3 k : forall d, inb (2 ^ Z.of_nat k * 2 ^ Z.of_nat k * 2 ^ Z.of_nat k) d ->
  let '(x, y, z) := hdec3 k d in henc3 k x y z = d.
Proof.
  induction k as [|j IH]; intros d Hd.
  - unfold inb in *; simpl in *; lia.
  - pose proof (pow2_pos (Z.of_nat j) ltac:(lia)) as Hs.
    rewrite two_s in *. cbn [hdec3 henc3]. set (s := 2 ^ Z.of_nat j) in *.
    rewrite cube2 in Hd.
    destruct (oct_split (s * s * s) d ltac:(nia) Hd) as (Bq & Bm & Ed).
    specialize (IH _ Bm).
    pose proof (hdec3_range j _ Bm) as Hrng. fold s in Hrng.
    destruct (digit3_inv _ Bq) as (Rx & Ry & Rz & Dq). cbv zeta in *.
    set (rx := Z.lxor (Z.land 1 (d / (s * s * s) / 4)) (Z.land 1 (d / (s * s * s) / 2))) in *.
    set (ry := Z.land 1 (d / (s * s * s) / 4)) in *.
    set (rz := Z.lxor (Z.land 1 (d / (s * s * s) / 2)) (Z.land 1 (d / (s * s * s)))) in *.
    destruct (hdec3 j (d mod (s * s * s))) as [[x y] z]. destruct Hrng as (Hx & Hy & Hz).
    pose proof (rot3_inb s x y z rx ry rz Hx Hy Hz) as Hr.
    pose proof (rot3_invol s x y z rx ry rz) as Hi.
    destruct (rot3 s x y z rx ry rz) as [[x' y'] z']. destruct Hr as (Hx' & Hy' & Hz').
    destruct (div_digit s rx x' Hs Hx') as [E1 E2].
    destruct (div_digit s ry y' Hs Hy') as [E3 E4].
    destruct (div_digit s rz z' Hs Hz') as [E5 E6].
    replace (x' + s * rx) with (s * rx + x') by lia.
    replace (y' + s * ry) with (s * ry + y') by lia.
    replace (z' + s * rz) with (s * rz + z') by lia.
    rewrite E1, E2, E3, E4, E5, E6, Hi, Dq, IH. lia.
Qed.

(** evaluate the digits once the index of the quadrant is a literal *)
Ltac ground :=
  repeat match goal with
  | |- context [Z.lxor ?a ?b] =>
    let v := eval vm_compute in (Z.lxor a b) in
    match v with Z0 => idtac | Zpos xH => idtac end; change (Z.lxor a b) with v
  | |- context [Z.land 1 ?e] =>
    let v := eval vm_compute in (Z.land 1 e) in
    match v with Z0 => idtac | Zpos xH => idtac end; change (Z.land 1 e) with v
  end.

(** ** Adjacency *)
Definition dist2 (a b : Z * Z) : Z :=
  Z.abs (fst a - fst b) + Z.abs (snd a - snd b).
Definition dist3 (a b : Z * Z * Z) : Z :=
  Z.abs (fst (fst a) - fst (fst b)) + Z.abs (snd (fst a) - snd (fst b)) + Z.abs (snd a - snd b).

Lemma hdec2_first k : hdec2 k 0 = (0, 0).
Proof.
  induction k as [|j IH]; auto.
  cbn [hdec2]. rewrite !Zdiv_0_l, !Zmod_0_l. rewrite IH. cbn. f_equal; lia.
Qed.

Lemma hdec2_last k : hdec2 k (2 ^ Z.of_nat k * 2 ^ Z.of_nat k - 1) = (2 ^ Z.of_nat k - 1, 0).
Proof.
  induction k as [|j IH]; auto.
  pose proof (pow2_pos (Z.of_nat j) ltac:(lia)) as Hs.
  cbn [hdec2]. rewrite two_s. set (s := 2 ^ Z.of_nat j) in *.
  replace (2 * s * (2 * s) - 1) with (s * s * 3 + (s * s - 1)) by ring.
  destruct (div_digit (s * s) 3 (s * s - 1)) as [E1 E2]; [nia|nia|].
  rewrite E1, E2, IH. ground; cbn -[Z.mul Z.sub Z.add]. f_equal; lia.
Qed.

Lemma rot2_dist s a b rx ry :
  dist2 (rot2 s (fst a) (snd a) rx ry) (rot2 s (fst b) (snd b) rx ry) = dist2 a b.
Proof.
  unfold rot2, dist2. destruct (ry =? 0); [destruct (rx =? 1)|]; cbn [fst snd]; lia.
Qed.

Lemma hdec2_step k : forall d, 0 <= d -> d + 1 < 2 ^ Z.of_nat k * 2 ^ Z.of_nat k ->
  dist2 (hdec2 k d) (hdec2 k (d + 1)) = 1.
Proof.
  induction k as [|j IH]; intros d H0 H1.
  - simpl in H1. lia.
  - pose proof (pow2_pos (Z.of_nat j) ltac:(lia)) as Hs.
    rewrite two_s in *.
    pose proof (hdec2_first j) as F. pose proof (hdec2_last j) as L.
    cbn [hdec2]. set (s := 2 ^ Z.of_nat j) in *.
    assert (Hss : 0 < s * s) by nia.
    replace (2 * s * (2 * s)) with (s * s * 4) in H1 by lia.
    destruct (quad_split (s * s) d Hss) as (Bq & Bm & Ed); [unfold inb; lia|].
    set (q := d / (s * s)) in *. set (m := d mod (s * s)) in *.
    unfold inb in Bq, Bm.
    destruct (Z.eq_dec m (s * s - 1)) as [Hm|Hm].
    + (* crossing to the next quadrant *)
      assert (Eq : (d + 1) / (s * s) = q + 1 /\ (d + 1) mod (s * s) = 0).
      { replace (d + 1) with (s * s * (q + 1) + 0) by (rewrite Ed, Hm; ring).
        apply div_digit; lia. }
      destruct Eq as [Eq Em]. rewrite Eq, Em, Hm, F, L.
      assert (q = 0 \/ q = 1 \/ q = 2) as [->|[->| ->]] by nia; ground; cbn -[Z.mul Z.sub Z.add]; unfold dist2; cbn [fst snd]; lia.
    + assert (Eq : (d + 1) / (s * s) = q /\ (d + 1) mod (s * s) = m + 1).
      { replace (d + 1) with (s * s * q + (m + 1)) by lia. apply div_digit; lia. }
      destruct Eq as [Eq Em]. rewrite Eq, Em.
      specialize (IH m ltac:(lia) ltac:(lia)).
      destruct (hdec2 j m) as [x y], (hdec2 j (m + 1)) as [u v].
      set (rx := Z.land 1 (q / 2)). set (ry := Z.land 1 (Z.lxor q rx)).
      pose proof (rot2_dist s (x, y) (u, v) rx ry) as R. cbn [fst snd] in R.
      destruct (rot2 s x y rx ry) as [x' y'], (rot2 s u v rx ry) as [u' v'].
      rewrite IH in R. unfold dist2 in *. cbn [fst snd] in *. lia.
Qed.

Lemma hdec3_first k : hdec3 k 0 = (0, 0, 0).
Proof.
  induction k as [|j IH]; auto.
  cbn [hdec3]. rewrite !Zdiv_0_l, !Zmod_0_l. rewrite IH. cbn. apply pair3; lia.
Qed.

Lemma hdec3_last k : hdec3 k (2 ^ Z.of_nat k * 2 ^ Z.of_nat k * 2 ^ Z.of_nat k - 1) = (0, 2 ^ Z.of_nat k - 1, 0).
Proof.
  induction k as [|j IH]; auto.
  pose proof (pow2_pos (Z.of_nat j) ltac:(lia)) as Hs.
  cbn [hdec3]. rewrite two_s. set (s := 2 ^ Z.of_nat j) in *.
  replace (2 * s * (2 * s) * (2 * s) - 1) with (s * s * s * 7 + (s * s * s - 1)) by ring.
  destruct (div_digit (s * s * s) 7 (s * s * s - 1)) as [E1 E2]; [nia|nia|].
  rewrite E1, E2, IH. ground; cbn -[Z.mul Z.sub Z.add]. apply pair3; lia.
Qed.

Lemma rot3_dist s x y z u v w rx ry rz :
  dist3 (rot3 s x y z rx ry rz) (rot3 s u v w rx ry rz) = dist3 (x, y, z) (u, v, w).
Proof.
  unfold rot3, dist3.
  destruct (rz =? 0); [destruct (rx =? 1); [|destruct (ry =? 1)]|destruct (ry =? 1)]; cbn [fst snd]; lia.
Qed.

Lemma hdec3_step k : forall d, 0 <= d -> d + 1 < 2 ^ Z.of_nat k * 2 ^ Z.of_nat k * 2 ^ Z.of_nat k ->
  dist3 (hdec3 k d) (hdec3 k (d + 1)) = 1.
Proof.
  induction k as [|j IH]; intros d H0 H1.
  - simpl in H1. lia.
  - pose proof (pow2_pos (Z.of_nat j) ltac:(lia)) as Hs.
    rewrite two_s in *.
    pose proof (hdec3_first j) as F. pose proof (hdec3_last j) as L.
    cbn [hdec3]. set (s := 2 ^ Z.of_nat j) in *.
    assert (Hss : 0 < s * s * s) by nia.
    rewrite cube2 in H1.
    destruct (oct_split (s * s * s) d Hss) as (Bq & Bm & Ed); [unfold inb; lia|].
    set (q := d / (s * s * s)) in *. set (m := d mod (s * s * s)) in *.
    unfold inb in Bq, Bm.
    destruct (Z.eq_dec m (s * s * s - 1)) as [Hm|Hm].
    + assert (Eq : (d + 1) / (s * s * s) = q + 1 /\ (d + 1) mod (s * s * s) = 0).
      { replace (d + 1) with (s * s * s * (q + 1) + 0) by (rewrite Ed, Hm; ring).
        apply div_digit; lia. }
      destruct Eq as [Eq Em]. rewrite Eq, Em, Hm, F, L.
      assert (q = 0 \/ q = 1 \/ q = 2 \/ q = 3 \/ q = 4 \/ q = 5 \/ q = 6)
        as [->|[->|[->|[->|[->|[->| ->]]]]]] by nia; ground; cbn -[Z.mul Z.sub Z.add]; unfold dist3; cbn [fst snd]; lia.
    + assert (Eq : (d + 1) / (s * s * s) = q /\ (d + 1) mod (s * s * s) = m + 1).
      { replace (d + 1) with (s * s * s * q + (m + 1)) by lia. apply div_digit; lia. }
      destruct Eq as [Eq Em]. rewrite Eq, Em.
      specialize (IH m ltac:(lia) ltac:(lia)).
      destruct (hdec3 j m) as [[x y] z], (hdec3 j (m + 1)) as [[u v] w].
      set (rx := Z.lxor (Z.land 1 (q / 4)) (Z.land 1 (q / 2))).
      set (ry := Z.land 1 (q / 4)). set (rz := Z.lxor (Z.land 1 (q / 2)) (Z.land 1 q)).
      pose proof (rot3_dist s x y z u v w rx ry rz) as R.
      destruct (rot3 s x y z rx ry rz) as [[x' y'] z'], (rot3 s u v w rx ry rz) as [[u' v'] w'].
      rewrite IH in R. unfold dist3 in *. cbn [fst snd] in *. lia.
Qed.

(** ** Nesting *)
Lemma half_mod_div s x : 0 < s ->
  x / (2 * s) = (x / 2) / s /\ (x mod (2 * s)) / 2 = (x / 2) mod s.
Proof.
  intros Hs. split.
  - rewrite Z.div_div by lia. reflexivity.
  - rewrite Z.rem_mul_r by lia.
    rewrite Z.add_comm, Z.mul_comm, Z.div_add_l by lia.
    pose proof (Z.mod_pos_bound x 2). rewrite (Z.div_small (x mod 2)); lia.
Qed.

Lemma half_flip s x : (2 * s - 1 - x) / 2 = s - 1 - x / 2.
Proof.
  pose proof (Z.div_mod x 2). pose proof (Z.mod_pos_bound x 2).
  pose proof (Z.div_mod (2 * s - 1 - x) 2). pose proof (Z.mod_pos_bound (2 * s - 1 - x) 2). lia.
Qed.

Lemma rot2_half s x y rx ry :
  let '(a, b) := rot2 (2 * s) x y rx ry in
  rot2 s (x / 2) (y / 2) rx ry = (a / 2, b / 2).
Proof.
  unfold rot2. destruct (ry =? 0); [destruct (rx =? 1)|]; rewrite ?half_flip; reflexivity.
Qed.

Lemma rot3_half s x y z rx ry rz :
  let '(a, b, c) := rot3 (2 * s) x y z rx ry rz in
  rot3 s (x / 2) (y / 2) (z / 2) rx ry rz = (a / 2, b / 2, c / 2).
Proof.
  unfold rot3.
  destruct (rz =? 0); [destruct (rx =? 1); [|destruct (ry =? 1)]|destruct (ry =? 1)];
    rewrite ?half_flip; reflexivity.
Qed.

Lemma henc2_nested k : forall x y,
  inb (2 ^ Z.of_nat (S k)) x -> inb (2 ^ Z.of_nat (S k)) y ->
  henc2 (S k) x y / 4 = henc2 k (x / 2) (y / 2).
Proof.
  induction k as [|j IH]; intros x y Hx Hy.
  - pose proof (henc2_range 1 x y Hx Hy) as R. unfold inb in R. simpl in R |- *.
    apply Z.div_small. exact R.
  - pose proof (pow2_pos (Z.of_nat j) ltac:(lia)) as Hs.
    change (henc2 (S (S j)) x y) with
      (let s := 2 ^ Z.of_nat (S j) in
       let rx := x / s in let ry := y / s in
       let '(x', y') := rot2 s (x mod s) (y mod s) rx ry in
       s * s * Z.lxor (3 * rx) ry + henc2 (S j) x' y').
    cbv zeta. change (henc2 (S j) (x/2) (y/2)) with
      (let s := 2 ^ Z.of_nat j in
       let rx := (x/2) / s in let ry := (y/2) / s in
       let '(x', y') := rot2 s ((x/2) mod s) ((y/2) mod s) rx ry in
       s * s * Z.lxor (3 * rx) ry + henc2 j x' y').
    cbv zeta. rewrite two_s in Hx, Hy.
    specialize (IH). rewrite !(two_s j) in *. set (s := 2 ^ Z.of_nat j) in *.
    destruct (half_mod_div s x Hs) as [D1 M1]. destruct (half_mod_div s y Hs) as [D2 M2].
    assert (Mx : inb (2 * s) (x mod (2 * s))) by (apply Z.mod_pos_bound; lia).
    assert (My : inb (2 * s) (y mod (2 * s))) by (apply Z.mod_pos_bound; lia).
    pose proof (rot2_half s (x mod (2 * s)) (y mod (2 * s)) (x / (2 * s)) (y / (2 * s))) as R.
    pose proof (rot2_inb (2 * s) _ _ (x / (2 * s)) (y / (2 * s)) Mx My) as B.
    destruct (rot2 (2 * s) (x mod (2 * s)) (y mod (2 * s)) (x / (2 * s)) (y / (2 * s))) as [a b].
    destruct B as [Ba Bb].
    rewrite M1, M2, D1, D2 in R. rewrite R, <- D1, <- D2. rewrite <- IH by auto.
    replace (2 * s * (2 * s) * Z.lxor (3 * (x / (2 * s))) (y / (2 * s)))
      with ((s * s * Z.lxor (3 * (x / (2 * s))) (y / (2 * s))) * 4) by ring.
    rewrite Z.div_add_l by lia. reflexivity.
Qed.

Lemma henc3_nested k : forall x y z,
  inb (2 ^ Z.of_nat (S k)) x -> inb (2 ^ Z.of_nat (S k)) y -> inb (2 ^ Z.of_nat (S k)) z ->
  henc3 (S k) x y z / 8 = henc3 k (x / 2) (y / 2) (z / 2).
Proof.
  induction k as [|j IH]; intros x y z Hx Hy Hz.
  - pose proof (henc3_range 1 x y z Hx Hy Hz) as R. unfold inb in R. simpl in R |- *.
    apply Z.div_small. exact R.
  - pose proof (pow2_pos (Z.of_nat j) ltac:(lia)) as Hs.
    change (henc3 (S (S j)) x y z) with
      (let s := 2 ^ Z.of_nat (S j) in
       let rx := x / s in let ry := y / s in let rz := z / s in
       let '(x', y', z') := rot3 s (x mod s) (y mod s) (z mod s) rx ry rz in
       s * s * s * (4 * ry + Z.lxor (3 * Z.lxor ry rx) rz) + henc3 (S j) x' y' z').
    cbv zeta. change (henc3 (S j) (x/2) (y/2) (z/2)) with
      (let s := 2 ^ Z.of_nat j in
       let rx := (x/2) / s in let ry := (y/2) / s in let rz := (z/2) / s in
       let '(x', y', z') := rot3 s ((x/2) mod s) ((y/2) mod s) ((z/2) mod s) rx ry rz in
       s * s * s * (4 * ry + Z.lxor (3 * Z.lxor ry rx) rz) + henc3 j x' y' z').
    cbv zeta. rewrite two_s in Hx, Hy, Hz.
    rewrite !(two_s j) in *. set (s := 2 ^ Z.of_nat j) in *.
    destruct (half_mod_div s x Hs) as [D1 M1]. destruct (half_mod_div s y Hs) as [D2 M2].
    destruct (half_mod_div s z Hs) as [D3 M3].
    assert (Mx : inb (2 * s) (x mod (2 * s))) by (apply Z.mod_pos_bound; lia).
    assert (My : inb (2 * s) (y mod (2 * s))) by (apply Z.mod_pos_bound; lia).
    assert (Mz : inb (2 * s) (z mod (2 * s))) by (apply Z.mod_pos_bound; lia).
    pose proof (rot3_half s (x mod (2 * s)) (y mod (2 * s)) (z mod (2 * s))
                  (x / (2 * s)) (y / (2 * s)) (z / (2 * s))) as R.
    pose proof (rot3_inb (2 * s) _ _ _ (x / (2 * s)) (y / (2 * s)) (z / (2 * s)) Mx My Mz) as B.
    destruct (rot3 (2 * s) (x mod (2 * s)) (y mod (2 * s)) (z mod (2 * s))
                (x / (2 * s)) (y / (2 * s)) (z / (2 * s))) as [[a b] c].
    destruct B as (Ba & Bb & Bc).
    rewrite M1, M2, M3, D1, D2, D3 in R. rewrite R, <- D1, <- D2, <- D3. rewrite <- IH by auto.
    match goal with |- (2 * s * (2 * s) * (2 * s) * ?q + _) / 8 = _ =>
      replace (2 * s * (2 * s) * (2 * s) * q) with ((s * s * s * q) * 8) by ring end.
    rewrite Z.div_add_l by lia. reflexivity.
Qed.

(** ** The loops compute the recursive curve *)
Section Loops.
Variable W : Z.
Hypothesis HW : 0 <= W.

Lemma wrap_flip_mod k x : 0 <= k <= W ->
  (wrap W (2 ^ k - 1 - x)) mod 2 ^ k = 2 ^ k - 1 - x mod 2 ^ k.
Proof.
  intros. rewrite wrap_mod by lia. pose proof (pow2_pos k ltac:(lia)).
  rewrite Zminus_mod. pose proof (Z.mod_pos_bound x (2 ^ k) ltac:(lia)).
  rewrite (Z.mod_small (2 ^ k - 1)) by lia. apply Z.mod_small. lia.
Qed.

Lemma rotateD2_mod k x y rx ry : 0 <= k <= W ->
  let '(a, b) := rotateD2 W (2 ^ k) x y rx ry in
  rot2 (2 ^ k) (x mod 2 ^ k) (y mod 2 ^ k) rx ry = (a mod 2 ^ k, b mod 2 ^ k).
Proof.
  intros. unfold rotateD2, rot2. destruct (ry =? 0); [destruct (rx =? 1)|]; auto.
  rewrite !wrap_flip_mod by lia. reflexivity.
Qed.

Lemma rotateD3_mod k x y z rx ry rz : 0 <= k <= W ->
  let '(a, b, c) := rotateD3 W (2 ^ k) x y z rx ry rz in
  rot3 (2 ^ k) (x mod 2 ^ k) (y mod 2 ^ k) (z mod 2 ^ k) rx ry rz = (a mod 2 ^ k, b mod 2 ^ k, c mod 2 ^ k).
Proof.
  intros. unfold rotateD3, rot3.
  destruct (rz =? 0); [destruct (rx =? 1); [|destruct (ry =? 1)]|destruct (ry =? 1)]; auto;
  rewrite !wrap_flip_mod by lia; reflexivity.
Qed.

Lemma rotateD2_nonneg n x y rx ry : 0 <= x -> 0 <= y ->
  let '(a, b) := rotateD2 W n x y rx ry in 0 <= a /\ 0 <= b.
Proof.
  intros. unfold rotateD2. destruct (ry =? 0); [destruct (rx =? 1)|]; split; auto; apply wrap_range; auto.
Qed.

Lemma rotateD3_nonneg n x y z rx ry rz : 0 <= x -> 0 <= y -> 0 <= z ->
  let '(a, b, c) := rotateD3 W n x y z rx ry rz in 0 <= a /\ 0 <= b /\ 0 <= c.
Proof.
  intros. unfold rotateD3.
  destruct (rz =? 0); [destruct (rx =? 1); [|destruct (ry =? 1)]|destruct (ry =? 1)]; repeat split; auto; apply wrap_range; auto.
Qed.

Lemma mod_range k x : 0 <= k -> inb (2 ^ k) (x mod 2 ^ k).
Proof. intros. apply Z.mod_pos_bound. now apply pow2_pos. Qed.

Lemma mod_succ_mod k x : 0 <= k -> (x mod 2 ^ (k + 1)) mod 2 ^ k = x mod 2 ^ k.
Proof.
  intros. pose proof (pow2_pos k H). rewrite Z.pow_add_r by lia. change (2 ^ 1) with 2.
  rewrite Z.rem_mul_r by lia. rewrite Z.mul_comm, Z.mod_add by lia. apply Z.mod_mod; lia.
Qed.

Lemma half_pow j : 2 ^ Z.of_nat (S j) / 2 = 2 ^ Z.of_nat j.
Proof. rewrite two_s, Z.mul_comm, Z.div_mul; lia. Qed.

Lemma D2toD1_loop_spec k : forall fuel x y d,
  (k <= fuel)%nat -> Z.of_nat k <= W -> 0 <= x -> 0 <= y -> 0 <= d < 2 ^ W ->
  D2toD1_loop W fuel (2 ^ Z.of_nat k / 2) x y d =
  wrap W (d + henc2 k (x mod 2 ^ Z.of_nat k) (y mod 2 ^ Z.of_nat k)).
Proof.
  induction k as [|j IH]; intros fuel x y d Hf Hk Hx Hy Hd.
  - simpl. rewrite Z.add_0_r, wrap_small by lia. destruct fuel; reflexivity.
  - destruct fuel as [|f]; [lia|].
    rewrite half_pow. cbn [D2toD1_loop].
    pose proof (pow2_pos (Z.of_nat j) ltac:(lia)) as Hs.
    destruct (Z.gtb_spec (2 ^ Z.of_nat j) 0); [|lia].
    rewrite !bit_of_div by lia.
    rewrite (Nat2Z.inj_succ j), <- Z.add_1_r.
    set (k := Z.of_nat j) in *.
    cbn [henc2]. fold k.
    rewrite !mod_succ_mod by lia.
    set (rx := x mod 2 ^ (k + 1) / 2 ^ k). set (ry := y mod 2 ^ (k + 1) / 2 ^ k).
    pose proof (rotateD2_mod k x y rx ry ltac:(lia)) as R.
    pose proof (rotateD2_nonneg (2 ^ k) x y rx ry Hx Hy) as N.
    destruct (rotateD2 W (2 ^ k) x y rx ry) as [a b]. destruct N.
    rewrite R. rewrite IH; try lia; [|apply wrap_range; lia].
    fold k. rewrite wrap_add_l by lia.
    set (h := henc2 j _ _).
    unfold wrap. rewrite <- (Zplus_mod_idemp_l (d + _)), <- Zplus_mod_idemp_l.
    rewrite Zplus_mod_idemp_r. rewrite Zplus_mod_idemp_l.
    rewrite Zplus_mod_idemp_l. f_equal. ring.
Qed.

Lemma D2toD1_spec k x y :
  2 * Z.of_nat k <= W -> inb (2 ^ Z.of_nat k) x -> inb (2 ^ Z.of_nat k) y ->
  D2toD1 W (2 ^ Z.of_nat k) x y = henc2 k x y.
Proof.
  intros Hk Hx Hy. unfold D2toD1.
  pose proof (pow2_pos W HW).
  rewrite D2toD1_loop_spec; try (unfold inb in *; lia).
  rewrite !Z.mod_small by (unfold inb in *; lia). rewrite Z.add_0_l.
  apply wrap_small. pose proof (henc2_range k x y Hx Hy) as R. unfold inb in R.
  rewrite <- Z.pow_add_r in R by lia.
  pose proof (pow2_monotone (Z.of_nat k + Z.of_nat k) W ltac:(lia)). lia.
Qed.

Lemma D3toD1_loop_spec k : forall fuel x y z d,
  (k <= fuel)%nat -> Z.of_nat k <= W -> 0 <= x -> 0 <= y -> 0 <= z -> 0 <= d < 2 ^ W ->
  D3toD1_loop W fuel (2 ^ Z.of_nat k / 2) x y z d =
  wrap W (d + henc3 k (x mod 2 ^ Z.of_nat k) (y mod 2 ^ Z.of_nat k) (z mod 2 ^ Z.of_nat k)).
Proof.
  induction k as [|j IH]; intros fuel x y z d Hf Hk Hx Hy Hz Hd.
  - simpl. rewrite Z.add_0_r, wrap_small by lia. destruct fuel; reflexivity.
  - destruct fuel as [|f]; [lia|].
    rewrite half_pow. cbn [D3toD1_loop].
    pose proof (pow2_pos (Z.of_nat j) ltac:(lia)) as Hs.
    destruct (Z.gtb_spec (2 ^ Z.of_nat j) 0); [|lia].
    rewrite !bit_of_div by lia.
    rewrite (Nat2Z.inj_succ j), <- Z.add_1_r.
    set (k := Z.of_nat j) in *.
    cbn [henc3]. fold k.
    rewrite !mod_succ_mod by lia.
    set (rx := x mod 2 ^ (k + 1) / 2 ^ k). set (ry := y mod 2 ^ (k + 1) / 2 ^ k).
    set (rz := z mod 2 ^ (k + 1) / 2 ^ k).
    pose proof (rotateD3_mod k x y z rx ry rz ltac:(lia)) as R.
    pose proof (rotateD3_nonneg (2 ^ k) x y z rx ry rz Hx Hy Hz) as N.
    destruct (rotateD3 W (2 ^ k) x y z rx ry rz) as [[a b] c]. destruct N as (? & ? & ?).
    rewrite R. rewrite IH; try lia; [|apply wrap_range; lia].
    fold k. rewrite wrap_add_l by lia.
    set (h := henc3 j _ _ _).
    unfold wrap. rewrite <- (Zplus_mod_idemp_l (d + _)), <- Zplus_mod_idemp_l.
    rewrite Zplus_mod_idemp_r. rewrite Zplus_mod_idemp_l.
    rewrite Zplus_mod_idemp_l. f_equal. ring.
Qed.

Lemma D3toD1_spec k x y z :
  3 * Z.of_nat k <= W -> inb (2 ^ Z.of_nat k) x -> inb (2 ^ Z.of_nat k) y -> inb (2 ^ Z.of_nat k) z ->
  D3toD1 W (2 ^ Z.of_nat k) x y z = henc3 k x y z.
Proof.
  intros Hk Hx Hy Hz. unfold D3toD1.
  pose proof (pow2_pos W HW).
  rewrite D3toD1_loop_spec; try (unfold inb in *; lia).
  rewrite !Z.mod_small by (unfold inb in *; lia). rewrite Z.add_0_l.
  apply wrap_small. pose proof (henc3_range k x y z Hx Hy Hz) as R. unfold inb in R.
  rewrite <- !Z.pow_add_r in R by lia.
  pose proof (pow2_monotone (Z.of_nat k + Z.of_nat k + Z.of_nat k) W ltac:(lia)). lia.
Qed.

Lemma rotateD2_rot2 k x y rx ry : 0 <= k <= W -> inb (2 ^ k) x -> inb (2 ^ k) y ->
  rotateD2 W (2 ^ k) x y rx ry = rot2 (2 ^ k) x y rx ry.
Proof.
  intros Hk Hx Hy. unfold rotateD2, rot2, inb in *.
  pose proof (pow2_monotone k W Hk).
  destruct (ry =? 0); [destruct (rx =? 1)|]; auto. rewrite !wrap_small by lia. reflexivity.
Qed.

Lemma rotateD3_rot3 k x y z rx ry rz : 0 <= k <= W -> inb (2 ^ k) x -> inb (2 ^ k) y -> inb (2 ^ k) z ->
  rotateD3 W (2 ^ k) x y z rx ry rz = rot3 (2 ^ k) x y z rx ry rz.
Proof.
  intros Hk Hx Hy Hz. unfold rotateD3, rot3, inb in *.
  pose proof (pow2_monotone k W Hk).
  destruct (rz =? 0); [destruct (rx =? 1); [|destruct (ry =? 1)]|destruct (ry =? 1)]; auto;
   rewrite !wrap_small by lia; reflexivity.
Qed.

Lemma land1_mod t : Z.land 1 t = t mod 2.
Proof. rewrite Z.land_comm. change 1 with (Z.ones 1). rewrite Z.land_ones by lia. reflexivity. Qed.

Lemma lxor1_digit t r : (r = 0 \/ r = 1) ->
  Z.land 1 (Z.lxor t r) = Z.land 1 (Z.lxor (t mod 4) r).
Proof.
  intros Hr. apply Z.bits_inj'. intros i Hi. rewrite !Z.land_spec, !Z.lxor_spec.
  destruct (Z.eq_dec i 0) as [->|Hne].
  - change 4 with (2 ^ 2). rewrite Z.mod_pow2_bits_low by lia. reflexivity.
  - assert (Z.testbit 1 i = false) as ->; [|reflexivity].
    destruct i; try lia; reflexivity.
Qed.

Lemma mod4_half t : (t / 2) mod 2 = ((t mod 4) / 2) mod 2.
Proof.
  change 4 with (2 * 2). rewrite Z.rem_mul_r by lia.
  rewrite (Z.add_comm (t mod 2)), Z.mul_comm, Z.div_add_l by lia.
  pose proof (Z.mod_pos_bound t 2). rewrite (Z.div_small (t mod 2)) by lia.
  rewrite Z.add_0_r, Z.mod_mod; lia.
Qed.

Lemma mod_mul_mod d c m : 0 < c -> 0 < m -> (d mod (c * m)) mod c = d mod c.
Proof.
  intros. rewrite Z.rem_mul_r by lia.
  rewrite (Z.mul_comm c), Z.mod_add by lia. apply Z.mod_mod; lia.
Qed.

Lemma mod_mul_div d c m : 0 < c -> 0 < m -> (d mod (c * m)) / c = (d / c) mod m.
Proof.
  intros. rewrite Z.rem_mul_r by lia.
  rewrite Z.add_comm, (Z.mul_comm c), Z.div_add_l by lia.
  pose proof (Z.mod_pos_bound d c ltac:(lia)). rewrite (Z.div_small (d mod c)); lia.
Qed.

Lemma hdec2_digit j d :
  let s := 2 ^ Z.of_nat j in
  hdec2 (S j) (d mod (2 ^ Z.of_nat (S j) * 2 ^ Z.of_nat (S j))) =
  let t := d / (s * s) in
  let rx := Z.land 1 (t / 2) in
  let ry := Z.land 1 (Z.lxor t rx) in
  let '(x, y) := hdec2 j (d mod (s * s)) in
  let '(x', y') := rot2 s x y rx ry in
  (x' + s * rx, y' + s * ry).
Proof.
  intros s. pose proof (pow2_pos (Z.of_nat j) ltac:(lia)) as Hs. fold s in Hs.
  cbn [hdec2]. rewrite two_s. fold s.
  replace (2 * s * (2 * s)) with (s * s * 4) by ring.
  assert (Hss : 0 < s * s) by nia.
  assert (E1 : (d mod (s * s * 4)) / (s * s) = (d / (s * s)) mod 4).
  { apply mod_mul_div; lia. }
  assert (E2 : (d mod (s * s * 4)) mod (s * s) = d mod (s * s)).
  { apply mod_mul_mod; lia. }
  rewrite E1, E2. set (t := d / (s * s)).
  assert (Ex : Z.land 1 (t mod 4 / 2) = Z.land 1 (t / 2)).
  { rewrite !land1_mod. symmetry; apply mod4_half. }
  rewrite Ex. cbv zeta. rewrite (lxor1_digit t); [reflexivity|].
  rewrite land1_mod. pose proof (Z.mod_pos_bound (t / 2) 2). lia.
Qed.

Lemma mod8_4 t : (t / 4) mod 2 = ((t mod 8) / 4) mod 2.
Proof.
  change 8 with (4 * 2). rewrite Z.rem_mul_r by lia.
  rewrite (Z.add_comm (t mod 4)), Z.mul_comm, Z.div_add_l by lia.
  pose proof (Z.mod_pos_bound t 4). rewrite (Z.div_small (t mod 4)) by lia.
  rewrite Z.add_0_r, Z.mod_mod; lia.
Qed.
Lemma mod8_2 t : (t / 2) mod 2 = ((t mod 8) / 2) mod 2.
Proof.
  change 8 with (2 * 4). rewrite Z.rem_mul_r by lia.
  rewrite (Z.add_comm (t mod 2)), Z.mul_comm, Z.div_add_l by lia.
  pose proof (Z.mod_pos_bound t 2). rewrite (Z.div_small (t mod 2)) by lia.
  rewrite Z.add_0_r. change 4 with (2 * 2). rewrite Z.rem_mul_r by lia.
  rewrite Z.mul_comm, Z.mod_add by lia. symmetry; apply Z.mod_mod; lia.
Qed.
Lemma mod8_1 t : t mod 2 = (t mod 8) mod 2.
Proof.
  change 8 with (2 * 4). rewrite Z.rem_mul_r by lia.
  rewrite Z.mul_comm, Z.mod_add by lia. symmetry; apply Z.mod_mod; lia.
Qed.

Lemma hdec3_digit j d :
  let s := 2 ^ Z.of_nat j in
  hdec3 (S j) (d mod (2 ^ Z.of_nat (S j) * 2 ^ Z.of_nat (S j) * 2 ^ Z.of_nat (S j))) =
  let t := d / (s * s * s) in
  let rx := Z.lxor (Z.land 1 (t / 4)) (Z.land 1 (t / 2)) in
  let ry := Z.land 1 (t / 4) in
  let rz := Z.lxor (Z.land 1 (t / 2)) (Z.land 1 t) in
  let '(x, y, z) := hdec3 j (d mod (s * s * s)) in
  let '(x', y', z') := rot3 s x y z rx ry rz in
  (x' + s * rx, y' + s * ry, z' + s * rz).
Proof.
  intros s. pose proof (pow2_pos (Z.of_nat j) ltac:(lia)) as Hs. fold s in Hs.
  cbn [hdec3]. rewrite two_s. fold s. rewrite cube2.
  assert (Hss : 0 < s * s * s) by nia.
  assert (E1 : (d mod (s * s * s * 8)) / (s * s * s) = (d / (s * s * s)) mod 8).
  { apply mod_mul_div; lia. }
  assert (E2 : (d mod (s * s * s * 8)) mod (s * s * s) = d mod (s * s * s)).
  { apply mod_mul_mod; lia. }
  rewrite E1, E2. set (t := d / (s * s * s)).
  rewrite !land1_mod, <- mod8_4, <- mod8_2, <- mod8_1. reflexivity.
Qed.

(** the decoding loop started at digit [i] *)
Lemma D1toD2_loop_spec k i : forall fuel d,
  (k <= fuel)%nat -> Z.of_nat (i + k) < W ->  0 <= d ->
  let n := 2 ^ Z.of_nat (i + k) in
  let s := 2 ^ Z.of_nat i in
  let '(x, y) := hdec2 i (d mod (s * s)) in
  D1toD2_loop W fuel n s (d / (s * s)) x y = hdec2 (i + k) (d mod (n * n)).
Proof.
  revert i. induction k as [|j IH]; intros i fuel d Hf HiW Hd n s.
  - unfold n. rewrite Nat.add_0_r. fold s. destruct (hdec2 i (d mod (s * s))) as [x y].
    destruct fuel; [reflexivity|]. cbn [D1toD2_loop]. rewrite Z.ltb_irrefl. reflexivity.
  - destruct fuel as [|f]; [lia|].
    pose proof (pow2_pos (Z.of_nat i) ltac:(lia)) as Hs. fold s in Hs.
    assert (Hsn : s < n). { unfold s, n. apply Z.pow_lt_mono_r; lia. }
    specialize (IH (S i) f d ltac:(lia) ltac:(lia) Hd). cbv zeta in IH.
    replace (S i + j)%nat with (i + S j)%nat in IH by lia. fold n in IH.
    rewrite hdec2_digit in IH. fold s in IH. cbv zeta in IH.
    assert (Hss : 0 < s * s) by nia.
    pose proof (hdec2_range i (d mod (s * s)) ltac:(fold s; unfold inb; apply Z.mod_pos_bound; lia)) as Hr.
    fold s in Hr.
    destruct (hdec2 i (d mod (s * s))) as [x y]. destruct Hr as [Hx Hy].
    cbn [D1toD2_loop]. destruct (Z.ltb_spec s n); [|lia].
    set (t := d / (s * s)) in *. set (rx := Z.land 1 (t / 2)) in *.
    set (ry := Z.land 1 (Z.lxor t rx)) in *.
    unfold s at 1. rewrite rotateD2_rot2 by (fold s; auto; lia). fold s.
    pose proof (rot2_inb s x y rx ry Hx Hy) as Hrr.
    destruct (rot2 s x y rx ry) as [x' y']. destruct Hrr as [Hx' Hy'].
    assert (Brx : 0 <= rx < 2) by (unfold rx; rewrite land1_mod; apply Z.mod_pos_bound; lia).
    assert (Bry : 0 <= ry < 2) by (unfold ry; rewrite land1_mod; apply Z.mod_pos_bound; lia).
    assert (H4 : 2 * s < 2 ^ W).
    { unfold s. rewrite <- two_s. apply Z.pow_lt_mono_r; lia. }
    unfold inb in *.
    rewrite !wrap_small by nia.
    replace (s * 2) with (2 ^ Z.of_nat (S i)) by (rewrite two_s; fold s; ring).
    replace (t / 4) with (d / (2 ^ Z.of_nat (S i) * 2 ^ Z.of_nat (S i))).
    2:{ unfold t. rewrite Z.div_div by lia. f_equal. rewrite two_s. fold s. ring. }
    exact IH.
Qed.

Lemma D1toD2_spec k d :
  2 * Z.of_nat k <= W -> inb (2 ^ Z.of_nat k * 2 ^ Z.of_nat k) d ->
  D1toD2 W (2 ^ Z.of_nat k) d = hdec2 k d.
Proof.
  intros Hk Hd.
  destruct k as [|k'].
  - unfold D1toD2. simpl. destruct (Z.to_nat W); reflexivity.
  - pose proof (D1toD2_loop_spec (S k') 0 (Z.to_nat W) d ltac:(lia) ltac:(lia) ltac:(unfold inb in *; lia)) as L.
    cbv zeta in L. unfold D1toD2.
    change (2 ^ Z.of_nat 0) with 1 in L. change (1 * 1) with 1 in L.
    rewrite Z.mod_1_r, Z.div_1_r in L.
    change (hdec2 0 0) with (0, 0) in L. cbv iota beta in L. change (0 + S k')%nat with (S k') in L.
    rewrite L. f_equal. apply Z.mod_small. exact Hd.
Qed.

Lemma D1toD3_loop_spec k i : forall fuel d,
  (k <= fuel)%nat -> Z.of_nat (i + k) < W ->  0 <= d ->
  let n := 2 ^ Z.of_nat (i + k) in
  let s := 2 ^ Z.of_nat i in
  let '(x, y, z) := hdec3 i (d mod (s * s * s)) in
  D1toD3_loop W fuel n s (d / (s * s * s)) x y z = hdec3 (i + k) (d mod (n * n * n)).
Proof.
  revert i. induction k as [|j IH]; intros i fuel d Hf HiW Hd n s.
  - unfold n. rewrite Nat.add_0_r. fold s. destruct (hdec3 i (d mod (s * s * s))) as [[x y] z].
    destruct fuel; [reflexivity|]. cbn [D1toD3_loop]. rewrite Z.ltb_irrefl. reflexivity.
  - destruct fuel as [|f]; [lia|].
    pose proof (pow2_pos (Z.of_nat i) ltac:(lia)) as Hs. fold s in Hs.
    assert (Hsn : s < n). { unfold s, n. apply Z.pow_lt_mono_r; lia. }
    specialize (IH (S i) f d ltac:(lia) ltac:(lia) Hd). cbv zeta in IH.
    replace (S i + j)%nat with (i + S j)%nat in IH by lia. fold n in IH.
    rewrite hdec3_digit in IH. fold s in IH. cbv zeta in IH.
    assert (Hss : 0 < s * s * s) by nia.
    pose proof (hdec3_range i (d mod (s * s * s)) ltac:(fold s; unfold inb; apply Z.mod_pos_bound; lia)) as Hr.
    fold s in Hr.
    destruct (hdec3 i (d mod (s * s * s))) as [[x y] z]. destruct Hr as (Hx & Hy & Hz).
    cbn [D1toD3_loop]. destruct (Z.ltb_spec s n); [|lia].
    set (t := d / (s * s * s)) in *.
    set (rx := Z.lxor (Z.land 1 (t / 4)) (Z.land 1 (t / 2))) in *.
    set (ry := Z.land 1 (t / 4)) in *.
    set (rz := Z.lxor (Z.land 1 (t / 2)) (Z.land 1 t)) in *.
    unfold s at 1. rewrite rotateD3_rot3 by (fold s; auto; lia). fold s.
    pose proof (rot3_inb s x y z rx ry rz Hx Hy Hz) as Hrr.
    destruct (rot3 s x y z rx ry rz) as [[x' y'] z']. destruct Hrr as (Hx' & Hy' & Hz').
    assert (B4 : Z.land 1 (t / 4) = 0 \/ Z.land 1 (t / 4) = 1)
      by (rewrite land1_mod; pose proof (Z.mod_pos_bound (t/4) 2); lia).
    assert (B2 : Z.land 1 (t / 2) = 0 \/ Z.land 1 (t / 2) = 1)
      by (rewrite land1_mod; pose proof (Z.mod_pos_bound (t/2) 2); lia).
    assert (B1 : Z.land 1 t = 0 \/ Z.land 1 t = 1)
      by (rewrite land1_mod; pose proof (Z.mod_pos_bound t 2); lia).
    assert (Brx : 0 <= rx < 2) by (unfold rx, ry; destruct B4 as [-> | ->], B2 as [-> | ->]; cbn; lia).
    assert (Bry : 0 <= ry < 2) by (unfold ry; lia).
    assert (Brz : 0 <= rz < 2) by (unfold rz; destruct B2 as [-> | ->], B1 as [-> | ->]; cbn; lia).
    assert (H4 : 2 * s < 2 ^ W).
    { unfold s. rewrite <- two_s. apply Z.pow_lt_mono_r; lia. }
    unfold inb in *.
    rewrite !wrap_small by nia.
    replace (s * 2) with (2 ^ Z.of_nat (S i)) by (rewrite two_s; fold s; ring).
    replace (t / 8) with (d / (2 ^ Z.of_nat (S i) * 2 ^ Z.of_nat (S i) * 2 ^ Z.of_nat (S i))).
    2:{ unfold t. rewrite Z.div_div by lia. f_equal. rewrite two_s. fold s. ring. }
    exact IH.
Qed.

Lemma D1toD3_spec k d :
  3 * Z.of_nat k <= W -> inb (2 ^ Z.of_nat k * 2 ^ Z.of_nat k * 2 ^ Z.of_nat k) d ->
  D1toD3 W (2 ^ Z.of_nat k) d = hdec3 k d.
Proof.
  intros Hk Hd.
  destruct k as [|k'].
  - unfold D1toD3. simpl. destruct (Z.to_nat W); reflexivity.
  - pose proof (D1toD3_loop_spec (S k') 0 (Z.to_nat W) d ltac:(lia) ltac:(lia) ltac:(unfold inb in *; lia)) as L.
    cbv zeta in L. unfold D1toD3.
    change (2 ^ Z.of_nat 0) with 1 in L. change (1 * 1 * 1) with 1 in L.
    rewrite Z.mod_1_r, Z.div_1_r in L.
    change (hdec3 0 0) with (0, 0, 0) in L. cbv iota beta in L. change (0 + S k')%nat with (S k') in L.
    rewrite L. f_equal. apply Z.mod_small. exact Hd.
Qed.

End Loops.
