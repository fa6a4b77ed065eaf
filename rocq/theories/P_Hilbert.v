(** * Properties C01-C06: the Hilbert curve conversions

    [W] is the number of bits of [size_t].  The grid side is n = 2^k.  The only assumption is that
    the number of cells is representable ([2k <= W], resp. [3k <= W]); ESPRESO uses W = 64. *)
From Coq Require Import ZArith Lia.
From Verif Require Import Base M_Hilbert L_Hilbert.
Local Open Scope Z_scope.

(** C01 *)
Theorem hilbert2_cell_roundtrip : forall (W : Z) (k : nat) (x y : Z),
  let n := 2 ^ Z.of_nat k in
  2 * Z.of_nat k <= W -> 0 <= x < n -> 0 <= y < n ->
  D1toD2 W n (D2toD1 W n x y) = (x, y).
Proof.
  intros W k x y n HW Hx Hy. unfold n in *.
  rewrite D2toD1_spec by (unfold inb; auto; lia).
  rewrite D1toD2_spec by (auto; try lia; apply henc2_range; assumption).
  apply hdec2_henc2; assumption.
Qed.
Example hilbert2_cell_roundtrip_ex :
  2 * Z.of_nat 10 <= 64 /\ 0 <= 717 < 2 ^ Z.of_nat 10 /\ 0 <= 3 < 2 ^ Z.of_nat 10 /\
  D2toD1 64 (2 ^ Z.of_nat 10) 717 3 = 981748.
Proof. repeat split; vm_compute; congruence. Qed.

(** C02 *)
Theorem hilbert2_index_roundtrip : forall (W : Z) (k : nat) (d : Z),
  let n := 2 ^ Z.of_nat k in
  2 * Z.of_nat k <= W -> 0 <= d < n * n ->
  let '(x, y) := D1toD2 W n d in
  0 <= x < n /\ 0 <= y < n /\ D2toD1 W n x y = d.
Proof.
  intros W k d n HW Hd. unfold n in *.
  rewrite D1toD2_spec by (auto; lia).
  pose proof (hdec2_range k d Hd) as R. pose proof (henc2_hdec2 k d Hd) as E.
  destruct (hdec2 k d) as [x y]. destruct R as [Rx Ry]. repeat split; try apply Rx; try apply Ry.
  rewrite D2toD1_spec by (auto; lia). exact E.
Qed.
Theorem hilbert2_index_range : forall (W : Z) (k : nat) (x y : Z),
  let n := 2 ^ Z.of_nat k in
  2 * Z.of_nat k <= W -> 0 <= x < n -> 0 <= y < n ->
  0 <= D2toD1 W n x y < n * n.
Proof.
  intros W k x y n HW Hx Hy. unfold n in *.
  rewrite D2toD1_spec by (unfold inb; auto; lia). apply henc2_range; assumption.
Qed.
Example hilbert2_index_roundtrip_ex :
  0 <= 981748 < 2 ^ Z.of_nat 10 * 2 ^ Z.of_nat 10 /\
  D1toD2 64 (2 ^ Z.of_nat 10) 981748 = (717, 3).
Proof. repeat split; vm_compute; congruence. Qed.
(** The bound [2k <= W] is needed: with 64-bit words and n = 2^33 two cells share index 0. *)
Theorem hilbert2_overflow_refuted :
  exists x y, 0 <= x < 2 ^ 33 /\ 0 <= y < 2 ^ 33 /\ (x, y) <> (0, 0) /\
    D2toD1 64 (2 ^ 33) x y = D2toD1 64 (2 ^ 33) 0 0.
Proof. exists 0, (2 ^ 32). repeat split; vm_compute; congruence. Qed.

(** C03: the cells of consecutive indices differ by one in exactly one coordinate
    (on integers, a Manhattan distance of 1). *)
Theorem hilbert2_adjacent : forall (W : Z) (k : nat) (d : Z),
  let n := 2 ^ Z.of_nat k in
  2 * Z.of_nat k <= W -> 0 <= d -> d + 1 < n * n ->
  let '(x1, y1) := D1toD2 W n d in
  let '(x2, y2) := D1toD2 W n (d + 1) in
  Z.abs (x1 - x2) + Z.abs (y1 - y2) = 1.
Proof.
  intros W k d n HW H0 H1. unfold n in *.
  rewrite !D1toD2_spec by (unfold inb; auto; lia).
  pose proof (hdec2_step k d H0 H1) as S.
  destruct (hdec2 k d), (hdec2 k (d + 1)). exact S.
Qed.
Example hilbert2_adjacent_ex : (* crossing from the first to the second quadrant *)
  D1toD2 64 8 15 = (0, 3) /\ D1toD2 64 8 16 = (0, 4).
Proof. split; vm_compute; congruence. Qed.

(** C04 *)
Theorem hilbert3_cell_roundtrip : forall (W : Z) (k : nat) (x y z : Z),
  let n := 2 ^ Z.of_nat k in
  3 * Z.of_nat k <= W -> 0 <= x < n -> 0 <= y < n -> 0 <= z < n ->
  0 <= D3toD1 W n x y z < n * n * n /\
  D1toD3 W n (D3toD1 W n x y z) = (x, y, z).
Proof.
  intros W k x y z n HW Hx Hy Hz. unfold n in *.
  rewrite D3toD1_spec by (unfold inb; auto; lia).
  pose proof (henc3_range k x y z Hx Hy Hz) as R. split; [exact R|].
  rewrite D1toD3_spec by (auto; lia). apply hdec3_henc3; assumption.
Qed.
Theorem hilbert3_index_roundtrip : forall (W : Z) (k : nat) (d : Z),
  let n := 2 ^ Z.of_nat k in
  3 * Z.of_nat k <= W -> 0 <= d < n * n * n ->
  let '(x, y, z) := D1toD3 W n d in
  0 <= x < n /\ 0 <= y < n /\ 0 <= z < n /\ D3toD1 W n x y z = d.
Proof.
  intros W k d n HW Hd. unfold n in *.
  rewrite D1toD3_spec by (auto; lia).
  pose proof (hdec3_range k d Hd) as R. pose proof (henc3_hdec3 k d Hd) as E.
  destruct (hdec3 k d) as [[x y] z]. destruct R as (Rx & Ry & Rz).
  repeat split; try apply Rx; try apply Ry; try apply Rz.
  rewrite D3toD1_spec by (auto; lia). exact E.
Qed.
Example hilbert3_roundtrip_ex :
  3 * Z.of_nat 10 <= 64 /\ D3toD1 64 (2 ^ Z.of_nat 10) 5 1000 77 = 1071685778 /\
  D1toD3 64 (2 ^ Z.of_nat 10) 1071685778 = (5, 1000, 77).
Proof. repeat split; vm_compute; congruence. Qed.

(** C05 *)
Theorem hilbert3_adjacent : forall (W : Z) (k : nat) (d : Z),
  let n := 2 ^ Z.of_nat k in
  3 * Z.of_nat k <= W -> 0 <= d -> d + 1 < n * n * n ->
  let '(x1, y1, z1) := D1toD3 W n d in
  let '(x2, y2, z2) := D1toD3 W n (d + 1) in
  Z.abs (x1 - x2) + Z.abs (y1 - y2) + Z.abs (z1 - z2) = 1.
Proof.
  intros W k d n HW H0 H1. unfold n in *.
  rewrite !D1toD3_spec by (unfold inb; auto; lia).
  pose proof (hdec3_step k d H0 H1) as S.
  destruct (hdec3 k d) as [[? ?] ?], (hdec3 k (d + 1)) as [[? ?] ?]. exact S.
Qed.
Example hilbert3_adjacent_ex :
  D1toD3 64 4 7 = (0, 0, 1) /\ D1toD3 64 4 8 = (0, 0, 2).
Proof. split; vm_compute; congruence. Qed.

(** C06: refining the grid once splits every bucket in place *)
Theorem hilbert2_nested : forall (W : Z) (k : nat) (x y : Z),
  let n := 2 ^ Z.of_nat k in
  2 * (Z.of_nat k + 1) <= W -> 0 <= x < 2 * n -> 0 <= y < 2 * n ->
  D2toD1 W (2 * n) x y / 4 = D2toD1 W n (x / 2) (y / 2).
Proof.
  intros W k x y n HW Hx Hy. unfold n in *. rewrite <- two_s in *.
  rewrite D2toD1_spec by (unfold inb; auto; lia).
  rewrite henc2_nested by (unfold inb; auto; lia).
  rewrite two_s in *.
  rewrite D2toD1_spec; auto; try lia; split;
    try (apply Z.div_pos; lia); apply Z.div_lt_upper_bound; lia.
Qed.
Theorem hilbert3_nested : forall (W : Z) (k : nat) (x y z : Z),
  let n := 2 ^ Z.of_nat k in
  3 * (Z.of_nat k + 1) <= W -> 0 <= x < 2 * n -> 0 <= y < 2 * n -> 0 <= z < 2 * n ->
  D3toD1 W (2 * n) x y z / 8 = D3toD1 W n (x / 2) (y / 2) (z / 2).
Proof.
  intros W k x y z n HW Hx Hy Hz. unfold n in *. rewrite <- two_s in *.
  rewrite D3toD1_spec by (unfold inb; auto; lia).
  rewrite henc3_nested by (unfold inb; auto; lia).
  rewrite two_s in *.
  rewrite D3toD1_spec; auto; try lia; split;
    try (apply Z.div_pos; lia); apply Z.div_lt_upper_bound; lia.
Qed.
Example hilbert_nested_ex :
  D2toD1 64 16 13 6 = 205 /\ D2toD1 64 8 6 3 = 51 /\
  D3toD1 64 16 13 6 9 = 1310 /\ D3toD1 64 8 6 3 4 = 163.
Proof. repeat split; vm_compute; congruence. Qed.

Print Assumptions hilbert2_cell_roundtrip.
Print Assumptions hilbert2_index_roundtrip.
Print Assumptions hilbert2_index_range.
Print Assumptions hilbert2_overflow_refuted.
Print Assumptions hilbert2_adjacent.
Print Assumptions hilbert3_cell_roundtrip.
Print Assumptions hilbert3_index_roundtrip.
Print Assumptions hilbert3_adjacent.
Print Assumptions hilbert2_nested.
Print Assumptions hilbert3_nested.
