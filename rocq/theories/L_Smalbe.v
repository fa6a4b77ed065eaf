(** * Lemmas about SMALBE in exact arithmetic: the augmented operator *)
From Coq Require Import List Reals Bool Lra Lia.
From Verif Require Import Base M_DualVector S_Mprgp S_Smalbe L_RVec L_Mprgp L_Mprgp2.
Import ListNotations.
Local Open Scope R_scope.

Local Notation comb := combination.
Local Notation sp := scalar_product.
Definition scaled (a : R) (x : list R) : list R := map (Rmult a) x.

Lemma scaled_length a x : length (scaled a x) = length x.
Proof. apply map_length. Qed.
Lemma sp_scaled_l a x y : sp (scaled a x) y = a * sp x y.
Proof.
  revert y; induction x as [|u x IH]; intros [|v y]; cbn [scaled map]; rewrite ?sp_cons, ?sp_nil_l, ?sp_nil_r; try ring.
  fold (scaled a x). rewrite IH. ring.
Qed.
Lemma sp_scaled_r a x y : sp y (scaled a x) = a * sp y x.
Proof. rewrite !(sp_comm y). apply sp_scaled_l. Qed.

(** two vectors with the same scalar products are equal *)
Local Lemma rebuild (x y : list R) : length x = length y -> comb x 1 (comb y (-1) x) = y.
Proof.
  revert y; induction x as [|a x IH]; intros [|c y] E; try discriminate; auto.
  rewrite !comb_cons, IH by (cbn in E; lia). f_equal. ring.
Qed.
Lemma vec_ext n x y : length x = n -> length y = n -> (forall z, length z = n -> sp x z = sp y z) -> x = y.
Proof.
  intros Ex Ey H.
  assert (Z : is_zero (comb x (-1) y)).
  { apply sp_self_zero. rewrite sp_comb_l by congruence.
    rewrite (H (comb x (-1) y)) by (now apply comb_len). ring. }
  rewrite <- (rebuild y x) by congruence.
  rewrite comb_ext_zero; auto. rewrite comb_length by congruence. congruence.
Qed.

Lemma scaled_comb a x : scaled a x = comb x (a - 1) x.
Proof.
  induction x as [|u x IH]; auto. rewrite comb_cons, <- IH. cbn. f_equal. ring.
Qed.
Lemma map_scaled n m A a x : linear_map n m A -> length x = n -> A (scaled a x) = scaled a (A x).
Proof. intros [L1 L2] E. rewrite !scaled_comb, L2; auto. Qed.
Lemma scaled_zero a x : is_zero x -> is_zero (scaled a x).
Proof. unfold is_zero. intros Z. apply Forall_map. eapply Forall_impl; [|exact Z]. cbn. intros ? ->. ring. Qed.
Lemma map_zero n m A x : linear_map n m A -> length x = n -> is_zero x -> is_zero (A x).
Proof.
  intros [L1 L2] E Z.
  assert (X : x = comb x (-1) x).
  { apply is_zero_unique; auto using comb_minus_self. now rewrite comb_length. }
  rewrite X, L2 by auto. apply comb_minus_self.
Qed.

Section Coarse.
Variables n m : nat.
Variables G Gt invL invU invLG GtinvU P F : list R -> list R.
Hypothesis CS : coarse_space n m G Gt invL invU invLG GtinvU P.
Hypothesis CO : constrained_operator n G F.
Variables N rho : R.
Hypothesis HN : 0 < N.
Hypothesis Hrho : 0 < rho.

Lemma c_len x : length x = n -> length (invLG x) = m.
Proof. intros E. destruct CS. rewrite cs_invLG by auto. apply (proj1 cs_invL), (proj1 cs_G), E. Qed.
Lemma ct_len v : length v = m -> length (GtinvU v) = n.
Proof. intros E. destruct CS. rewrite cs_GtinvU by auto. apply (proj1 cs_Gt), (proj1 cs_invU), E. Qed.
Lemma adj x v : length x = n -> length v = m -> sp (invLG x) v = sp x (GtinvU v).
Proof.
  intros Ex Ev. destruct CS. rewrite cs_invLG, cs_GtinvU by auto.
  rewrite cs_transposed by (auto; now apply cs_G). apply cs_adjoint; auto. now apply cs_invU.
Qed.
Lemma cct v : length v = m -> invLG (GtinvU v) = v.
Proof. intros E. pose proof (ct_len v E) as L. destruct CS. rewrite cs_invLG by auto. rewrite cs_GtinvU by auto. auto. Qed.
Lemma c_lin : linear_map n m invLG.
Proof.
  split; [apply c_len|]. intros x a y Ex Ey. destruct CS. rewrite !cs_invLG by (auto; now apply comb_len).
  rewrite (proj2 cs_G) by auto. apply (proj2 cs_invL); now apply cs_G.
Qed.
Lemma ct_lin : linear_map m n GtinvU.
Proof.
  split; [apply ct_len|]. intros x a y Ex Ey. destruct CS. rewrite !cs_GtinvU by (auto; now apply comb_len).
  rewrite (proj2 cs_invU) by auto. apply (proj2 cs_Gt); now apply cs_invU.
Qed.
Lemma P_eq x : length x = n -> P x = comb x (-1) (GtinvU (invLG x)).
Proof. intros E. pose proof (c_len x E). destruct CS. rewrite cs_project, cs_GtinvU, cs_invLG; auto. Qed.
Lemma P_len x : length x = n -> length (P x) = n.
Proof. intros E. rewrite P_eq by auto. apply comb_len; auto. apply ct_len, c_len, E. Qed.
Lemma sp_P x y : length x = n -> length y = n -> sp (P x) y = sp x y - sp (invLG x) (invLG y).
Proof.
  intros Ex Ey. rewrite P_eq by auto. rewrite sp_comb_l by (rewrite ct_len; auto; now apply c_len).
  rewrite (sp_comm (GtinvU _)), <- adj by (auto; now apply c_len). rewrite (sp_comm (invLG y)). ring.
Qed.
Lemma P_sym x y : length x = n -> length y = n -> sp x (P y) = sp (P x) y.
Proof. intros Ex Ey. rewrite (sp_comm x), !sp_P by auto. rewrite (sp_comm y), (sp_comm (invLG y)). ring. Qed.
Lemma P_lin : linear n P.
Proof.
  split; [apply P_len|]. intros x a y Ex Ey. pose proof (comb_len n x a y Ex Ey).
  apply (vec_ext n); [apply P_len; auto|apply comb_len; now apply P_len|]. intros z Ez.
  rewrite sp_comb_l by (rewrite !P_len; auto). rewrite !sp_P by auto. rewrite (proj2 c_lin) by auto.
  rewrite !sp_comb_l by (rewrite ?c_len; auto; congruence). ring.
Qed.
Lemma cP x : length x = n -> is_zero (invLG (P x)).
Proof.
  intros E. rewrite P_eq, (proj2 c_lin), cct by (auto; try apply ct_len; now apply c_len). apply comb_minus_self.
Qed.
Lemma cG x : length x = n -> is_zero (invLG x) <-> is_zero (G x).
Proof.
  intros E. rewrite (cs_invLG _ _ _ _ _ _ _ _ _ CS) by auto. split.
  - apply CS. now apply CS.
  - apply (map_zero m m). apply CS. now apply CS.
Qed.
Lemma P_id x : length x = n -> is_zero (invLG x) -> P x = x.
Proof.
  intros E Z. rewrite P_eq by auto. apply comb_ext_zero.
  - apply (map_zero m n); auto using ct_lin, c_len.
  - now rewrite ct_len by (now apply c_len).
Qed.
Lemma F_len x : length x = n -> length (F x) = n.
Proof. apply CO. Qed.

(** (1/N) P F P x + rho (x - P x), as it is computed *)
Definition aug (x : list R) : list R := comb (comb (scaled (1 / N) (P (F (P x)))) rho x) (- rho) (P x).
Lemma aug_len x : length x = n -> length (aug x) = n.
Proof.
  intros E. pose proof (P_len x E). unfold aug. apply comb_len; auto. apply comb_len; auto.
  rewrite scaled_length. now apply P_len, F_len.
Qed.
Lemma sp_aug x y : length x = n -> length y = n ->
  sp (aug x) y = / N * sp (F (P x)) (P y) + rho * sp (invLG x) (invLG y).
Proof.
  intros Ex Ey. pose proof (P_len x Ex) as L1. pose proof (F_len _ L1) as L2. pose proof (P_len _ L2) as L3.
  unfold aug.
  rewrite !sp_comb_l by (rewrite ?comb_length, ?scaled_length; rewrite ?scaled_length; congruence).
  rewrite sp_scaled_l. rewrite <- (P_sym (F (P x)) y) by auto. rewrite (sp_P x y) by auto. field. lra.
Qed.
Lemma aug_lin : linear n aug.
Proof.
  split; [apply aug_len|]. intros x a y Ex Ey. pose proof (comb_len n x a y Ex Ey).
  apply (vec_ext n); [now apply aug_len|apply comb_len; now apply aug_len|]. intros z Ez.
  rewrite sp_comb_l by (rewrite !aug_len; auto). rewrite !sp_aug by auto.
  rewrite (proj2 P_lin), (proj2 c_lin) by auto. rewrite (proj2 (co_linear _ _ _ CO)) by (now apply P_len).
  rewrite !sp_comb_l by (rewrite ?c_len, ?F_len; auto; rewrite ?P_len; auto). ring.
Qed.
Lemma aug_sym : symmetric n aug.
Proof.
  intros x y Ex Ey. rewrite (sp_comm x), !sp_aug by auto.
  rewrite (sp_comm (F (P y))), (co_symmetric _ _ _ CO), (sp_comm (invLG x)) by (now apply P_len). reflexivity.
Qed.
Lemma F_nonneg x : length x = n -> is_zero (invLG x) -> 0 <= sp x (F x).
Proof.
  intros E Z. destruct (is_zero_dec x) as [X|X].
  - rewrite sp_zero_l; auto. lra.
  - left. apply CO; auto. now apply cG.
Qed.
Lemma aug_pd : positive_definite n aug.
Proof.
  intros x Ex Nz. rewrite sp_comm, sp_aug by auto. pose proof (P_len x Ex) as L.
  pose proof (F_nonneg _ L (cP x Ex)) as A1. rewrite (sp_comm (F (P x))).
  pose proof (Rinv_0_lt_compat _ HN). pose proof (sp_self (invLG x)).
  assert (0 <= / N * sp (P x) (F (P x))) by (apply Rmult_le_pos; lra).
  destruct (is_zero_dec (invLG x)) as [Z|Z].
  - rewrite P_id by auto. rewrite (sp_zero_l _ _ Z). rewrite Rmult_0_r, Rplus_0_r.
    apply Rmult_lt_0_compat; auto. apply CO; auto. now apply cG.
  - assert (sp (invLG x) (invLG x) <> 0) by (intros Q; apply Z, sp_self_zero, Q). 
    assert (0 < rho * sp (invLG x) (invLG x)) by (apply Rmult_lt_0_compat; lra). lra.
Qed.

(** the preconditioner *)
Variable M : list R -> list R.
Hypothesis HM : preconditioner n M.
Definition aug_prec (x : list R) : list R := comb (comb (scaled N (P (M (P x)))) (1 / rho) x) (-1 / rho) (P x).
Lemma aug_prec_ok : preconditioner n aug_prec.
Proof.
  destruct HM as [M1 M2].
  assert (L : forall x, length x = n -> length (aug_prec x) = n).
  { intros x E. pose proof (P_len x E). unfold aug_prec. apply comb_len; auto. apply comb_len; auto.
    rewrite scaled_length. now apply P_len, M1. }
  split; auto. intros x Ex Nz. pose proof (P_len x Ex) as L1. pose proof (M1 _ L1) as L2. pose proof (P_len _ L2) as L3.
  assert (E : sp x (aug_prec x) = N * sp (P x) (M (P x)) + / rho * sp (invLG x) (invLG x)).
  { rewrite sp_comm. unfold aug_prec.
    rewrite !sp_comb_l by (rewrite ?comb_length, ?scaled_length; rewrite ?scaled_length; congruence).
    rewrite sp_scaled_l. rewrite <- (P_sym (M (P x)) x) by auto. rewrite (sp_P x x) by auto. rewrite (sp_comm (M (P x))). field. lra. }
  rewrite E. pose proof (Rinv_0_lt_compat _ Hrho) as Ir. pose proof (sp_self (invLG x)).
  destruct (is_zero_dec (P x)) as [Z|Z].
  - rewrite (sp_zero_l _ _ Z).
    assert (invLG x <> [] -> True) by auto.
    assert (sp (invLG x) (invLG x) <> 0).
    { intros Q. apply sp_self_zero in Q. apply Nz. now rewrite <- (P_id x Ex Q). }
    assert (0 < / rho * sp (invLG x) (invLG x)) by (apply Rmult_lt_0_compat; lra). lra.
  - pose proof (M2 _ L1 Z). assert (0 < N * sp (P x) (M (P x))) by (apply Rmult_lt_0_compat; lra).
    assert (0 <= / rho * sp (invLG x) (invLG x)) by (apply Rmult_le_pos; lra). lra.
Qed.
End Coarse.

(** no preconditioner *)
Lemma copy_ok n : preconditioner n (fun x => x).
Proof.
  split; auto. intros x E Z. pose proof (sp_self x). assert (sp x x <> 0) by (intros Q; apply Z, sp_self_zero, Q). lra.
Qed.

(** ** translated bounds *)
Lemma between_shift ls us x s : length s = length x -> length ls = length x -> length us = length x ->
  between (comb ls (-1) s) (comb us (-1) s) x <-> between ls us (comb x 1 s).
Proof.
  revert us x s; induction ls as [|l ls IH]; intros [|u us] [|a x] [|c s] E E1 E2; try discriminate.
  - cbn. tauto.
  - rewrite !comb_cons. cbn [between]. rewrite IH by (cbn in *; lia). split; intros [A B]; split; auto; lra.
Qed.

Lemma entries_shift al ls us g x s : length s = length x ->
  projected_entries al (comb ls (-1) s) (comb us (-1) s) g x = projected_entries al ls us g (comb x 1 s).
Proof.
  revert us g x s; induction ls as [|l ls IH]; intros [|u us] [|c g] [|a x] [|t s] E; try discriminate E; auto;
    rewrite ?comb_cons; cbn [projected_entries]; auto.
  rewrite IH by (cbn in E; lia). f_equal. unfold projected_entry.
  assert (E' : forall p q, p - Rmax (l + -1 * t) (Rmin (u + -1 * t) q) = p + t - Rmax l (Rmin u (q + t))).
  { intros p q. unfold Rmax, Rmin. destruct (Rle_dec (u + -1 * t) q), (Rle_dec u (q + t)); try lra.
    all: repeat match goal with |- context [Rle_dec ?p ?q] => destruct (Rle_dec p q) end; lra. }
  rewrite E'. rewrite Rmult_1_l. do 4 f_equal. ring.
Qed.
