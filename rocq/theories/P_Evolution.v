(** * C54: the exhaustive search proposes every combination once before it repeats *)
From Coq Require Import ZArith List Bool Lia.
From Verif Require Import Base M_Evolution S_Evolution.
Import ListNotations.
Local Open Scope Z_scope.

(** the ranges of the parameters *)
Definition has_range (p : dtype) (r : Z * Z) : Prop :=
  parameter_min p = Ok (fst r) /\ parameter_max p = Ok (snd r).

(** the vector after the values [vs] were reported *)
Definition ap_run (ps : list dtype) (vs : list Z) : outcome (list Z) :=
  obind (ap_init ps) (foldM (ap_evaluate ps) vs).

(** ** numbers with mixed radices, the least significant digit first *)
Definition size (r : Z * Z) : Z := snd r - fst r + 1.
Fixpoint digits (rs : list (Z * Z)) (k : Z) : list Z :=
  match rs with
  | [] => []
  | r :: rs => fst r + k mod size r :: digits rs (k / size r)
  end.
Definition nonempty (r : Z * Z) : Prop := fst r <= snd r.

Lemma digits_length rs k : length (digits rs k) = length rs.
Proof. revert k; induction rs; simpl; intros; auto. Qed.

Lemma combinations_pos rs : Forall nonempty rs -> 0 < combinations rs.
Proof.
  induction 1 as [|[lo hi] rs H _ IH]; simpl; [lia|]. unfold nonempty in H. simpl in H. nia.
Qed.

Lemma combinations_app a b : combinations (a ++ b) = combinations a * combinations b.
Proof. induction a as [|[lo hi] a IH]; cbn [combinations app]; [lia|]. rewrite IH. lia. Qed.

Lemma combinations_rev rs : combinations (rev rs) = combinations rs.
Proof.
  induction rs as [|[lo hi] a IH]; simpl; auto.
  rewrite combinations_app, IH. cbn [combinations]. lia.
Qed.

Lemma digits_periodic rs k : Forall nonempty rs -> digits rs (k + combinations rs) = digits rs k.
Proof.
  intros H. revert k. induction H as [|[lo hi] rs H _ IH]; intros k; cbn [digits]; auto.
  unfold nonempty in H. cbn [fst snd] in H. unfold size. cbn [combinations fst snd].
  set (s := hi - lo + 1). assert (0 < s) by (unfold s; lia).
  f_equal.
  - f_equal. rewrite Z.mul_comm, Z.mod_add; lia.
  - rewrite Z.mul_comm, Z.div_add by lia. apply IH.
Qed.

Lemma digits_inj rs k k' : Forall nonempty rs ->
  0 <= k < combinations rs -> 0 <= k' < combinations rs -> digits rs k = digits rs k' -> k = k'.
Proof.
  intros H. revert k k'. induction H as [|[lo hi] rs H _ IH]; intros k k' B B' E; cbn [digits combinations] in *; [lia|].
  unfold nonempty in H. unfold size in *. cbn [fst snd] in *.
  set (s := hi - lo + 1) in *. assert (0 < s) by (unfold s; lia).
  injection E as E1 E2.
  assert (k / s = k' / s).
  { apply IH; auto; split; try (apply Z.div_pos; lia); apply Z.div_lt_upper_bound; lia. }
  assert (k mod s = k' mod s) by lia.
  rewrite (Z.div_mod k s), (Z.div_mod k' s) by lia. congruence.
Qed.

Lemma digits_combination rs k : Forall nonempty rs -> combination rs (digits rs k).
Proof.
  intros H. revert k. unfold combination. induction H as [|[lo hi] rs H _ IH]; intros k; cbn [digits]; constructor; auto.
  unfold nonempty in H. unfold size. cbn [fst snd] in *.
  pose proof (Z.mod_pos_bound k (hi - lo + 1)). lia.
Qed.

Lemma digits_onto rs v : combination rs v -> exists k, 0 <= k < combinations rs /\ digits rs k = v.
Proof.
  unfold combination. induction 1 as [|[lo hi] x rs v H _ (k & B & E)]; cbn [combinations digits].
  - exists 0. split; [lia|auto].
  - unfold size. cbn [fst snd] in *. set (s := hi - lo + 1) in *.
    exists ((x - lo) + k * s). split; [unfold s; nia|].
    f_equal.
    + rewrite Z.mod_add, Z.mod_small by (unfold s; lia). lia.
    + rewrite Z.div_add, Z.div_small by (unfold s; lia). exact E.
Qed.

(** the specimen proposed after [k] evaluations, the most significant digit first *)
Definition specimen (rs : list (Z * Z)) (k : Z) : list Z := rev (digits (rev rs) k).

Lemma specimen_length rs k : length (specimen rs k) = length rs.
Proof. unfold specimen. now rewrite rev_length, digits_length, rev_length. Qed.

Lemma specimen_snoc rs r k :
  specimen (rs ++ [r]) k = specimen rs (k / size r) ++ [fst r + k mod size r].
Proof. unfold specimen. rewrite rev_app_distr. cbn [rev app digits]. reflexivity. Qed.

Lemma combination_rev rs v : combination rs v -> combination (rev rs) (rev v).
Proof.
  unfold combination. induction 1; simpl; auto. apply Forall2_app; auto.
Qed.

Lemma nonempty_rev rs : Forall nonempty rs -> Forall nonempty (rev rs).
Proof. intros H. apply Forall_forall. intros x I. apply in_rev in I. rewrite Forall_forall in H. auto. Qed.

Lemma upd_mid {B} (a b : list B) x y : upd (a ++ x :: b) (length a) y = a ++ y :: b.
Proof. induction a; simpl; auto. now f_equal. Qed.

Lemma Forall2_length {B C} (R : B -> C -> Prop) l l' : Forall2 R l l' -> length l = length l'.
Proof. induction 1; simpl; auto. Qed.

Lemma NoDup_map_in {B C} (f : B -> C) l :
  (forall x y, In x l -> In y l -> f x = f y -> x = y) -> NoDup l -> NoDup (map f l).
Proof.
  intros H. induction 1 as [|a l N ND IH]; simpl; constructor.
  - intros I. apply in_map_iff in I. destruct I as (b & E & I). apply N.
    rewrite (H a b); simpl; auto.
  - apply IH. intros; apply H; simpl; auto.
Qed.

Definition bounded (r : Z * Z) : Prop := int_min <= fst r <= snd r /\ snd r < int_max.

Lemma carry_step ps rs qs tail k :
  Forall2 has_range ps rs -> Forall bounded rs ->
  ap_carry (ps ++ qs) (length ps) (specimen rs k ++ tail) = Ok (specimen rs (k + 1) ++ tail).
Proof.
  revert rs qs tail k. induction ps as [|p ps IH] using rev_ind; intros rs qs tail k F B.
  - inversion F; subst. reflexivity.
  - apply Forall2_app_inv_l in F. destruct F as (rs' & r1 & F & F1 & ->).
    inversion F1 as [|? r ? ? Hr F2]; subst. inversion F2; subst. clear F1 F2.
    apply Forall_app in B. destruct B as [B Br]. inversion Br as [|? ? [Lo Hi] _]; subst.
    destruct Hr as [Hmin Hmax].
    pose proof (Forall2_length _ _ _ F) as L.
    assert (S0 : 0 < size r) by (unfold size; lia).
    pose proof (Z.mod_pos_bound k (size r) S0) as M.
    rewrite !specimen_snoc, <- !app_assoc. cbn [app].
    rewrite app_length, Nat.add_1_r. cbn [length ap_carry].
    assert (R : rd (specimen rs' (k / size r) ++ fst r + k mod size r :: tail) (length ps)
              = Ok (fst r + k mod size r)).
    { unfold rd. rewrite nth_error_app2 by (rewrite specimen_length; lia).
      rewrite specimen_length, L, Nat.sub_diag. reflexivity. }
    rewrite R. cbn [obind]. unfold to_int. unfold size in M.
    replace ((int_min <=? fst r + k mod size r + 1) && (fst r + k mod size r + 1 <=? int_max)) with true
      by (symmetry; apply andb_true_intro; unfold size; split; apply Z.leb_le; lia).
    cbn [obind].
    assert (R2 : rd (ps ++ p :: qs) (length ps) = Ok p).
    { unfold rd. rewrite nth_error_app2, Nat.sub_diag by lia. reflexivity. }
    rewrite R2. cbn [obind]. rewrite Hmax. cbn [obind]. rewrite Hmin. cbn [obind].
    assert (WR : forall x, wr (specimen rs' (k / size r) ++ fst r + k mod size r :: tail) (length ps) x
                 = Ok (specimen rs' (k / size r) ++ x :: tail)).
    { intros x. rewrite wr_ok by (rewrite app_length, specimen_length; simpl; lia).
      replace (length ps) with (length (specimen rs' (k / size r))) by (rewrite specimen_length; auto).
      now rewrite upd_mid. }
    rewrite !WR. cbn [obind].
    destruct (Z.ltb_spec (snd r) (fst r + k mod size r + 1)) as [O|O].
    + assert (E : k mod size r = size r - 1) by (unfold size in *; lia).
      rewrite IH by auto.
      assert (D : (k + 1) / size r = k / size r + 1 /\ (k + 1) mod size r = 0).
      { assert (K : k + 1 = 0 + (k / size r + 1) * size r) by (pose proof (Z.div_mod k (size r)); lia).
        rewrite K, Z.div_add, Z.mod_add by lia. rewrite Z.div_small, Z.mod_small by lia. lia. }
      destruct D as [-> ->]. now rewrite Z.add_0_r.
    + assert (D : (k + 1) / size r = k / size r /\ (k + 1) mod size r = k mod size r + 1).
      { assert (K : k + 1 = (k mod size r + 1) + k / size r * size r) by (pose proof (Z.div_mod k (size r)); lia).
        rewrite K, Z.div_add, Z.mod_add by lia. rewrite Z.div_small, Z.mod_small by (unfold size in *; lia). lia. }
      destruct D as [-> ->]. now rewrite Z.add_assoc.
Qed.

Lemma init_specimen ps rs : Forall2 has_range ps rs -> ap_init ps = Ok (specimen rs 0).
Proof.
  intros F. unfold ap_init.
  assert (G : forall acc, foldM ap_init_step ps acc = Ok (acc ++ map fst rs)).
  { induction F as [|p r ps rs [Hmin _] F IH]; intros acc; cbn [foldM map].
    - now rewrite app_nil_r.
    - unfold ap_init_step at 1. rewrite Hmin. cbn [obind]. rewrite IH.
      now rewrite <- app_assoc. }
  rewrite G. cbn [app]. f_equal. clear. unfold specimen.
  assert (D : forall l, digits l 0 = map fst l).
  { induction l; cbn [digits map]; auto. rewrite Zmod_0_l, Zdiv_0_l, Z.add_0_r. now f_equal. }
  now rewrite D, <- map_rev, rev_involutive.
Qed.

Lemma run_specimen ps rs vs :
  Forall2 has_range ps rs -> Forall bounded rs ->
  ap_run ps vs = Ok (specimen rs (Z.of_nat (length vs)) ++ vs).
Proof.
  intros F B. unfold ap_run. rewrite (init_specimen ps rs F). cbn [obind].
  induction vs as [|v vs IH] using rev_ind; cbn [foldM]; [now rewrite app_nil_r|].
  rewrite foldM_app, IH. cbn [obind foldM]. unfold ap_evaluate.
  rewrite <- app_assoc. pose proof (carry_step ps rs [] (vs ++ [v]) (Z.of_nat (length vs)) F B) as C.
  rewrite app_nil_r in C. rewrite C. cbn [obind].
  rewrite app_length. cbn [length]. do 3 f_equal. lia.
Qed.

(** C54: for parameters with the ranges [rs] below the largest int, whatever values are reported, the
    proposed specimens depend only on the number of reports; the first [combinations rs] specimens
    are exactly all combinations, each once, and then the search repeats. *)
Theorem all_permutations_once ps rs :
  Forall2 has_range ps rs ->
  Forall (fun r => int_min <= fst r <= snd r /\ snd r < int_max) rs ->
  exists proposal : nat -> list Z,
    (forall vs, exists last, ap_run ps vs = Ok last /\
       firstn (length ps) last = proposal (length vs)) /\
    (let N := Z.to_nat (combinations rs) in
     NoDup (map proposal (seq 0 N)) /\
     (forall v, In v (map proposal (seq 0 N)) <-> combination rs v) /\
     (forall k, proposal (k + N)%nat = proposal k)).
Proof.
  intros F B.
  assert (NE : Forall nonempty rs).
  { eapply Forall_impl; [|exact B]. unfold nonempty. intros; simpl in *; lia. }
  pose proof (nonempty_rev _ NE) as NR. pose proof (combinations_pos _ NE) as P.
  exists (fun k => specimen rs (Z.of_nat k)). split; [|cbv zeta; split; [|split]].
  - intros vs. exists (specimen rs (Z.of_nat (length vs)) ++ vs). split; [now apply run_specimen|].
    rewrite (Forall2_length _ _ _ F), <- (specimen_length rs (Z.of_nat (length vs))).
    now rewrite firstn_app, Nat.sub_diag, firstn_all, firstn_O, app_nil_r.
  - apply NoDup_map_in; [|apply seq_NoDup].
    intros a b Ia Ib E. apply in_seq in Ia, Ib.
    unfold specimen in E. apply (f_equal (@rev Z)) in E. rewrite !rev_involutive in E.
    apply digits_inj in E; auto; rewrite ?combinations_rev; lia.
  - intros v. rewrite in_map_iff. split.
    + intros (k & <- & _). unfold specimen.
      rewrite <- (rev_involutive rs) at 1. apply combination_rev. now apply digits_combination.
    + intros C. apply combination_rev in C. apply digits_onto in C. destruct C as (k & Bk & E).
      rewrite combinations_rev in Bk. exists (Z.to_nat k). split; [|apply in_seq; lia].
      rewrite Z2Nat.id by lia. unfold specimen. rewrite E. apply rev_involutive.
  - intros k. unfold specimen. f_equal.
    rewrite Nat2Z.inj_add, Z2Nat.id by lia. rewrite <- combinations_rev. now apply digits_periodic.
Qed.

(** parameters of integer types: the search is undefined when it reaches the largest int *)
Theorem all_permutations_integer_refuted vs :
  Z.of_nat (length vs) = int_max - 1 ->
  exists last, ap_run [POSITIVE_INTEGER] vs = Ok last /\
    forall v, ap_evaluate [POSITIVE_INTEGER] last v = UB.
Proof.
  intros L.
  assert (G : forall us, Z.of_nat (length us) <= int_max - 1 ->
            ap_run [POSITIVE_INTEGER] us = Ok (1 + Z.of_nat (length us) :: us)).
  { induction us as [|u us IH] using rev_ind; intros B; [reflexivity|].
    rewrite app_length in *. cbn [length] in *. rewrite Nat2Z.inj_add in *.
    unfold ap_run in *. cbn [obind ap_init foldM ap_init_step parameter_min] in *.
    rewrite foldM_app, IH by lia. cbn [obind foldM].
    unfold ap_evaluate. cbn [length app ap_carry rd nth_error obind].
    unfold to_int.
    replace ((int_min <=? 1 + Z.of_nat (length us) + 1) && (1 + Z.of_nat (length us) + 1 <=? int_max)) with true
      by (symmetry; apply andb_true_intro; split; apply Z.leb_le; unfold int_min, int_max in *; lia).
    cbn [obind parameter_max].
    destruct (Z.ltb_spec int_max (1 + Z.of_nat (length us) + 1)); [lia|].
    unfold wr. cbn [length Nat.ltb Nat.leb upd obind app]. f_equal. f_equal; try reflexivity; simpl Z.of_nat; lia. }
  exists (1 + Z.of_nat (length vs) :: vs). split; [apply G; lia|].
  intros v. unfold ap_evaluate. cbn [length app ap_carry rd nth_error obind].
  rewrite L. replace (1 + (int_max - 1) + 1) with (int_max + 1) by lia. reflexivity.
Qed.

(** three options and a logical value *)
Example ap_ex : Forall2 has_range [OPTION 3; BOOL] [(0, 2); (0, 1)] /\
  Forall (fun r => int_min <= fst r <= snd r /\ snd r < int_max) [(0, 2); (0, 1)] /\
  map (fun k => ap_run [OPTION 3; BOOL] (repeat 7 k)) (seq 0 7) =
  [Ok [0; 0]; Ok [0; 1; 7]; Ok [1; 0; 7; 7]; Ok [1; 1; 7; 7; 7]; Ok [2; 0; 7; 7; 7; 7];
   Ok [2; 1; 7; 7; 7; 7; 7]; Ok [0; 0; 7; 7; 7; 7; 7; 7]].
Proof.
  split; [|split].
  - repeat constructor.
  - repeat constructor; unfold int_min, int_max; simpl; lia.
  - vm_compute. reflexivity.
Qed.

Print Assumptions all_permutations_once.
Print Assumptions all_permutations_integer_refuted.
