(** Lemmas: the rows of G are independent if the assembled problem has one solution. *)
From Coq Require Import List Arith Bool Permutation Sorted Reals Lia Lra.
From Verif Require Import Base S_Order M_Dual S_Dual S_Equality M_Equality L_Equality6 L_Equality7 P_Equality M_TotalFeti S_Feti L_TotalFeti P_TotalFeti S_Projector S_Reconstruct S_Assembled S_WellPosed L_Assembled.
From Verif Require S_ProjectorInverse.
Import ListNotations.
Local Open Scope R_scope.

Lemma assembled_unique N copies fixed ix K f value U U' : well_posed N copies fixed ix K ->
  solves_assembled N copies fixed ix K f value U -> solves_assembled N copies fixed ix K f value U' -> same_values N copies U U'.
Proof.
  intros W [A1 A2] [B1 B2] g Lg Cg. enough (Z : U g - U' g = 0) by lra. apply (W (fun g => U g - U' g)); [|exact Lg|exact Cg]. split.
  - intros g' L' F'. rewrite (Sum_ext _ _ (fun x => assembled_matrix copies ix K g' x * U x + (-1) * (assembled_matrix copies ix K g' x * U' x))) by (intros; lra). rewrite Sum_plus, Sum_scal, A1, B1 by easy. unfold assembled_load.
    rewrite (Sum_zero _ (fun d => 0)) by reflexivity. lra.
  - intros g' L' F'. rewrite A2, B2 by easy. lra.
Qed.

Section G.
  Variables (n : nat) (first : nat -> nat) (N : nat) (copies : nat -> list nat) (fixed : nat -> bool).
  Hypothesis M : mesh n first N copies.
  Variable glued : list (nat * nat).
  Hypothesis Hg : ordered N copies fixed glued.
  Variables (ix : nat -> nat -> nat) (len : nat -> nat).
  Hypothesis HN : numbered N copies ix len.
  Local Notation all := (multipliers n first N copies fixed glued).
  Local Notation L := (map (domains_of copies) all).
  Local Notation row := (equality_row n first N copies fixed glued ix).
  Variables (K : nat -> nat -> nat -> R) (ksize : nat -> nat) (Rk : nat -> nat -> nat -> R).
  Lemma Gt_is_B w m : Gt_of n first len row ksize Rk w m = - B_of n first len row (R_of ksize Rk w) m.
  Proof.
    unfold Gt_of, B_of. transitivity (Sum (everything n first) (fun d => (-1) * Sum (seq 0 (len d)) (fun j => B row m d j * R_of ksize Rk w d j))); [|rewrite Sum_scal; lra]. apply Sum_ext. intros d. unfold G, R_of.
    rewrite <- Sum_scal. rewrite (Sum_ext (seq 0 (len d)) _ (fun j => Sum (seq 0 (ksize d)) (fun k => (-1) * (B row m d j * (Rk d k j * w d k))))) by (intros j; rewrite !Sum_scal; reflexivity).
    rewrite Sum_swap. apply Sum_ext. intros k. rewrite Sum_scal. rewrite (Sum_ext (seq 0 (len d)) (fun j => B row m d j * (Rk d k j * w d k)) (fun j => (Rk d k j * B row m d j) * w d k)) by (intros; lra). rewrite Sum_scal_r. lra.
  Qed.
  Lemma G_independent : covered n first N copies ix len -> kernels_of n first len ksize Rk K -> kernels_independent n first len ksize Rk -> well_posed N copies fixed ix K ->
    S_ProjectorInverse.independent n first L len row ksize Rk.
  Proof.
    intros HC HR HI HW w H. set (u := R_of ksize Rk w).
    assert (Bu : forall m, (m < length L)%nat -> B_of n first len row u m = 0) by (intros m Hm; specialize (H m Hm); rewrite Gt_is_B in H; fold u in H; lra).
    assert (Ku : forall d i, In d (everything n first) -> (i < len d)%nat -> Sum (seq 0 (len d)) (fun j => K d i j * u d j) = 0).
    { intros d i Id Hi. unfold u, R_of. rewrite (Sum_ext _ _ (fun j => Sum (seq 0 (ksize d)) (fun k => K d i j * Rk d k j * w d k))) by (intros; rewrite <- Sum_scal; apply Sum_ext; intros; lra). rewrite Sum_swap. apply Sum_zero. intros k Ik. apply in_seq in Ik.
      rewrite Sum_scal_r, HR by (easy || lia). lra. }
    assert (Dg : forall d g, (g < N)%nat -> In d (copies g) -> In d (everything n first)) by (intros d g Lg Id; unfold everything, all_domains; apply in_seq; pose proof (mesh_domains _ _ _ _ M g d Lg Id); lia).
    assert (BA : balanced N copies fixed ix len K (fun _ _ => 0) u).
    { intros g Lg _. unfold assembled_load. apply Sum_ext_in. intros d Id. apply Ku; [now apply (Dg d g)|now apply (proj1 HN)]. }
    assert (CP : compatible n first L len row (fun i => rhs 0 (fun _ => 0) (nth i all (Fix 0 0))) u) by (intros i Hi; rewrite Bu by exact Hi; now destruct (nth i all (Fix 0 0))).
    apply (compatible_meaning n first N copies fixed M glued Hg ix len HN) in CP. destruct (assembled_solution n first N copies fixed M ix len HN K _ _ u HC BA CP) as (U & U1 & U2).
    intros d k Id Hk. apply (HI d (w d) Id); [|exact Hk]. intros j Hj. destruct (HC d j Id Hj) as (g & Lg & Ig & <-). change (u d (ix d g) = 0). rewrite (U1 d g Lg Ig). apply (HW U U2 g Lg). intros E. rewrite E in Ig. destruct Ig.
  Qed.
  Lemma multiplier_nodup m : (m < length L)%nat -> NoDup (domains L m).
  Proof.
    intros Hm. rewrite L_nth by exact Hm. pose proof (proj1 (multiplier_valid n first N copies fixed M glued Hg _) (mult_in n first N copies fixed glued m Hm)) as V. destruct (nth m all (Fix 0 0)) as [g size|d g]; cbn [valid_multiplier domains_of] in *; [|repeat constructor; intros []].
    destruct V as (Lg & _). pose proof (mesh_copies _ _ _ _ M g Lg) as S. assert (ND : NoDup (copies g)) by (clear - S; induction S as [|a l S IH F]; constructor; [|exact IH]; intros I; rewrite Forall_forall in F; specialize (F a I); lia).
    rewrite <- (firstn_skipn size (copies g)) in ND. revert ND. generalize (skipn size (copies g)). induction (firstn size (copies g)) as [|a l IH]; intros k ND; [constructor|]. cbn [app] in ND. inversion ND as [|? ? N1 N2]; subst. constructor; [intros I; apply N1; apply in_or_app; now left|now apply (IH k)].
  Qed.
End G.
