(** * Vectors of real numbers *)
From Coq Require Import List Reals Bool Lra Lia.
From Verif Require Import Base M_DualVector S_Mprgp.
Import ListNotations.
Local Open Scope R_scope.

Local Notation comb := combination.
Local Notation sp := scalar_product.

Lemma Rltb_true a b : Rltb a b = true <-> a < b.
Proof. unfold Rltb; destruct (Rlt_dec a b); split; intros; auto; discriminate. Qed.
Lemma Rltb_false a b : Rltb a b = false <-> b <= a.
Proof. unfold Rltb; destruct (Rlt_dec a b); split; intros; try discriminate; try lra; auto. Qed.
Lemma Rleb_true a b : Rleb a b = true <-> a <= b.
Proof. unfold Rleb; destruct (Rle_dec a b); split; intros; auto; discriminate. Qed.
Lemma Rleb_false a b : Rleb a b = false <-> b < a.
Proof. unfold Rleb; destruct (Rle_dec a b); split; intros; try discriminate; try lra; auto. Qed.

Lemma zip_combine {h} f x y :
  zip (exact h) f x y = map (fun uv => f (fst uv) (snd uv)) (combine x y).
Proof. revert y; induction x as [|a x IH]; intros [|b y]; cbn; auto. now rewrite IH. Qed.

Lemma vadd_comb h x a y : vadd (exact h) x a y = comb x a y.
Proof. unfold vadd. now rewrite zip_combine. Qed.

Lemma dot_sp h x y : dot (exact h) x y = sp x y.
Proof.
  unfold sp. revert y; induction x as [|a x IH]; intros [|b y]; cbn; auto. now rewrite IH.
Qed.

Lemma comb_nil_l a y : comb [] a y = [].
Proof. reflexivity. Qed.
Lemma comb_cons u x a v y : comb (u :: x) a (v :: y) = (u + a * v) :: comb x a y.
Proof. reflexivity. Qed.
Lemma sp_cons u x v y : sp (u :: x) (v :: y) = u * v + sp x y.
Proof. reflexivity. Qed.
Lemma sp_nil_l y : sp [] y = 0.
Proof. reflexivity. Qed.
Lemma sp_nil_r x : sp x [] = 0.
Proof. destruct x; reflexivity. Qed.

Lemma comb_length x a y : length x = length y -> length (comb x a y) = length x.
Proof. intros E. unfold comb. rewrite map_length, combine_length, <- E. apply Nat.min_id. Qed.

Lemma comb_len n x a y : length x = n -> length y = n -> length (comb x a y) = n.
Proof. intros <- E. apply comb_length. auto. Qed.

Lemma sp_comm x y : sp x y = sp y x.
Proof.
  revert y; induction x as [|a x IH]; intros [|b y]; auto. rewrite !sp_cons, IH. ring.
Qed.

Lemma sp_comb_l x a y w :
  length x = length y -> sp (comb x a y) w = sp x w + a * sp y w.
Proof.
  revert y w; induction x as [|u x IH]; intros [|v y] [|c w] E; try discriminate E;
    rewrite ?comb_cons, ?comb_nil_l, ?sp_cons, ?sp_nil_l, ?sp_nil_r; try ring.
  rewrite IH by (cbn in E; lia). ring.
Qed.

Lemma sp_comb_r x a y w :
  length x = length y -> sp w (comb x a y) = sp w x + a * sp w y.
Proof. intros E. rewrite !(sp_comm w). now apply sp_comb_l. Qed.

Lemma sp_self x : 0 <= sp x x.
Proof. induction x as [|a x IH]; [rewrite sp_nil_l; lra|]. rewrite sp_cons. nra. Qed.

Lemma sp_zero_l x y : is_zero x -> sp x y = 0.
Proof.
  intros Z. revert y; induction Z as [|a x -> Z IH]; intros [|b y]; rewrite ?sp_cons, ?sp_nil_l; auto.
  cbn. rewrite IH. ring.
Qed.

Lemma sp_self_zero x : sp x x = 0 -> is_zero x.
Proof.
  induction x as [|a x IH]; [constructor|]. rewrite sp_cons. intros E.
  pose proof (sp_self x). constructor; [nra|]. apply IH. nra.
Qed.

Lemma is_zero_dec x : is_zero x \/ ~ is_zero x.
Proof.
  induction x as [|a x [Z|Z]].
  - left; constructor.
  - destruct (Req_dec a 0); [left; now constructor|right; inversion 1; auto].
  - right; inversion 1; auto.
Qed.

Lemma comb_minus_self x : is_zero (comb x (-1) x).
Proof. induction x as [|a x IH]; [constructor|]. rewrite comb_cons. constructor; [ring|auto]. Qed.

Lemma is_zero_unique x y : is_zero x -> is_zero y -> length x = length y -> x = y.
Proof.
  intros Zx. revert y; induction Zx as [|a x -> Zx IH]; intros [|b y] Zy E; try discriminate E; auto.
  inversion Zy; subst. f_equal. apply IH; auto.
Qed.

Lemma linear_zero n H x : linear n H -> length x = n -> is_zero x -> is_zero (H x).
Proof.
  intros [L1 L2] E Z.
  assert (X : x = comb x (-1) x).
  { apply is_zero_unique; auto using comb_minus_self. now rewrite comb_length. }
  rewrite X, L2 by auto. apply comb_minus_self.
Qed.

Lemma comb_ext_zero x a y : is_zero y -> length x = length y -> comb x a y = x.
Proof.
  intros Z. revert x; induction Z as [|b y -> Z IH]; intros [|u x] E; try discriminate E; auto.
  rewrite comb_cons, IH by (cbn in E; lia). f_equal. ring.
Qed.

Lemma pd_nonneg n H x :
  linear n H -> positive_definite n H -> length x = n -> 0 <= sp x (H x).
Proof.
  intros L D E. destruct (is_zero_dec x) as [Z|Z].
  - rewrite sp_zero_l; auto; lra.
  - left. now apply D.
Qed.

Lemma pd_zero n H x :
  linear n H -> positive_definite n H -> length x = n -> sp x (H x) = 0 -> is_zero x.
Proof.
  intros L D E Z0. destruct (is_zero_dec x) as [Z|Z]; auto.
  pose proof (D x E Z). lra.
Qed.

Lemma combine_firstn {A B} k (x : list A) (y : list B) :
  combine (firstn k x) (firstn k y) = firstn k (combine x y).
Proof. revert x y; induction k; intros [|a x] [|b y]; cbn; auto. now rewrite IHk. Qed.
Lemma combine_skipn {A B} k (x : list A) (y : list B) :
  combine (skipn k x) (skipn k y) = skipn k (combine x y).
Proof.
  revert x y; induction k; intros [|a x] [|b y]; cbn; auto.
  destruct (skipn k x); auto.
Qed.

Lemma comb_firstn k x a y : firstn k (comb x a y) = comb (firstn k x) a (firstn k y).
Proof. unfold comb. now rewrite combine_firstn, firstn_map. Qed.
Lemma comb_skipn k x a y : skipn k (comb x a y) = comb (skipn k x) a (skipn k y).
Proof. unfold comb. rewrite combine_skipn. now rewrite skipn_map. Qed.

Lemma comb_app x1 x2 a y1 y2 :
  length x1 = length y1 -> comb (x1 ++ x2) a (y1 ++ y2) = comb x1 a y1 ++ comb x2 a y2.
Proof.
  revert y1; induction x1 as [|u x1 IH]; intros [|v y1] E; try discriminate E; auto.
  cbn [app]. rewrite !comb_cons, IH by (cbn in E; lia). reflexivity.
Qed.

Lemma sp_app x1 x2 y1 y2 :
  length x1 = length y1 -> sp (x1 ++ x2) (y1 ++ y2) = sp x1 y1 + sp x2 y2.
Proof.
  revert y1; induction x1 as [|u x1 IH]; intros [|v y1] E; try discriminate E.
  - cbn [app]. rewrite sp_nil_l. ring.
  - cbn [app]. rewrite !sp_cons, IH by (cbn in E; lia). ring.
Qed.

Lemma vscale_comb h a x : vscale (exact h) a x = map (fun v => a * v) x.
Proof. reflexivity. Qed.

Lemma comb_comb_same x a y b : length x = length y ->
  comb (comb x a y) b y = comb x (a + b) y.
Proof.
  revert y; induction x as [|u x IH]; intros [|v y] E; try discriminate E; auto.
  rewrite !comb_cons, IH by (cbn in E; lia). f_equal. ring.
Qed.

Lemma comb_swap x a y b z :
  length x = length y -> length x = length z ->
  comb (comb x a y) b z = comb (comb x b z) a y.
Proof.
  revert y z; induction x as [|u x IH]; intros [|v y] [|w z] E1 E2; try discriminate; auto.
  rewrite !comb_cons, IH by (cbn in *; lia). f_equal. ring.
Qed.
