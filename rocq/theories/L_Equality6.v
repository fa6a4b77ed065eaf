(** Lemmas about the gluing constraints: products with the matrix over the real numbers. *)
From Coq Require Import List Arith Bool Permutation Sorted Reals Lia Lra.
From Verif Require Import Base S_Order S_Dual M_Dual S_Equality M_Equality L_Equality L_Equality2 L_Equality3 L_Equality4.
Import ListNotations.
Local Open Scope out_scope.
Local Open Scope R_scope.

(* ---- sums ------------------------------------------------------------------------- *)
Lemma Sum_nil {A} (f : A -> R) : Sum [] f = 0.
Proof. reflexivity. Qed.
Lemma Sum_cons {A} (a : A) l f : Sum (a :: l) f = f a + Sum l f.
Proof. reflexivity. Qed.
Lemma Sum_app {A} (x y : list A) f : Sum (x ++ y) f = Sum x f + Sum y f.
Proof. induction x as [|a x IH]; cbn [app]; rewrite ?Sum_nil, ?Sum_cons; lra. Qed.
Lemma Sum_ext_in {A} (l : list A) f g : (forall x, In x l -> f x = g x) -> Sum l f = Sum l g.
Proof. intros H. induction l as [|a l IH]; [reflexivity|]. rewrite !Sum_cons, IH by (intros; apply H; now right). rewrite H by now left. reflexivity. Qed.
Lemma Sum_ext {A} (l : list A) f g : (forall x, f x = g x) -> Sum l f = Sum l g.
Proof. intros. apply Sum_ext_in. auto. Qed.
Lemma Sum_zero {A} (l : list A) f : (forall x, In x l -> f x = 0) -> Sum l f = 0.
Proof. intros H. induction l as [|a l IH]; [reflexivity|]. rewrite Sum_cons, IH by (intros; apply H; now right). rewrite H by now left. lra. Qed.
Lemma Sum_plus {A} (l : list A) f g : Sum l (fun x => f x + g x) = Sum l f + Sum l g.
Proof. induction l as [|a l IH]; rewrite ?Sum_nil, ?Sum_cons; lra. Qed.
Lemma Sum_scal {A} (l : list A) c f : Sum l (fun x => c * f x) = c * Sum l f.
Proof. induction l as [|a l IH]; rewrite ?Sum_nil, ?Sum_cons; [lra|]. rewrite IH. lra. Qed.
Lemma Sum_scal_r {A} (l : list A) c f : Sum l (fun x => f x * c) = Sum l f * c.
Proof. induction l as [|a l IH]; rewrite ?Sum_nil, ?Sum_cons; [lra|]. rewrite IH. lra. Qed.
Lemma Sum_swap {A B} (l : list A) (k : list B) f : Sum l (fun x => Sum k (fun y => f x y)) = Sum k (fun y => Sum l (fun x => f x y)).
Proof.
  induction l as [|a l IH]; [symmetry; now apply Sum_zero|]. rewrite Sum_cons, IH, <- Sum_plus. apply Sum_ext. intros y. now rewrite Sum_cons.
Qed.
Lemma Sum_map {A B} (h : A -> B) (l : list A) f : Sum (map h l) f = Sum l (fun x => f (h x)).
Proof. induction l as [|a l IH]; [reflexivity|]. cbn [map]. now rewrite !Sum_cons, IH. Qed.
Lemma Sum_flat_map {A B} (h : A -> list B) (l : list A) f : Sum (flat_map h l) f = Sum l (fun x => Sum (h x) f).
Proof. induction l as [|a l IH]; [reflexivity|]. cbn [flat_map]. now rewrite Sum_app, Sum_cons, IH. Qed.
Lemma Sum_filter {A} (p : A -> bool) (l : list A) f : Sum (filter p l) f = Sum l (fun x => if p x then f x else 0).
Proof. induction l as [|a l IH]; [reflexivity|]. cbn [filter]. rewrite Sum_cons. destruct (p a); rewrite ?Sum_cons, IH; lra. Qed.
Lemma Sum_single {A} (l : list A) x f : NoDup l -> In x l -> (forall y, In y l -> y <> x -> f y = 0) -> Sum l f = f x.
Proof.
  intros N I H. induction N as [|a l Na N IH]; [destruct I|]. rewrite Sum_cons. destruct I as [->|I].
  - rewrite Sum_zero; [lra|]. intros y Iy. apply H; [now right|]. intros ->. contradiction.
  - rewrite IH; [rewrite H; [lra|now left|]|easy|intros; apply H; [now right|easy]]. intros ->. contradiction.
Qed.
Lemma Sum_perm {A} (l k : list A) f : Permutation l k -> Sum l f = Sum k f.
Proof. induction 1; rewrite ?Sum_cons; lra. Qed.
Lemma Sum_if_all {A} (l : list A) (c : bool) f : Sum l (fun x => if c then f x else 0) = if c then Sum l f else 0.
Proof. destruct c; [reflexivity|]. now apply Sum_zero. Qed.
Lemma map_seq_nth {A} (f : nat -> A) len j d : (j < len)%nat -> nth j (map f (seq 0 len)) d = f j.
Proof. intros H. rewrite (nth_indep _ d (f 0%nat)) by (now rewrite map_length, seq_length). rewrite map_nth, seq_nth by easy. reflexivity. Qed.

(* ---- rows of a domain --------------------------------------------------------------- *)
Definition entry_sum (es : list (nat * R)) (j : nat) : R := Sum es (fun e => if (fst e =? j)%nat then snd e else 0).
Lemma entry_sum_dot es len f : Forall (fun e => (fst e < len)%nat) es -> Sum (seq 0 len) (fun j => entry_sum es j * f j) = Sum es (fun e => snd e * f (fst e)).
Proof.
  intros H. unfold entry_sum. rewrite (Sum_ext _ _ (fun j => Sum es (fun e => (if (fst e =? j)%nat then snd e else 0) * f j))) by (intros; now rewrite Sum_scal_r).
  rewrite Sum_swap. apply Sum_ext_in. intros e I. rewrite Forall_forall in H. specialize (H e I). rewrite (Sum_single _ (fst e)).
  - now rewrite Nat.eqb_refl.
  - apply seq_NoDup.
  - apply in_seq. lia.
  - intros y _ Ny. destruct (Nat.eqb_spec (fst e) y); [congruence|lra].
Qed.
Lemma b_row_fold x es : forall l out, Forall (fun e => (fst e < length x)%nat) es -> (l < length out)%nat ->
  foldM (b_row Rplus Rmult x) (map (pair l) es) out = Ok (upd out l (nth l out 0 + Sum es (fun e => snd e * nth (fst e) x 0))).
Proof.
  induction es as [|(c, v) es IH]; intros l out H L.
  - cbn [map foldM]. rewrite Sum_nil, Rplus_0_r. f_equal. symmetry. revert l L. induction out as [|o out IHo]; intros l L; cbn in L; [lia|]. destruct l; cbn; [reflexivity|]. rewrite IHo by lia. reflexivity.
  - inversion H as [|? ? H1 H2]; subst. cbn [fst] in H1. cbn [map foldM]. unfold b_row at 1. cbn [fst snd]. rewrite (rd_ok out l 0), (rd_ok x c 0) by easy. cbn [obind]. rewrite wr_ok by easy. cbn [obind].
    rewrite IH by (easy || now rewrite upd_length). f_equal. rewrite nth_upd by easy. rewrite Nat.eqb_refl. rewrite Sum_cons. cbn [fst snd].
    clear. revert l. induction out as [|o out IH]; intros l; [destruct l; reflexivity|]. destruct l; cbn; [f_equal; lra|]. now rewrite IH.
Qed.
Definition plus2 (q : list R) (v : list R) : list R := map (fun p => fst p + snd p) (combine q v).
Lemma plus2_length q v : length q = length v -> length (plus2 q v) = length v.
Proof. intros H. unfold plus2. rewrite map_length, combine_length. lia. Qed.
Lemma b_rows_ok {M} x (ent : M -> list (nat * R)) ms : (forall m, In m ms -> Forall (fun e => (fst e < length x)%nat) (ent m)) -> forall P Q, length Q = length ms ->
  foldM (b_row Rplus Rmult x) (flat_map (fun y => map (pair (fst y)) (ent (snd y))) (combine (seq (length P) (length ms)) ms)) (P ++ Q)
  = Ok (P ++ plus2 Q (map (fun m => Sum (ent m) (fun e => snd e * nth (fst e) x 0)) ms)).
Proof.
  induction ms as [|m ms IH]; intros H P Q L.
  - destruct Q; [|discriminate]. cbn. now rewrite !app_nil_r.
  - destruct Q as [|q Q]; [discriminate|]. injection L as L. cbn [length seq combine flat_map fst snd]. rewrite foldM_app, b_row_fold.
    + cbn [obind]. replace (upd (P ++ q :: Q) (length P) (nth (length P) (P ++ q :: Q) 0 + Sum (ent m) (fun e => snd e * nth (fst e) x 0)))
        with ((P ++ [q + Sum (ent m) (fun e => snd e * nth (fst e) x 0)]) ++ Q).
      * replace (S (length P)) with (length (P ++ [q + Sum (ent m) (fun e => snd e * nth (fst e) x 0)])) by (rewrite app_length; cbn; lia).
        rewrite IH by (easy || (intros; apply H; now right)). rewrite <- app_assoc. reflexivity.
      * rewrite app_nth2, Nat.sub_diag by lia. rewrite <- app_assoc. cbn [app nth]. clear. induction P as [|p P IH]; cbn; [reflexivity|]. now rewrite IH.
    + apply H. now left.
    + rewrite app_length. cbn. lia.
Qed.
Lemma plus2_zero v : plus2 (repeat 0 (length v)) v = v.
Proof. unfold plus2. induction v as [|a v IH]; cbn; [reflexivity|]. rewrite IH, Rplus_0_l. reflexivity. Qed.
Lemma plus2_map {M} (ms : list M) f g : plus2 (map f ms) (map g ms) = map (fun m => f m + g m) ms.
Proof. unfold plus2. induction ms as [|m ms IH]; cbn; [reflexivity|]. now rewrite IH. Qed.

(** all domains *)
Lemma b_domains_ok {M} (E : constraints R) (in_ : list (list R)) (ent : nat -> M -> list (nat * R)) (ms : list M) ds :
  (forall d, In d ds -> (d < length in_)%nat /\ domain_rows E d = Ok (flat_map (fun y => map (pair (fst y)) (ent d (snd y))) (combine (seq 0 (length ms)) ms))) ->
  (forall d m, In d ds -> In m ms -> Forall (fun e => (fst e < length (nth d in_ []))%nat) (ent d m)) ->
  forall f, foldM (b_domain Rplus Rmult E in_) ds (map f ms) =
    Ok (map (fun m => f m + Sum ds (fun d => Sum (ent d m) (fun e => snd e * nth (fst e) (nth d in_ []) 0))) ms).
Proof.
  induction ds as [|d ds IH]; intros H1 H2 f; cbn [foldM].
  - f_equal. apply map_ext. intros. rewrite Sum_nil. lra.
  - destruct (H1 d (or_introl eq_refl)) as [L E1]. unfold b_domain at 1. rewrite (rd_ok _ _ []) by easy. cbn [obind]. rewrite E1. cbn [obind].
    pose proof (b_rows_ok (nth d in_ []) (ent d) ms (fun m I => H2 d m (or_introl eq_refl) I) [] (map f ms) (map_length _ _)) as B. cbn [length app] in B. rewrite B. cbn [obind].
    rewrite plus2_map, IH by (intros; (apply H1 || apply H2); (easy || now right)). f_equal. apply map_ext. intros m. rewrite Sum_cons. lra.
Qed.

(** transposed product *)
Lemma bt_row_fold alpha lambda l es : (l < length lambda)%nat -> forall out, Forall (fun e => (fst e < length out)%nat) es ->
  foldM (bt_row Rplus Rmult alpha lambda) (map (pair l) es) out = Ok (map (fun j => nth j out 0 + alpha * entry_sum es j * nth l lambda 0) (seq 0 (length out))).
Proof.
  intros L. induction es as [|(c, v) es IH]; intros out H.
  - cbn [map foldM]. f_equal. apply (nth_ext _ _ 0 0); [now rewrite map_length, seq_length|]. intros j Hj. rewrite map_seq_nth by easy. unfold entry_sum. rewrite Sum_nil. lra.
  - inversion H as [|? ? H1 H2]; subst. cbn [fst] in H1. cbn [map foldM]. unfold bt_row at 1. cbn [fst snd]. rewrite (rd_ok out c 0), (rd_ok lambda l 0) by easy. cbn [obind]. rewrite wr_ok by easy. cbn [obind].
    rewrite IH by (rewrite upd_length; easy). f_equal. rewrite upd_length. apply map_ext_in. intros j I. apply in_seq in I. rewrite nth_upd by easy.
    unfold entry_sum. rewrite Sum_cons. cbn [fst snd]. destruct (Nat.eqb_spec c j) as [->|]; [lra|]. lra.
Qed.
