(** * Properties of the preconditioners of the dual problem: C125, C126, C127 *)
From Coq Require Import List Arith Bool ZArith Permutation Sorted Reals Lia Lra.
From Verif Require Import Base M_Csx M_Dnx S_Csx S_Dnx M_Math S_Math P_Math.
From Verif Require Import Base S_Order M_Nb S_Nb S_Comm M_Exchange M_Dual S_Dual P_Dual S_Equality M_Equality L_Equality6 M_TotalFeti S_Feti L_TotalFeti L_TotalFeti2 P_TotalFeti L_Sort.
From Verif Require Import M_Precond S_Precond L_Precond L_Precond2 L_Precond3 L_Precond4 L_Precond5 L_Precond6.
Import ListNotations.
Local Open Scope out_scope.
Local Open Scope R_scope.

Section Preconditioners.
  Variables (n limit : nat) (first : nat -> nat) (L : list (list nat)) (nb : nat -> list nat) (cmap : nat -> list nat).
  Hypothesis HC : consistent n first L nb cmap.
  Variables (Mp : nat -> dual_map) (sz : nat -> nat) (itv : nat -> list (nat * nat)).
  Hypothesis Hmp : forall r, (r < n)%nat -> dual_map_set (decomposed first nb r) (sz r) (itv r) (cmap r) = Ok (Mp r).
  Hypothesis Hlimit : forall r q, (r < n)%nat -> In q (nb r) -> (length (common first L r q) <= limit)%nat.
  Variables (len : nat -> nat) (row : nat -> nat -> list (nat * R)).
  Hypothesis HB : entries_ok L len row.
  Variables (send recv : nat -> list (list R)).
  Hypothesis Hsend : forall r, (r < n)%nat -> buffers (Mp r) (send r).
  Hypothesis Hrecv : forall r, (r < n)%nat -> buffers (Mp r) (recv r).
  Variable k : nat -> nat -> nat -> R.
  Local Notation st := (stored first L len row).
  Local Notation own := (own first).
  Local Notation srf := (surface L row).
  Local Notation rows := (stored_rows first L row).
  Local Notation sync y := (map (fun r => synchronize Rplus limit (decomposed first nb r) (Mp r) (y r) (send r) (recv r)) (seq 0 n)).

  Lemma own_everything r d : (r < n)%nat -> In d (own r) -> In d (everything n first).
  Proof. intros Hr Id. rewrite <- (own_all n first L nb cmap HC). apply in_flat_map. exists r. split; [apply in_seq; lia|easy]. Qed.
  Lemma everything_own d : In d (everything n first) -> exists r, (r < n)%nat /\ In d (own r).
  Proof. rewrite <- (own_all n first L nb cmap HC). intros I. apply in_flat_map in I. destruct I as (r & Ir & Id). apply in_seq in Ir. exists r. split; [lia|easy]. Qed.

  Lemma first_below a b : (a <= b <= n)%nat -> (first a <= first b)%nat.
  Proof. intros [H1 H2]. induction H1 as [|b H1 IH]; [lia|]. pose proof (first_mono _ _ _ (c_gluing _ _ _ _ _ HC) b ltac:(lia)) as F. rewrite Nat.add_1_r in F. specialize (IH ltac:(lia)). lia. Qed.
  Lemma own_once r r' d : (r < n)%nat -> (r' < n)%nat -> In d (own r) -> In d (own r') -> r' = r.
  Proof.
    intros Hr Hr' Id Id'. unfold S_Feti.own, own_domains in *. apply in_seq in Id, Id'. destruct (Nat.lt_trichotomy r' r) as [X|[X|X]]; [exfalso|easy|exfalso].
    - pose proof (first_below (r' + 1) r ltac:(lia)). lia.
    - pose proof (first_below (r + 1) r' ltac:(lia)). lia.
  Qed.

  (** C125: the lumped preconditioner gives B K B^T x on every rank *)
  Theorem lumped_apply_computes (kmul : nat -> nat -> list R -> list R) (x : nat -> R) :
    (forall r, (r < n)%nat -> solves first len k r (kmul r)) ->
    exists y, (forall r, (r < n)%nat -> lumped_apply 0 1 Rplus Rmult (st r) (kmul r) (dual first L x r) = Ok (y r)) /\
      exists ends, ncompletes n (sync y) ends /\ map (fun e => fst (fst e)) ends = map (dual first L (lumped_of n first L len row k x)) (seq 0 n).
  Proof.
    intros HK. exists (fun r => map (part len row (own r) (fun d => times (len d) (k d) (Bt_of L row x d))) (held first L r)). split.
    - intros r Hr. apply (precond_ok first L len row HB r). intros d Id. exists (S_Feti.dense len (fun d => times (len d) (k d) (Bt_of L row x d)) d). split.
      + f_equal. rewrite (HK r Hr d _ Id (dense_length _ _ _)). apply dense_ext. intros j Hj. unfold Kplus_of, times. apply Sum_ext_in. intros i Ii. apply in_seq in Ii. rewrite dense_nth by lia. reflexivity.
      + split; [apply dense_length|]. intros j Hj _. now rewrite dense_nth.
    - unfold lumped_of. now apply (parts_synchronized n limit first L nb cmap HC Mp sz itv Hmp Hlimit len row HB).
  Qed.

  (** ** Dirichlet *)
  Variable K : nat -> csx R.
  Hypothesis HK : forall d, In d (everything n first) -> stores (len d) (k d) (K d).
  Variable sym : nat -> symmetry.
  Hypothesis Hsym : forall d, unsymmetric (sym d) = false.
  Variable sort : list (nat * nat * R) -> list (nat * nat * R).
  Hypothesis Hsort : sort_contract ijv_ltb sort.
  Variable alloc : nat -> nat -> nat -> list nat * list nat * list R.
  Hypothesis Halloc : forall r c n, length (fst (fst (alloc r c n))) = (r + 1)%nat /\ length (snd (fst (alloc r c n))) = n /\ length (snd (alloc r c n)) = n.
  Variable asolve : csx R -> list R -> list R.
  Hypothesis Hsol : forall d, In d (everything n first) -> solves_system (length (interior_list (len d) (srf d))) (interior_block (len d) (srf d) (k d)) asolve.

  (** C126: the update of a domain stores the Schur complement of its surface, whatever the new arrays hold *)
  Theorem dirichlet_update_schur r d (sc : nat -> list R) : (r < n)%nat -> In d (own r) -> (forall i, length (sc i) = i) ->
    exists S, is_schur (len d) (srf d) (k d) S /\
      dirichlet_update 0 1 Rplus Rmult Ropp false (fun x => x) sort alloc asolve (rows r d) (K d) (sym d) sc =
      Ok (surface_list (len d) (srf d), (UploU, packed_upper (length (surface_list (len d) (srf d))) S)).
  Proof.
    intros Hr Id Hsc. pose proof (own_everything r d Hr Id) as Ie.
    apply (dirichlet_update_ok (len d) (srf d) (k d) (K d) (HK d Ie) sort Hsort alloc Halloc asolve (Hsol d Ie) (sym d) (Hsym d)); auto.
    - intros c Ic. now apply (columns_lt first L len row HB r).
    - intros j _. now apply (columns_surface first L len row HB).
  Qed.

  (** what a rank keeps after the update *)
  Definition updated (r : nat) (ixs : list (list nat)) (scs : list (uplo * list R)) : Prop :=
    length ixs = length (own r) /\ length scs = length (own r) /\ forall d, In d (own r) -> exists sc, (forall i, length (sc i) = i) /\
      dirichlet_update 0 1 Rplus Rmult Ropp false (fun x => x) sort alloc asolve (rows r d) (K d) (sym d) sc = Ok (nth (d - first r) ixs [], nth (d - first r) scs (UploU, [])).
  Definition right_sizes (r : nat) (olds : list (list R)) : Prop :=
    length olds = length (own r) /\ forall d, In d (own r) -> length (nth (d - first r) olds []) = len d.

  Lemma own_position r d : In d (own r) -> (d - first r < length (own r))%nat.
  Proof. intros Id. unfold S_Feti.own, own_domains in *. apply in_seq in Id. rewrite seq_length. lia. Qed.

  (** functions of all domains from functions of the domains of every rank *)
  Lemma choose_domains (P : nat -> (nat -> R) -> Prop) l : (forall d, In d l -> exists w, P d w) -> exists W, forall d, In d l -> P d (W d).
  Proof.
    induction l as [|d l IH]; intros H; [exists (fun _ _ => 0); intros d []|]. destruct IH as (W & HW); [intros; apply H; now right|]. destruct (H d (or_introl eq_refl)) as (w & Hw).
    exists (fun d' => if (d' =? d)%nat then w else W d'). intros d' [<-|I]; [now rewrite Nat.eqb_refl|]. destruct (Nat.eqb_spec d' d) as [->|]; [easy|now apply HW].
  Qed.

  (** C126: Dirichlet: with any stored Schur complements (of _manual or of a solver) and any old content of the vectors *)
  Theorem dirichlet_apply_schur (ixs : nat -> list (list nat)) (scs : nat -> list (uplo * list R)) (olds : nat -> list (list R)) (x : nat -> R) :
    (forall r, (r < n)%nat -> length (ixs r) = length (own r) /\ length (scs r) = length (own r) /\ forall d, In d (own r) -> nth (d - first r) (ixs r) [] = surface_list (len d) (srf d) /\
      exists S, is_schur (len d) (srf d) (k d) S /\ nth (d - first r) (scs r) (UploU, []) = (UploU, packed_upper (length (surface_list (len d) (srf d))) S)) ->
    (forall r, (r < n)%nat -> right_sizes r (olds r)) ->
    exists y, (forall r, (r < n)%nat -> dirichlet_apply 0 1 Rplus Rmult (st r) (ixs r) (scs r) (olds r) (dual first L x r) = Ok (y r)) /\
      exists ends z, ncompletes n (sync y) ends /\ map (fun e => fst (fst e)) ends = map (dual first L z) (seq 0 n) /\ is_dirichlet n first L len row k x z.
  Proof.
    intros HU HO.
    set (f r := fun d v => ix <- rd (ixs r) d ;; sc <- rd (scs r) d ;; old <- rd (olds r) d ;; dirichlet_domain 0 Rplus Rmult ix sc old v).
    assert (G : forall d, In d (everything n first) -> exists u, extension (len d) (srf d) (k d) (Bt_of L row x d) u /\ forall r, (r < n)%nat -> In d (own r) ->
      exists w, f r (d - first r)%nat (dense len (Bt_of L row x) d) = Ok w /\ length w = len d /\ forall j, (j < len d)%nat -> srf d j = true -> nth j w 0 = times (len d) (k d) u j).
    { intros d Ie. destruct (everything_own d Ie) as (r & Hr & Id). destruct (HU r Hr) as (L1 & L2 & H). destruct (H d Id) as (E1 & S & HS & E2). destruct (HO r Hr) as [L3 L4].
      destruct (dirichlet_domain_ok (len d) (srf d) (k d) (K d) (HK d Ie) S (nth (d - first r) (olds r) []) (dense len (Bt_of L row x) d) HS (L4 d Id) (dense_length _ _ _)) as (w & u & Ew & Lw & Eu & Hw).
      exists u. split.
      { intros i Hi. specialize (Eu i Hi). cbn beta in Eu. rewrite dense_nth in Eu by easy. exact Eu. }
      intros r' Hr' Id'. pose proof (own_once r r' d Hr Hr' Id Id'). subst r'.
      exists w. split; [|auto]. pose proof (own_position r d Id) as Hp. unfold f. rewrite (rd_ok _ _ []) by lia. cbn [obind]. rewrite (rd_ok _ _ (UploU, [])) by lia. cbn [obind]. rewrite (rd_ok _ _ []) by lia. cbn [obind]. rewrite E1, E2. exact Ew. }
    destruct (choose_domains _ _ G) as (u & Hu).
    exists (fun r => map (part len row (own r) (fun d => times (len d) (k d) (u d))) (held first L r)). split.
    - intros r Hr. apply (precond_ok first L len row HB r). intros d Id. apply (Hu d (own_everything r d Hr Id)); auto.
    - destruct (parts_synchronized n limit first L nb cmap HC Mp sz itv Hmp Hlimit len row HB (fun d => times (len d) (k d) (u d)) _ send recv Hsend Hrecv (fun r _ => eq_refl)) as (ends & E1 & E2).
      exists ends. eexists. split; [exact E1|]. split; [exact E2|]. exists u. split; [intros d Id; apply (Hu d Id)|]. reflexivity.
  Qed.
  (** C126: Dirichlet after its update: B K w with the extension w of B^T x *)
  Theorem dirichlet_apply_computes (ixs : nat -> list (list nat)) (scs : nat -> list (uplo * list R)) (olds : nat -> list (list R)) (x : nat -> R) :
    (forall r, (r < n)%nat -> updated r (ixs r) (scs r)) -> (forall r, (r < n)%nat -> right_sizes r (olds r)) ->
    exists y, (forall r, (r < n)%nat -> dirichlet_apply 0 1 Rplus Rmult (st r) (ixs r) (scs r) (olds r) (dual first L x r) = Ok (y r)) /\
      exists ends z, ncompletes n (sync y) ends /\ map (fun e => fst (fst e)) ends = map (dual first L z) (seq 0 n) /\ is_dirichlet n first L len row k x z.
  Proof.
    intros HU. apply dirichlet_apply_schur. intros r Hr. destruct (HU r Hr) as (L1 & L2 & H). split; [easy|]. split; [easy|]. intros d Id. destruct (H d Id) as (sc & Hsc & E).
    destruct (dirichlet_update_schur r d sc Hr Id Hsc) as (S & HS & E'). rewrite E in E'. injection E' as E1 E2. split; [exact E1|]. exists S. auto.
  Qed.

  (** C127: implicit Dirichlet: set and update of every own domain succeed *)
  Theorem implicit_dirichlet_updates r d : (r < n)%nat -> In d (own r) -> exists P, implicit_update false (fun x => x) sort alloc (rows r d) (K d) (sym d) = Ok P.
  Proof.
    intros Hr Id. pose proof (own_everything r d Hr Id) as Ie.
    destruct (implicit_update_ok (len d) (srf d) (k d) (K d) (HK d Ie) sort Hsort alloc Halloc (sym d) (rows r d)) as (P & E & _).
    - intros c Ic. now apply (columns_lt first L len row HB r).
    - intros j _. now apply (columns_surface first L len row HB).
    - now exists P.
  Qed.
  Definition implicit_updated (r : nat) (Ps : list (implicit R)) : Prop :=
    length Ps = length (own r) /\ forall d, In d (own r) -> exists P, nth_error Ps (d - first r) = Some P /\ implicit_update false (fun x => x) sort alloc (rows r d) (K d) (sym d) = Ok P.
  (** C127: it gives the same without the Schur complement *)
  Theorem implicit_dirichlet_computes (Ps : nat -> list (implicit R)) (x : nat -> R) : (forall r, (r < n)%nat -> implicit_updated r (Ps r)) ->
    exists y, (forall r, (r < n)%nat -> implicit_dirichlet_apply 0 1 Rplus Rmult Ropp asolve (st r) (Ps r) (dual first L x r) = Ok (y r)) /\
      exists ends z, ncompletes n (sync y) ends /\ map (fun e => fst (fst e)) ends = map (dual first L z) (seq 0 n) /\ is_dirichlet n first L len row k x z.
  Proof.
    intros HU.
    set (f r := fun d v => P <- rd (Ps r) d ;; m <- rd (Kn (st r)) d ;; implicit_domain 0 1 Rplus Rmult Ropp asolve P m v).
    assert (G : forall d, In d (everything n first) -> exists u, extension (len d) (srf d) (k d) (Bt_of L row x d) u /\ forall r, (r < n)%nat -> In d (own r) ->
      exists w, f r (d - first r)%nat (dense len (Bt_of L row x) d) = Ok w /\ length w = len d /\ forall j, (j < len d)%nat -> srf d j = true -> nth j w 0 = times (len d) (k d) u j).
    { intros d Ie. destruct (everything_own d Ie) as (r & Hr & Id). destruct (HU r Hr) as (L1 & H). destruct (H d Id) as (P & E1 & E2).
      destruct (implicit_update_ok (len d) (srf d) (k d) (K d) (HK d Ie) sort Hsort alloc Halloc (sym d) (rows r d)) as (P' & E & BP).
      { intros c Ic. now apply (columns_lt first L len row HB r). }
      { intros j _. now apply (columns_surface first L len row HB). }
      rewrite E2 in E. injection E as <-.
      destruct (implicit_domain_ok (len d) (srf d) (k d) (K d) (HK d Ie) asolve (Hsol d Ie) P (dense len (Bt_of L row x) d) BP (dense_length _ _ _)) as (w & Ew & Lw & Hw).
      exists (extended (len d) (srf d) (k d) (asolve (i_A11 P)) (fun c => nth c (dense len (Bt_of L row x) d) 0)). split.
      { assert (Eu : extension (len d) (srf d) (k d) (fun c => nth c (dense len (Bt_of L row x) d) 0) (extended (len d) (srf d) (k d) (asolve (i_A11 P)) (fun c => nth c (dense len (Bt_of L row x) d) 0))).
        { apply extended_ok. apply (solver (len d) (srf d) (k d) asolve (Hsol d Ie)). apply (b_A11 _ _ _ _ BP). }
        intros i Hi. specialize (Eu i Hi). cbn beta in Eu. rewrite dense_nth in Eu by easy. exact Eu. }
      intros r' Hr' Id'. pose proof (own_once r r' d Hr Hr' Id Id'). subst r'.
      exists w. split; [|auto]. unfold f. unfold rd at 1. rewrite E1. cbn [obind]. cbn [Kn stored]. change (rd (map len (own_domains first r)) (d - first r)) with (rd (map len (own r)) (d - first r)). rewrite own_rd by easy. cbn [obind]. exact Ew. }
    destruct (choose_domains _ _ G) as (u & Hu).
    exists (fun r => map (part len row (own r) (fun d => times (len d) (k d) (u d))) (held first L r)). split.
    - intros r Hr. apply (precond_ok first L len row HB r). intros d Id. apply (Hu d (own_everything r d Hr Id)); auto.
    - destruct (parts_synchronized n limit first L nb cmap HC Mp sz itv Hmp Hlimit len row HB (fun d => times (len d) (k d) (u d)) _ send recv Hsend Hrecv (fun r _ => eq_refl)) as (ends & E1 & E2).
      exists ends. eexists. split; [exact E1|]. split; [exact E2|]. exists u. split; [intros d Id; apply (Hu d Id)|]. reflexivity.
  Qed.

  (** C127: the result is unique, so both preconditioners give the same *)
  Theorem dirichlet_determined x y z : is_dirichlet n first L len row k x y -> is_dirichlet n first L len row k x z -> forall m, (m < length L)%nat -> y m = z m.
  Proof.
    intros (w & Ew & Ey) (v & Ev & Ez) m Hm. rewrite Ey, Ez by easy. unfold B_of. apply Sum_ext_in. intros d Id. apply Sum_ext_in. intros j Ij. f_equal. apply times_ext.
    destruct (permuted (len d) (srf d) (k d) (K d) (HK d Id) sort Hsort) as (P & _ & SP & AP). destruct (the_blocks (len d) (srf d) (k d) alloc Halloc (sym d) P SP AP) as ((A & sy & _ & SA) & _).
    apply (extension_unique (len d) (srf d) (k d)) with (Z := asolve A) (v := Bt_of L row x d); auto. - intros i i' Hi Hi'. now apply (s_symmetric _ _ _ (HK d Id)).
    - apply (solver (len d) (srf d) (k d) asolve (Hsol d Id) A SA).
  Qed.
End Preconditioners.

(** ** What both have in common *)
Section Common.
  Variables (n : nat) (first : nat -> nat) (L : list (list nat)) (len : nat -> nat) (row : nat -> nat -> list (nat * R)) (k : nat -> nat -> nat -> R).
  Local Notation is_dirichlet := (is_dirichlet n first L len row k).
  Local Notation srf := (surface L row).
  Local Notation dot x y := (Sum (multiplier_list L) (fun m => x m * y m)).
  Hypothesis Hk : forall d i j, In d (everything n first) -> (i < len d)%nat -> (j < len d)%nat -> k d i j = k d j i.

  (** the energy of the extensions *)
  Lemma dirichlet_energy x y x' y' w w' :
    (forall d, In d (everything n first) -> extension (len d) (srf d) (k d) (Bt_of L row x d) (w d)) -> (forall m, (m < length L)%nat -> y m = B_of n first len row (fun d => times (len d) (k d) (w d)) m) ->
    (forall d, In d (everything n first) -> extension (len d) (srf d) (k d) (Bt_of L row x' d) (w' d)) -> (forall m, (m < length L)%nat -> y' m = B_of n first len row (fun d => times (len d) (k d) (w' d)) m) ->
    dot y x' = Sum (everything n first) (fun d => Sum (seq 0 (len d)) (fun i => w' d i * times (len d) (k d) (w d) i)).
  Proof.
    intros Ew Ey Ew' Ey'. rewrite (Sum_ext_in _ _ (fun m => B_of n first len row (fun d => times (len d) (k d) (w d)) m * x' m)) by (intros m Im; apply in_seq in Im; rewrite Ey by lia; reflexivity).
    rewrite B_adjoint. apply Sum_ext_in. intros d Id. apply Sum_ext_in. intros i Ii. apply in_seq in Ii. specialize (Ew d Id i ltac:(lia)). specialize (Ew' d Id i ltac:(lia)). destruct (srf d i) eqn:E; [rewrite Ew'; lra|]. rewrite Ew. lra.
  Qed.

  (** C126: Dirichlet is symmetric *)
  Theorem dirichlet_symmetric x y x' y' : is_dirichlet x y -> is_dirichlet x' y' -> dot y x' = dot y' x.
  Proof.
    intros (w & Ew & Ey) (w' & Ew' & Ey'). rewrite (dirichlet_energy x y x' y' w w'), (dirichlet_energy x' y' x y w' w) by easy. apply Sum_ext_in. intros d Id. apply bilinear. intros i j Hi Hj. now apply Hk.
  Qed.
  Lemma Sum_nonneg {A} (l : list A) f : (forall a, In a l -> 0 <= f a) -> 0 <= Sum l f.
  Proof. induction l as [|a l IH]; intros H; [rewrite Sum_nil; lra|]. rewrite Sum_cons. specialize (IH ltac:(intros; apply H; now right)). specialize (H a (or_introl eq_refl)). lra. Qed.
  Lemma Sum_le {A} (l : list A) f g : (forall a, In a l -> f a <= g a) -> Sum l f <= Sum l g.
  Proof. induction l as [|a l IH]; intros H; [rewrite !Sum_nil; lra|]. rewrite !Sum_cons. specialize (IH ltac:(intros; apply H; now right)). specialize (H a (or_introl eq_refl)). lra. Qed.

  Hypothesis Hpos : forall d v, In d (everything n first) -> 0 <= Sum (seq 0 (len d)) (fun i => v i * times (len d) (k d) v i).
  Theorem dirichlet_semidefinite x y : is_dirichlet x y -> 0 <= dot y x.
  Proof. intros (w & Ew & Ey). rewrite (dirichlet_energy x y x y w w) by easy. apply Sum_nonneg. intros d Id. now apply Hpos. Qed.

  (** C125: lumped is symmetric and positive semi-definite, and not below Dirichlet *)
  Theorem lumped_symmetric x x' : dot (lumped_of n first L len row k x) x' = dot (lumped_of n first L len row k x') x.
  Proof.
    unfold lumped_of. rewrite !B_adjoint. apply Sum_ext_in. intros d Id.
    rewrite (Sum_ext _ _ (fun j => Bt_of L row x' d j * times (len d) (k d) (Bt_of L row x d) j)) by (intros; lra). rewrite bilinear by (intros; now apply Hk). apply Sum_ext. intros. lra.
  Qed.
  Theorem lumped_semidefinite x : 0 <= dot (lumped_of n first L len row k x) x.
  Proof.
    unfold lumped_of. rewrite !B_adjoint. apply Sum_nonneg. intros d Id. rewrite (Sum_ext _ _ (fun j => Bt_of L row x d j * times (len d) (k d) (Bt_of L row x d) j)) by (intros; lra). now apply Hpos.
  Qed.
  Theorem dirichlet_below_lumped x y : is_dirichlet x y -> dot y x <= dot (lumped_of n first L len row k x) x.
  Proof.
    intros (w & Ew & Ey). rewrite (dirichlet_energy x y x y w w) by easy. unfold lumped_of. rewrite !B_adjoint. apply Sum_le. intros d Id. specialize (Ew d Id).
    set (v := Bt_of L row x d). set (e := fun i => v i + -1 * w d i). pose proof (Hpos d e Id) as P.
    assert (Z : Sum (seq 0 (len d)) (fun i => e i * times (len d) (k d) (w d) i) = 0).
    { apply Sum_zero. intros i Ii. apply in_seq in Ii. specialize (Ew i ltac:(lia)). unfold e. destruct (srf d i) eqn:E; [rewrite Ew; fold v; lra|]. rewrite Ew. lra. }
    assert (Z' : Sum (seq 0 (len d)) (fun i => w d i * times (len d) (k d) e i) = 0) by (rewrite bilinear by (intros; now apply Hk); exact Z).
    assert (X : Sum (seq 0 (len d)) (fun j => times (len d) (k d) v j * v j) = Sum (seq 0 (len d)) (fun i => e i * times (len d) (k d) e i) + Sum (seq 0 (len d)) (fun i => e i * times (len d) (k d) (w d) i) +
      Sum (seq 0 (len d)) (fun i => w d i * times (len d) (k d) e i) + Sum (seq 0 (len d)) (fun i => w d i * times (len d) (k d) (w d) i)).
    { rewrite <- !Sum_plus. apply Sum_ext. intros i. assert (T : times (len d) (k d) e i = times (len d) (k d) v i + -1 * times (len d) (k d) (w d) i) by (unfold e; now rewrite times_plus, times_scal). rewrite T. unfold e. lra. }
    fold v. lra.
  Qed.
End Common.

(** C127 (finding): a symmetric matrix with both triangles stored: its elements outside the diagonal are counted twice *)
Theorem implicit_dirichlet_full_refuted (asolve : csx R -> list R -> list R) : exists (K : csx R) P w,
  valid K /\ ord K = OrdR /\ distinct K /\ (forall i j, element0 K i j = element0 K j i) /\ element0 K 0 1 = 1 /\
  implicit_update false (fun x => x) (isort ijv_ltb) (fun r c m => (repeat 0%nat (r + 1), repeat 0%nat m, repeat 0 m)) [(0%nat, [(0%nat, 1)]); (1%nat, [(1%nat, 1)])] K SymStructural = Ok P /\
  implicit_domain 0 1 Rplus Rmult Ropp asolve P 2 [1; 0] = Ok w /\ nth 1 w 0 = 2.
Proof.
  exists (Csx 2 2 4 OrdR UploNone [0; 2; 4]%nat [0; 1; 0; 1]%nat [2; 1; 1; 2]). eexists. eexists. split; [|split; [|split; [|split; [|split; [|split; [|split]]]]]].
  - split; [unfold allocated; cbn; auto|reflexivity|reflexivity|intros p Hp; cbn in Hp; destruct p as [|[|p]]; cbn; lia|cbn; intros c Hc; repeat (destruct Hc as [<-|Hc]; [lia|]); destruct Hc].
  - reflexivity.
  - unfold distinct. cbn. repeat (constructor; [cbn; intros H; repeat (destruct H as [H|H]; [discriminate H|]); exact H|]). constructor.
  - intros [|[|i]] [|[|j]]; reflexivity.
  - reflexivity.
  - cbv - [Rplus Rmult R0 R1 IZR]. reflexivity.
  - cbv - [Rplus Rmult Ropp R0 R1 IZR]. reflexivity.
  - cbn. lra.
Qed.

(* ---- Examples ----------------------------------------------------------------------- *)
(** three ranks with five domains (P_Dual, P_TotalFeti); the surfaces are the first and the last degree of freedom, the interior the middle one *)
Definition pc_k (d i j : nat) : R := if (i =? j)%nat then 2 else if (i =? j + 1)%nat || (j =? i + 1)%nat then -1 else 0.
Definition pc_K (d : nat) : csx R := Csx 3 3 5 OrdR UploU [0; 2; 4; 5]%nat [0; 1; 1; 2; 2]%nat [2; -1; 2; -1; 2].
Definition pc_alloc (r c m : nat) : list nat * list nat * list R := (repeat 9%nat (r + 1), repeat 9%nat m, repeat 7 m).
Definition pc_solve (A : csx R) (v : list R) : list R := map (fun x => x / 2) v.
Lemma pc_stores d : stores 3 (pc_k d) (pc_K d).
Proof.
  split; try reflexivity.
  - split; [unfold allocated; cbn; auto|reflexivity|reflexivity|intros p Hp; cbn in Hp; destruct p as [|[|[|p]]]; cbn; lia|cbn; intros c Hc; repeat (destruct Hc as [<-|Hc]; [lia|]); destruct Hc].
  - intros e He. cbn in He. unfold e_row, e_col. repeat (destruct He as [<-|He]; [cbn; lia|]). destruct He.
  - intros i Hi. cbn in Hi. destruct i as [|[|[|i]]]; [exists (0%nat, 0%nat, 2)|exists (1%nat, 1%nat, 2)|exists (2%nat, 2%nat, 2)|lia]; (split; [cbn; auto 10|split; reflexivity]).
  - unfold distinct. cbn. repeat (constructor; [cbn; intros H; repeat (destruct H as [H|H]; [discriminate H|]); exact H|]). constructor.
  - intros i j Hij Hj. destruct i as [|[|[|i]]]; destruct j as [|[|[|j]]]; try lia; reflexivity.
  - intros i j Hi Hj. destruct i as [|[|[|i]]]; destruct j as [|[|[|j]]]; try lia; reflexivity.
Qed.
Lemma pc_surface d j : (d < 5)%nat -> surface ex_L tf_row d j = (j =? 0)%nat || (j =? 2)%nat.
Proof.
  intros Hd. destruct d as [|[|[|[|[|d]]]]]; [| | | | |lia]; destruct j as [|[|[|j]]]; reflexivity.
Qed.
Lemma pc_domain d : In d (everything 3 ex_first) -> (d < 5)%nat.
Proof. unfold everything, all_domains. cbn. intros I. repeat (destruct I as [<-|I]; [lia|]). destruct I. Qed.
Lemma pc_interior d : In d (everything 3 ex_first) -> interior_list 3 (surface ex_L tf_row d) = [1%nat].
Proof. intros I. pose proof (pc_domain d I) as Hd. unfold interior_list. cbn [seq filter]. rewrite !pc_surface by easy. reflexivity. Qed.
Lemma pc_solves d : In d (everything 3 ex_first) -> solves_system (length (interior_list 3 (surface ex_L tf_row d))) (interior_block 3 (surface ex_L tf_row d) (pc_k d)) pc_solve.
Proof.
  intros I. rewrite (pc_interior d I). intros A v _ Lv. cbn [length] in *. destruct v as [|x [|y v]]; try discriminate. split; [reflexivity|]. intros i Hi. assert (i = 0%nat) as -> by lia.
  unfold interior_block. rewrite (pc_interior d I). cbn [seq nth pc_solve map]. rewrite Sum_cons, Sum_nil. cbn [nth]. unfold pc_k. cbn [Nat.eqb]. lra.
Qed.
Lemma pc_order : strict_weak_order (@ijv_ltb R).
Proof.
  split; unfold le_of, ijv_ltb.
  - intros [[i j] v] [[i' j'] v']. cbn [fst snd]. destruct (Nat.eqb_spec i i'), (Nat.eqb_spec i' i); rewrite Nat.ltb_lt, Nat.ltb_ge; lia.
  - intros [[i j] v] [[i' j'] v'] [[i2 j2] v2]. cbn [fst snd]. destruct (Nat.eqb_spec i' i), (Nat.eqb_spec i2 i'), (Nat.eqb_spec i2 i); rewrite !Nat.ltb_ge; lia.
Qed.
Local Notation pc_update r d sc := (dirichlet_update 0 1 Rplus Rmult Ropp false (fun x => x) (isort ijv_ltb) pc_alloc pc_solve (stored_rows ex_first ex_L tf_row r d) (pc_K d) SymSymmetric sc).
Local Notation pc_implicit r d := (implicit_update false (fun x => x) (isort ijv_ltb) pc_alloc (stored_rows ex_first ex_L tf_row r d) (pc_K d) SymSymmetric).
Definition pc_ixs (r : nat) : list (list nat) := map (fun d => match pc_update r d (repeat 8) with Ok (ix, _) => ix | _ => [] end) (own ex_first r).
Definition pc_scs (r : nat) : list (uplo * list R) := map (fun d => match pc_update r d (repeat 8) with Ok (_, sc) => sc | _ => (UploU, []) end) (own ex_first r).
Definition pc_Ps (r : nat) : list (implicit R) := map (fun d => match pc_implicit r d with Ok P => P | _ => Implicit [] (pc_K d) (pc_K d) (pc_K d) end) (own ex_first r).
Definition pc_olds (r : nat) : list (list R) := map (fun d => [5; 6; 7]) (own ex_first r).
Lemma pc_alloc_ok r c m : length (fst (fst (pc_alloc r c m))) = (r + 1)%nat /\ length (snd (fst (pc_alloc r c m))) = m /\ length (snd (pc_alloc r c m)) = m.
Proof. unfold pc_alloc. cbn [fst snd]. now rewrite !repeat_length. Qed.
Lemma pc_limit r q : (r < 3)%nat -> In q (ex_nbs r) -> (length (common ex_first ex_L r q) <= 7)%nat.
Proof. intros Hr I. destruct r as [|[|[|r]]]; [| | |lia]; destruct I as [<-|[<-|[]]]; cbn; lia. Qed.
Local Notation dirichlet_all y x := (exists ends z, ncompletes 3 (map (fun r => synchronize Rplus 7 (decomposed ex_first ex_nbs r) (ex_map r) (y r) (tf_buf r) (tf_buf r)) (seq 0 3)) ends /\
  map (fun e => fst (fst e)) ends = map (dual ex_first ex_L z) (seq 0 3) /\ is_dirichlet 3 ex_first ex_L (fun _ => 3%nat) tf_row pc_k x z).
Lemma pc_one r d : (r < 3)%nat -> In d (own ex_first r) -> exists ix sc, pc_update r d (repeat 8) = Ok (ix, sc).
Proof.
  intros Hr Id. destruct (dirichlet_update_schur 3 ex_first ex_L ex_nbs ex_cmap ex_consistent (fun _ => 3%nat) tf_row (proj1 tf_entries) pc_k pc_K (fun d _ => pc_stores d) (fun _ => SymSymmetric) (fun _ => eq_refl)
    (isort ijv_ltb) (isort_contract _ pc_order) pc_alloc pc_alloc_ok pc_solve pc_solves r d (repeat 8) Hr Id (repeat_length 8)) as (S & _ & E). eauto.
Qed.
Lemma pc_updated r : (r < 3)%nat -> updated ex_first ex_L tf_row pc_K (fun _ => SymSymmetric) (isort ijv_ltb) pc_alloc pc_solve r (pc_ixs r) (pc_scs r).
Proof.
  intros Hr. split; [unfold pc_ixs; now rewrite map_length|]. split; [unfold pc_scs; now rewrite map_length|]. intros d Id. exists (repeat 8). split; [apply repeat_length|].
  unfold pc_ixs, pc_scs. rewrite !own_nth by easy. destruct (pc_one r d Hr Id) as (ix & sc & ->). reflexivity.
Qed.
Example dirichlet_apply_ex x : exists y, (forall r, (r < 3)%nat -> dirichlet_apply 0 1 Rplus Rmult (stored ex_first ex_L (fun _ => 3%nat) tf_row r) (pc_ixs r) (pc_scs r) (pc_olds r) (dual ex_first ex_L x r) = Ok (y r)) /\ dirichlet_all y x.
Proof.
  apply (dirichlet_apply_computes 3 7 ex_first ex_L ex_nbs ex_cmap ex_consistent ex_map (fun r => nth r [5; 4; 3]%nat 0%nat) ex_itv ex_map_ok pc_limit (fun _ => 3%nat) tf_row (proj1 tf_entries) tf_buf tf_buf (fun r _ => tf_buffers r) (fun r _ => tf_buffers r)
    pc_k pc_K (fun d _ => pc_stores d) (fun _ => SymSymmetric) (fun _ => eq_refl) (isort ijv_ltb) (isort_contract _ pc_order) pc_alloc pc_alloc_ok pc_solve pc_solves); [apply pc_updated|].
  intros r Hr. split; [unfold pc_olds; now rewrite map_length|]. intros d Id. unfold pc_olds. now rewrite (own_nth ex_first r (fun _ => [5; 6; 7])).
Qed.
Example implicit_dirichlet_ex x : exists y, (forall r, (r < 3)%nat -> implicit_dirichlet_apply 0 1 Rplus Rmult Ropp pc_solve (stored ex_first ex_L (fun _ => 3%nat) tf_row r) (pc_Ps r) (dual ex_first ex_L x r) = Ok (y r)) /\ dirichlet_all y x.
Proof.
  apply (implicit_dirichlet_computes 3 7 ex_first ex_L ex_nbs ex_cmap ex_consistent ex_map (fun r => nth r [5; 4; 3]%nat 0%nat) ex_itv ex_map_ok pc_limit (fun _ => 3%nat) tf_row (proj1 tf_entries) tf_buf tf_buf (fun r _ => tf_buffers r) (fun r _ => tf_buffers r)
    pc_k pc_K (fun d _ => pc_stores d) (fun _ => SymSymmetric) (isort ijv_ltb) (isort_contract _ pc_order) pc_alloc pc_alloc_ok pc_solve pc_solves).
  intros r Hr. split; [unfold pc_Ps; now rewrite map_length|]. intros d Id.
  destruct (implicit_dirichlet_updates 3 ex_first ex_L ex_nbs ex_cmap ex_consistent (fun _ => 3%nat) tf_row (proj1 tf_entries) pc_k pc_K (fun d _ => pc_stores d) (fun _ => SymSymmetric) (isort ijv_ltb) (isort_contract _ pc_order) pc_alloc pc_alloc_ok r d Hr Id) as (P & E).
  exists P. split; [|exact E]. unfold pc_Ps. rewrite nth_error_nth' with (d := P) by (rewrite map_length; now apply own_position). rewrite own_nth by easy. now rewrite E.
Qed.
(** the Schur complement of the tridiagonal matrix *)
Example dirichlet_update_ex : exists l, dirichlet_update 0 1 Rplus Rmult Ropp false (fun x => x) (isort ijv_ltb) pc_alloc pc_solve [(0%nat, [(2%nat, 1); (0%nat, -1)])] (pc_K 0) SymSymmetric (repeat 8) = Ok ([0%nat; 2%nat], (UploU, l)) /\
  nth 0 l 0 = 3 / 2 /\ nth 1 l 0 = -1 / 2 /\ nth 2 l 0 = 3 / 2.
Proof.
  eexists. split; [cbv - [Rplus Rmult Ropp Rdiv R0 R1 IZR]; reflexivity|]. cbn [nth]. split; [|split]; lra.
Qed.
(** both give S v; the interior of the vectors is not used *)
Example domains_ex : exists w P w', dirichlet_domain 0 Rplus Rmult [0; 2]%nat (UploU, [3 / 2; -1 / 2; 3 / 2]) [5; 6; 7] [1; 4; 3] = Ok w /\
  implicit_update false (fun x => x) (isort ijv_ltb) pc_alloc [(0%nat, [(2%nat, 1); (0%nat, -1)])] (pc_K 0) SymSymmetric = Ok P /\
  implicit_domain 0 1 Rplus Rmult Ropp pc_solve P 3 [1; 4; 3] = Ok w' /\ nth 0 w 0 = 0 /\ nth 2 w 0 = 4 /\ nth 0 w' 0 = 0 /\ nth 2 w' 0 = 4.
Proof.
  do 3 eexists. split; [cbv - [Rplus Rmult Ropp Rdiv R0 R1 IZR]; reflexivity|]. split; [cbv - [Rplus Rmult Ropp Rdiv R0 R1 IZR]; reflexivity|]. split; [cbv - [Rplus Rmult Ropp Rdiv R0 R1 IZR]; reflexivity|].
  cbn [nth]. repeat split; lra.
Qed.
Example lumped_apply_ex x : exists y, (forall r, (r < 3)%nat -> lumped_apply 0 1 Rplus Rmult (stored ex_first ex_L (fun _ => 3%nat) tf_row r) (tf_solve r) (dual ex_first ex_L x r) = Ok (y r)) /\
  exists ends, ncompletes 3 (map (fun r => synchronize Rplus 7 (decomposed ex_first ex_nbs r) (ex_map r) (y r) (tf_buf r) (tf_buf r)) (seq 0 3)) ends /\
    map (fun e => fst (fst e)) ends = map (dual ex_first ex_L (lumped_of 3 ex_first ex_L (fun _ => 3%nat) tf_row tf_kplus x)) (seq 0 3).
Proof.
  apply (lumped_apply_computes 3 7 ex_first ex_L ex_nbs ex_cmap ex_consistent ex_map (fun r => nth r [5; 4; 3]%nat 0%nat) ex_itv ex_map_ok pc_limit (fun _ => 3%nat) tf_row (proj1 tf_entries) tf_buf tf_buf (fun r _ => tf_buffers r) (fun r _ => tf_buffers r)).
  intros r _. apply tf_solves.
Qed.
(** the matrix of the example is symmetric and positive *)
Example positive_ex d v : 0 <= Sum (seq 0 3) (fun i => v i * times 3 (pc_k d) v i).
Proof.
  unfold times. cbn [seq]. rewrite !Sum_cons, !Sum_nil. cbn. pose proof (pow2_ge_0 (v 0%nat)). pose proof (pow2_ge_0 (v 2%nat)). pose proof (pow2_ge_0 (v 0%nat - v 1%nat)). pose proof (pow2_ge_0 (v 1%nat - v 2%nat)). nra.
Qed.

Print Assumptions lumped_apply_computes.
Print Assumptions dirichlet_update_schur.
Print Assumptions dirichlet_apply_schur.
Print Assumptions dirichlet_apply_computes.
Print Assumptions implicit_dirichlet_updates.
Print Assumptions implicit_dirichlet_computes.
Print Assumptions dirichlet_determined.
Print Assumptions dirichlet_symmetric.
Print Assumptions dirichlet_semidefinite.
Print Assumptions lumped_symmetric.
Print Assumptions lumped_semidefinite.
Print Assumptions dirichlet_below_lumped.
Print Assumptions implicit_dirichlet_full_refuted.
