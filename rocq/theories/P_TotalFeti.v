(** * Properties of the dual operators: C93 *)
From Coq Require Import List Arith Bool Permutation Sorted Reals Lia Lra.
From Verif Require Import Base S_Order M_Nb S_Nb S_Comm M_Exchange M_Dual S_Dual P_Dual S_Equality M_Equality L_Equality4 L_Equality6 L_Equality7 P_Equality M_TotalFeti S_Feti L_TotalFeti L_TotalFeti2 L_Sort.
Import ListNotations.
Local Open Scope out_scope.
Local Open Scope R_scope.

Section DualOperator.
  Variables (n limit : nat) (first : nat -> nat) (L : list (list nat)) (nb : nat -> list nat) (cmap : nat -> list nat).
  Hypothesis HC : consistent n first L nb cmap.
  Variables (Mp : nat -> dual_map) (sz : nat -> nat) (itv : nat -> list (nat * nat)).
  Hypothesis Hmp : forall r, (r < n)%nat -> dual_map_set (decomposed first nb r) (sz r) (itv r) (cmap r) = Ok (Mp r).
  Hypothesis Hlimit : forall r q, (r < n)%nat -> In q (nb r) -> (length (common first L r q) <= limit)%nat.
  Variables (len : nat -> nat) (row : nat -> nat -> list (nat * R)).
  Hypothesis HB : entries_ok L len row.
  Local Notation st := (stored first L len row).
  Local Notation part := (part len row).
  Local Notation B_of := (B_of n first len row).
  Local Notation sync y send recv := (map (fun r => synchronize Rplus limit (decomposed first nb r) (Mp r) (y r) (send r) (recv r)) (seq 0 n)).

  Lemma own_all : flat_map (own first) (seq 0 n) = everything n first.
  Proof.
    unfold everything, all_domains. assert (G : forall k, (k <= n)%nat -> (first 0 <= first k)%nat /\ flat_map (own first) (seq 0 k) = seq (first 0%nat) (first k - first 0%nat)).
    { induction k as [|k IH]; intros Hk; [split; [lia|]; now rewrite Nat.sub_diag|]. destruct (IH ltac:(lia)) as [L0 E]. pose proof (first_mono _ _ _ (c_gluing _ _ _ _ _ HC) k ltac:(lia)) as L1. replace (k + 1)%nat with (S k) in L1 by lia.
      split; [lia|]. rewrite seq_S, flat_map_app, E. cbn [flat_map Nat.add]. rewrite app_nil_r. unfold own, own_domains. replace (k + 1)%nat with (S k) by lia.
      replace (first (S k) - first 0%nat)%nat with ((first k - first 0%nat) + (first (S k) - first k))%nat by lia. rewrite seq_app. do 2 f_equal. lia. }
    apply G. lia.
  Qed.
  Lemma parts_total u m : (m < length L)%nat -> Sum (sharing n first L m) (fun q => part (own first q) u m) = B_of u m.
  Proof.
    intros Hm. unfold S_Feti.B_of. rewrite <- own_all, Sum_flat_map. unfold sharing. rewrite Sum_filter. apply Sum_ext_in. intros q Iq. destruct (touches first q (domains L m)) eqn:E; [reflexivity|].
    symmetry. apply Sum_zero. intros d Id. apply Sum_zero. intros j _. rewrite (B_not_held first L len row HB q m d j Id Hm); [lra|]. unfold held. rewrite filter_In. intros [_ X]. congruence.
  Qed.
  (** parts of B u are added *)
  Lemma parts_synchronized u (y : nat -> list R) (send recv : nat -> list (list R)) :
    (forall r, (r < n)%nat -> buffers (Mp r) (send r)) -> (forall r, (r < n)%nat -> buffers (Mp r) (recv r)) ->
    (forall r, (r < n)%nat -> y r = map (part (own first r) u) (held first L r)) ->
    exists ends, ncompletes n (sync y send recv) ends /\ map (fun e => fst (fst e)) ends = map (dual first L (B_of u)) (seq 0 n).
  Proof.
    intros Hsend Hrecv Hy.
    pose proof (synchronize_sums Rplus n limit first L nb cmap HC Mp sz itv Hmp (fun r m => part (own first r) u m) send recv Hsend Hrecv Hlimit 0) as S.
    eexists. split.
    - rewrite (map_ext_in _ (fun r => synchronize Rplus limit (decomposed first nb r) (Mp r) (vector first L (fun r m => part (own first r) u m) r) (send r) (recv r))).
      + apply S; [intros x z t; lra|intros x z; lra].
      + intros r Ir. apply in_seq in Ir. rewrite Hy by lia. reflexivity.
    - rewrite map_map. apply map_ext. intros r. cbn [fst]. unfold dual, vector. apply map_ext_in. intros m Im. rewrite reduce_Sum. apply parts_total. now apply (held_lt first L r).
  Qed.

  Variables (kplus : nat -> nat -> nat -> R) (solve : nat -> nat -> list R -> list R).
  Hypothesis HS : forall r, (r < n)%nat -> solves first len kplus r (solve r).
  Variables (send recv : nat -> list (list R)).
  Hypothesis Hsend : forall r, (r < n)%nat -> buffers (Mp r) (send r).
  Hypothesis Hrecv : forall r, (r < n)%nat -> buffers (Mp r) (recv r).

  (** C93: the implicit operator: every rank that keeps a multiplier gets its element of B K+ B^T x *)
  Theorem implicit_apply_computes (x : nat -> R) :
    exists y, (forall r, (r < n)%nat -> implicit_apply 0 1 Rplus Rmult (st r) (solve r) (dual first L x r) = Ok (y r)) /\
      exists ends, ncompletes n (sync y send recv) ends /\ map (fun e => fst (fst e)) ends = map (dual first L (F_of n first L len row kplus x)) (seq 0 n).
  Proof.
    exists (fun r => map (part (own first r) (Kplus_of len kplus (Bt_of L row x))) (held first L r)). split.
    - intros r Hr. apply (implicit_ok first L len row HB r kplus (solve r) (HS r Hr)).
    - unfold F_of. now apply parts_synchronized.
  Qed.

  (** C93: with a filter: only the given own domains contribute *)
  Theorem implicit_apply_filter_computes (x : nat -> R) r ds old : (r < n)%nat -> incl ds (own first r) -> length old = length (own first r) ->
    implicit_apply_filter 0 1 Rplus Rmult (st r) (solve r) (map (fun d => (d - first r)%nat) ds) old (dual first L x r) =
    Ok (map (fun m => Sum ds (fun d => Sum (seq 0 (len d)) (fun j => B row m d j * Kplus_of len kplus (Bt_of L row x) d j))) (held first L r)).
  Proof. intros Hr Hds Lo. now apply (implicit_filter_ok first L len row HB r kplus (solve r) (HS r Hr)). Qed.

  (** the assembled matrices of rank [r]; the arrays may have any content before *)
  Definition assembled (r : nat) (fs : list (list R)) : Prop :=
    length fs = length (own first r) /\ forall d, In d (own first r) -> exists bt f,
      length bt = (length (stored_rows first L row r d) * len d)%nat /\ length f = (length (stored_rows first L row r d) * length (stored_rows first L row r d))%nat /\
      assemble 0 Rplus Rmult (st r) (solve r) (d - first r) bt f = Ok (nth (d - first r) fs []).

  (** C93: the explicit operator can be assembled and gives the same, if the columns of every row of B1 are in increasing order *)
  Theorem explicit_assembled r d bt f : columns_sorted L row -> (r < n)%nat -> In d (own first r) ->
    length bt = (length (stored_rows first L row r d) * len d)%nat -> length f = (length (stored_rows first L row r d) * length (stored_rows first L row r d))%nat ->
    exists f', assemble 0 Rplus Rmult (st r) (solve r) (d - first r) bt f = Ok f'.
  Proof.
    intros Hcol Hr Id Lb Lf. rewrite stored_in, map_length in Lb, Lf. destruct (assemble_ok first L len row HB Hcol r kplus (solve r) (HS r Hr) d bt f Id Lb Lf) as (f' & E & _). now exists f'.
  Qed.
  Theorem explicit_apply_computes (fs : nat -> list (list R)) (x : nat -> R) : columns_sorted L row -> (forall r, (r < n)%nat -> assembled r (fs r)) ->
    exists y, (forall r, (r < n)%nat -> explicit_apply 0 Rplus Rmult (st r) (fs r) (dual first L x r) = Ok (y r)) /\
      exists ends, ncompletes n (sync y send recv) ends /\ map (fun e => fst (fst e)) ends = map (dual first L (F_of n first L len row kplus x)) (seq 0 n).
  Proof.
    intros Hcol Hf. exists (fun r => map (part (own first r) (Kplus_of len kplus (Bt_of L row x))) (held first L r)). split.
    - intros r Hr. destruct (Hf r Hr) as [Lf Ha]. apply (explicit_ok first L len row HB Hcol r kplus (solve r) (HS r Hr)); [easy|]. intros d Id. destruct (Ha d Id) as (bt & f & L1 & L2 & E).
      rewrite stored_in, map_length in L1, L2. now exists bt, f.
    - unfold F_of. now apply parts_synchronized.
  Qed.

  (** C93: the right-hand side d = B K+ f - c *)
  Theorem dual_rhs_computes (f : nat -> nat -> R) (c : nat -> R) :
    exists y, (forall r, (r < n)%nat -> dual_rhs 0 Rplus Rmult (st r) (solve r) (map (dense len f) (own first r)) = Ok (y r)) /\
      exists ends, ncompletes n (sync y send recv) ends /\
        map (fun re => axpy Rplus Rmult (fst (fst (snd re))) (-1) (dual first L c (fst re))) (combine (seq 0 n) ends) = map (dual first L (fun m => B_of (Kplus_of len kplus f) m - c m)) (seq 0 n).
  Proof.
    exists (fun r => map (part (own first r) (Kplus_of len kplus f)) (held first L r)). split; [intros r Hr; apply (rhs_ok first L len row HB r kplus (solve r) (HS r Hr))|].
    destruct (parts_synchronized (Kplus_of len kplus f) (fun r => map (part (own first r) (Kplus_of len kplus f)) (held first L r)) send recv Hsend Hrecv (fun r _ => eq_refl)) as (ends & E1 & E2).
    exists ends. split; [exact E1|]. clear E1. revert ends E2. generalize (seq 0 n). induction l as [|r l IH]; intros ends E2; [reflexivity|]. destruct ends as [|e ends]; [discriminate|].
    cbn [map] in E2. injection E2 as E E2. cbn [combine map fst snd]. rewrite IH by easy. f_equal. rewrite E. unfold dual, vector, axpy. clear.
    induction (held first L r) as [|m l IH]; [reflexivity|]. cbn [map combine fst snd]. rewrite IH. f_equal. lra.
  Qed.

  (** C93: the primal solution K+ (f - B^T x), before the kernels are added *)
  Theorem to_primal_computes (f : nat -> nat -> R) (x : nat -> R) r : (r < n)%nat ->
    to_primal 0 1 Rplus Rmult Ropp (st r) (solve r) (map (dense len f) (own first r)) (dual first L x r) =
    Ok (map (dense len (Kplus_of len kplus (fun d j => f d j - Bt_of L row x d j))) (own first r)).
  Proof. intros Hr. apply (to_primal_ok first L len row HB r kplus (solve r) (HS r Hr)). Qed.
End DualOperator.

(** C93: F is symmetric and positive semi-definite if K+ is *)
Section Definite.
  Variables (n : nat) (first : nat -> nat) (L : list (list nat)) (len : nat -> nat) (row : nat -> nat -> list (nat * R)) (kplus : nat -> nat -> nat -> R).
  Lemma B_adjoint u x : Sum (multiplier_list L) (fun m => B_of n first len row u m * x m) = Sum (everything n first) (fun d => Sum (seq 0 (len d)) (fun j => u d j * Bt_of L row x d j)).
  Proof.
    unfold B_of, Bt_of. rewrite (Sum_ext _ _ (fun m => Sum (everything n first) (fun d => Sum (seq 0 (len d)) (fun j => u d j * (B row m d j * x m))))).
    - rewrite Sum_swap. apply Sum_ext. intros d. rewrite Sum_swap. apply Sum_ext. intros j. now rewrite Sum_scal.
    - intros m. rewrite <- Sum_scal_r. apply Sum_ext. intros d. rewrite <- Sum_scal_r. apply Sum_ext. intros j. lra.
  Qed.
  Theorem F_symmetric x y : (forall d i j, kplus d i j = kplus d j i) ->
    Sum (multiplier_list L) (fun m => F_of n first L len row kplus x m * y m) = Sum (multiplier_list L) (fun m => F_of n first L len row kplus y m * x m).
  Proof.
    intros HK. unfold F_of. rewrite !B_adjoint. apply Sum_ext. intros d. unfold Kplus_of.
    rewrite (Sum_ext _ _ (fun i => Sum (seq 0 (len d)) (fun j => kplus d i j * Bt_of L row x d j * Bt_of L row y d i))) by (intros; now rewrite Sum_scal_r).
    rewrite Sum_swap. apply Sum_ext. intros j. rewrite <- Sum_scal_r. apply Sum_ext. intros i. rewrite (HK d i j). lra.
  Qed.
  Theorem F_semidefinite x : (forall d v, 0 <= Sum (seq 0 (len d)) (fun i => v i * Sum (seq 0 (len d)) (fun j => kplus d i j * v j))) ->
    0 <= Sum (multiplier_list L) (fun m => F_of n first L len row kplus x m * x m).
  Proof.
    intros HK. unfold F_of. rewrite B_adjoint. induction (everything n first) as [|d l IH]; [rewrite Sum_nil; lra|]. rewrite Sum_cons. unfold Kplus_of at 1.
    rewrite (Sum_ext _ _ (fun i => Bt_of L row x d i * Sum (seq 0 (len d)) (fun j => kplus d i j * Bt_of L row x d j))) by (intros; lra). specialize (HK d (Bt_of L row x d)). lra.
  Qed.
End Definite.

(** C93: the rows that the gluing and Dirichlet constraints store (C91) are of this form; their columns are sorted *)
Section EqualityRows.
  Variables (n : nat) (first : nat -> nat) (N : nat) (copies : nat -> list nat) (fixed : nat -> bool) (index : nat -> nat -> nat -> nat).
  Hypothesis M : mesh n first N copies.
  Variable nb : nat -> list nat.
  Variable glued : list (nat * nat).
  Hypothesis Hg : ordered N copies fixed glued.
  Variable sort : (nat * nat -> nat * nat -> bool) -> list (nat * nat) -> list (nat * nat).
  Hypothesis Hsort : forall lt, strict_weak_order lt -> sort_contract lt (sort lt).
  Variables (ix : nat -> nat -> nat) (len : nat -> nat).
  Hypothesis HN : numbered N copies ix len.
  Hypothesis Hix : forall r d g, (r < n)%nat -> In d (own_domains first r) -> (g < N)%nat -> In d (copies g) -> index r d g = ix d g.
  Local Notation all := (multipliers n first N copies fixed glued).
  Local Notation L := (map (domains_of copies) all).

  Definition equality_row (m d : nat) : list (nat * R) := entries copies (fun _ => ix) 1 low diag 0 d (nth m all (Fix 0 0)).

  Lemma L_nth m : (m < length L)%nat -> domains L m = domains_of copies (nth m all (Fix 0 0)).
  Proof. intros H. unfold domains. rewrite map_length in H. rewrite (nth_indep _ [] (domains_of copies (Fix 0 0))) by (now rewrite map_length). apply map_nth. Qed.

  (** a constraint has one entry in each of its domains *)
  Lemma entries_one rank d m (idx : nat -> nat -> nat -> nat) : In m all -> In d (domains_of copies m) -> exists c, entries copies idx 1 low diag rank d m = [(idx rank d (match m with Glue g _ => g | Fix _ g => g end), c)].
  Proof.
    intros I Id. pose proof (proj1 (multiplier_valid n first N copies fixed M glued Hg m) I) as V. destruct m as [g size|d' g]; cbn [entries domains_of valid_multiplier] in *.
    - destruct V as (Lg & _ & S1 & S2). pose proof (mesh_copies _ _ _ _ M g Lg) as S.
      assert (ND : forall i j, (i < length (copies g))%nat -> (j < length (copies g))%nat -> nth i (copies g) O = nth j (copies g) O -> i = j).
      { intros i j Hi Hj E. destruct (Nat.lt_trichotomy i j) as [X|[X|X]]; [|easy|]; [pose proof (ss_nth _ S i j ltac:(lia))|pose proof (ss_nth _ S j i ltac:(lia))]; lia. }
      apply (In_nth _ _ O) in Id as (c & Hc & E). rewrite firstn_length in Hc. rewrite nth_firstn_lt in E by lia. exists (coefficient low diag size c).
      assert (F : filter (fun c => (nth c (copies g) O =? d)%nat) (seq 0 size) = [c]).
      { replace size with (c + 1 + (size - c - 1))%nat by lia. rewrite !seq_app, !filter_app. cbn [seq filter Nat.add]. rewrite E, Nat.eqb_refl.
        assert (G : forall b k, (b + k <= size)%nat -> (forall i, (b <= i < b + k)%nat -> i <> c) -> filter (fun c => (nth c (copies g) O =? d)%nat) (seq b k) = []).
        { intros b k Hb Hk. rewrite (filter_ext_in _ (fun _ => false)); [now rewrite filter_false || (induction (seq b k); auto)|]. intros i Ii. apply in_seq in Ii. apply Nat.eqb_neq. intros Ei. apply (Hk i Ii). apply ND; lia. }
        rewrite !G by (intros; lia). reflexivity. }
      rewrite F. reflexivity.
    - destruct Id as [<-|[]]. rewrite Nat.eqb_refl. now exists 1.
  Qed.
  Lemma entries_none rank d m (idx : nat -> nat -> nat -> nat) : In m all -> ~ In d (domains_of copies m) -> entries copies idx 1 low diag rank d m = [].
  Proof.
    intros I Nd. pose proof (proj1 (multiplier_valid n first N copies fixed M glued Hg m) I) as V. destruct m as [g size|d' g]; cbn [entries domains_of valid_multiplier] in *.
    - destruct V as (Lg & _ & S1 & S2). rewrite (filter_ext_in _ (fun _ => false)); [induction (seq 0 size); auto|]. intros i Ii. apply in_seq in Ii. apply Nat.eqb_neq. intros E. apply Nd.
      rewrite <- E. rewrite <- (nth_firstn_lt size) by lia. apply nth_In. rewrite firstn_length. lia.
    - destruct (Nat.eqb_spec d' d) as [->|]; [|reflexivity]. destruct Nd. now left.
  Qed.

  Theorem equality_rows_ok : entries_ok L len equality_row /\ columns_sorted L equality_row.
  Proof.
    split; intros m d Hm; assert (I : In (nth m all (Fix 0 0)) all) by (apply nth_In; now rewrite map_length in Hm); unfold equality_row; set (x := nth m all (Fix 0 0)) in *.
    - split.
      + intros e Ie. destruct (in_dec Nat.eq_dec d (domains_of copies x)) as [Id|Nd]; [|rewrite entries_none in Ie by easy; destruct Ie].
        destruct (entries_one 0 d x (fun _ => ix) I Id) as (c & E). rewrite E in Ie. destruct Ie as [<-|[]]. cbn [fst]. pose proof (proj1 (multiplier_valid n first N copies fixed M glued Hg x) I) as V.
        destruct x as [g size|d' g]; cbn [domains_of valid_multiplier] in *.
        * apply (proj1 HN); [easy|]. rewrite <- (firstn_skipn size (copies g)). apply in_or_app. now left.
        * destruct Id as [<-|[]]. now apply (proj1 HN).
      + intros Nd. rewrite L_nth in Nd by easy. now apply entries_none.
    - destruct (in_dec Nat.eq_dec d (domains_of copies x)) as [Id|Nd]; [|rewrite entries_none by easy; constructor]. destruct (entries_one 0 d x (fun _ => ix) I Id) as (c & E). rewrite E. repeat constructor.
  Qed.

  (** B1 is indexed by its rows, every row has one entry *)
  Theorem equality_rows_stored r E d : (r < n)%nat -> In d (own_domains first r) ->
    equality_set 0 1 low diag sort (decomposed first nb r) (dmap_of first N copies index r) (fixed_of first N copies fixed r) = Ok E ->
    exists rows, domain_rows E (d - first r) = Ok rows /\ map (fun x => (fst x, [snd x])) rows = stored_rows first L equality_row r d.
  Proof.
    intros Hr Id HE. destruct (constraints_set 0 1 low diag n first N copies fixed index M nb glued Hg sort Hsort r Hr) as (E' & E1 & _ & _ & _ & E4). rewrite HE in E1. injection E1 as <-.
    eexists. split; [now apply E4|]. unfold rows_of, stored_rows.
    assert (Hh : held_multipliers first copies r all = map (fun i => nth i all (Fix 0 0)) (held first L r)).
    { unfold S_Dual.held, held_multipliers. rewrite map_length. rewrite <- (filter_nth_seq (fun m => touches first r (domains_of copies m)) all (Fix 0 0)).
      f_equal. apply filter_ext_in. intros i Ii. apply in_seq in Ii. rewrite L_nth; [reflexivity|rewrite map_length; lia]. }
    rewrite Hh, map_length. assert (Hl : forall i, In i (held first L r) -> (i < length L)%nat) by (intros; now apply (held_lt first L r)).
    revert Hl. generalize (held first L r) as l. clear Hh. enough (G : forall l s, (forall i, In i l -> (i < length L)%nat) ->
      map (fun x => (fst x, [snd x])) (flat_map (fun x => map (pair (fst x)) (entries copies index 1 low diag r d (snd x))) (combine (seq s (length l)) (map (fun i => nth i all (Fix 0 0)) l))) =
      map (fun pm => (fst pm, equality_row (snd pm) d)) (filter (fun pm => existsb (Nat.eqb d) (domains L (snd pm))) (combine (seq s (length l)) l))) by (intros l; apply G).
    induction l as [|i l IH]; intros s Hl; [reflexivity|].
    cbn [length seq combine map flat_map fst snd filter]. rewrite map_app, (IH (S s)) by (intros; apply Hl; now right). clear IH.
    assert (Li : (i < length L)%nat) by (apply Hl; now left). assert (Ii : In (nth i all (Fix 0 0)) all) by (apply nth_In; now rewrite map_length in Li). rewrite (L_nth i Li).
    destruct (existsb (Nat.eqb d) (domains_of copies (nth i all (Fix 0 0)))) eqn:X.
    - apply existsb_exists in X as (d' & X & Ed). apply Nat.eqb_eq in Ed. subst d'. cbn [map fst snd].
      replace (equality_row i d) with (entries copies index 1 low diag r d (nth i all (Fix 0 0))); [|unfold equality_row].
      + destruct (entries_one r d (nth i all (Fix 0 0)) index Ii X) as (c & Ec). rewrite Ec. reflexivity.
      + pose proof (proj1 (multiplier_valid n first N copies fixed M glued Hg _) Ii) as V. destruct (nth i all (Fix 0 0)) as [g size|d' g]; cbn [entries domains_of valid_multiplier] in *.
        * rewrite (Hix r d g Hr Id); [reflexivity|easy|]. rewrite <- (firstn_skipn size (copies g)). apply in_or_app. now left.
        * destruct X as [<-|[]]. rewrite Nat.eqb_refl. rewrite (Hix r d' g Hr Id) by easy. reflexivity.
    - assert (Nd : ~ In d (domains_of copies (nth i all (Fix 0 0)))).
      { intros Y. assert (Z : existsb (Nat.eqb d) (domains_of copies (nth i all (Fix 0 0))) = true) by (apply existsb_exists; exists d; split; [easy|apply Nat.eqb_refl]). congruence. }
      rewrite (entries_none r d _ index Ii Nd). reflexivity.
  Qed.
End EqualityRows.

(** C93 (finding): a row whose columns are not sorted is written behind the array (its last row) by the explicit operator; the implicit one is right *)
Theorem explicit_unsorted_refuted (a b : R) (solve : nat -> list R -> list R) f : exists F : feti R,
  F = stored (fun r => r) [[0%nat]] (fun _ => 2%nat) (fun _ d => if (d =? 0)%nat then [(1%nat, a); (0%nat, b)] else []) 0 /\
  entries_ok [[0%nat]] (fun _ => 2%nat) (fun _ d => if (d =? 0)%nat then [(1%nat, a); (0%nat, b)] else []) /\
  assemble 0 Rplus Rmult F solve 0 [0; 0] f = UB /\
  apply_Bt 0 Rplus Rmult F 0 2 [1] 1 = Ok [0 + 1 * b * 1; 0 + 1 * a * 1].
Proof.
  eexists. split; [reflexivity|]. split; [|split].
  - intros m d Hm. cbn in Hm. assert (m = O) as -> by lia. split.
    + intros e Ie. destruct (d =? 0)%nat; [|destruct Ie]. destruct Ie as [<-|[<-|[]]]; cbn [fst]; lia.
    + intros Nd. destruct (Nat.eqb_spec d 0) as [->|]; [|reflexivity]. destruct Nd. now left.
  - cbv - [Rplus Rmult R0 R1 IZR]. reflexivity.
  - cbv - [Rplus Rmult R0 R1 IZR]. reflexivity.
Qed.

(* ---- Examples ----------------------------------------------------------------------- *)
(** three ranks with five domains (P_Dual); every multiplier has two entries in each of its domains *)
Definition tf_row (m d : nat) : list (nat * R) := if existsb (Nat.eqb d) (domains ex_L m) then [(0%nat, 1); (2%nat, INR (m + d))] else [].
Definition tf_kplus (d i j : nat) : R := if (i =? j)%nat then INR (d + 1) else 0.
Definition tf_solve (r i : nat) (v : list R) : list R := dense (fun _ => 3%nat) (Kplus_of (fun _ => 3%nat) tf_kplus (fun _ j => nth j v 0)) (ex_first r + i).
Definition tf_buf (r : nat) : list (list R) := map (fun s => repeat 0 s) (nsize (ex_map r)).
Lemma tf_entries : entries_ok ex_L (fun _ => 3%nat) tf_row /\ columns_sorted ex_L tf_row.
Proof.
  split; intros m d Hm; unfold tf_row; destruct (existsb (Nat.eqb d) (domains ex_L m)) eqn:E.
  - split.
    + intros e [<-|[<-|[]]]; cbn [fst]; lia.
    + intros N. apply existsb_exists in E as (x & I & Ex). apply Nat.eqb_eq in Ex. now subst x.
  - split; [intros e []|reflexivity].
  - cbn [map fst]. repeat constructor.
  - constructor.
Qed.
Lemma tf_solves r : solves ex_first (fun _ => 3%nat) tf_kplus r (tf_solve r).
Proof. intros d v Id Lv. unfold tf_solve. unfold own, own_domains in Id. apply in_seq in Id. f_equal. lia. Qed.
Lemma tf_buffers r : buffers (ex_map r) (tf_buf r).
Proof. unfold buffers, tf_buf. rewrite map_map. etransitivity; [|apply map_id]. apply map_ext. intros s. apply repeat_length. Qed.
Example implicit_apply_ex x :
  exists y, (forall r, (r < 3)%nat -> implicit_apply 0 1 Rplus Rmult (stored ex_first ex_L (fun _ => 3%nat) tf_row r) (tf_solve r) (dual ex_first ex_L x r) = Ok (y r)) /\
    exists ends, ncompletes 3 (map (fun r => synchronize Rplus 7 (decomposed ex_first ex_nbs r) (ex_map r) (y r) (tf_buf r) (tf_buf r)) (seq 0 3)) ends /\
      map (fun e => fst (fst e)) ends = map (dual ex_first ex_L (F_of 3 ex_first ex_L (fun _ => 3%nat) tf_row tf_kplus x)) (seq 0 3).
Proof.
  apply (implicit_apply_computes 3 7 ex_first ex_L ex_nbs ex_cmap ex_consistent ex_map (fun r => nth r [5; 4; 3]%nat 0%nat) ex_itv ex_map_ok); try (intros; apply tf_buffers).
  - intros r q Hr I. destruct r as [|[|[|r]]]; [| | |lia]; destruct I as [<-|[<-|[]]]; cbn; lia.
  - apply tf_entries.
  - intros r _. apply tf_solves.
Qed.
(** the two operators on a rank with two domains *)
Definition tf_small : feti nat := {| B1 := [[(0, [(0, 1); (2, 3)]); (2, [(1, 5)])]; [(0, [(1, 2)]); (1, [(0, 1); (1, 4)])]]; Kn := [3; 2]; lambdas := 3 |}%nat.
Example operators_ex : exists f0 f1, let solve d v := map (Nat.mul (d + 2)) v in
  (assemble 0 Nat.add Nat.mul tf_small solve 0 (repeat 77 6) (repeat 99 4) = Ok f0 /\ assemble 0 Nat.add Nat.mul tf_small solve 1 (repeat 77 4) (repeat 99 4) = Ok f1 /\
  implicit_apply 0 1 Nat.add Nat.mul tf_small solve [1; 10; 100] = Ok [272; 534; 5000] /\
  explicit_apply 0 Nat.add Nat.mul tf_small [f0; f1] [1; 10; 100] = Ok [272; 534; 5000])%nat.
Proof. do 2 eexists. cbv zeta. split; [reflexivity|]. split; [reflexivity|]. split; reflexivity. Qed.
Example unsorted_refuted_ex : exists F : feti R, assemble 0 Rplus Rmult F (fun _ v => v) 0 [0; 0] [0] = UB.
Proof. destruct (explicit_unsorted_refuted 1 1 (fun _ v => v) [0]) as (F & _ & _ & E & _). now exists F. Qed.
Example equality_rows_ex r : (r < 2)%nat -> exists rows, domain_rows (eq_E r) 0 = Ok rows /\
  map (fun x => (fst x, [snd x])) rows = stored_rows eq_first (map (domains_of eq_copies) (multipliers 2 eq_first 4 eq_copies eq_fixed eq_glued)) (equality_row 2 eq_first 4 eq_copies eq_fixed eq_glued eq_ix) r (eq_first r).
Proof.
  intros Hr. pose proof (Nat.sub_diag (eq_first r)) as E0. enough (G : exists rows, domain_rows (eq_E r) (eq_first r - eq_first r) = Ok rows /\ _) by (rewrite E0 in G; exact G).
  apply (equality_rows_stored 2 eq_first 4 eq_copies eq_fixed eq_index eq_mesh eq_nb eq_glued eq_ordered isort eq_sort eq_ix eq_index_own r (eq_E r) (eq_first r) Hr); [|now apply eq_E_ok].
  unfold own_domains. apply in_seq. destruct r as [|[|r]]; cbn; lia.
Qed.

Print Assumptions implicit_apply_computes.
Print Assumptions implicit_apply_filter_computes.
Print Assumptions explicit_assembled.
Print Assumptions explicit_apply_computes.
Print Assumptions dual_rhs_computes.
Print Assumptions to_primal_computes.
Print Assumptions F_symmetric.
Print Assumptions F_semidefinite.
Print Assumptions equality_rows_ok.
Print Assumptions equality_rows_stored.
Print Assumptions explicit_unsorted_refuted.
