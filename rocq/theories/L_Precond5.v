(** * Lemmas about the preconditioners: what happens in a domain *)
From Coq Require Import List Arith Bool ZArith Permutation Sorted Reals Lia Lra.
From Verif Require Import L_Dual3 L_Distributed S_Dual S_Equality L_Equality6 S_Feti L_TotalFeti2.
From Verif Require Import Base S_Order M_Csx M_Dnx S_Csx S_Dnx M_Math S_Math L_Csx L_Csx2 L_Csx3 L_Dnx2 L_Math L_Math2 P_Math P_Math2 M_Precond S_Precond L_Precond L_Precond2 L_Precond3 L_Precond4.
Import ListNotations.
Local Open Scope out_scope.
Local Open Scope R_scope.

Lemma Forall2_map_eq {A B} (f g : A -> B) l : map f l = map g l -> forall x, In x l -> f x = g x.
Proof. induction l as [|y l IH]; intros H x I; [destruct I|]. cbn [map] in H. injection H as H1 H2. destruct I as [<-|I]; auto. Qed.

Lemma nth_first {A} (l : list A) k i d : (i < k)%nat -> nth i (firstn k l) d = nth i l d.
Proof. revert k i. induction l as [|x l IH]; intros k i H; [now rewrite firstn_nil|]. destruct k; [lia|]. destruct i; [reflexivity|]. cbn [firstn nth]. apply IH. lia. Qed.

Section Domain.
  Variables (n : nat) (s : nat -> bool) (a : nat -> nat -> R) (K : csx R).
  Hypothesis HK : stores n a K.
  Variable sort : list (nat * nat * R) -> list (nat * nat * R).
  Hypothesis Hsort : sort_contract ijv_ltb sort.
  Variable alloc : nat -> nat -> nat -> list nat * list nat * list R.
  Hypothesis Halloc : forall r c n, length (fst (fst (alloc r c n))) = (r + 1)%nat /\ length (snd (fst (alloc r c n))) = n /\ length (snd (alloc r c n)) = n.
  Variable asolve : csx R -> list R -> list R.
  Hypothesis Hsol : solves_system (length (interior_list n s)) (interior_block n s a) asolve.
  Variable sym : symmetry.
  Hypothesis Hsym : unsymmetric sym = false.
  Local Notation ix := (surface_list n s).
  Local Notation inn := (interior_list n s).
  Local Notation n1 := (length inn).
  Local Notation m := (length ix).
  Local Notation times := (times n a).

  Lemma asym i j : (i < n)%nat -> (j < n)%nat -> a i j = a j i.
  Proof. apply (s_symmetric _ _ _ HK). Qed.
  Lemma new_inner p : (p < n1)%nat -> nth p (new_order n s) 0%nat = nth p inn 0%nat.
  Proof. intros H. unfold new_order. now rewrite app_nth1. Qed.
  Lemma new_surface j : nth (n1 + j) (new_order n s) 0%nat = nth j ix 0%nat.
  Proof. unfold new_order. rewrite app_nth2 by (unfold interior_list; lia). f_equal. unfold interior_list. lia. Qed.
  Lemma n_split : (n - m = n1)%nat.
  Proof. pose proof (lengths n s). lia. Qed.

  (** the function on the domain that a list holds *)
  Local Notation fn v := (fun c => nth c v 0).

  (** sums of the product with values on the surface *)
  Lemma Sum_ix f : Sum ix f = Sum (seq 0 m) (fun j => f (nth j ix 0%nat)).
  Proof. symmetry. apply Sum_seq_nth. Qed.
  Lemma times_on_surface v i : times (on_surface s v) i = Sum (seq 0 m) (fun j => a i (nth j ix 0%nat) * v (nth j ix 0%nat)).
  Proof.
    unfold S_Precond.times. rewrite Sum_split with (s := s). rewrite Sum_zero.
    - rewrite Sum_ix, Rplus_0_l. apply Sum_ext_in. intros j Ij. apply in_seq in Ij. unfold on_surface. destruct (ix_nth n s j) as [_ ->]; [lia|reflexivity].
    - intros j Ij. apply in_inn in Ij. unfold on_surface. destruct Ij as [_ ->]. lra.
  Qed.
  Lemma times_extended Z v i : times (extended n s a Z v) i =
    Sum (seq 0 m) (fun j => a i (nth j ix 0%nat) * v (nth j ix 0%nat)) + - Sum (seq 0 n1) (fun q => a i (nth q inn 0%nat) * nth q (Z (map (times (on_surface s v)) inn)) 0).
  Proof.
    unfold extended. rewrite times_plus, times_scal, times_inner, times_on_surface. lra.
  Qed.
  Lemma solver A : stores n1 (interior_block n s a) A -> forall v, length v = n1 -> length (asolve A v) = n1 /\
      forall p, (p < n1)%nat -> Sum (seq 0 n1) (fun q => interior_block n s a p q * nth q (asolve A v) 0) = nth p v 0.
  Proof. intros HA v Hv. now apply Hsol. Qed.

  (** ** The blocks *)
  Lemma the_blocks P : stores n (moved_a n s a) P -> ascending P -> 
    (exists A sy, sub_csr false (fun x : R => x) alloc P sym (Window 0 n1 0 n1) false false false = Ok (A, sy) /\ stores n1 (interior_block n s a) A) /\
    (exists A sy, sub_csr false (fun x : R => x) alloc P sym (Window n1 n n1 n) false false false = Ok (A, sy) /\ stores m (fun i j => a (nth i ix 0%nat) (nth j ix 0%nat)) A) /\
    (forall cj, exists A sy, sub_csr false (fun x : R => x) alloc P sym (Window 0 n1 n1 n) false cj false = Ok (A, sy) /\ valid A /\ ord A = OrdR /\ nrows A = n1 /\ ncols A = m /\ distinct A /\
      forall p j, (p < n1)%nat -> (j < m)%nat -> element0 A p j = a (nth p inn 0%nat) (nth j ix 0%nat)).
  Proof.
    intros SP AP. pose proof (lengths n s) as L. split; [|split].
    - destruct (diagonal_window n _ P SP AP alloc Halloc sym 0 n1 ltac:(lia) ltac:(lia)) as (A & sy & E & SA). exists A, sy. split; [exact E|]. rewrite Nat.sub_0_r in SA. apply (stores_ext _ _ _ _ SA). intros i j Hi Hj. unfold moved_a, interior_block. cbn [Nat.add]. now rewrite !new_inner.
    - destruct (diagonal_window n _ P SP AP alloc Halloc sym n1 n ltac:(lia) ltac:(lia)) as (A & sy & E & SA). exists A, sy. split; [exact E|]. replace (n - n1)%nat with m in SA by lia. apply (stores_ext _ _ _ _ SA). intros i j Hi Hj. unfold moved_a. now rewrite !new_surface.
    - intros cj. destruct (upper_window n _ P SP AP alloc Halloc sym n1 cj ltac:(lia)) as (A & sy & E & V & O & R1 & C1 & D & EL). exists A, sy. repeat (split; [first [assumption|lia]|]). intros p j Hp Hj. rewrite EL by lia. unfold moved_a. now rewrite new_inner, new_surface.
  Qed.

  (** ** Implicit Dirichlet *)
  Record blocks (P : implicit R) : Prop := {
    b_indices : i_indices P = ix;
    b_A11 : stores n1 (interior_block n s a) (i_A11 P);
    b_valid : valid (i_A12 P); b_ord : ord (i_A12 P) = OrdR; b_rows : nrows (i_A12 P) = n1; b_cols : ncols (i_A12 P) = m; b_distinct : distinct (i_A12 P);
    b_A12 : forall p j, (p < n1)%nat -> (j < m)%nat -> element0 (i_A12 P) p j = a (nth p inn 0%nat) (nth j ix 0%nat);
    b_A22 : stores m (fun i j => a (nth i ix 0%nat) (nth j ix 0%nat)) (i_A22 P) }.

  Variable b : list (nat * list (nat * R)).
  Hypothesis Hcols : forall c, In c (columns b) -> (c < n)%nat.
  Hypothesis Hs : forall j, (j < n)%nat -> s j = existsb (Nat.eqb j) (columns b).

  Lemma implicit_update_ok : exists P, implicit_update false (fun x : R => x) sort alloc b K sym = Ok P /\ blocks P.
  Proof.
    unfold implicit_update. rewrite (s_rows _ _ _ HK), (surface_first_ok n (columns b) s Hcols Hs). cbn [obind]. destruct (permuted n s a K HK sort Hsort) as (P & EP & SP & AP). rewrite EP. cbn [obind]. fold ix. rewrite n_split.
    destruct (the_blocks P SP AP) as ((A11 & s1 & E1 & S1) & (A22 & s2 & E2 & S2) & U). destruct (U false) as (A12 & s3 & E3 & V & O & R1 & C1 & D & EL).
    rewrite E1. cbn [obind]. rewrite E3. cbn [obind]. rewrite E2. cbn [obind fst]. eexists. split; [reflexivity|]. split; auto.
  Qed.

  Lemma gathered v : length v = n -> gather ix v = Ok (map (fun i => nth i v 0) ix ++ skipn m v).
  Proof. intros Lv. apply gather_ok; [apply ix_sorted|]. intros i I. apply in_ix in I. lia. Qed.
  Lemma gathered_nth v j : length v = n -> (j < m)%nat -> nth j (map (fun i => nth i v 0) ix ++ skipn m v) 0 = nth (nth j ix 0%nat) v 0.
  Proof.
    intros Lv Hj. rewrite app_nth1 by (now rewrite map_length). rewrite (nth_indep _ 0 ((fun i => nth i v 0) 0%nat)) by (now rewrite map_length). now rewrite (map_nth (fun i => nth i v 0)).
  Qed.
  Lemma gathered_length v : length v = n -> length (map (fun i => nth i v 0) ix ++ skipn m v) = n.
  Proof. intros Lv. rewrite app_length, map_length, skipn_length. pose proof (lengths n s). lia. Qed.
  Lemma scattered (y : list R) f : length y = n -> (forall i, (i < m)%nat -> nth i y 0 = f (nth i ix 0%nat)) ->
    exists w, scatter ix y = Ok w /\ length w = n /\ forall c, (c < n)%nat -> s c = true -> nth c w 0 = f c.
  Proof.
    intros Ly Hy. destruct (scatter_ok 0 ix (ix_sorted n s) y) as (w & E & Lw & Hw); [intros i I; apply in_ix in I; lia|]. exists w. split; [exact E|]. split; [lia|].
    intros c Hc Sc. assert (I : In c ix) by (now apply in_ix). destruct (In_nth _ _ 0%nat I) as (i & Hi & <-). rewrite Hw, Hy by easy. reflexivity.
  Qed.

  Lemma implicit_domain_ok P v : blocks P -> length v = n ->
    exists w, implicit_domain 0 1 Rplus Rmult Ropp asolve P n v = Ok w /\ length w = n /\
      forall c, (c < n)%nat -> s c = true -> nth c w 0 = times (extended n s a (asolve (i_A11 P)) (fn v)) c.
  Proof.
    intros [BI B1 BV BO BR BC BD B12 B22] Lv. unfold implicit_domain. rewrite BI, gathered by easy. cbn [obind]. set (g := map _ ix ++ skipn m v). pose proof (lengths n s) as L.
    assert (Lg : length g = n) by (now apply gathered_length). rewrite BC, Lg. destruct (Nat.leb_spec m n); [|lia].
    rewrite (csr_apply_ok _ 1 (i_A12 P)); auto; [|rewrite repeat_length; lia|rewrite BC, firstn_length; lia]. cbn [obind]. rewrite repeat_length, BR, BC.
    set (Z := asolve (i_A11 P)).
    assert (EZ : map (fun i => if (i <? n1)%nat then nth i (repeat 0 n1) 0 + Sum (seq 0 m) (fun j => element0 (i_A12 P) i j * (1 * nth j (firstn m g) 0)) else nth i (repeat 0 n1) 0) (seq 0 n1) = map (times (on_surface s (fn v))) inn).
    { transitivity (map (times (on_surface s (fn v))) (map (fun q => nth q inn 0%nat) (seq 0 n1))); [|now rewrite <- (L_Utils.list_as_map inn 0%nat)]. rewrite map_map. apply map_ext_in. intros p Ip. apply in_seq in Ip. destruct (Nat.ltb_spec p n1); [|lia]. rewrite nth_repeat, Rplus_0_l, times_on_surface. apply Sum_ext_in. intros j Ij. apply in_seq in Ij.
      rewrite B12 by lia. rewrite nth_first by lia. unfold g. rewrite gathered_nth by (auto; lia). lra. }
    rewrite EZ. destruct (solver (i_A11 P) B1 (map (times (on_surface s (fn v))) inn)) as [LZ HZ]; [now rewrite map_length|]. fold Z in LZ, HZ.
    rewrite (csr_applyT_ok _ (Ropp 1) (i_A12 P)); auto; [|rewrite repeat_length; lia|fold Z; lia]. cbn [obind]. rewrite repeat_length, BR, BC.
    set (y1 := map _ (seq 0 n)). assert (L1 : length y1 = n) by (unfold y1; now rewrite map_length, seq_length).
    rewrite (upper_apply_ok m _ (i_A22 P) g y1 B22) by lia. cbn [obind]. rewrite L1. set (y2 := map _ (seq 0 n)). assert (L2 : length y2 = n) by (unfold y2; now rewrite map_length, seq_length).
    destruct (scattered y2 (times (extended n s a Z (fn v))) L2) as (w & Ew & Lw & Hw); [|exists w; auto].
    intros i Hi. unfold y2. rewrite nth_map_seq by lia. destruct (Nat.ltb_spec i m); [|lia]. unfold y1. rewrite nth_map_seq by lia. destruct (Nat.ltb_spec i m); [|lia]. rewrite nth_repeat, Rplus_0_l, times_extended, Rplus_comm.
    destruct (ix_nth n s i Hi) as [Hin _]. apply f_equal2.
    - apply Sum_ext_in. intros j Ij. apply in_seq in Ij. unfold g. rewrite gathered_nth by (auto; lia). reflexivity.
    - transitivity (-1 * Sum (seq 0 n1) (fun q => a (nth i ix 0%nat) (nth q inn 0%nat) * nth q (Z (map (times (on_surface s (fn v))) inn)) 0)); [|lra]. rewrite <- Sum_scal. apply Sum_ext_in. intros q Iq. apply in_seq in Iq.
      rewrite B12 by lia. destruct (inn_nth n s q ltac:(lia)) as [Hq _]. rewrite (asym (nth i ix 0%nat)) by easy. lra.
  Qed.

  (** ** Dirichlet *)
  Lemma dirichlet_domain_ok S old v : is_schur n s a S -> length old = n -> length v = n ->
    exists w u, dirichlet_domain 0 Rplus Rmult ix (UploU, packed_upper m S) old v = Ok w /\ length w = n /\ extension n s a (fn v) u /\
      forall c, (c < n)%nat -> s c = true -> nth c w 0 = times u c.
  Proof.
    intros HS Lo Lv. unfold dirichlet_domain. rewrite gathered by easy. cbn [obind fst snd]. set (g := map _ ix ++ skipn m v). pose proof (lengths n s) as L.
    assert (Lg : length g = n) by (now apply gathered_length). unfold blas_apply. rewrite Lg, Lo. destruct (Nat.leb_spec m n); [|lia]. cbn [andb obind].
    destruct (schur_apply n s a S (fn v) HS) as (u & Eu & Hu).
    set (y := put 0 m old _). assert (Ly : length y = n) by (unfold y, put; cbn [firstn app]; rewrite app_length, map_length, seq_length, skipn_length; lia).
    destruct (scattered y (times u) Ly) as (w & Ew & Lw & Hw); [|exists w, u; auto].
    intros i Hi. unfold y, put. cbn [firstn app]. rewrite app_nth1 by (now rewrite map_length, seq_length). rewrite nth_map_seq by easy. rewrite <- Hu by easy. rewrite (fold_left_Sum (fun j => blas_at 0 UploU m (packed_upper m S) i j * nth j g 0)), Rplus_0_l. apply Sum_ext_in. intros j Ij. apply in_seq in Ij.
    rewrite blas_at_packed by lia. unfold g. rewrite gathered_nth by (auto; lia). f_equal. destruct (Nat.le_ge_cases i j); [now rewrite Nat.min_l, Nat.max_r|]. rewrite Nat.min_r, Nat.max_l by easy. apply (schur_symmetric n s a asym S j i HS); lia.
  Qed.

  (** the update computes the Schur complement *)
  Lemma manual_ok sc : (forall k, length (sc k) = k) -> exists S, is_schur n s a S /\
    manual 0 1 Rplus Rmult Ropp false (fun x : R => x) sort alloc asolve K sym m (map (position n s) (seq 0 n)) sc = Ok (UploU, packed_upper m S).
  Proof.
    intros Hsc. unfold manual. destruct (permuted n s a K HK sort Hsort) as (P & EP & SP & AP). rewrite EP. cbn [obind]. rewrite (s_rows _ _ _ HK), n_split. pose proof (lengths n s) as L.
    destruct (the_blocks P SP AP) as ((A11 & s1 & E1 & S1) & _ & U). destruct (U true) as (A21 & s3 & E3 & V & O & R1 & C1 & D & EL).
    rewrite E1. cbn [obind]. rewrite E3. cbn [obind].
    destruct (dense_window n _ P SP AP sym Hsym n1 n n1) as (D22 & E22 & N1 & N2 & V22); try lia.
    destruct (dense_window n _ P SP AP sym Hsym 0 n1 n1) as (D12 & E12 & N3 & N4 & V12); try lia.
    rewrite E22. cbn [obind]. rewrite E12. cbn [obind fst]. rewrite N1, N2, N3, N4, V22, V12. rewrite Nat.sub_0_r. replace (n - n1)%nat with m by lia. rewrite (s_shape _ _ _ HK). cbn [uplo_eqb].
    set (Z := asolve A11).
    set (unit j := fun c => if (c =? nth j ix 0)%nat then 1 else 0).
    assert (TU : forall j i, (j < m)%nat -> times (on_surface s (unit j)) i = a i (nth j ix 0%nat)).
    { intros j i Hj. rewrite times_on_surface. rewrite (Sum_single _ j); [unfold unit; rewrite Nat.eqb_refl; lra|apply seq_NoDup|apply in_seq; lia|]. intros q Iq N. apply in_seq in Iq. unfold unit. destruct (Nat.eqb_spec (nth q ix 0%nat) (nth j ix 0%nat)) as [E|]; [|lra].
      exfalso. apply N. apply (NoDup_nth ix 0%nat); auto; [apply ix_nodup|lia]. }
    set (S := fun i j => times (extended n s a Z (unit j)) (nth i ix 0%nat)). exists S.
    assert (HS : is_schur n s a S).
    { intros j Hj. exists (extended n s a Z (unit j)). split; [|reflexivity]. apply extended_ok. apply (solver A11 S1). }
    split; [exact HS|].
    set (X := solve_each asolve A11 m n1 _). set (M := sub_transposed 0 1 Rplus Rmult Ropp A21 m n1 _ X).
    assert (HX : forall bb q, (bb < m)%nat -> (q < n1)%nat -> nth (bb * n1 + q) X 0 = nth q (Z (map (fun p => a (nth p inn 0%nat) (nth bb ix 0%nat)) (seq 0 n1))) 0).
    { intros bb q Hb Hq. unfold X, solve_each. assert (F : forall r, (r < m)%nat -> slice (r * n1) (r * n1 + n1) (flat_map (fun b0 => map (fun p => moved_a n s a (0 + p) (n1 + b0)) (seq 0 n1)) (seq 0 m)) = map (fun p => a (nth p inn 0%nat) (nth r ix 0%nat)) (seq 0 n1)).
      { intros r Hr. rewrite (rows_slice (fun b0 => map (fun p => moved_a n s a (0 + p) (n1 + b0)) (seq 0 n1)) n1 m r); auto; [|intros; now rewrite map_length, seq_length]. apply map_ext_in. intros p Ip. apply in_seq in Ip. unfold moved_a. cbn [Nat.add]. rewrite new_inner, new_surface by lia. reflexivity. }
      rewrite rows_nth; auto; [unfold Z; now rewrite F|]. intros r Hr. rewrite F by easy. destruct (solver A11 S1 (map (fun p => a (nth p inn 0%nat) (nth r ix 0%nat)) (seq 0 n1))) as [Y _]; [now rewrite map_length, seq_length|exact Y]. }
    assert (LM : length M = (m * m)%nat).
    { unfold M, sub_transposed. rewrite map_length. apply (rows_length (fun b0 => map (pair b0) (seq 0 m))). intros. now rewrite map_length, seq_length. }
    assert (HM : forall r c, (r < m)%nat -> (c < m)%nat -> nth (r * m + c) M 0 = S c r).
    { intros r c Hr Hc. unfold M, sub_transposed. set (F := fun ba : nat * nat => _). rewrite (nth_indep _ 0 (F (0, 0)%nat)) by (rewrite map_length, (rows_length (fun b0 => map (pair b0) (seq 0 m)) m m); [nia|intros; now rewrite map_length, seq_length]).
      rewrite map_nth. rewrite (rows_nth (fun b0 => map (pair b0) (seq 0 m)) m m r c) by (auto; intros; now rewrite map_length, seq_length). rewrite (nth_indep _ (0, 0)%nat (r, 0)%nat) by (now rewrite map_length, seq_length). rewrite (map_nth (pair r)), seq_nth by easy. cbn [Nat.add]. unfold F. cbn [fst snd].
      rewrite (fold_left_if (fun e => (e_col e =? c)%nat) (fun e => - (1) * e_val e * nth (r * n1 + e_row e) X 0)).
      rewrite (rows_nth (fun b0 => map (fun p => moved_a n s a (n1 + p) (n1 + b0)) (seq 0 m)) m m r c) by (auto; intros; now rewrite map_length, seq_length). rewrite nth_map_seq by easy. unfold moved_a. rewrite !new_surface.
      rewrite (Sum_ext _ _ (fun e => if (e_col e =? c)%nat then e_val e * (fun p => -1 * nth (r * n1 + p) X 0) (e_row e) else 0)) by (intros e; destruct (e_col e =? c)%nat; lra).
      rewrite (entries_sum_col A21 c (fun p => -1 * nth (r * n1 + p) X 0)) by (auto; lia). rewrite R1. unfold S. rewrite times_extended. apply f_equal2.
      - rewrite (Sum_single _ r); [unfold unit; rewrite Nat.eqb_refl; lra|apply seq_NoDup|apply in_seq; lia|]. intros q Iq N. apply in_seq in Iq. unfold unit. destruct (Nat.eqb_spec (nth q ix 0%nat) (nth r ix 0%nat)) as [E|]; [|lra].
        exfalso. apply N. apply (NoDup_nth ix 0%nat); auto; [apply ix_nodup|lia].
      - match goal with |- _ = - ?x => transitivity (-1 * x); [|lra] end. rewrite <- Sum_scal. apply Sum_ext_in. intros q Iq. apply in_seq in Iq. rewrite EL, HX by lia. destruct (inn_nth n s q ltac:(lia)) as [Hq _]. destruct (ix_nth n s c Hc) as [Hcn _]. rewrite (asym (nth c ix 0%nat)) by easy.
        replace (map (times (on_surface s (unit r))) inn) with (map (fun p => a (nth p inn 0%nat) (nth r ix 0%nat)) (seq 0 n1)); [lra|]. transitivity (map (times (on_surface s (unit r))) (map (fun q => nth q inn 0%nat) (seq 0 n1))); [|now rewrite <- (L_Utils.list_as_map inn 0%nat)]. rewrite map_map. apply map_ext. intros p. now rewrite TU. }
    destruct (pack_ok m M (sc (dense_nnz UploU m m)) LM (Hsc _)) as (i & Ei). replace (n1 + (n - n1) - n1)%nat with m in * by lia. rewrite Ei. cbn [obind]. do 2 f_equal. apply packed_upper_ext. intros r c Hrc Hc. rewrite HM by lia. apply (schur_symmetric n s a asym S c r HS); lia.
  Qed.
  Lemma dirichlet_update_ok sc : (forall k, length (sc k) = k) -> exists S, is_schur n s a S /\
    dirichlet_update 0 1 Rplus Rmult Ropp false (fun x : R => x) sort alloc asolve b K sym sc = Ok (ix, (UploU, packed_upper m S)).
  Proof.
    intros Hsc. destruct (manual_ok sc Hsc) as (S & HS & E). exists S. split; [exact HS|]. unfold dirichlet_update. rewrite (s_rows _ _ _ HK), (surface_first_ok n (columns b) s Hcols Hs). cbn [obind]. fold ix. rewrite E. reflexivity.
  Qed.
End Domain.
