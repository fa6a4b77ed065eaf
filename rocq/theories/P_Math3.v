(** * C53: null pivots and the structure of the regularization matrix (math.cpp) *)
From Coq Require Import List Bool Arith Permutation Sorted Lia Field.
From Verif Require Import Base S_Order M_Csx M_Math S_Csx S_Math S_Math3 L_Utils L_Sort L_Various L_Csx L_Csx2 P_Csx L_Math L_Math3 L_Math4.
Import ListNotations.
Local Open Scope out_scope.

Lemma collect_back {B} (f : nat -> outcome B) (g : nat -> B) n b : (forall i, b <= i < b + n -> f i = Ok (g i)) -> forall l,
  foldM (fun l p => x <- f p ;; Ok (l ++ [x])) (seq b n) l = Ok (l ++ map g (seq b n)).
Proof.
  revert b. induction n as [|n IH]; intros b H l; cbn [seq foldM map]; [now rewrite app_nil_r|]. rewrite H by lia. cbn [obind].
  rewrite IH by (intros; apply H; lia). now rewrite <- app_assoc.
Qed.

Lemma nodup_map_on {A B} (f : A -> B) l : (forall a b, In a l -> In b l -> f a = f b -> a = b) -> NoDup l -> NoDup (map f l).
Proof.
  intros H N. induction N as [|a l Na N IH]; cbn [map]; constructor.
  - intros Hin. apply in_map_iff in Hin. destruct Hin as (b & E & Hb). apply Na. rewrite <- (H b a); auto; [right|left]; auto.
  - apply IH. intros x y Hx Hy. apply H; right; auto.
Qed.

Lemma strict_is_sorted (l : list nat) : strictly_sorted Nat.ltb l -> sorted Nat.ltb l.
Proof.
  unfold sorted, strictly_sorted. intros S. induction S as [|a l S IH Hf]; constructor; auto. rewrite Forall_forall in *. intros x Hx.
  specialize (Hf x Hx). unfold le_of. apply Nat.ltb_ge. apply Nat.ltb_lt in Hf. lia.
Qed.

Lemma nodup_backs (piv : list nat) m n : n <= m -> Permutation (seq 0 m) piv -> NoDup (map (fun p => nth (length piv - p - 1) piv 0) (seq 0 n)).
Proof.
  intros H P. assert (LP : length piv = m) by (rewrite <- (Permutation_length P), seq_length; auto).
  assert (ND : NoDup piv) by (eapply Permutation_NoDup; [exact P|apply seq_NoDup]).
  apply nodup_map_on; [|apply seq_NoDup]. intros a b Ha Hb E. apply in_seq in Ha, Hb.
  pose proof (proj1 (NoDup_nth piv 0) ND (length piv - a - 1) (length piv - b - 1) ltac:(lia) ltac:(lia) E). lia.
Qed.

Lemma sorted_nodup_strict (l : list nat) : sorted Nat.ltb l -> NoDup l -> strictly_sorted Nat.ltb l.
Proof.
  unfold sorted, strictly_sorted. intros S. induction S as [|a l S IH Hf]; intros N; constructor; inversion N; subst; auto.
  rewrite Forall_forall in *. intros x Hx. specialize (Hf x Hx). unfold le_of in Hf. apply Nat.ltb_ge in Hf. apply Nat.ltb_lt.
  assert (x <> a) by (intros ->; auto). lia.
Qed.

Section Pivots.
Context {T : Type}.
Variable abs_le : T -> T -> bool.
Variables sub mul div : T -> T -> T.
Variable sort : list nat -> list nat.
Hypothesis sort_ok : sort_contract Nat.ltb sort.

Lemma null_pivots_run (n m : nat) (R : list T) (I : nat -> list T * list nat -> Prop) :
  n <= m -> I 0 (R, seq 0 m) ->
  (forall p s, p < n -> I p s -> exists s', pivot_step abs_le sub mul div n m s p = Ok s' /\ I (S p) s') ->
  (forall s, I n s -> Permutation (seq 0 m) (snd s)) ->
  exists N piv pv, null_pivots abs_le sub mul div sort n m R = Ok pv /\ I n (N, piv) /\ Permutation (seq 0 m) piv /\
    Permutation (map (fun p => nth (m - p - 1) piv 0) (seq 0 n)) pv /\
    strictly_sorted Nat.ltb pv /\ length pv = n /\ (forall p, In p pv -> p < m).
Proof.
  intros Hnm I0 IS IP.
  destruct (foldM_seq_inv (pivot_step abs_le sub mul div n m) I 0 n (R, seq 0 m) I0) as ([N piv] & E & HI).
  { intros i s Hi Hs. apply IS; auto. lia. }
  cbn [Nat.add] in HI. pose proof (IP _ HI) as P. cbn [snd] in P. assert (LP : length piv = m) by (rewrite <- (Permutation_length P), seq_length; auto).
  unfold null_pivots. rewrite E. cbn [obind snd].
  rewrite (collect_back (fun p => rd piv (length piv - p - 1)) (fun p => nth (length piv - p - 1) piv 0)) by (intros i Hi; apply rd_ok; lia).
  cbn [obind app]. set (l := map _ _). destruct (sort_ok l) as [S1 S2]. exists N, piv, (sort l). split; auto. split; auto. split; auto.
  assert (EL : l = map (fun p => nth (m - p - 1) piv 0) (seq 0 n)) by (unfold l; rewrite LP; reflexivity).
  split; [rewrite <- EL; auto|]. split; [|split].
  - apply sorted_nodup_strict; auto. eapply Permutation_NoDup; [exact S1|]. apply (nodup_backs piv m n); auto.
  - rewrite <- (Permutation_length S1). unfold l. now rewrite map_length, seq_length.
  - intros p Hp. apply (Permutation_in _ (Permutation_sym S1)) in Hp. unfold l in Hp. apply in_map_iff in Hp. destruct Hp as (q & <- & Hq). apply in_seq in Hq.
    assert (Q : In (nth (length piv - q - 1) piv 0) (seq 0 m)) by (apply (Permutation_in _ (Permutation_sym P)); apply nth_In; lia). apply in_seq in Q. lia.
Qed.

(** Whatever the arithmetic does (rounding, overflow, a zero pivot), the pivots of an n x m matrix, n <= m, are
    n different column numbers in ascending order. *)
Theorem null_pivots_are_columns (n m : nat) (R : list T) : n <= m -> length R = n * m ->
  exists pv, null_pivots abs_le sub mul div sort n m R = Ok pv /\
    length pv = n /\ strictly_sorted Nat.ltb pv /\ (forall p, In p pv -> p < m).
Proof.
  intros Hnm L. destruct n as [|n'].
  { exists []. unfold null_pivots. cbn. destruct (sort_ok []) as [S1 _]. apply Permutation_nil in S1. rewrite S1. repeat split; auto; [constructor|intros p []]. }
  destruct R as [|zero R'] eqn:ER; [exfalso; cbn in L; destruct m; cbn in L; lia|]. rewrite <- ER in *. clear ER R'.
  set (n := S n') in *.
  destruct (null_pivots_run n m R (fun _ s => length (fst s) = n * m /\ Permutation (seq 0 m) (snd s))) as (N & piv & pv & E & _ & _ & _ & S1 & S2 & S3); auto.
  - intros p [N piv] Hp [H1 H2]. cbn [fst snd] in *.
    destruct (pivot_step_ok zero abs_le sub mul div n m N piv p H1 H2 Hp ltac:(lia)) as (row & col & N' & piv' & _ & _ & E & L' & P' & _).
    exists (N', piv'). auto.
  - intros s [_ H]. auto.
  - exists pv. auto.
Qed.
End Pivots.

(** ** Over a field: the pivots determine the combination *)
Section Determine.
Context {F : Type}.
Variables zero one : F.
Variables add mul sub : F -> F -> F.
Variable opp : F -> F.
Variable div : F -> F -> F.
Variable inv : F -> F.
Hypothesis FT : field_theory zero one add mul sub opp div inv (@eq F).
Variable abs_le : F -> F -> bool.
Hypothesis abs_zero : forall a, abs_le a zero = true -> a = zero.
Hypothesis zero_abs : forall a, abs_le zero a = true.
Variable sort : list nat -> list nat.
Hypothesis sort_ok : sort_contract Nat.ltb sort.

Theorem null_pivots_determine (n m : nat) (R : list F) : n <= m -> length R = n * m ->
  independent zero add mul n m (mat zero m R) ->
  exists pv, null_pivots abs_le sub mul div sort n m R = Ok pv /\
    length pv = n /\ strictly_sorted Nat.ltb pv /\ (forall p, In p pv -> p < m) /\
    forall x, (forall p, In p pv -> combo zero add mul n x (mat zero m R) p = zero) -> forall r, r < n -> x r = zero.
Proof.
  intros Hnm L I.
  destruct (null_pivots_run abs_le sub mul div sort sort_ok n m R (fun p s => inv_p zero add mul n m (mat zero m R) p (fst s) (snd s))) as (N & piv & pv & E & HI & P & PP & S1 & S2 & S3); auto.
  - cbn [fst snd]. unfold inv_p. rewrite !Nat.sub_0_r. split; auto. split; [apply Permutation_refl|]. split; [exact I|]. split; [intros; lia|].
    intros x _. exists x. intros c Hc. rewrite seq_nth by auto. reflexivity.
  - intros p [N piv] Hp Hs. cbn [fst snd] in *. destruct (step_inv zero one add mul sub opp div inv FT abs_le abs_zero zero_abs n m (mat zero m R) p N piv Hp Hnm Hs) as (N' & piv' & E & H').
    exists (N', piv'). auto.
  - intros s (_ & H & _). auto.
  - exists pv. split; auto. split; auto. split; auto. split; auto. intros x Hx. cbn [fst snd] in HI. destruct HI as (_ & _ & _ & _ & C).
    destruct (C x) as (y & Hy).
    { intros c Hc. apply Hx. apply (Permutation_in _ PP). apply in_map_iff. exists (m - c - 1). split; [f_equal; lia|apply in_seq; lia]. }
    rewrite Nat.sub_diag in Hy. apply I. intros c Hc.
    assert (Hin : In c piv) by (apply (Permutation_in _ P); apply in_seq; lia).
    destruct (In_nth piv c 0 Hin) as (k & Hk & Ek). rewrite <- Ek. rewrite Hy; [reflexivity|].
    rewrite <- (Permutation_length P), seq_length in Hk. auto.
Qed.
End Determine.

(** ** The regularization matrix *)
Section Reg.
Context {T : Type}.

Definition count_below (pv : list nat) (i : nat) : nat := length (filter (fun q => q <? i) pv).

Lemma count_gap pv i : ~ In i pv -> count_below pv (i + 1) = count_below pv i.
Proof.
  intros H. unfold count_below. f_equal. apply filter_ext_in. intros q Hq. assert (q <> i) by (intros ->; auto).
  destruct (Nat.ltb_spec q (i + 1)), (Nat.ltb_spec q i); auto; lia.
Qed.

Lemma strict_split pre a post : strictly_sorted Nat.ltb (pre ++ a :: post) -> (forall q, In q pre -> q < a) /\ (forall q, In q post -> a < q).
Proof.
  unfold strictly_sorted. induction pre as [|b pre IH]; cbn [app]; intros S; inversion S as [|? ? S' Hf]; subst; rewrite Forall_forall in Hf.
  - split; [intros q []|]. intros q Hq. apply Nat.ltb_lt. auto.
  - destruct (IH S') as [H1 H2]. split; auto. intros q [<-|Hq]; auto. apply Nat.ltb_lt. apply Hf. apply in_or_app. right. left. auto.
Qed.

Lemma count_split pre a post i : strictly_sorted Nat.ltb (pre ++ a :: post) -> i <= a -> (forall q, In q pre -> q < i) -> count_below (pre ++ a :: post) i = length pre.
Proof.
  intros S Hi Hp. destruct (strict_split pre a post S) as [_ H2]. unfold count_below. rewrite filter_app. cbn [filter].
  destruct (Nat.ltb_spec a i); [lia|]. rewrite (filter_all _ pre) by (intros q Hq; apply Nat.ltb_lt; auto).
  rewrite (filter_none _ post), app_nil_r; auto. intros q Hq. apply Nat.ltb_ge. specialize (H2 q Hq). lia.
Qed.

Lemma count_at pre a post : strictly_sorted Nat.ltb (pre ++ a :: post) -> count_below (pre ++ a :: post) (a + 1) = length pre + 1.
Proof.
  intros S. destruct (strict_split pre a post S) as [H1 H2]. unfold count_below. rewrite filter_app. cbn [filter].
  destruct (Nat.ltb_spec a (a + 1)); [|lia]. rewrite (filter_all _ pre) by (intros q Hq; apply Nat.ltb_lt; specialize (H1 q Hq); lia).
  rewrite (filter_none _ post); [rewrite app_length; cbn; lia|]. intros q Hq. apply Nat.ltb_ge. specialize (H2 q Hq). lia.
Qed.

Lemma fill_rows_ok (pv p : list nat) n row lim : row <= lim -> lim <= n -> length p = n + 1 ->
  (forall i, i <= row -> nth i p 0 = count_below pv i) -> (forall i, row <= i < lim -> ~ In i pv) ->
  exists p', fill_rows p row lim = Ok p' /\ length p' = n + 1 /\ forall i, i <= lim -> nth i p' 0 = count_below pv i.
Proof.
  intros H1 H2 L H3 H4. unfold fill_rows.
  destruct (foldM_seq_inv (fun p r => k <- rd p r ;; wr p (r + 1) k) (fun k p => length p = n + 1 /\ forall i, i <= k -> nth i p 0 = count_below pv i) row (lim - row) p) as (p' & E & L' & G).
  - auto.
  - intros i q Hi [Lq Gq]. rewrite (rd_ok q i 0) by lia. cbn [obind]. rewrite wr_ok by lia. eexists. split; [reflexivity|]. rewrite upd_length. split; auto.
    intros j Hj. rewrite nth_upd by lia. destruct (Nat.eqb_spec (i + 1) j) as [<-|]; [|apply Gq; lia]. rewrite count_gap; [apply Gq; lia|apply H4; lia].
  - exists p'. split; auto. split; auto. intros i Hi. apply G. lia.
Qed.

Lemma reg_loop (rho : T) n pv p ix vs : strictly_sorted Nat.ltb pv -> (forall q, In q pv -> q < n) -> length p = n + 1 ->
  length ix = length pv -> length vs = length pv -> nth 0 p 0 = 0 ->
  exists p' ix' vs' row, foldM (reg_step rho) pv (p, ix, vs, 0) = Ok (p', ix', vs', row) /\ length p' = n + 1 /\
    row <= n /\ (forall i, i <= row -> nth i p' 0 = count_below pv i) /\ (forall q, In q pv -> q < row) /\
    ix' = pv /\ vs' = repeat rho (length pv).
Proof.
  intros S Hn Lp Li Lv H0.
  destruct (foldM_inv (reg_step rho) (fun pre s => let '(p, ix, vs, row) := s in length p = n + 1 /\ length ix = length pv /\ length vs = length pv /\
     row <= n /\ (forall i, i <= row -> nth i p 0 = count_below pv i) /\ (forall q, In q pre -> q < row) /\
     (forall q post, pv = pre ++ q :: post -> row <= q) /\
     firstn (length pre) ix = pre /\ firstn (length pre) vs = repeat rho (length pre)) pv (p, ix, vs, 0)) as ([[[p' ix'] vs'] row] & E & HI).
  - repeat split; auto; try lia; [|intros q []]. intros i Hi. assert (i = 0) by lia. subst i. rewrite H0. unfold count_below. rewrite filter_none; auto.
  - intros pre a post [[[q ix1] vs1] row] EP (L1 & L2 & L3 & R1 & R2 & R3 & R4 & F1 & F2).
    assert (S' := S). rewrite EP in S'. destruct (strict_split pre a post S') as [T1 T2].
    assert (Ha : a < n) by (apply Hn; rewrite EP; apply in_or_app; right; left; auto).
    assert (Hra : row <= a) by (eapply R4; eauto).
    unfold reg_step. destruct (fill_rows_ok pv q n row a Hra ltac:(lia) L1 R2) as (q2 & E2 & L4 & G2).
    { intros i Hi Hin. rewrite EP in Hin. apply in_app_or in Hin. destruct Hin as [Hin|[<-|Hin]]; [apply R3 in Hin; lia|lia|apply T2 in Hin; lia]. }
    rewrite E2. cbn [obind]. replace (Nat.max row a) with a by lia. rewrite (rd_ok q2 a 0) by lia. cbn [obind].
    assert (CA : count_below pv a = length pre) by (rewrite EP; apply count_split; auto). rewrite (G2 a) by lia. rewrite CA.
    rewrite wr_ok by lia. cbn [obind]. rewrite (rd_ok (upd q2 (a + 1) (length pre + 1)) a 0) by (rewrite upd_length; lia). cbn [obind].
    rewrite nth_upd_neq by lia. rewrite (G2 a) by lia. rewrite CA.
    assert (LP : length pre < length pv) by (rewrite EP, app_length; cbn; lia).
    rewrite (wr_ok ix1) by lia. cbn [obind]. rewrite (wr_ok vs1) by lia. cbn [obind].
    eexists. split; [reflexivity|]. cbv beta iota. rewrite !upd_length. split; auto. split; auto. split; auto. split; [lia|]. split; [|split; [|split; [|split]]].
    + intros i Hi. rewrite nth_upd by lia. destruct (Nat.eqb_spec (a + 1) i) as [<-|]; [|apply G2; lia]. rewrite EP. symmetry. apply count_at; auto.
    + intros x Hx. apply in_app_or in Hx. destruct Hx as [Hx|[<-|[]]]; [apply T1 in Hx; lia|lia].
    + intros x post' EX. rewrite EP in EX. rewrite <- app_assoc in EX. apply app_inv_head in EX. cbn [app] in EX. inversion EX; subst. assert (a < x) by (apply T2; left; auto). lia.
    + rewrite app_length. cbn [length]. rewrite firstn_upd_snoc by lia. now rewrite F1.
    + rewrite app_length. cbn [length]. rewrite firstn_upd_snoc by lia. rewrite F2. replace (length pre + 1) with (Datatypes.S (length pre)) by lia.
      rewrite <- repeat_cons. reflexivity.
  - cbv beta iota in HI. destruct HI as (L1 & L2 & L3 & R1 & R2 & R3 & R4 & F1 & F2).
    exists p', ix', vs', row. split; auto. split; auto. split; auto. split; auto. split; auto.
    rewrite <- L2 in F1 at 1. rewrite <- L3 in F2 at 1. rewrite firstn_all in F1, F2. auto.
Qed.

(** rows of the regularization matrix *)
Definition reg_rows (rho : T) (pv : list nat) (n : nat) := map (fun i => if existsb (Nat.eqb i) pv then [(i, rho)] else []) (seq 0 n).

Lemma reg_rows_concat (rho : T) pv n : strictly_sorted Nat.ltb pv ->
  concat (reg_rows rho pv n) = map (fun p => (p, rho)) (filter (fun q => q <? n) pv).
Proof.
  intros S. unfold reg_rows.
  assert (E : concat (map (fun i => if existsb (Nat.eqb i) pv then [(i, rho)] else []) (seq 0 n)) = map (fun p => (p, rho)) (filter (fun i => existsb (Nat.eqb i) pv) (seq 0 n))).
  { induction (seq 0 n) as [|a l IH]; cbn [map concat filter]; auto. rewrite IH. destruct (existsb _ _); auto. }
  rewrite E. f_equal.
  assert (SS : forall l, strictly_sorted Nat.ltb l -> NoDup l).
  { intros l H. induction H as [|a l H IH Hf]; constructor; auto. intros Hin. rewrite Forall_forall in Hf. specialize (Hf a Hin). rewrite Nat.ltb_irrefl in Hf. discriminate. }
  assert (FS : forall f (l : list nat), strictly_sorted Nat.ltb l -> strictly_sorted Nat.ltb (filter f l)).
  { intros f l H. induction H as [|a l H IH Hf]; cbn [filter]; [constructor|]. destruct (f a); auto. constructor; auto. rewrite Forall_forall in *. intros x Hx. apply filter_In in Hx. apply Hf. tauto. }
  assert (SQ : forall a k, strictly_sorted Nat.ltb (seq a k)).
  { intros a k. revert a. induction k; intros a; cbn [seq]; constructor; [apply IHk|]. apply Forall_forall. intros x Hx. apply in_seq in Hx. apply Nat.ltb_lt. lia. }
  apply sorted_same.
  - apply SS, FS, S.
  - apply strict_is_sorted, FS, SQ.
  - apply NoDup_Permutation; try (apply NoDup_filter; try apply seq_NoDup; apply SS; auto).
    intros x. rewrite !filter_In, in_seq, existsb_exists, Nat.ltb_lt. split.
    + intros [H1 (y & Hy & E')]. apply Nat.eqb_eq in E'. subst y. split; auto. lia.
    + intros [H1 H2]. split; [lia|]. exists x. split; auto. apply Nat.eqb_refl.
  - apply FS, S.
Qed.

Theorem reg_matrix_diagonal (rho : T) n pv p0 ix0 vs0 : strictly_sorted Nat.ltb pv -> (forall q, In q pv -> q < n) ->
  length p0 = n + 1 -> length ix0 = length pv -> length vs0 = length pv ->
  exists d, reg_matrix n rho pv (p0, ix0, vs0) = Ok d /\ valid d /\ ord d = OrdR /\ upl d = UploU /\ nrows d = n /\ ncols d = n /\
    nnz d = length pv /\ entries d = map (fun p => (p, p, rho)) pv.
Proof.
  intros S Hn L1 L2 L3. unfold reg_matrix. rewrite wr_ok by lia. cbn [obind].
  destruct (reg_loop rho n pv (upd p0 0 0) ix0 vs0 S Hn) as (p & ix & vs & row & E & Lp & Hrow & G & Hq & -> & ->); auto.
  { now rewrite upd_length. } { apply nth_upd_eq. lia. }
  rewrite E. cbn [obind].
  destruct (fill_rows_ok pv p n row n Hrow (le_n n) Lp G) as (p' & E' & Lp' & G'). { intros i Hi Hin. apply Hq in Hin. lia. }
  rewrite E'. cbn [obind]. set (d := Csx n n (length pv) OrdR UploU p' pv (repeat rho (length pv))).
  assert (R : rep d (reg_rows rho pv n)).
  { assert (LR : length (reg_rows rho pv n) = n) by (unfold reg_rows; now rewrite map_length, seq_length).
    assert (EC : concat (reg_rows rho pv n) = map (fun p => (p, rho)) pv).
    { rewrite reg_rows_concat by auto. f_equal. apply filter_all. intros q H. apply Nat.ltb_lt. auto. }
    split.
    - rewrite LR. reflexivity.
    - cbn [ptrs d]. rewrite LR. apply (nth_ext _ _ 0 0). { rewrite map_length, seq_length. lia. }
      intros i Hi. rewrite (nth_indep (map (offs (reg_rows rho pv n)) (seq 0 (Datatypes.S n))) 0 (offs (reg_rows rho pv n) 0)) by (rewrite map_length, seq_length; lia).
      rewrite (map_nth (offs (reg_rows rho pv n))), seq_nth by lia. cbn [Nat.add]. rewrite G' by lia. unfold offs, count_below.
      replace (firstn i (reg_rows rho pv n)) with (reg_rows rho pv i).
      + rewrite reg_rows_concat by auto. now rewrite map_length.
      + unfold reg_rows. rewrite firstn_map. f_equal. replace n with (i + (n - i)) by lia. rewrite seq_app, firstn_app, seq_length, Nat.sub_diag. cbn [firstn].
        rewrite app_nil_r. symmetry. apply firstn_all2. rewrite seq_length. auto.
    - rewrite EC, map_map. cbn [fst idxs d]. now rewrite map_id.
    - rewrite EC, map_map. cbn [snd vals d]. clear. induction pv; cbn; auto. f_equal; auto.
    - rewrite EC, map_length. reflexivity.
    - intros r x Hr Hx. unfold size_secdary. cbn [ord ncols d]. unfold reg_rows in Hr. apply in_map_iff in Hr. destruct Hr as (i & <- & Hi).
      destruct (existsb _ _); [|destruct Hx]. destruct Hx as [<-|[]]. apply in_seq in Hi. cbn. lia. }
  exists d. split; [reflexivity|]. split; [eapply rep_valid; eauto|]. repeat (split; [reflexivity|]).
  rewrite (rep_entries d _ R). cbn [ord d]. unfold reg_rows. rewrite map_length, seq_length.
  transitivity (map (fun x => (fst x, fst x, snd x)) (concat (reg_rows rho pv n))).
  - unfold reg_rows. rewrite flat_map_concat_map, concat_map. f_equal. rewrite map_map. apply map_ext_in. intros i Hi. apply in_seq in Hi. rewrite nth_map_seq by lia.
    destruct (existsb _ _); reflexivity.
  - rewrite reg_rows_concat by auto. rewrite map_map. cbn [fst snd]. f_equal. apply filter_all. intros q H. apply Nat.ltb_lt. auto.
Qed.
End Reg.

(** ** rho *)
Section Rho.
Context {T : Type}.
Variable le : T -> T -> Prop.
Variable max : T -> T -> T.
Hypothesis le_refl : forall a, le a a.
Hypothesis le_trans : forall a b c, le a b -> le b c -> le a c.
Hypothesis max_or : forall a b, max a b = a \/ max a b = b.
Hypothesis max_l : forall a b, le a (max a b).
Hypothesis max_r : forall a b, le b (max a b).

Lemma first_is_diagonal (m : csx T) rs r : rep m rs -> ord m = OrdR -> ascending m -> distinct m -> upper m -> has_diagonal m -> r < nrows m ->
  exists v, In (r, r, v) (entries m) /\ nth_error (vals m) (nth r (ptrs m) 0) = Some v.
Proof.
  intros R O A D U H Hr. assert (SP : size_primary m = nrows m) by (unfold size_primary; now rewrite O).
  assert (HL : nth_error rs r = Some (nth r rs [])) by (apply nth_error_nth'; rewrite (r_len _ _ R), SP; auto).
  assert (EL : line m r = nth r rs []) by (eapply rep_line; eauto).
  assert (IN : forall x, In x (nth r rs []) -> In (r, fst x, snd x) (entries m)).
  { intros x Hx. unfold entries. rewrite in_flat_map. exists r. split; [apply in_seq; lia|]. rewrite EL, O. apply in_map_iff. exists x. auto. }
  destruct (H r Hr) as (e & He & E1 & E2). destruct e as [[a b] v]. unfold e_row, e_col in *. cbn [fst snd] in *. subst a b.
  assert (HI : In (r, v) (nth r rs [])).
  { unfold entries in He. rewrite in_flat_map in He. destruct He as (p & _ & He). rewrite O in He. apply in_map_iff in He. destruct He as (x & E & Hx).
    unfold coords in E. inversion E; subst. rewrite <- EL. destruct x; auto. }
  destruct (nth r rs []) as [|x l] eqn:EX; [destruct HI|].
  pose proof (A r ltac:(lia)) as SA. rewrite EL in SA. unfold sorted in SA. cbn [map] in SA. inversion SA as [|? ? S1 S2]; subst. rewrite Forall_forall in S2.
  assert (XR : fst x = r).
  { pose proof (U _ (IN x (or_introl eq_refl))) as Q. unfold e_row, e_col in Q. cbn [fst snd] in Q. destruct HI as [->|HI]; [auto|].
    specialize (S2 r ltac:(change r with (fst (r, v)); apply in_map; auto)). unfold le_of in S2. apply Nat.ltb_ge in S2. lia. }
  exists (snd x). split. { rewrite <- XR at 2. apply IN. left; auto. }
  destruct (rep_pos m rs r (x :: l) 0 x R) as [_ P]; auto.
  rewrite Nat.add_0_r in P. rewrite (r_ptrs _ _ R). rewrite nth_map_offs by (rewrite (r_len _ _ R); lia). exact P.
Qed.

(** rho is the greatest diagonal element *)
Theorem rho_is_greatest_diagonal (m : csx T) : valid m -> ord m = OrdR -> ascending m -> distinct m -> upper m -> has_diagonal m -> 0 < nrows m ->
  exists rho, rho_csr max m = Ok rho /\ (exists i, In (i, i, rho) (entries m)) /\ forall i v, In (i, i, v) (entries m) -> le v rho.
Proof.
  intros V O A D U H Hn. pose proof (valid_rep m V) as R. set (rs := map (line m) (seq 0 (size_primary m))) in *.
  pose proof (first_is_diagonal m rs) as FD.
  destruct (FD 0 R O A D U H Hn) as (v0 & I0 & E0). rewrite (v_first _ V) in E0.
  unfold rho_csr. rewrite (rd_some _ _ _ E0). cbn [obind].
  destruct (foldM_seq_inv (fun rho r => k <- rd (ptrs m) r ;; v <- rd (vals m) k ;; Ok (max rho v))
    (fun k rho => (exists i, In (i, i, rho) (entries m)) /\ forall i v, i < k -> In (i, i, v) (entries m) -> le v rho) 0 (nrows m) v0) as (rho & E & HI & HM).
  - split; [eauto|]. intros; lia.
  - intros r rho Hr [J1 J2]. assert (LP : length (ptrs m) = nrows m + 1) by (destruct (v_alloc _ V) as (Q & _); unfold size_primary in Q; rewrite O in Q; auto).
    rewrite (rd_ok (ptrs m) r 0) by lia. cbn [obind]. destruct (FD r R O A D U H ltac:(lia)) as (v & Iv & Ev). rewrite (rd_some _ _ _ Ev). cbn [obind].
    eexists. split; [reflexivity|]. split.
    + destruct (max_or rho v) as [->| ->]; eauto.
    + intros i w Hi Hw. destruct (Nat.eq_dec i r) as [->|NE]; [|eapply le_trans; [apply (J2 i w); auto; lia|apply max_l]].
      assert (w = v) as ->; [|apply max_r].
      clear - D Iv Hw. unfold distinct in D. induction (entries m) as [|e l IH]; [destruct Iv|]. cbn [map] in D. inversion D as [|? ? N D']; subst.
      destruct Iv as [->|Iv], Hw as [Hw|Hw]; auto.
      * congruence.
      * exfalso. apply N. cbn [fst]. change (r, r) with (fst (r, r, w)). apply in_map; auto.
      * exfalso. apply N. subst e. cbn [fst]. change (r, r) with (fst (r, r, v)). apply in_map; auto.
  - exists rho. split; auto. split; auto. intros i v Hv. apply (HM i v); auto. cbn [Nat.add].
    unfold entries in Hv. rewrite in_flat_map in Hv. destruct Hv as (p & Hp & Hv). rewrite O in Hv. apply in_map_iff in Hv. destruct Hv as (x & E' & Hx).
    unfold coords in E'. inversion E'; subst. apply in_seq in Hp. unfold size_primary in Hp. rewrite O in Hp. lia.
Qed.
End Rho.

Example reg_matrix_ex : exists d, reg_matrix 5 7 [1; 3] (repeat 9 6, repeat 9 2, repeat 9 2) = Ok d /\
  ptrs d = [0; 0; 1; 1; 2; 2] /\ idxs d = [1; 3] /\ vals d = [7; 7].
Proof. eexists. split; [vm_compute; reflexivity|]. cbn. auto. Qed.

Example rho_ex : rho_csr Nat.max (Csx 3 3 5 OrdR UploU [0; 3; 4; 5] [0; 1; 2; 1; 2] [1; 9; 4; 3; 2]) = Ok 3.
Proof. vm_compute. reflexivity. Qed.

Print Assumptions null_pivots_are_columns.
Print Assumptions null_pivots_determine.
Print Assumptions reg_matrix_diagonal.
Print Assumptions rho_is_greatest_diagonal.
