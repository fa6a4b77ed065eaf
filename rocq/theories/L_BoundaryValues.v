(** * Lemmas: prescribed values (C137) *)
From Coq Require Import List Bool Arith Lia Sorting.Sorted.
From Verif Require Import Base M_BoundaryValues S_BoundaryValues.
Import ListNotations.
Local Open Scope out_scope.

(** ** Marks *)
Definition marks (s ds : list nat) : list nat := fold_left (fun s i => upd s i 1) ds s.

Lemma marks_length ds : forall s, length (marks s ds) = length s.
Proof. induction ds; intros; simpl; auto. unfold marks in *. now rewrite IHds, upd_length. Qed.

Lemma marks_app s a b : marks s (a ++ b) = marks (marks s a) b.
Proof. unfold marks. apply fold_left_app. Qed.

Lemma marks_spec ds : forall s i, i < length s -> (nth i (marks s ds) 0 <> 0 <-> In i ds \/ nth i s 0 <> 0).
Proof.
  induction ds as [|a ds IH]; intros s i L; simpl; [tauto|].
  change (fold_left _ ds _) with (marks (upd s a 1) ds). rewrite IH by (now rewrite upd_length).
  destruct (Nat.eq_dec a i) as [->|N].
  - rewrite nth_upd_eq by auto. split; intros; auto.
  - rewrite nth_upd_neq by auto. tauto.
Qed.

Lemma mark_list ds : forall p s, Forall (fun i => i < length s) ds -> foldM mark ds (p, s) = Ok (p ++ ds, marks s ds).
Proof.
  induction ds as [|a ds IH]; intros p s L; simpl; [now rewrite app_nil_r|]. inversion L; subst.
  unfold mark at 1. simpl. rewrite wr_ok by auto. simpl. rewrite IH.
  - now rewrite <- app_assoc.
  - eapply Forall_impl; [|eassumption]. intros. now rewrite upd_length.
Qed.

(** a loop that skips some of the values *)
Lemma foldM_filter {S A B} (f : S -> B -> outcome S) (g : A -> B) (t : A -> bool) l : forall s,
  foldM (fun s a => if t a then f s (g a) else Ok s) l s = foldM f (map g (List.filter t l)) s.
Proof. induction l as [|a l IH]; intros s; simpl; auto. destruct (t a); simpl; auto. destruct (f s (g a)); simpl; auto. Qed.

Lemma foldM_ext_in {S A} (f g : S -> A -> outcome S) l : (forall s a, In a l -> f s a = g s a) -> forall s, foldM f l s = foldM g l s.
Proof.
  induction l as [|a l IH]; intros E s; simpl; auto. rewrite E by (now left). destruct (g s a); simpl; auto. apply IH. intros. apply E. now right.
Qed.

(** the components of a node *)
Definition node_dofs (dim : nat) (set : nat -> bool) (n : nat) : list nat := map (fun d => n * dim + d) (List.filter set (seq 0 dim)).

Lemma node_dofs_below dim set n size : n < size -> Forall (fun i => i < dim * size) (node_dofs dim set n).
Proof.
  intros L. apply Forall_forall. intros i I. unfold node_dofs in I. apply in_map_iff in I. destruct I as (d & <- & I).
  apply filter_In in I. destruct I as [I _]. apply in_seq in I. nia.
Qed.

(** ** buildPattern *)
Lemma build_indices_spec isset : forall i off ind new, build_indices isset i off = (ind, new) ->
  length new = length isset /\ StronglySorted lt ind /\
  (forall x, In x ind <-> i <= x < i + length isset /\ nth (x - i) isset 0 <> 0) /\
  (forall j, j < length isset -> nth j isset 0 <> 0 -> off <= nth j new 0 /\ nth_error ind (nth j new 0 - off) = Some (i + j)).
Proof.
  induction isset as [|a isset IH]; intros i off ind new E; simpl in E.
  - injection E as <- <-. simpl. repeat split; auto using SSorted_nil; try tauto; try lia.
  - destruct (Nat.eqb_spec a 0) as [->|N].
    + destruct (build_indices isset (S i) off) as [ind' new'] eqn:E'. injection E as <- <-.
      destruct (IH _ _ _ _ E') as (L & So & I & G). simpl. split; [auto|]. split; [auto|]. split.
      * intros x. rewrite I. split.
        -- intros [B T]. split; [lia|]. replace (x - i) with (S (x - S i)) by lia. exact T.
        -- intros [B T]. destruct (x - i) eqn:X; [tauto|]. split; [lia|]. replace (x - S i) with n by lia. exact T.
      * intros [|j] B T; [tauto|]. destruct (G j ltac:(lia) T) as [G1 G2]. split; auto. rewrite G2. f_equal. lia.
    + destruct (build_indices isset (S i) (S off)) as [ind' new'] eqn:E'. injection E as <- <-.
      destruct (IH _ _ _ _ E') as (L & So & I & G). simpl. split; [auto|]. split; [|split].
      * constructor; auto. apply Forall_forall. intros x X. apply I in X. lia.
      * intros x. split.
        -- intros [<-|X]; [split; [lia|]; rewrite Nat.sub_diag; auto|]. apply I in X. destruct X as [B T]. split; [lia|].
           replace (x - i) with (S (x - S i)) by lia. exact T.
        -- intros [B T]. destruct (x - i) eqn:X; [left; lia|]. right. apply I. split; [lia|]. replace (x - S i) with n by lia. exact T.
      * intros [|j] B T; [split; auto; rewrite Nat.sub_diag; simpl; f_equal; lia|].
        destruct (G j ltac:(lia) T) as [G1 G2]. split; [lia|]. destruct (nth j new' 0) as [|m] eqn:X; [lia|].
        replace (S m - off) with (S (m - off)) by lia. simpl. simpl in G2. rewrite G2. f_equal. lia.
Qed.

Lemma rename_ok new perm : Forall (fun i => i < length new) perm -> rename new perm = Ok (map (fun i => nth i new 0) perm).
Proof.
  intros F. unfold rename.
  assert (G : forall acc, foldM (fun l i => p <- rd new i ;; Ok (l ++ [p])) perm acc = Ok (acc ++ map (fun i => nth i new 0) perm)).
  { induction F as [|a perm La F IH]; intros acc; simpl; [now rewrite app_nil_r|].
    rewrite (rd_ok new a 0) by auto. simpl. rewrite IH, <- app_assoc. reflexivity. }
  apply G.
Qed.

(** ** Starts of threads *)
Fixpoint starts {A} (a : nat) (l : list (list A)) : list nat :=
  match l with [] => [] | x :: l => a :: starts (a + length x) l end.

Lemma starts_nth {A} (pre : list (list A)) : forall a x post,
  nth_error (starts a (pre ++ x :: post)) (length pre) = Some (a + length (concat pre)).
Proof.
  induction pre as [|y pre IH]; intros; simpl; [f_equal; lia|]. rewrite IH, app_length. f_equal. lia.
Qed.

Lemma skipn_concat {A} (pre post : list (list A)) : skipn (length (concat pre)) (concat (pre ++ post)) = concat post.
Proof. rewrite concat_app, skipn_app, skipn_all, Nat.sub_diag. reflexivity. Qed.

Lemma combine_map {A B} (h : A -> B) l : combine l (map h l) = map (fun a => (a, h a)) l.
Proof. induction l; simpl; congruence. Qed.

Lemma strong_nodup l : StronglySorted lt l -> NoDup l.
Proof.
  induction 1; constructor; auto. intros I. rewrite Forall_forall in H0. specialize (H0 _ I). lia.
Qed.

(** ** Both constructors *)
Section Both.
Context {C V : Type}.
Variable sets : C -> nat -> bool.
Variable dim size : nat.
Variable node_filter : C -> outcome nat.
Variable node : C -> nat -> list nat * list nat -> nat -> outcome (list nat * list nat).
Variable good : C -> Prop.
Variable bits : C -> nat.
Hypothesis Hfilter : forall c, good c -> node_filter c = Ok (bits c).
Hypothesis Hbits : forall c d, good c -> d < dim -> Nat.testbit (bits c) d = sets c d.
Hypothesis Hnode : forall c p s n, good c -> n < size -> length s = dim * size ->
  node c (bits c) (p, s) n = Ok (p ++ node_dofs dim (sets c) n, marks s (node_dofs dim (sets c) n)).

Notation nd c := (node_dofs dim (sets c)).

Lemma nodes_list c ns : good c -> Forall (fun n => n < size) ns -> forall p s, length s = dim * size ->
  foldM (node c (bits c)) ns (p, s) = Ok (p ++ flat_map (nd c) ns, marks s (flat_map (nd c) ns)).
Proof.
  intros G F. induction F as [|n ns Ln F IH]; intros p s Ls; simpl; [now rewrite app_nil_r|].
  rewrite Hnode by auto. simpl. rewrite IH by (now rewrite marks_length). now rewrite <- app_assoc, marks_app.
Qed.

Lemma threads_list c ts : good c -> Forall (Forall (fun n => n < size)) ts -> forall isset, length isset = dim * size ->
  region_threads (node c (bits c)) ts isset =
  Ok (starts 0 (map (flat_map (nd c)) ts), (concat (map (flat_map (nd c)) ts), marks isset (concat (map (flat_map (nd c)) ts)))).
Proof.
  intros G F isset L. unfold region_threads.
  assert (A : forall off perm isset, length isset = dim * size ->
    foldM (fun (s : list nat * (list nat * list nat)) ns => let '(off, (perm, isset)) := s in
      r <- foldM (node c (bits c)) ns (perm, isset) ;; Ok (off ++ [length perm], r)) ts (off, (perm, isset)) =
    Ok (off ++ starts (length perm) (map (flat_map (nd c)) ts),
        (perm ++ concat (map (flat_map (nd c)) ts), marks isset (concat (map (flat_map (nd c)) ts))))).
  { clear isset L. induction F as [|ns ts Fn F IH]; intros off perm isset L; simpl; [now rewrite !app_nil_r|].
    rewrite nodes_list by auto. simpl. rewrite IH by (now rewrite marks_length).
    rewrite app_length, marks_app, <- !app_assoc. reflexivity. }
  now rewrite (A [] [] isset L).
Qed.

Definition region_dofs (b : boundary C V) : list (list nat) :=
  match configured b with Some c => map (flat_map (nd c)) (threads b) | None => [] end.
Definition region_info (b : boundary C V) : info :=
  match configured b with Some c => Info (bits c) (concat (region_dofs b)) (starts 0 (region_dofs b)) | None => Info 0 [] [] end.

Definition renamed (g : nat -> nat) (b : boundary C V) : info :=
  Info (filter (region_info b)) (map g (permutation (region_info b))) (offset (region_info b)).

Definition good_region (b : boundary C V) : Prop :=
  (forall c, configured b = Some c -> good c) /\ Forall (Forall (fun n => n < size)) (threads b).

Lemma regions_list bs : Forall good_region bs -> forall isset, length isset = dim * size ->
  regions_loop node_filter node bs isset = Ok (map region_info bs, marks isset (concat (flat_map region_dofs bs))).
Proof.
  intros F isset L. unfold regions_loop.
  match goal with |- foldM ?f _ _ = _ => set (step := f) end.
  assert (A : forall l isset, length isset = dim * size ->
    foldM step bs (l, isset) = Ok (l ++ map region_info bs, marks isset (concat (flat_map region_dofs bs)))).
  { clear isset L. induction F as [|b bs [G Fb] F IH]; intros l isset L; simpl; [now rewrite app_nil_r|].
    assert (E : step (l, isset) b = Ok (l ++ [region_info b], marks isset (concat (region_dofs b)))).
    { unfold step, region_info, region_dofs. destruct (configured b) as [c|] eqn:Ec; [|reflexivity].
      rewrite Hfilter by auto. simpl. rewrite threads_list by auto. reflexivity. }
    rewrite E. simpl. rewrite IH by (now rewrite marks_length). rewrite concat_app, marks_app, <- app_assoc. reflexivity. }
  apply (A [] isset L).
Qed.

Lemma region_dofs_In b n d : d < dim -> (In (n * dim + d) (concat (region_dofs b)) <-> prescribes sets b n d).
Proof.
  intros Ld. unfold region_dofs, prescribes. destruct (configured b) as [c|] eqn:Ec.
  - rewrite <- flat_map_concat_map, in_flat_map. split.
    + intros (ns & I & J). apply in_flat_map in J. destruct J as (n' & J & K). unfold node_dofs in K. apply in_map_iff in K.
      destruct K as (d' & E & K). apply filter_In in K. destruct K as [K S']. apply in_seq in K.
      assert (n' = n) as -> by (destruct (lt_eq_lt_dec n' n) as [[?|?]|?]; auto; nia). assert (d' = d) as -> by lia. exists c, ns. auto.
    + intros (c' & ns & E & S' & I & J). injection E as <-. exists ns. split; auto. apply in_flat_map. exists n. split; auto.
      unfold node_dofs. apply in_map_iff. exists d. split; auto. apply filter_In. split; auto. apply in_seq. lia.
  - simpl. split; [tauto|]. intros (c' & ns & E & _). discriminate.
Qed.

Lemma region_dofs_form b i : In i (concat (region_dofs b)) -> exists n d, d < dim /\ i = n * dim + d.
Proof.
  unfold region_dofs. destruct (configured b) as [c|] eqn:Ec; [|simpl; tauto].
  rewrite <- flat_map_concat_map, in_flat_map. intros (ns & I & J). apply in_flat_map in J. destruct J as (n & J & K).
  unfold node_dofs in K. apply in_map_iff in K. destruct K as (d & <- & K). apply filter_In in K. destruct K as [K _]. apply in_seq in K.
  exists n, d. split; [lia|auto].
Qed.

Lemma region_dofs_below b : good_region b -> Forall (fun i => i < dim * size) (concat (region_dofs b)).
Proof.
  intros [_ F]. unfold region_dofs. destruct (configured b) as [c|]; [|constructor]. apply Forall_forall. intros i I.
  rewrite <- flat_map_concat_map, in_flat_map in I. destruct I as (ns & I & J). apply in_flat_map in J. destruct J as (n & J & K).
  rewrite Forall_forall in F. specialize (F _ I). rewrite Forall_forall in F. specialize (F _ J).
  pose proof (node_dofs_below dim (sets c) n size F) as Q. rewrite Forall_forall in Q. auto.
Qed.

(** ** Setting the values *)
Section Set_.
Variable g : nat -> nat.
Definition writes (v : nat -> nat -> V) (ks : list nat) (out : list V) : list V :=
  fold_left (fun o i => upd o (g i) (v (i / dim) (i mod dim))) ks out.

Lemma writes_length v ks : forall out, length (writes v ks out) = length out.
Proof. induction ks; intros; simpl; auto. unfold writes in *. now rewrite IHks, upd_length. Qed.
Lemma writes_app v a b out : writes v (a ++ b) out = writes v b (writes v a out).
Proof. unfold writes. apply fold_left_app. Qed.

Lemma set_node_list c v n rest out : good c -> Forall (fun i => g i < length out) (nd c n) ->
  set_node dim (bits c) v (map g (nd c n) ++ rest, out) n = Ok (rest, writes v (nd c n) out).
Proof.
  intros G F. unfold set_node, node_dofs in *.
  assert (L : forall d, In d (seq 0 dim) -> d < dim) by (intros d I; apply in_seq in I; lia).
  revert L out F. generalize (seq 0 dim). induction l as [|d l IH]; intros L out F; simpl; auto.
  simpl in F. rewrite Hbits by (auto; apply L; now left).
  destruct (sets c d) eqn:E; simpl in *.
  - inversion F; subst. rewrite wr_ok by auto. simpl. rewrite IH.
    + assert (Ld : d < dim) by (apply L; now left).
      replace ((n * dim + d) / dim) with n by (rewrite Nat.add_comm, Nat.div_add, Nat.div_small by lia; lia).
      replace ((n * dim + d) mod dim) with d by (rewrite Nat.add_comm, Nat.mod_add, Nat.mod_small by lia; lia). reflexivity.
    + intros. apply L. now right.
    + eapply Forall_impl; [|eassumption]. intros. now rewrite upd_length.
  - apply IH; auto.
Qed.

Lemma set_nodes_list c v ns rest : good c -> forall out, Forall (fun i => g i < length out) (flat_map (nd c) ns) ->
  foldM (set_node dim (bits c) v) ns (map g (flat_map (nd c) ns) ++ rest, out) = Ok (rest, writes v (flat_map (nd c) ns) out).
Proof.
  intros G. induction ns as [|n ns IH]; intros out F; simpl; auto. simpl in F. apply Forall_app in F. destruct F as [F1 F2].
  rewrite map_app, <- app_assoc, set_node_list by auto. simpl. rewrite IH, writes_app; auto.
  eapply Forall_impl; [|eassumption]. intros. now rewrite writes_length.
Qed.

Lemma set_region_list b out : good_region b -> Forall (fun i => g i < length out) (concat (region_dofs b)) ->
  set_region dim out b (renamed g b) = Ok (writes (value b) (concat (region_dofs b)) out).
Proof.
  intros [G _] F. unfold set_region, renamed, region_info, region_dofs in *. destruct (configured b) as [c|] eqn:Ec; [|reflexivity].
  specialize (G _ eq_refl). cbn [filter permutation offset].
  set (D := flat_map (nd c)) in *.
  assert (A : forall post pre out, threads b = pre ++ post -> Forall (fun i => g i < length out) (concat (map D post)) ->
    foldM (fun vals (tns : nat * list nat) =>
      o <- rd (starts 0 (map D (threads b))) (fst tns) ;;
      r <- foldM (set_node dim (bits c) (value b)) (snd tns) (skipn o (map g (concat (map D (threads b)))), vals) ;;
      Ok (snd r)) (combine (seq (length pre) (length post)) post) out = Ok (writes (value b) (concat (map D post)) out)).
  { induction post as [|ns post IH]; intros pre o E Fo; simpl; auto.
    assert (R : rd (starts 0 (map D (threads b))) (length pre) = Ok (length (concat (map D pre)))).
    { unfold rd. rewrite E, map_app. simpl. rewrite <- (map_length D pre). rewrite starts_nth. reflexivity. }
    rewrite R. simpl. rewrite skipn_map. rewrite E at 1. rewrite map_app, skipn_concat. simpl. rewrite map_app.
    simpl in Fo. apply Forall_app in Fo. destruct Fo as [F1 F2].
    unfold D at 1. rewrite set_nodes_list by auto. simpl.
    replace (S (length pre)) with (length (pre ++ [ns])) by (rewrite app_length; simpl; lia).
    rewrite IH.
    - now rewrite writes_app.
    - rewrite E, <- app_assoc. reflexivity.
    - eapply Forall_impl; [|eassumption]. intros. now rewrite writes_length. }
  apply (A (threads b) []); auto.
Qed.

Variable ind : list nat.
Hypothesis ND : NoDup ind.

Lemma writes_spec v ks : Forall (fun i => nth_error ind (g i) = Some i) ks -> forall out k i, length out = length ind -> nth_error ind k = Some i ->
  (In i ks -> nth_error (writes v ks out) k = Some (v (i / dim) (i mod dim))) /\ (~ In i ks -> nth_error (writes v ks out) k = nth_error out k).
Proof.
  intros F. induction F as [|a ks Ea F IH]; intros out k i Lo Ek; [simpl; tauto|].
  cbn [writes fold_left]. fold (writes v ks (upd out (g a) (v (a / dim) (a mod dim)))).
  destruct (IH (upd out (g a) (v (a / dim) (a mod dim))) k i) as [I1 I2]; auto; [now rewrite upd_length|].
  destruct (Nat.eq_dec a i) as [->|Na].
  - assert (g i = k) as <-.
    { eapply (proj1 (NoDup_nth_error ind) ND). apply nth_error_Some. congruence. congruence. }
    split; [|simpl; tauto]. intros _. destruct (in_dec Nat.eq_dec i ks) as [H|H]; auto. rewrite I2 by auto.
    apply nth_error_upd_eq. rewrite Lo. apply nth_error_Some. congruence.
  - assert (g a <> k) by (intros <-; congruence). split.
    + intros [|]; [congruence|auto].
    + intros N. rewrite I2 by (intros X; apply N; now right). apply nth_error_upd_neq. auto.
Qed.
End Set_.

(** ** The pattern and the values *)
Theorem pattern_and_values bs : 0 < dim -> Forall good_region bs ->
  exists p, (s <- regions_loop node_filter node bs (repeat 0 (dim * size)) ;; build_pattern s) = Ok p /\
    exact_indices sets dim bs (indices p) /\
    forall vals, length vals = length (indices p) -> exists vals', set_values dim p bs vals = Ok vals' /\ exact_values sets dim bs (indices p) vals'.
Proof.
  intros Pd F. rewrite regions_list by (auto; apply repeat_length). simpl. unfold build_pattern. simpl.
  set (all := concat (flat_map region_dofs bs)). set (isset := marks (repeat 0 (dim * size)) all).
  assert (Li : length isset = dim * size) by (unfold isset; now rewrite marks_length, repeat_length).
  destruct (build_indices isset 0 0) as [ind new] eqn:E.
  destruct (build_indices_spec isset 0 0 ind new E) as (Ln & So & I & G).
  set (g i := nth i new 0).
  assert (Below : forall b, In b bs -> Forall (fun i => i < length new) (concat (region_dofs b))).
  { intros b Ib. rewrite Ln, Li. apply region_dofs_below. rewrite Forall_forall in F. auto. }
  assert (Sub : forall b i, In b bs -> In i (concat (region_dofs b)) -> In i all).
  { intros b i Ib Ii. unfold all. rewrite in_concat in *. destruct Ii as (l & Il & Ii). exists l. split; auto. apply in_flat_map. eauto. }
  assert (Marked : forall i, i < dim * size -> (nth i isset 0 <> 0 <-> In i all)).
  { intros i B. unfold isset. rewrite marks_spec by (now rewrite repeat_length). rewrite nth_repeat_lt by auto. tauto. }
  assert (Pos : forall b, In b bs -> Forall (fun i => nth_error ind (g i) = Some i) (concat (region_dofs b))).
  { intros b Ib. apply Forall_forall. intros i Ii. pose proof (Below b Ib) as B. rewrite Forall_forall in B. specialize (B _ Ii). rewrite Ln in B.
    destruct (G i B) as [_ Q]. { apply Marked; [lia|]. eauto. } rewrite Nat.sub_0_r in Q. exact Q. }
  assert (R : foldM (fun ds d => perm <- rename new (permutation d) ;; Ok (ds ++ [Info (filter d) perm (offset d)])) (map region_info bs) [] =
    Ok (map (fun b => renamed g b) bs)).
  { assert (A : forall l acc, (forall b, In b l -> In b bs) ->
      foldM (fun ds d => perm <- rename new (permutation d) ;; Ok (ds ++ [Info (filter d) perm (offset d)])) (map region_info l) acc =
      Ok (acc ++ map (fun b => renamed g b) l)).
    { induction l as [|b l IH]; intros acc Il; simpl; [now rewrite app_nil_r|]. rewrite rename_ok.
      - simpl. rewrite IH by (intros; apply Il; now right). rewrite <- app_assoc. reflexivity.
      - specialize (Below b (Il b (or_introl eq_refl))). unfold region_info. destruct (configured b); simpl; [exact Below|constructor]. }
    apply (A bs []). auto. }
  rewrite R. simpl. eexists. split; [reflexivity|]. cbn [indices]. split.
  - split; auto. intros x. rewrite I. rewrite Nat.sub_0_r, Li. split.
    + intros [B T]. apply Marked in T; [|lia]. unfold all in T. rewrite in_concat in T. destruct T as (l & Il & Ix).
      apply in_flat_map in Il. destruct Il as (b & Ib & Il). assert (Q : In x (concat (region_dofs b))) by (apply in_concat; eauto).
      destruct (region_dofs_form b x Q) as (n & d & Ld & ->). exists b, n, d. split; auto. split; auto. now apply region_dofs_In.
    + intros (b & n & d & Ib & P & Ld & ->). apply region_dofs_In in P; auto. pose proof (Below b Ib) as B. rewrite Forall_forall in B.
      specialize (B _ P). split; [lia|]. apply Marked; [lia|]. eauto.
  - intros vals Lv. unfold set_values. cbn [dirichlet].
    assert (Ec : combine bs (map (fun b => renamed g b) bs) =
      map (fun b => (b, renamed g b)) bs).
    { apply combine_map. }
    rewrite Ec.
    assert (A : forall l, (forall b, In b l -> In b bs) -> exists vals',
      foldM (fun vals (bd : boundary C V * info) => set_region dim vals (fst bd) (snd bd))
        (map (fun b => (b, renamed g b)) l) vals = Ok vals' /\
      length vals' = length ind /\
      forall k n d, nth_error ind k = Some (n * dim + d) -> d < dim -> 
        (exists v, nth_error vals' k = Some v /\ last_value sets l n d v) \/ (forall b, In b l -> ~ prescribes sets b n d)).
    { induction l as [|b l IH] using rev_ind; intros Il.
      - exists vals. split; [reflexivity|]. split; [exact Lv|]. intros. right. simpl. tauto.
      - destruct IH as (v1 & E1 & L1 & Q1); [intros; apply Il, in_or_app; auto|].
        assert (Ib : In b bs) by (apply Il, in_or_app; right; now left).
        rewrite map_app, foldM_app, E1. simpl. rewrite (set_region_list g b); auto.
        + simpl. eexists. split; [reflexivity|]. split; [now rewrite writes_length|]. intros k n d Ek Ld.
          destruct (writes_spec g ind (strong_nodup _ So) (value b) _ (Pos b Ib) v1 k _ L1 Ek) as [W1 W2].
          rewrite region_dofs_In in W1, W2 by auto.
          replace ((n * dim + d) / dim) with n in W1 by (rewrite Nat.add_comm, Nat.div_add, Nat.div_small by lia; lia).
          replace ((n * dim + d) mod dim) with d in W1 by (rewrite Nat.add_comm, Nat.mod_add, Nat.mod_small by lia; lia).
          destruct (in_dec Nat.eq_dec (n * dim + d) (concat (region_dofs b))) as [P|P]; rewrite region_dofs_In in P by auto.
          * left. exists (value b n d). split; [auto|]. exists l, b, []. simpl. auto.
          * rewrite W2 by auto. destruct (Q1 k n d Ek Ld) as [(v & Ev & before & b0 & after & -> & P0 & Pa & ->)|N].
            -- left. eexists. split; [eassumption|]. exists before, b0, (after ++ [b]). split; [rewrite <- app_assoc; reflexivity|].
               split; auto. split; auto. intros b' I'. apply in_app_iff in I'. destruct I' as [I'|[<-|[]]]; auto.
            -- right. intros b' I'. apply in_app_iff in I'. destruct I' as [I'|[<-|[]]]; auto.
        + rewrite Forall_forall in F. auto.
        + eapply Forall_impl; [|exact (Pos b Ib)]. simpl. intros i Ei. rewrite L1. apply nth_error_Some. congruence. }
    destruct (A bs (fun _ H => H)) as (v' & E' & L' & Q'). exists v'. split; [exact E'|]. split; auto.
    intros k n d Ek Ld. destruct (Q' k n d Ek Ld) as [H|N]; auto. exfalso.
    assert (X : In (n * dim + d) ind) by (eapply nth_error_In; eauto). apply I in X. rewrite Nat.sub_0_r, Li in X. destruct X as [B T].
    apply Marked in T; [|lia]. unfold all in T. rewrite in_concat in T. destruct T as (l & Il & Ix). apply in_flat_map in Il.
    destruct Il as (b & Ib & Il). apply (N b Ib). apply region_dofs_In; auto. apply in_concat. eauto.
Qed.
End Both.
