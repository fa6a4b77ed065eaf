(** * Sorting permutations and pruning: C48, C49, C76 *)
From Coq Require Import List Bool Arith Lia Permutation Sorted.
From Verif Require Import Base S_Order M_Csx S_Csx M_Prune S_Prune L_Utils L_Csx L_Csx2 L_Sort L_Various P_Csx P_Csx2 L_Prune.
Import ListNotations.
Local Open Scope out_scope.

(** ** C48 sorting permutation *)
Definition val_lt {T} (lt : T -> T -> bool) (x y : nat * T) : bool := lt (snd x) (snd y).

Lemma pairs_ok {T} (vec : list T) : foldM (pair_step vec) (seq 0 (length vec)) [] = Ok (combine (seq 0 (length vec)) vec).
Proof.
  destruct (foldM_seq_inv (pair_step vec) (fun k a => a = combine (seq 0 k) (firstn k vec)) 0 (length vec) []) as (a & E & Ea).
  - reflexivity.
  - intros i a Hi ->. unfold pair_step. destruct (nth_error vec i) as [x|] eqn:Ex; [|apply nth_error_None in Ex; lia].
    rewrite (rd_some _ _ _ Ex). cbn [obind]. eexists. split; [reflexivity|]. rewrite (firstn_S_error _ _ _ Ex), seq_S, Nat.add_0_l.
    assert (G : forall (la : list nat) (lb : list T) x y, length la = length lb -> combine (la ++ [x]) (lb ++ [y]) = combine la lb ++ [(x, y)]).
    { clear. induction la; intros [|b lb] x y H; simpl in *; try lia; auto. now rewrite IHla by lia. }
    rewrite G; auto. rewrite seq_length, firstn_length. lia.
  - rewrite E, Ea. rewrite Nat.add_0_l, (firstn_all2 vec) by lia. reflexivity.
Qed.

(** inverting a duplicate-free list of indices *)
Lemma scatter_positions v n a0 (f : list nat -> nat -> outcome (list nat)) :
  (forall a i, f a i = (k <- rd v i ;; wr a k i)) ->
  NoDup v -> (forall x, In x v -> x < n) -> length a0 = n ->
  exists a, foldM f (seq 0 (length v)) a0 = Ok a /\ length a = n /\ (forall i, i < length v -> nth (nth i v 0) a 0 = i).
Proof.
  intros Hf HN HR HL.
  destruct (foldM_seq_inv f (fun k a => length a = n /\ forall i, i < k -> nth (nth i v 0) a 0 = i) 0 (length v) a0) as (a & E & A1 & A2).
  - split; auto. intros; lia.
  - intros i a Hi (A1 & A2). rewrite Hf. rewrite (rd_ok _ _ 0) by lia. cbn [obind].
    assert (Hv : nth i v 0 < n) by (apply HR, nth_In; lia). rewrite wr_ok by lia. eexists. split; [reflexivity|]. rewrite upd_length. split; auto.
    intros j Hj. rewrite nth_upd by lia. destruct (Nat.eqb_spec (nth i v 0) (nth j v 0)) as [Eq|Ne].
    + apply (proj1 (NoDup_nth v 0)); auto; lia.
    + apply A2. destruct (Nat.eq_dec j i); subst; [congruence|lia].
  - exists a. auto.
Qed.

Lemma perm_inverse d s n : length d = n -> length s = n -> NoDup d -> (forall x, In x d -> x < n) ->
  (forall i, i < n -> nth (nth i d 0) s 0 = i) -> perm_ok (Perm d s) n.
Proof.
  intros HD HS ND HR HI. unfold perm_ok. cbn [dst_to_src src_to_dst]. split; auto. split; auto.
  assert (HP : Permutation d (seq 0 n)).
  { apply NoDup_Permutation_bis; auto. - rewrite seq_length. lia. - intros x Hx. apply in_seq. specialize (HR x Hx). lia. }
  intros i Hi. assert (Hin : In i d) by (apply (Permutation_in _ (Permutation_sym HP)), in_seq; lia).
  destruct (In_nth _ _ 0 Hin) as (j & Hj & Ej).
  split; [apply HR, nth_In; lia|]. rewrite <- Ej at 1. rewrite HI by lia. split; [lia|]. split; [apply HI; auto|].
  rewrite <- Ej at 1. rewrite HI by lia. auto.
Qed.

(** C48: for every vector and every std::sort, the permutation is a bijection with its inverse and lists the
    vector in non-decreasing order *)
Theorem sorting_permutation_sorts {T} (lt : T -> T -> bool) sort (vec : list T) (p : perm) (dflt : T) :
  strict_weak_order lt -> sort_contract (val_lt lt) sort ->
  length (dst_to_src p) = length vec -> length (src_to_dst p) = length vec ->
  exists q, sorting_permutation sort vec p = Ok q /\ perm_ok q (length vec) /\
    sorted lt (map (fun i => nth i vec dflt) (dst_to_src q)).
Proof.
  intros HO HC H1 H2. unfold sorting_permutation, psize. rewrite H1, Nat.eqb_refl. cbn [negb].
  rewrite pairs_ok. cbn [obind]. set (n := length vec) in *.
  destruct (HC (combine (seq 0 n) vec)) as (HP & HSo). set (iv := sort (combine (seq 0 n) vec)) in *.
  assert (Hlen : length iv = n) by (rewrite <- (Permutation_length HP), combine_length, seq_length; unfold n; lia).
  rewrite (fill_all _ (fun i => fst (nth i iv (0, dflt))) 0 n (dst_to_src p)); auto.
  2: { intros w i Hi Hw. unfold index_step. rewrite (rd_ok iv i (0, dflt)) by lia. reflexivity. }
  cbn [obind].
  assert (Ed : map (fun i => fst (nth i iv (0, dflt))) (seq 0 n) = map fst iv).
  { apply (nth_list_eq 0); [now rewrite !map_length, seq_length|]. intros i Hi. rewrite map_length, seq_length in Hi.
    rewrite nth_map_seq by auto. rewrite (nth_indep (map fst iv) 0 (fst (0, dflt))) by (rewrite map_length; lia). now rewrite map_nth. }
  rewrite Ed.
  assert (HPd : Permutation (seq 0 n) (map fst iv)).
  { rewrite <- (map_fst_combine (seq 0 n) vec) at 1 by (now rewrite seq_length). now apply Permutation_map. }
  assert (ND : NoDup (map fst iv)) by (apply (Permutation_NoDup HPd), seq_NoDup).
  assert (HR : forall x, In x (map fst iv) -> x < n).
  { intros x Hx. apply (Permutation_in _ (Permutation_sym HPd)), in_seq in Hx. lia. }
  destruct (scatter_positions (map fst iv) n (src_to_dst p) (invert_step (map fst iv))) as (s & Es & S1 & S2); auto.
  rewrite map_length, Hlen in Es. unfold invert. rewrite Es. cbn [obind]. eexists. split; [reflexivity|]. split.
  - apply perm_inverse; auto; [now rewrite map_length|]. intros i Hi. apply S2. rewrite map_length. lia.
  - cbn [dst_to_src]. rewrite map_map.
    replace (map (fun x => nth (fst x) vec dflt) iv) with (map snd iv).
    + clear -HSo. unfold sorted in *. induction iv as [|a l IH]; cbn [map]; constructor; inversion HSo; subst; auto.
      rewrite Forall_forall in *. intros b Hb. apply in_map_iff in Hb. destruct Hb as (x & <- & Hx). apply (H2 x Hx).
    + apply map_ext_in. intros [i x] Hx. apply (Permutation_in _ (Permutation_sym HP)) in Hx. cbn [fst snd].
      apply In_nth_error in Hx. destruct Hx as (k & Ek). rewrite nth_error_combine in Ek.
      destruct (nth_error (seq 0 n) k) eqn:E1; [|discriminate]. destruct (nth_error vec k) eqn:E2; [|discriminate]. inversion Ek; subst.
      assert (Hk : k < n) by (apply nth_error_Some; rewrite E2; discriminate).
      rewrite (nth_error_nth' _ 0) in E1 by (rewrite seq_length; auto). rewrite seq_nth in E1 by auto. inversion E1; subst.
      symmetry. apply nth_error_nth. auto.
Qed.

(** a permutation of another size is rejected *)
Theorem sorting_permutation_checks {T} sort (vec : list T) (p : perm) : length vec <> psize p -> sorting_permutation sort vec p = Fail.
Proof. intros H. unfold sorting_permutation. destruct (Nat.eqb_spec (length vec) (psize p)); [contradiction|reflexivity]. Qed.

Example sorting_permutation_example :
  strict_weak_order Nat.ltb /\ sort_contract (val_lt Nat.ltb) (isort (val_lt Nat.ltb)) /\
  sorting_permutation (isort (val_lt Nat.ltb)) [30; 10; 20; 10] (Perm [7;7;7;7] [9;9;9;9]) = Ok (Perm [1;3;2;0] [3;0;2;1]).
Proof.
  assert (S : strict_weak_order Nat.ltb) by apply (sto_swo _ _ nat_order).
  split; auto. split; [|vm_compute; reflexivity]. apply isort_contract. 
  split; unfold val_lt; [intros; apply (swo_asym _ S); auto| intros x y z; apply (swo_le_trans _ S)].
Qed.

(** ** C49 pruning subset *)
Definition given (v : option (list nat)) (n : nat) : Prop := match v with None => True | Some v => length v = n end.

Lemma perform_ok {T} (m : csx T) rs (rows cols : bool) vr vc st : rep m rs -> pruning_setup m rows cols = Ok st ->
  (rows = true -> vr <> None) -> (cols = true -> vc <> None) ->
  given vr (length (kept_rows m rows)) -> given vc (length (kept_cols m cols)) ->
  pruning_perform m rows cols st vr vc =
  Ok (match vr with None => None | Some _ => Some (kept_rows m rows) end, match vc with None => None | Some _ => Some (kept_cols m cols) end).
Proof.
  intros H ES HR HC GR GC. rewrite (setup_ok m rs rows cols H) in ES. inversion ES as [E]. clear ES E.
  unfold pruning_perform. cbn [pr_counts].
  assert (F1 : rows && unset vr = false) by (destruct rows, vr; auto; exfalso; apply HR; auto).
  assert (F2 : cols && unset vc = false) by (destruct cols, vc; auto; exfalso; apply HC; auto).
  rewrite F1, F2.
  assert (L1 : forall pr v, (pr = true -> v <> None) -> given v (length (if pr then used_p m else seq 0 (size_primary m))) ->
    list_into pr v (size_primary m) (list_used m) = Ok (match v with None => None | Some _ => Some (if pr then used_p m else seq 0 (size_primary m)) end)).
  { intros pr v Hn G. destruct v as [v|]; cbn [list_into].
    - destruct pr; simpl in G.
      + rewrite (list_used_ok m rs) by auto. reflexivity.
      + rewrite seq_length in G. rewrite identity_ok by auto. reflexivity.
    - destruct pr; auto. exfalso; apply Hn; auto. }
  assert (L2 : forall pr v, (pr = true -> v <> None) -> given v (length (if pr then used_s m else seq 0 (size_secdary m))) ->
    list_into pr v (size_secdary m) (list_positive (if pr then map (count_occ Nat.eq_dec (idxs m)) (seq 0 (size_secdary m)) else []))
      = Ok (match v with None => None | Some _ => Some (if pr then used_s m else seq 0 (size_secdary m)) end)).
  { intros pr v Hn G. destruct v as [v|]; cbn [list_into].
    - destruct pr; simpl in G.
      + rewrite (list_positive_ok m rs) by auto. reflexivity.
      + rewrite seq_length in G. rewrite identity_ok by auto. reflexivity.
    - destruct pr; auto. exfalso; apply Hn; auto. }
  rewrite prune_prim, prune_sec. rewrite used_p_rows in L1. rewrite used_s_cols in L2. unfold kept_rows, kept_cols, size_primary, size_secdary in *.
  destruct (ord m); rewrite L1, L2 by auto; reflexivity.
Qed.

(** C49: the reported sizes are the numbers of rows and columns that store an entry (all of them if the direction is
    not pruned), and the vectors list exactly these rows and columns, ascending *)
Theorem pruning_lists_used {T} (m : csx T) (rows cols : bool) vr vc : valid m ->
  (rows = true -> vr <> None) -> (cols = true -> vc <> None) ->
  given vr (length (kept_rows m rows)) -> given vc (length (kept_cols m cols)) ->
  exists st, pruning_setup m rows cols = Ok st /\
    pruned_nrows m st = length (kept_rows m rows) /\ pruned_ncols m st = length (kept_cols m cols) /\
    pruning_perform m rows cols st vr vc =
      Ok (match vr with None => None | Some _ => Some (kept_rows m rows) end,
          match vc with None => None | Some _ => Some (kept_cols m cols) end).
Proof.
  intros V HR HC GR GC. pose proof (valid_rep m V) as H. eexists. split; [apply (setup_ok m _ rows cols H)|].
  assert (Z : forall n, length (seq 0 n) = n) by (intros; apply seq_length).
  split; [|split].
  - unfold pruned_nrows, kept_rows. cbn [pr_primary pr_secdary]. rewrite prune_prim, prune_sec, used_p_rows, used_s_cols.
    unfold size_primary, size_secdary. destruct (ord m), rows; auto.
  - unfold pruned_ncols, kept_cols. cbn [pr_primary pr_secdary]. rewrite prune_prim, prune_sec, used_p_rows, used_s_cols.
    unfold size_primary, size_secdary. destruct (ord m), cols; auto.
  - apply (perform_ok m _ rows cols vr vc _ H); auto. apply (setup_ok m _ rows cols H).
Qed.

(** a pruned direction without its vector is rejected *)
Theorem pruning_checks {T} (m : csx T) (rows cols : bool) st vr vc :
  (rows = true /\ vr = None) \/ (cols = true /\ vc = None) -> pruning_perform m rows cols st vr vc = Fail.
Proof.
  unfold pruning_perform. intros [[-> ->]|[-> ->]]; cbn [andb unset]; auto. destruct (rows && unset vr); auto.
Qed.

(** matrix with empty rows 0, 2 and empty columns 1, 3 *)
Definition ex_p : csx nat := Csx 4 5 3 OrdR UploNone [0; 0; 2; 2; 3] [4; 0; 2] [11; 12; 13].
Lemma ex_p_valid : valid ex_p.
Proof.
  split; cbn; auto.
  - unfold allocated; cbn; auto.
  - intros p Hp. do 4 (destruct p as [|p]; [cbn; lia|]). lia.
  - intros c [<-|[<-|[<-|[]]]]; cbn; lia.
Qed.

Example pruning_example : valid ex_p /\ used_rows ex_p = [1; 3] /\ used_cols ex_p = [0; 2; 4] /\
  (st <- pruning_setup ex_p true true ;; r <- pruning_perform ex_p true true st (Some [9; 9]) (Some [8; 8; 8]) ;; Ok (pruned_nrows ex_p st, pruned_ncols ex_p st, r))
  = Ok (2, 3, (Some [1; 3], Some [0; 2; 4])).
Proof. split; [apply ex_p_valid|]. repeat split; vm_compute; reflexivity. Qed.

(** ** C76 pruned matrix *)
Lemma concat_nonempty {A} (f : list A -> bool) (l : list (list A)) : (forall x, In x l -> f x = false -> x = []) ->
  concat (filter f l) = concat l.
Proof.
  induction l as [|a l IH]; intros H; auto. cbn [filter concat]. destruct (f a) eqn:E; cbn [concat].
  - rewrite IH; auto. intros; apply H; auto; right; auto.
  - rewrite (H a (or_introl eq_refl) E). apply IH. intros; apply H; auto; right; auto.
Qed.

Lemma filter_firstn {A} (f : A -> bool) (l : list A) k : filter f (firstn k l) = firstn (length (filter f (firstn k l))) (filter f l).
Proof.
  revert k. induction l as [|a l IH]; intros [|k]; auto. cbn [firstn filter]. destruct (f a); cbn [length firstn].
  - f_equal. apply IH.
  - apply IH.
Qed.

Definition nonempty {A} (r : list A) : bool := 0 <? length r.

Lemma nonempty_nil {A} (x : list A) : nonempty x = false -> x = [].
Proof. unfold nonempty. destruct x; auto. discriminate. Qed.

Lemma filter_rows {A} (rs : list (list A)) k : k <= length rs ->
  map (fun p => nth p rs []) (filter (fun p => nonempty (nth p rs [])) (seq 0 k)) = filter nonempty (firstn k rs).
Proof.
  induction k as [|k IH]; intros Hk; auto.
  rewrite seq_S, filter_app, map_app, Nat.add_0_l, IH by lia.
  assert (E : nth_error rs k = Some (nth k rs [])) by (apply nth_error_nth'; lia).
  rewrite (firstn_S_error _ _ _ E), filter_app. f_equal. cbn [filter]. destruct (nonempty (nth k rs [])); reflexivity.
Qed.

(** start positions of the non-empty rows are the row offsets of the matrix without empty rows *)
Lemma pruned_offs {A} (rs : list (list A)) k : k <= length rs ->
  map (offs rs) (filter (fun p => nonempty (nth p rs [])) (seq 0 k)) =
  map (offs (filter nonempty rs)) (seq 0 (length (filter nonempty (firstn k rs)))).
Proof.
  induction k as [|k IH]; intros Hk; auto.
  rewrite seq_S, filter_app, map_app, Nat.add_0_l, IH by lia.
  assert (E : nth_error rs k = Some (nth k rs [])) by (apply nth_error_nth'; lia).
  rewrite (firstn_S_error _ _ _ E), filter_app, app_length. cbn [filter]. destruct (nonempty (nth k rs [])); cbn [length map].
  - rewrite Nat.add_1_r, seq_S, map_app. f_equal. cbn [map]. f_equal. rewrite Nat.add_0_l. unfold offs.
    rewrite <- filter_firstn. rewrite concat_nonempty; auto. intros. apply nonempty_nil; auto.
  - rewrite Nat.add_0_r, app_nil_r. reflexivity.
Qed.

Lemma used_p_ne {T} (m : csx T) rs : rep m rs -> used_p m = filter (fun p => nonempty (nth p rs [])) (seq 0 (length rs)).
Proof. intros H. rewrite (used_p_len m rs H), (r_len _ _ H). reflexivity. Qed.

Lemma prune_ptrs_ok {T} (m : csx T) rs v : rep m rs -> length v = length (used_p m) + 1 ->
  (q <- foldM (prune_ptr m) (seq 0 (size_primary m)) (v, 0) ;; wr (fst q) (snd q) (nnz m)) =
  Ok (map (offs (filter nonempty rs)) (seq 0 (S (length (filter nonempty rs))))).
Proof.
  intros H HL. pose proof (used_p_ne m rs H) as EU.
  rewrite (append_loop _ (fun p => nonempty (nth p rs [])) (offs rs)).
  - cbn [obind fst snd]. rewrite <- (r_len _ _ H). rewrite <- EU.
    assert (EL : length (used_p m) = length (filter nonempty rs)).
    { rewrite EU. rewrite <- (map_length (fun p => nth p rs [])). rewrite filter_rows, firstn_all; auto. }
    rewrite wr_ok by (rewrite app_length, map_length, skipn_length; lia). f_equal.
    rewrite EU at 1. rewrite pruned_offs, firstn_all by auto. rewrite seq_S, map_app, Nat.add_0_l.
    rewrite EL in *.
    assert (Hs : exists x, skipn (length (filter nonempty rs)) v = [x]).
    { assert (HX : length (skipn (length (filter nonempty rs)) v) = 1) by (rewrite skipn_length; lia).
      destruct (skipn (length (filter nonempty rs)) v) as [|x [|y l]]; simpl in HX; try lia. exists x; auto. }
    destruct Hs as (x & ->).
    assert (U : forall (a b : list nat) x y n, n = length a -> upd (a ++ x :: b) n y = a ++ y :: b).
    { clear. intros a b x y n ->. induction a as [|z a IH]; simpl; auto. now rewrite IH. }
    rewrite U by (rewrite map_length, seq_length; auto). cbn [map]. do 2 f_equal.
    rewrite offs_all, (r_nnz _ _ H) by auto. rewrite concat_nonempty; auto. intros. apply nonempty_nil; auto.
  - intros s p Hp. apply in_seq in Hp. destruct (rd_len m rs p H) as (R1 & R2); [lia|]. unfold prune_ptr. rewrite R1, R2. cbn [obind].
    unfold nonempty. destruct (Nat.eqb_spec (offs rs p) (offs rs p + length (nth p rs []))), (Nat.ltb_spec 0 (length (nth p rs []))); try lia; reflexivity.
  - rewrite <- (r_len _ _ H), <- EU. lia.
Qed.

Lemma filter_strict_seq (f : nat -> bool) b n : strictly_sorted Nat.ltb (filter f (seq b n)).
Proof. apply filter_strict, seq_strict. Qed.

Lemma strict_nth l : strictly_sorted Nat.ltb l -> forall i j, i < j -> j < length l -> nth i l 0 < nth j l 0.
Proof.
  induction l as [|a l IH]; intros H i j Hij Hj; simpl in Hj; [lia|]. inversion H; subst. destruct j as [|j]; [lia|].
  destruct i as [|i]; cbn [nth].
  - rewrite Forall_forall in H3. apply Nat.ltb_lt. apply H3. apply nth_In. lia.
  - apply IH; auto; lia.
Qed.

Lemma strict_NoDup l : strictly_sorted Nat.ltb l -> NoDup l.
Proof.
  intros H. apply (NoDup_nth l 0). intros i j Hi Hj E. destruct (Nat.lt_trichotomy i j) as [C|[C|C]]; auto.
  - pose proof (strict_nth l H i j C Hj). lia.
  - pose proof (strict_nth l H j i C Hi). lia.
Qed.

(** the new numbering of the secondary dimension, read through the list of used indices *)
Lemma prune_inverse_ok {T} (m : csx T) rs fill : rep m rs ->
  exists inv, prune_inverse (used_s m) (size_secdary m) fill = Ok inv /\ length inv = size_secdary m /\
    (forall c, In c (idxs m) -> nth c inv 0 < length (used_s m) /\ nth (nth c inv 0) (used_s m) 0 = c).
Proof.
  intros H.
  destruct (scatter_positions (used_s m) (size_secdary m) (repeat fill (size_secdary m)) (fun a i => k <- rd (used_s m) i ;; wr a k i))
    as (inv & E & I1 & I2); auto.
  - apply strict_NoDup. apply filter_strict_seq.
  - intros x Hx. apply filter_In in Hx. destruct Hx as (Hx & _). apply in_seq in Hx. lia.
  - apply repeat_length.
  - exists inv. split; auto. split; auto. intros c Hc.
    assert (Hu : In c (used_s m)).
    { apply filter_In. split.
      - apply in_seq. apply (idxs_in m rs c H) in Hc. destruct Hc as (p & v & Hp & Hx).
        pose proof (r_range _ _ H (nth p rs []) (c, v)). cbn [fst] in H0. pose proof (nth_In rs [] Hp). specialize (H0 H1 Hx). lia.
      - rewrite (used_sec m rs c H). apply Nat.ltb_lt. now apply (count_occ_In Nat.eq_dec). }
    destruct (In_nth _ _ 0 Hu) as (i & Hi & Ei). rewrite <- Ei. rewrite I2 by auto. auto.
Qed.

Definition rename {T} (g : nat -> nat) (x : nat * T) : nat * T := (g (fst x), snd x).

Lemma prune_idx_ok (ix inv v : list nat) : length v = length ix -> (forall c, In c ix -> c < length inv) ->
  foldM (prune_idx ix inv) (seq 0 (length ix)) v = Ok (map (fun c => nth c inv 0) ix).
Proof.
  intros HL HR. rewrite (fill_all _ (fun i => nth (nth i ix 0) inv 0) 0) by
    (auto; intros w i Hi Hw; unfold prune_idx; rewrite (rd_ok ix i 0) by auto; cbn [obind];
     rewrite (rd_ok inv _ 0) by (apply HR, nth_In; auto); reflexivity).
  f_equal. apply (nth_list_eq 0); [now rewrite !map_length, seq_length|]. intros i Hi. rewrite map_length, seq_length in Hi.
  rewrite nth_map_seq by auto. rewrite (nth_indep (map (fun c => nth c inv 0) ix) 0 (nth 0 inv 0)) by (rewrite map_length; auto).
  now rewrite (map_nth (fun c => nth c inv 0)).
Qed.

Lemma flat_map_filter {A B} (f : A -> list B) (g : A -> bool) l : (forall a, In a l -> g a = false -> f a = []) ->
  flat_map f (filter g l) = flat_map f l.
Proof.
  induction l as [|a l IH]; intros H; auto. cbn [filter flat_map]. destruct (g a) eqn:E; cbn [flat_map].
  - rewrite IH; auto. intros; apply H; auto; right; auto.
  - rewrite (H a (or_introl eq_refl) E). apply IH. intros; apply H; auto; right; auto.
Qed.

(** C76: pruning removes exactly the rows and columns without entries: the stored entries are those of the source, in the
    same storage order, numbered by the lists of kept rows and columns, which are also handed out *)
Theorem prune_keeps_entries {T} (src dst : csx T) (rows cols : bool) fill vr vc :
  valid src -> allocated dst -> ord dst = ord src -> nnz dst = nnz src ->
  nrows dst = length (kept_rows src rows) -> ncols dst = length (kept_cols src cols) ->
  (rows = true -> exists v, vr = Some v /\ length v = length (used_rows src)) ->
  (cols = true -> exists v, vc = Some v /\ length v = length (used_cols src)) ->
  exists d, prune_csx src dst rows cols fill vr vc =
      Ok (d, if rows then Some (used_rows src) else None, if cols then Some (used_cols src) else None) /\
    valid d /\ nrows d = nrows dst /\ ncols d = ncols dst /\ ord d = ord src /\
    map (original (kept_rows src rows) (kept_cols src cols)) (entries d) = entries src /\
    (ascending src -> ascending d).
Proof.
  intros V (A1 & A2 & A3) HO HN HR HC VR VC. pose proof (valid_rep src V) as H. set (rs := map (line src) (seq 0 (size_primary src))) in *.
  destruct (pruning_lists_used src rows cols (if rows then vr else None) (if cols then vc else None) V) as (st & ES & P1 & P2 & EP).
  { intros ->. destruct (VR eq_refl) as (v & -> & _). discriminate. }
  { intros ->. destruct (VC eq_refl) as (v & -> & _). discriminate. }
  { destruct rows; cbn [given]; auto. destruct (VR eq_refl) as (v & -> & L). exact L. }
  { destruct cols; cbn [given]; auto. destruct (VC eq_refl) as (v & -> & L). exact L. }
  unfold prune_csx. rewrite ES. cbn [obind].
  assert (F1 : rows && unset vr = false) by (destruct rows; auto; destruct (VR eq_refl) as (v & -> & _); auto).
  assert (F2 : cols && unset vc = false) by (destruct cols; auto; destruct (VC eq_refl) as (v & -> & _); auto).
  assert (F3 : rows && negb (length (match vr with Some v => v | None => [] end) =? pruned_nrows src st) = false).
  { destruct rows; auto. destruct (VR eq_refl) as (v & -> & L). rewrite P1, L. cbn [kept_rows andb]. now rewrite Nat.eqb_refl. }
  assert (F4 : cols && negb (length (match vc with Some v => v | None => [] end) =? pruned_ncols src st) = false).
  { destruct cols; auto. destruct (VC eq_refl) as (v & -> & L). rewrite P2, L. cbn [kept_cols andb]. now rewrite Nat.eqb_refl. }
  rewrite F1, F2, F3, F4, EP. cbn [obind].
  assert (EO : (match (if rows then vr else None) with None => None | Some _ => Some (kept_rows src rows) end,
                match (if cols then vc else None) with None => None | Some _ => Some (kept_cols src cols) end) =
               (if rows then Some (used_rows src) else None, if cols then Some (used_cols src) else None)).
  { f_equal; [destruct rows|destruct cols]; auto; [destruct (VR eq_refl) as (v & -> & _)|destruct (VC eq_refl) as (v & -> & _)]; reflexivity. }
  rewrite EO. clear EP EO F1 F2 F3 F4. cbn [fst snd].
  set (pp := prune_primary src rows cols). set (ps := prune_secdary src rows cols).
  set (U := if pp then used_p src else seq 0 (size_primary src)).
  set (W := if ps then used_s src else seq 0 (size_secdary src)).
  (* the inverse numbering *)
  assert (HI : exists inv g, (if ps then match (match ord src with OrdR => if cols then Some (used_cols src) else None | OrdC => if rows then Some (used_rows src) else None end) with Some v => prune_inverse v (size_secdary src) fill | None => UB end else Ok []) = Ok inv
      /\ (forall v, length v = nnz src -> (if ps then foldM (prune_idx (idxs src) inv) (seq 0 (nnz src)) v else copy_n (idxs src) (nnz src) v) = Ok (map g (idxs src)))
      /\ (forall c, In c (idxs src) -> g c < length W /\ nth (g c) W 0 = c)).
  { assert (HX : length (idxs src) = nnz src) by (rewrite (r_idxs _ _ H), map_length; symmetry; apply (r_nnz _ _ H)).
    unfold W. destruct ps eqn:Eps.
    - destruct (prune_inverse_ok src rs fill H) as (inv & EI & I1 & I2). exists inv, (fun c => nth c inv 0). split; [|split]; auto.
      + unfold ps in Eps. rewrite prune_sec in Eps. rewrite used_s_cols in EI. destruct (ord src); rewrite Eps; exact EI.
      + intros v Hv. rewrite <- HX. apply prune_idx_ok; [lia|]. intros c Hc. rewrite I1. apply (v_range _ V). auto.
    - exists [], (fun c => c). split; auto. split.
      + intros v Hv. rewrite map_id. apply copy_n_ok; auto.
      + intros c Hc. rewrite seq_length. pose proof (v_range _ V c Hc). split; auto. now rewrite seq_nth. }
  destruct HI as (inv & g & EI & EX & Hg).
  replace (match ord src with OrdR => if cols then Some (used_cols src) else None | OrdC => if rows then Some (used_rows src) else None end)
    with (match ord src with OrdR => snd (if rows then Some (used_rows src) else None, if cols then Some (used_cols src) else None)
                       | OrdC => fst (if rows then Some (used_rows src) else None, if cols then Some (used_cols src) else None) end) in EI
    by (destruct (ord src); reflexivity).
  cbn [fst snd] in EI. rewrite EI. cbn [obind].
  (* sizes *)
  assert (SP : size_primary dst = length U).
  { unfold U, pp. rewrite prune_prim, used_p_rows. unfold size_primary. rewrite HO, HR, HC. unfold kept_rows, kept_cols.
    destruct (ord src), rows, cols; rewrite ?seq_length; reflexivity. }
  assert (SS : size_secdary dst = length W).
  { unfold W, ps. rewrite prune_sec, used_s_cols. unfold size_secdary. rewrite HO, HR, HC. unfold kept_rows, kept_cols.
    destruct (ord src), rows, cols; rewrite ?seq_length; reflexivity. }
  set (rs1 := map (fun q => nth q rs []) U).
  assert (EU : rs1 = if pp then filter nonempty rs else rs).
  { unfold rs1, U. destruct pp.
    - rewrite (used_p_ne src rs H), filter_rows by auto. now rewrite firstn_all.
    - rewrite <- (r_len _ _ H). apply (nth_list_eq []); [now rewrite map_length, seq_length|].
      intros i Hi. rewrite map_length, seq_length in Hi. now rewrite nth_map_seq. }
  assert (CC : concat rs1 = concat rs).
  { rewrite EU. destruct pp; auto. apply concat_nonempty. intros; apply nonempty_nil; auto. }
  assert (L1 : length rs1 = length U) by (unfold rs1; now rewrite map_length).
  assert (EPt : (if pp then q <- foldM (prune_ptr src) (seq 0 (size_primary src)) (ptrs dst, 0) ;; wr (fst q) (snd q) (nnz src)
                 else copy_n (ptrs src) (size_primary src + 1) (ptrs dst)) = Ok (map (offs rs1) (seq 0 (S (length rs1))))).
  { destruct pp eqn:Epp.
    - rewrite EU. apply prune_ptrs_ok; auto. rewrite A1, SP. reflexivity.
    - rewrite EU. rewrite <- (r_ptrs _ _ H). apply copy_n_ok.
      + apply (v_alloc _ V).
      + rewrite A1, SP. unfold U. now rewrite seq_length. }
  assert (EPr : prune_sparse src dst rows cols st inv =
     Ok (with_data dst (map (offs rs1) (seq 0 (S (length rs1)))) (map g (idxs src)) (vals src))).
  { unfold prune_sparse. assert (EO : order_eqb (ord src) (ord dst) = true) by (rewrite HO; destruct (ord src); auto). rewrite EO. cbn [negb].
    rewrite <- HR in P1. rewrite <- HC in P2. rewrite P1, P2, HN, !Nat.eqb_refl. cbn [andb negb].
    fold pp ps. rewrite EPt. cbn [obind]. rewrite EX by lia. cbn [obind]. rewrite copy_n_ok; [reflexivity|apply (v_alloc _ V)|lia]. }
  rewrite EPr. cbn [obind]. eexists. split; [reflexivity|].
  set (d := with_data dst (map (offs rs1) (seq 0 (S (length rs1)))) (map g (idxs src)) (vals src)).
  set (rs2 := map (map (rename g)) rs1).
  assert (HD : rep d rs2).
  { assert (C2 : concat rs2 = map (rename g) (concat rs)) by (unfold rs2; rewrite <- concat_map, CC; reflexivity).
    split.
    - unfold rs2. rewrite map_length, L1. unfold d, size_primary, with_data in *. cbn [ord nrows ncols]. auto.
    - unfold d, with_data. cbn [ptrs]. unfold rs2. rewrite map_length. apply map_ext. intros k. symmetry. apply offs_map.
    - unfold d, with_data. cbn [idxs]. rewrite C2, (r_idxs _ _ H), !map_map. reflexivity.
    - unfold d, with_data. cbn [vals]. rewrite C2, (r_vals _ _ H), !map_map. reflexivity.
    - unfold d, with_data. cbn [nnz]. rewrite C2, map_length, HN. apply (r_nnz _ _ H).
    - intros r x Hr Hx. unfold d, size_secdary, with_data in *. cbn [ord nrows ncols]. rewrite SS.
      assert (Hc : In x (concat rs2)) by (apply in_concat; exists r; auto). rewrite C2 in Hc. apply in_map_iff in Hc.
      destruct Hc as (y & <- & Hy). cbn [rename fst]. apply Hg. rewrite (r_idxs _ _ H). apply in_map; auto. }
  split; [apply (rep_valid d rs2 HD)|]. split; [reflexivity|]. split; [reflexivity|]. split; [exact HO|]. split.
  - rewrite (rep_entries _ _ HD), (rep_entries _ _ H). unfold rs2. rewrite map_length, L1. change (ord d) with (ord dst). rewrite HO.
    assert (KU : forall p x, In x (concat rs) -> original (kept_rows src rows) (kept_cols src cols) (coords (ord src) p (rename g x)) = coords (ord src) (nth p U 0) x).
    { intros p x Hx. assert (Hc : In (fst x) (idxs src)) by (rewrite (r_idxs _ _ H); apply in_map; auto). destruct (Hg _ Hc) as (_ & G).
      unfold original, U, W, pp, ps, kept_rows, kept_cols, e_row, e_col, e_val, rename, coords in *. rewrite prune_prim, used_p_rows.
      rewrite prune_sec, used_s_cols in G. unfold size_primary. unfold size_secdary in G.
      destruct (ord src); cbn [fst snd]; rewrite G; reflexivity. }
    rewrite !flat_map_concat_map, concat_map, map_map, <- !flat_map_concat_map.
    transitivity (flat_map (fun p => map (coords (ord src) (nth p U 0)) (nth p rs1 [])) (seq 0 (length U))).
    { rewrite !flat_map_concat_map. f_equal. apply map_ext_in. intros p Hp. apply in_seq in Hp.
      rewrite (nth_indep _ [] (map (rename g) [])) by (rewrite map_length; lia). rewrite map_nth, !map_map. apply map_ext_in.
      intros x Hx. apply KU. rewrite <- CC. apply in_concat. exists (nth p rs1 []). split; auto. apply nth_In. lia. }
    transitivity (flat_map (fun q => map (coords (ord src) q) (nth q rs [])) U).
    { transitivity (flat_map (fun q => map (coords (ord src) q) (nth q rs [])) (map (fun p => nth p U 0) (seq 0 (length U)))).
      - rewrite !flat_map_concat_map, map_map. f_equal. apply map_ext_in. intros p Hp. apply in_seq in Hp. f_equal.
        unfold rs1. rewrite (nth_indep _ [] ((fun q => nth q rs []) 0)) by (rewrite map_length; lia). now rewrite (map_nth (fun q => nth q rs [])).
      - f_equal. apply (nth_list_eq 0); [now rewrite map_length, seq_length|]. intros i Hi. rewrite map_length, seq_length in Hi. now rewrite nth_map_seq. }
    unfold U. destruct pp; [|now rewrite (r_len _ _ H)].
    rewrite (used_p_ne src rs H). apply flat_map_filter. intros q Hq E. apply nonempty_nil in E. now rewrite E.
  - intros HA p Hp. assert (Hp2 : p < length rs2) by (rewrite (r_len _ _ HD); auto).
    assert (Hp1 : p < length rs1) by (unfold rs2 in Hp2; now rewrite map_length in Hp2).
    rewrite (rep_line d rs2 p (nth p rs2 [])) by (auto; apply nth_error_nth'; auto).
    assert (E2 : nth p rs2 [] = map (rename g) (nth p rs1 [])).
    { unfold rs2. rewrite (nth_indep _ [] (map (rename g) [])) by (rewrite map_length; auto). apply map_nth. }
    rewrite E2, map_map. cbn [rename fst].
    assert (Hs : exists q, q < length rs /\ nth p rs1 [] = nth q rs []).
    { assert (Hin : In (nth p rs1 []) rs).
      { pose proof (nth_In rs1 [] Hp1) as G. rewrite EU in G at 2. destruct pp; auto. apply filter_In in G. tauto. }
      destruct (In_nth _ _ [] Hin) as (q & Hq & E). exists q. auto. }
    destruct Hs as (q & Hq & ->).
    pose proof (HA q) as HS. rewrite (r_len _ _ H) in Hq. specialize (HS Hq).
    rewrite (rep_line src rs q (nth q rs [])) in HS by (auto; apply (rep_nth src rs); auto).
    assert (GM : forall a b, In a (idxs src) -> In b (idxs src) -> a <= b -> g a <= g b).
    { intros a b Ha Hb Hab. destruct (Hg a Ha) as (Ga1 & Ga2). destruct (Hg b Hb) as (Gb1 & Gb2).
      destruct (le_lt_dec (g a) (g b)); auto. exfalso.
      assert (SW : strictly_sorted Nat.ltb W) by (unfold W; destruct ps; [apply filter_strict_seq|apply seq_strict]).
      pose proof (strict_nth W SW (g b) (g a) l Ga1). lia. }
    assert (HIn : forall x, In x (nth q rs []) -> In (fst x) (idxs src)).
    { intros x Hx. rewrite (r_idxs _ _ H). apply in_map. apply in_concat. exists (nth q rs []). split; auto. apply nth_In. rewrite (r_len _ _ H). auto. }
    clear -HS GM HIn. unfold sorted in *. revert HS HIn. generalize (nth q rs []) as l. induction l as [|a l IH]; intros HS HIn; cbn [map] in *; constructor; inversion HS; subst.
    + apply IH; auto. intros; apply HIn; right; auto.
    + rewrite Forall_forall in *. intros b Hb. apply in_map_iff in Hb. destruct Hb as (x & <- & Hx).
      assert (Hle : fst a <= fst x).
      { assert (G : In (fst x) (map fst l)) by (apply in_map; auto). specialize (H2 _ G). unfold le_of in H2. apply Nat.ltb_ge in H2. auto. }
      unfold le_of. apply Nat.ltb_ge. apply GM; auto; apply HIn; [left|right]; auto.
Qed.

Example prune_example : valid ex_p /\
  prune_csx ex_p (Csx 2 3 3 OrdR UploNone [9;9;9] [9;9;9] [0;0;0]) true true 77 (Some [5;5]) (Some [5;5;5]) =
  Ok (Csx 2 3 3 OrdR UploNone [0; 2; 3] [2; 0; 1] [11; 12; 13], Some [1; 3], Some [0; 2; 4]).
Proof. split; [apply ex_p_valid|]. vm_compute. reflexivity. Qed.

Print Assumptions sorting_permutation_sorts.
Print Assumptions sorting_permutation_checks.
Print Assumptions pruning_lists_used.
Print Assumptions pruning_checks.
Print Assumptions prune_keeps_entries.
